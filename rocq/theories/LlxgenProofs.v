(** Proofs about the flags and names of the utility llxgen. *)
From Coq Require Import String ZArith List Bool Lia.
From Verif Require Import Base BaseProofs Grammar Gen Llxgen LlxgenSpec.
Import ListNotations.
Local Open Scope list_scope.
Open Scope Z_scope.

(** ** Flags *)
Definition setItem (o : options) (i : item) : options :=
  match i with
  | IJson => setJson o true
  | IOut v => mkOptions (oJson o) v (oPkg o) (oVar o)
  | IPkg v => mkOptions (oJson o) (oOut o) v (oVar o)
  | IVar v => mkOptions (oJson o) (oOut o) (oPkg o) v
  end.
Lemma item_flags i w : spelled i w -> forall o args, parseFlags o (w ++ args) = parseFlags (setItem o i) args.
Proof.
  intros S o args. destruct S as [d D|d i v D I|d i v D I].
  - destruct D; reflexivity.
  - destruct D; destruct I as [-> |[-> | ->]]; reflexivity.
  - destruct D; destruct I as [-> |[-> | ->]]; reflexivity.
Qed.
Lemma file_flags o f more : (forall r, f <> bytes "-" ++ r) -> f <> [] -> parseFlags o (f :: more) = Parsed o (f :: more).
Proof.
  intros D N. cbn [parseFlags]. assert (K : argKindOf f = Plain); [|rewrite K; reflexivity]. unfold argKindOf. destruct f as [|b r]; [congruence|]. destruct (Z.eq_dec b 45) as [->|B]; [exfalso; apply (D r); reflexivity|].
  destruct b as [|p|p]; try reflexivity. repeat (destruct p as [p|p|]; try reflexivity). congruence.
Qed.
Lemma call_flags args items f : call args items f -> f <> [] /\ forall o, exists more, parseFlags o args = Parsed (fold_left setItem items o) (f :: more).
Proof.
  induction 1 as [f more D N|f more N|i w args is f S C IH].
  - split; [exact N|]. intros o. exists more. apply file_flags; assumption.
  - split; [exact N|]. intros o. exists more. reflexivity.
  - destruct IH as (N & IH). split; [exact N|]. intros o. destruct (IH (setItem o i)) as (more & E). exists more. rewrite (item_flags i w S). exact E.
Qed.
Lemma cut_name n w : ~ In 61 n -> (w = [] \/ exists v, w = bytes "=" ++ v) -> exists x, cutValue (n ++ w) = (n, x).
Proof.
  intros N W. induction n as [|b n IH]; cbn [app cutValue].
  - destruct W as [->|(v & ->)]; eexists; reflexivity.
  - destruct (Z.eqb_spec b 61) as [->|NE]; [exfalso; apply N; left; reflexivity|]. destruct IH as (x & ->); [intros H; apply N; right; exact H|]. eauto.
Qed.
Lemma kind_flag d b n : dashes d -> b <> 45 -> b <> 61 -> argKindOf (d ++ b :: n) = Flag (b :: n).
Proof.
  intros D N45 N61. apply Z.eqb_neq in N45, N61.
  destruct D.
  - change (bytes "-" ++ b :: n) with (45 :: b :: n). unfold argKindOf. rewrite N45. cbn [andb]. rewrite N45, N61. reflexivity.
  - change (bytes "--" ++ b :: n) with (45 :: 45 :: b :: n). unfold argKindOf. change (45 =? 45) with true. cbn [andb]. rewrite N45, N61. reflexivity.
Qed.
Lemma wrong_flags args : wrongCall args -> forall o, match parseFlags o args with Wrong => True | Parsed _ [] => True | Parsed _ ([] :: _) => True | _ => False end.
Proof.
  induction 1 as [|more|r more|d r more D|d b n w more D NB NE W NI|d i v D I|i w args S C IH]; intros o.
  - exact Logic.I.
  - exact Logic.I.
  - exact Logic.I.
  - destruct D; exact Logic.I.
  - cbn [parseFlags]. assert (N61 : b <> 61) by (intros ->; apply NE; left; reflexivity). cbn [app]. rewrite (kind_flag d b (n ++ w) D NB N61). destruct (cut_name (b :: n) w NE W) as (x & E). cbn [app] in E. rewrite E.
    assert (T : textFlag (b :: n) = None /\ (b :: n) <> [106]).
    { split; [|intros E'; apply NI; left; symmetry; exact E']. unfold textFlag. destruct b as [|p|p]; try reflexivity. destruct n as [|y n]; [|repeat (destruct p as [p|p|]; try reflexivity)].
      repeat (destruct p as [p|p|]; try reflexivity); exfalso; apply NI; cbn; auto 8. }
    destruct T as [T J]. assert (H : (if list_eq_dec Z.eq_dec (b :: n) (bytes "help") then true else false) || (if list_eq_dec Z.eq_dec (b :: n) (bytes "h") then true else false) = false).
    { destruct (list_eq_dec Z.eq_dec (b :: n) (bytes "help")) as [E'|_]; [exfalso; apply NI; rewrite E'; cbn; auto 8|]. destruct (list_eq_dec Z.eq_dec (b :: n) (bytes "h")) as [E'|_]; [exfalso; apply NI; rewrite E'; cbn; auto 8|]. reflexivity. }
    rewrite T, H. destruct b as [|p|p]; try exact Logic.I. destruct n as [|y n]; repeat (destruct p as [p|p|]; try exact Logic.I); exfalso; apply J; reflexivity.
  - destruct I as [->|[->| ->]], D; exact Logic.I.
  - rewrite (item_flags i w S). apply IH.
Qed.
Lemma fold_snoc items i o : fold_left setItem (items ++ [i]) o = setItem (fold_left setItem items o) i.
Proof. rewrite fold_left_app. reflexivity. Qed.
Lemma json_flag items : oJson (fold_left setItem items noOptions) = true <-> In IJson items.
Proof.
  induction items as [|i items IH] using rev_ind; [split; [discriminate|intros []]|]. rewrite fold_snoc, in_app_iff. destruct i; cbn [setItem setJson oJson].
  - split; [intros _; right; left; reflexivity|reflexivity].
  - rewrite IH. split; [auto|]. intros [H|[H|[]]]; [exact H|discriminate].
  - rewrite IH. split; [auto|]. intros [H|[H|[]]]; [exact H|discriminate].
  - rewrite IH. split; [auto|]. intros [H|[H|[]]]; [exact H|discriminate].
Qed.
Section Text.
Variable mk : list Z -> item.
Variable get : options -> list Z.
Hypothesis set_mk : forall o v, get (setItem o (mk v)) = v.
Hypothesis set_other : forall o i, (forall v, i <> mk v) -> get (setItem o i) = get o.
Hypothesis mk_dec : forall i, (exists v, i = mk v) \/ (forall v, i <> mk v).
Hypothesis mk_inj : forall v w, mk v = mk w -> v = w.
Hypothesis get_none : get noOptions = [].
Lemma text_flag items : given mk items (get (fold_left setItem items noOptions)) \/ ((forall v, ~ In (mk v) items) /\ get (fold_left setItem items noOptions) = []).
Proof.
  induction items as [|i items IH] using rev_ind; [right; split; [intros v []|exact get_none]|]. rewrite fold_snoc. destruct (mk_dec i) as [(v & ->)|N].
  - left. rewrite set_mk. apply (L_last _ v items (mk v) []); [reflexivity|intros j b []].
  - rewrite set_other by exact N. destruct IH as [G|(A & B)].
    + left. destruct G as [a l1 i0 l2 E F]. rewrite <- app_assoc. cbn [app]. apply (L_last _ a l1 i0 (l2 ++ [i])); [exact E|]. intros j b I. rewrite in_app_iff in I. destruct I as [I|[<-|[]]]; [apply F, I|apply N].
    + right. split; [|exact B]. intros v I. rewrite in_app_iff in I. destruct I as [I|[I|[]]]; [exact (A v I)|exact (N v I)].
Qed.
Lemma given_get items v : given mk items v -> get (fold_left setItem items noOptions) = v.
Proof.
  intros G. destruct G as [a l1 i l2 -> F]. rewrite fold_left_app. cbn [fold_left]. generalize (setItem (fold_left setItem l1 noOptions) (mk a)) (set_mk (fold_left setItem l1 noOptions) a). induction l2 as [|j l2 IH]; intros o E; [exact E|]. cbn [fold_left]. apply IH; [intros; apply F; right; assumption|]. rewrite set_other; [exact E|]. intros b. apply F. left. reflexivity.
Qed.
Lemma notGiven_get items : notGiven mk items <-> get (fold_left setItem items noOptions) = [].
Proof.
  split.
  - intros [N|G]; [|apply given_get, G]. destruct (text_flag items) as [G|(_ & E)]; [|exact E]. exfalso. remember (get (fold_left setItem items noOptions)) as v. destruct G as [a l1 i l2 -> F]. apply (N a). rewrite in_app_iff. right. left. reflexivity.
  - intros E. destruct (text_flag items) as [G|(N & _)]; [right; rewrite <- E; exact G|left; exact N].
Qed.
End Text.
Lemma out_flag items : (forall v, given IOut items v -> oOut (fold_left setItem items noOptions) = v) /\ (notGiven IOut items <-> oOut (fold_left setItem items noOptions) = []) /\ (oOut (fold_left setItem items noOptions) <> [] -> given IOut items (oOut (fold_left setItem items noOptions))).
Proof.
  assert (D : forall i, (exists v, i = IOut v) \/ (forall v, i <> IOut v)) by (intros []; [right; congruence|left; eauto|right; congruence|right; congruence]).
  assert (T : forall o i, (forall v, i <> IOut v) -> oOut (setItem o i) = oOut o) by (intros o [] N; try reflexivity; congruence).
  split; [intros v; apply given_get; [reflexivity|exact T]|]. split; [apply notGiven_get; [reflexivity|exact T|exact D|reflexivity]|]. intros N. destruct (text_flag IOut oOut ltac:(reflexivity) T D eq_refl items) as [G|(_ & E)]; [exact G|congruence].
Qed.
Lemma pkg_flag items : (forall v, given IPkg items v -> oPkg (fold_left setItem items noOptions) = v) /\ (notGiven IPkg items <-> oPkg (fold_left setItem items noOptions) = []).
Proof.
  assert (D : forall i, (exists v, i = IPkg v) \/ (forall v, i <> IPkg v)) by (intros []; [right; congruence|right; congruence|left; eauto|right; congruence]).
  assert (T : forall o i, (forall v, i <> IPkg v) -> oPkg (setItem o i) = oPkg o) by (intros o [] N; try reflexivity; congruence).
  split; [intros v; apply given_get; [reflexivity|exact T]|apply notGiven_get; [reflexivity|exact T|exact D|reflexivity]].
Qed.
Lemma var_flag items : (forall v, given IVar items v -> oVar (fold_left setItem items noOptions) = v) /\ (notGiven IVar items <-> oVar (fold_left setItem items noOptions) = []).
Proof.
  assert (D : forall i, (exists v, i = IVar v) \/ (forall v, i <> IVar v)) by (intros []; [right; congruence|right; congruence|right; congruence|left; eauto]).
  assert (T : forall o i, (forall v, i <> IVar v) -> oVar (setItem o i) = oVar o) by (intros o [] N; try reflexivity; congruence).
  split; [intros v; apply given_get; [reflexivity|exact T]|apply notGiven_get; [reflexivity|exact T|exact D|reflexivity]].
Qed.

(** ** Names *)
Lemma ext_loop r : forall acc, ~ In 46 acc -> ~ In 47 acc ->
  (exists r1 r2, r = r1 ++ 46 :: r2 /\ ~ In 46 r1 /\ ~ In 47 r1 /\ extLoop r acc = 46 :: rev r1 ++ acc) \/
  (extLoop r acc = [] /\ forall r1 r2, r = r1 ++ 46 :: r2 -> In 46 r1 \/ In 47 r1).
Proof.
  induction r as [|b r IH]; intros acc A B; cbn [extLoop].
  - right. split; [reflexivity|]. intros [|] r2; discriminate.
  - destruct (Z.eqb_spec b 47) as [->|N7].
    + right. split; [reflexivity|]. intros [|c r1] r2 E; [discriminate|]. injection E as <- E. right. left. reflexivity.
    + destruct (Z.eqb_spec b 46) as [->|N6].
      * left. exists [], r. repeat split; intros [].
      * destruct (IH (b :: acc)) as [(r1 & r2 & -> & C & D & E)|(E & F)]; [intros [X|X]; auto|intros [X|X]; auto| |].
        -- left. exists (b :: r1), r2. repeat split; [intros [X|X]; auto|intros [X|X]; auto|]. rewrite E. cbn [rev]. rewrite <- app_assoc. reflexivity.
        -- right. split; [exact E|]. intros [|c r1] r2 E1; [injection E1 as -> _; congruence|]. injection E1 as <- ->. destruct (F r1 r2 eq_refl) as [X|X]; [left; right; exact X|right; right; exact X].
Qed.
Lemma ext_is p : (exists stem e, extension e /\ p = stem ++ e /\ pathExt p = e) \/ (pathExt p = [] /\ forall a e, p = a ++ e -> ~ extension e).
Proof.
  unfold pathExt. destruct (ext_loop (rev p) [] ltac:(intros []) ltac:(intros [])) as [(r1 & r2 & E & A & B & X)|(X & F)].
  - left. exists (rev r2), (46 :: rev r1). split; [exists (rev r1); repeat split; rewrite <- in_rev; assumption|]. split; [|rewrite X, app_nil_r; reflexivity]. rewrite <- (rev_involutive p), E, rev_app_distr. cbn [rev]. rewrite <- app_assoc. reflexivity.
  - right. split; [exact X|]. intros a e -> (r & -> & A & B). destruct (F (rev r) (rev a)) as [I|I]; [|rewrite <- in_rev in I; auto..]. rewrite rev_app_distr. change (bytes "." ++ r) with (46 :: r). cbn [rev]. rewrite <- app_assoc. reflexivity.
Qed.
Lemma split_loop r : forall acc, ~ In 47 acc ->
  (exists r1 r2, r = r1 ++ 47 :: r2 /\ ~ In 47 r1 /\ splitLoop r acc = (rev (47 :: r2), rev r1 ++ acc)) \/ (~ In 47 r /\ splitLoop r acc = ([], rev r ++ acc)).
Proof.
  induction r as [|b r IH]; intros acc A; cbn [splitLoop]; [right; split; [intros []|reflexivity]|]. destruct (Z.eqb_spec b 47) as [->|N].
  - left. exists [], r. repeat split. intros [].
  - destruct (IH (b :: acc)) as [(r1 & r2 & -> & B & E)|(B & E)]; [intros [X|X]; auto| |].
    + left. exists (b :: r1), r2. repeat split; [intros [X|X]; auto|]. rewrite E. cbn [rev]. rewrite <- !app_assoc. reflexivity.
    + right. split; [intros [X|X]; auto|]. rewrite E. cbn [rev]. rewrite <- !app_assoc. reflexivity.
Qed.
Lemma last_slash (a b c d : list Z) : ~ In 47 b -> ~ In 47 d -> a ++ 47 :: b = c ++ 47 :: d -> a = c /\ b = d.
Proof.
  revert c. induction a as [|x a IH]; intros [|y c] B D E; cbn [app] in E.
  - injection E as ->. auto.
  - injection E as <- ->. exfalso. apply B. apply in_or_app. right. left. reflexivity.
  - injection E as -> <-. exfalso. apply D. apply in_or_app. right. left. reflexivity.
  - injection E as <- E. destruct (IH c B D E) as (-> & ->). auto.
Qed.
Lemma split_is p : (exists d f, p = d ++ 47 :: f /\ ~ In 47 f /\ pathSplit p = (d ++ [47], f)) \/ (~ In 47 p /\ pathSplit p = ([], p)).
Proof.
  unfold pathSplit. destruct (split_loop (rev p) [] ltac:(intros [])) as [(r1 & r2 & E & A & X)|(A & X)].
  - left. exists (rev r2), (rev r1). split; [rewrite <- (rev_involutive p), E, rev_app_distr; cbn [rev]; rewrite <- app_assoc; reflexivity|]. split; [rewrite <- in_rev; exact A|]. rewrite X, app_nil_r. reflexivity.
  - right. rewrite <- in_rev in A. split; [exact A|]. rewrite X, app_nil_r, rev_involutive. reflexivity.
Qed.
Lemma split_at d f : ~ In 47 f -> pathSplit (d ++ 47 :: f) = (d ++ [47], f).
Proof.
  intros N. destruct (split_is (d ++ 47 :: f)) as [(d' & f' & E & N' & X)|(A & _)].
  - destruct (last_slash _ _ _ _ N N' E) as (-> & ->). exact X.
  - exfalso. apply A, in_or_app. right. left. reflexivity.
Qed.
Lemma slice_front (a b : list Z) : zslice (a ++ b) 0 (zlen (a ++ b) - zlen b) = Some a.
Proof.
  unfold zslice, zlen. rewrite app_length. replace ((0 <=? 0) && (0 <=? _) && _) with true.
  - rewrite Z.sub_0_r. replace (Z.to_nat (Z.of_nat (length a + length b) - Z.of_nat (length b))) with (length a) by lia. cbn [Z.to_nat skipn]. rewrite firstn_app, firstn_all, Nat.sub_diag. cbn [firstn]. rewrite app_nil_r. reflexivity.
  - symmetry. rewrite !andb_true_iff, !Z.leb_le. lia.
Qed.
Lemma stem_is p : exists stem, stemOf p stem /\ zslice p 0 (zlen p - zlen (pathExt p)) = Some stem.
Proof.
  destruct (ext_is p) as [(stem & e & X & -> & ->)|(-> & N)].
  - exists stem. split; [left; exists e; auto|apply slice_front].
  - exists p. split; [right; auto|]. pose proof (slice_front p []) as S. rewrite app_nil_r in S. exact S.
Qed.
Lemma extension_fun a e a' e' : extension e -> extension e' -> a ++ e = a' ++ e' -> a = a'.
Proof.
  intros (r & -> & A & _) (r' & -> & B & _). change (a ++ 46 :: r = a' ++ 46 :: r' -> a = a'). revert a'. induction a as [|x a IH]; intros [|y c] E; cbn [app] in E.
  - reflexivity.
  - injection E as <- ->. exfalso. apply A. apply in_or_app. right. left. reflexivity.
  - injection E as -> <-. exfalso. apply B. apply in_or_app. right. left. reflexivity.
  - injection E as <- E. f_equal. exact (IH c E).
Qed.
Lemma stem_fun p s s' : stemOf p s -> stemOf p s' -> s = s'.
Proof.
  intros [(e & X & E)|(-> & N)] [(e' & X' & E')|(-> & N')].
  - subst p. exact (extension_fun _ _ _ _ X X' E').
  - exfalso. exact (N' _ _ E X).
  - exfalso. exact (N _ _ E' X').
  - reflexivity.
Qed.
Lemma output_is items f : exists out, outputName (fold_left setItem items noOptions) f = Some out /\ forall o, outputIs items f o <-> o = out.
Proof.
  destruct (out_flag items) as (G & NG & GO). set (o := fold_left setItem items noOptions) in *. destruct (stem_is f) as (stem & S & Z). unfold outputName.
  assert (J : forall s, suffixOf items s <-> s = if oJson o then bytes ".json" else bytes ".go").
  { intros s. unfold suffixOf. pose proof (json_flag items) as J. fold o in J. destruct (oJson o).
    - assert (In IJson items) by (apply J; reflexivity). split; [intros [(_ & E)|(N & _)]; [exact E|contradiction]|auto].
    - assert (~ In IJson items) by (intros I; apply J in I; discriminate). split; [intros [(N & _)|(_ & E)]; [contradiction|exact E]|auto]. }
  destruct (oOut o) as [|b r] eqn:E.
  - rewrite Z. cbn [obind]. eexists. split; [reflexivity|]. intros x. split.
    + intros [(N & I)|(_ & stem' & s & S' & X & ->)]; [apply G in I; congruence|]. apply J in X. rewrite (stem_fun _ _ _ S' S), X. reflexivity.
    + intros ->. right. split; [apply NG; reflexivity|]. exists stem, (if oJson o then bytes ".json" else bytes ".go"). split; [exact S|]. split; [apply J; reflexivity|reflexivity].
  - eexists. split; [reflexivity|]. intros x. split.
    + intros [(_ & I)|(I & _)]; [symmetry; apply G, I|apply NG in I; discriminate].
    + intros ->. left. split; [discriminate|apply GO; discriminate].
Qed.
Lemma directory_is abs out a d : abs out = Some a -> dirName a d -> packageDir abs out = Some (Some d).
Proof.
  intros A (x & f & -> & ND & NF). unfold packageDir. rewrite A. change (bytes "/" ++ d ++ bytes "/" ++ f) with (47 :: d ++ 47 :: f).
  replace (x ++ 47 :: d ++ 47 :: f) with ((x ++ 47 :: d) ++ 47 :: f) by (rewrite <- app_assoc; reflexivity). rewrite split_at by exact NF. cbn [fst]. change 1 with (zlen [47]). rewrite slice_front. cbn [obind]. rewrite split_at by exact ND. reflexivity.
Qed.
(** the name of a file of the root directory *)
Lemma directory_of_root abs out f : abs out = Some (47 :: f) -> ~ In 47 f -> packageDir abs out = Some (Some []).
Proof. intros A N. unfold packageDir. rewrite A. change (47 :: f) with ([] ++ 47 :: f). rewrite split_at by exact N. reflexivity. Qed.
Lemma absolute p : (exists r, p = 47 :: r) -> (exists d, dirName p d) \/ (exists f, p = 47 :: f /\ ~ In 47 f).
Proof.
  intros (r & ->). destruct (split_is r) as [(d & f & E & N & _)|(N & _)]; [|right; exists r; auto].
  left. destruct (split_is (47 :: d)) as [(d' & f' & E' & N' & _)|(N' & _)]; [|exfalso; apply N'; left; reflexivity].
  exists f', d', f. split; [|auto]. rewrite E. change (47 :: d ++ 47 :: f) with ((47 :: d) ++ 47 :: f). rewrite E', <- app_assoc. reflexivity.
Qed.
Lemma makeGo_dir isPrint d var g : makeGo isPrint d [] var g = makeGo isPrint [] d var g.
Proof. unfold makeGo. destruct d; reflexivity. Qed.
