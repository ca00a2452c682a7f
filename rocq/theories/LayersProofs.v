(** Proofs about hook layers (Layers.v). *)
From Coq Require Import ZArith List Bool Lia.
From Verif Require Import Base BaseProofs Grammar LangTypes LangTypesProofs Layers LayersSpec.
From Verif Require Lexer LangText LangTextTotal Parser.
Import ListNotations.
Open Scope Z_scope.

Lemma nget_put {V} k n (v : V) m : nget k (nput n v m) = if nameEqb k n then Some v else nget k m.
Proof. reflexivity. Qed.
Lemma nameEqb_refl n : nameEqb n n = true.
Proof. apply LangTextTotal.nameEqb_ok. reflexivity. Qed.
Lemma nameEqb_neq a b : nameEqb a b = false <-> a <> b.
Proof. split; [intros H E; subst; rewrite nameEqb_refl in H; discriminate|intros H; destruct (nameEqb a b) eqn:E; [apply LangTextTotal.nameEqb_ok in E; contradiction|reflexivity]]. Qed.
Lemma nget_In {V} k (v : V) m : nget k m = Some v -> In (k, v) m.
Proof. induction m as [|(k', v') m IH]; cbn [LangText.nget]; [discriminate|]. destruct (nameEqb k k') eqn:E; [|intros H; right; auto]. apply LangTextTotal.nameEqb_ok in E. subst. intros H. injection H as ->. left. reflexivity. Qed.
Lemma In_nget {V} k (v : V) m : aMap m -> In (k, v) m -> nget k m = Some v.
Proof.
  induction m as [|(k', v') m IH]; intros A I; [destruct I|]. inversion A as [|? ? N A']; subst. cbn [LangText.nget]. destruct (nameEqb k k') eqn:E.
  - apply LangTextTotal.nameEqb_ok in E. subst k'. destruct I as [I|I]; [congruence|]. destruct N. apply in_map_iff. exists (k, v). auto.
  - destruct I as [I|I]; [injection I as -> ->; rewrite nameEqb_refl in E; discriminate|apply IH; assumption].
Qed.
Lemma nget_None {V} k (m : list (name * V)) : nget k m = None <-> ~ In k (map fst m).
Proof.
  induction m as [|(k', v') m IH]; cbn [LangText.nget map fst In]; [tauto|]. destruct (nameEqb k k') eqn:E; [apply LangTextTotal.nameEqb_ok in E; split; [discriminate|intros H; destruct H; left; congruence]|]. apply nameEqb_neq in E. rewrite IH. split; [intros H [X|X]; [congruence|tauto]|tauto].
Qed.

(** ** Registry *)
Lemma registerAll_ok {T} : forall (h : list (name * T)) r, let (r', l) := registerAll h r in
  (forall n, nget n r' = match nget n r with Some t => Some t | None => firstOf n h end) /\
  length l = length h /\ (forall i n t, nth_error h i = Some (n, t) -> nth_error l i = Some true <-> nget n r = None /\ forall j t', (j < i)%nat -> nth_error h j <> Some (n, t')).
Proof.
  induction h as [|(n, t) h IH]; intros r; cbn [registerAll].
  - split; [intros n; destruct (nget n r); reflexivity|]. split; [reflexivity|]. intros [|i] n t H; discriminate.
  - destruct (registerHookLayer n t r) as (r1, b) eqn:R. specialize (IH r1). destruct (registerAll h r1) as (r2, l). destruct IH as (A & B & C). unfold registerHookLayer in R.
    assert (G : forall k, nget k r1 = if nameEqb k n then (match nget n r with Some x => Some x | None => Some t end) else nget k r).
    { intros k. destruct (nget n r) as [x|] eqn:X; injection R as <- <-; [|apply nget_put]. destruct (nameEqb k n) eqn:E; [apply LangTextTotal.nameEqb_ok in E; subst; exact X|reflexivity]. }
    split; [|split; [cbn; lia|]].
    + intros k. rewrite A, G. cbn [firstOf]. destruct (nameEqb k n) eqn:E.
      * apply LangTextTotal.nameEqb_ok in E. subst k. destruct (nget n r); [reflexivity|]. destruct (list_eq_dec Z.eq_dec n n); [reflexivity|contradiction].
      * apply nameEqb_neq in E. destruct (nget k r); [reflexivity|]. destruct (list_eq_dec Z.eq_dec n k); [congruence|reflexivity].
    + intros [|i] m u H.
      * cbn in H. injection H as -> ->. cbn. destruct (nget m r) as [x|] eqn:X; injection R as <- <-.
        -- split; [discriminate|intros (Y & _); discriminate].
        -- split; [intros _; split; [reflexivity|intros j t' J; lia]|reflexivity].
      * cbn in H. cbn. rewrite (C i m u H), G. destruct (nameEqb m n) eqn:E.
        -- apply LangTextTotal.nameEqb_ok in E. subst m. split; [intros (X & _); destruct (nget n r); discriminate|]. intros (X & Y). exfalso. apply (Y O t); [lia|reflexivity].
        -- apply nameEqb_neq in E. split; intros (X & Y); (split; [exact X|]).
           ++ intros [|j] t' J; cbn; [congruence|]. apply Y. lia.
           ++ intros j t' J. apply (Y (S j) t'). lia.
Qed.

(** ** Names *)
Section G.
Variable g : grammar.
Lemma addNodes_tokens : forall ns i tb, tbTokenNames (addNodes i ns tb) = tbTokenNames tb /\ tbLiterals (addNodes i ns tb) = tbLiterals tb.
Proof. induction ns as [|n ns IH]; intros i tb; cbn [addNodes]; [auto|]. destruct (IH (i + 1) (mkTables (tbTokenNames tb) (tbLiterals tb) (nput (gnName n) i (tbNodeNames tb)))) as (-> & ->). auto. Qed.
Lemma addTokens_nodes : forall ts i tb, tbNodeNames (addTokens i ts tb) = tbNodeNames tb.
Proof. induction ts as [|t ts IH]; intros i tb; cbn [addTokens]; [reflexivity|]. rewrite IH. destruct (hasFlag _ _); [reflexivity|]. destruct (negb _); reflexivity. Qed.
Lemma zget_cons {A} (x : A) l i : zget (x :: l) i = if i =? 0 then Some x else zget l (i - 1).
Proof.
  unfold zget. destruct (Z.eqb_spec i 0) as [->|N]; [reflexivity|]. destruct (Z.ltb_spec i 0), (Z.ltb_spec (i - 1) 0); try lia; [reflexivity|]. replace (Z.to_nat i) with (S (Z.to_nat (i - 1))) by lia. reflexivity.
Qed.
Lemma addTokens_ok : forall ts i tb,
  (forall k x, nget k (tbTokenNames (addTokens i ts tb)) = Some x -> (exists j d, zget ts j = Some d /\ hasFlag (gtFlags d) LiteralToken = false /\ hasFlag (gtFlags d) ErrorToken = false /\ gtName d = k /\ x = i + j) \/ nget k (tbTokenNames tb) = Some x) /\
  (forall j d, zget ts j = Some d -> hasFlag (gtFlags d) LiteralToken = false -> hasFlag (gtFlags d) ErrorToken = false -> nget (gtName d) (tbTokenNames (addTokens i ts tb)) <> None) /\
  (forall k, nget k (tbTokenNames tb) <> None -> nget k (tbTokenNames (addTokens i ts tb)) <> None) /\
  (forall k x, nget k (tbLiterals (addTokens i ts tb)) = Some x -> (exists j d, zget ts j = Some d /\ hasFlag (gtFlags d) LiteralToken = true /\ gtName d = k /\ x = i + j) \/ nget k (tbLiterals tb) = Some x).
Proof.
  assert (Z0 : forall (l : list gtoken) j d, zget l j = Some d -> 0 <= j) by (intros l j d H; apply LangTextTotal.zget_in in H; lia).
  induction ts as [|t ts IH]; intros i tb; cbn [addTokens].
  - repeat split; auto. intros j d H. unfold zget in H. destruct (j <? 0); [discriminate|]. destruct (Z.to_nat j); discriminate.
  - match goal with |- context [addTokens (i + 1) ts ?tb1] => set (tb' := tb1); destruct (IH (i + 1) tb') as (A & B & C & D) end.
    assert (SH : forall (P : gtoken -> Prop) x, (exists j d, zget ts j = Some d /\ P d /\ x = i + 1 + j) -> exists j d, zget (t :: ts) j = Some d /\ P d /\ x = i + j).
    { intros P x (j & d & G1 & G2 & G3). exists (j + 1), d. split; [rewrite zget_cons; pose proof (Z0 _ _ _ G1); destruct (Z.eqb_spec (j + 1) 0); [lia|]; replace (j + 1 - 1) with j by lia; exact G1|]. split; [exact G2|lia]. }
    repeat split.
    + intros k x H. destruct (A k x H) as [(j & d & G1 & G2 & G3 & G4 & G5)|H1].
      * left. destruct (SH (fun d => hasFlag (gtFlags d) LiteralToken = false /\ hasFlag (gtFlags d) ErrorToken = false /\ gtName d = k) x) as (j' & d' & X1 & (X2 & X3 & X4) & X5); [exists j, d; auto|]. exists j', d'. auto.
      * subst tb'. destruct (hasFlag (gtFlags t) LiteralToken) eqn:L; [right; exact H1|]. destruct (hasFlag (gtFlags t) ErrorToken) eqn:E; cbn [negb] in H1; [right; exact H1|]. cbn [tbTokenNames] in H1. rewrite nget_put in H1. destruct (nameEqb k (gtName t)) eqn:K; [|right; exact H1]. apply LangTextTotal.nameEqb_ok in K. injection H1 as <-. left. exists 0, t. repeat split; auto. lia.
    + intros j d G1 G2 G3. rewrite zget_cons in G1. destruct (Z.eqb_spec j 0) as [->|N].
      * injection G1 as ->. apply C. subst tb'. rewrite G2, G3. cbn [negb tbTokenNames]. rewrite nget_put, nameEqb_refl. discriminate.
      * apply (B (j - 1) d G1 G2 G3).
    + intros k H. apply C. subst tb'. destruct (hasFlag (gtFlags t) LiteralToken); [exact H|]. destruct (negb _); [|exact H]. cbn [tbTokenNames]. rewrite nget_put. destruct (nameEqb k (gtName t)); [discriminate|exact H].
    + intros k x H. destruct (D k x H) as [(j & d & G1 & G2 & G3 & G5)|H1].
      * left. destruct (SH (fun d => hasFlag (gtFlags d) LiteralToken = true /\ gtName d = k) x) as (j' & d' & X1 & (X2 & X3) & X5); [exists j, d; auto|]. exists j', d'. auto.
      * subst tb'. destruct (hasFlag (gtFlags t) LiteralToken) eqn:L; [|destruct (negb _) in H1; right; exact H1]. cbn [tbLiterals] in H1. rewrite nget_put in H1. destruct (nameEqb k (gtName t)) eqn:K; [|right; exact H1]. apply LangTextTotal.nameEqb_ok in K. injection H1 as <-. left. exists 0, t. repeat split; auto. lia.
Qed.
Local Notation tb := (newTables g).
Local Notation special := (nput eoiName Lexer.EoiTokenType (nput eofName Lexer.EofTokenType (nput anyName AnyToken []))).
Definition specials : list name := [anyName; eofName; eoiName].
Lemma special_ok k : (nget k special = None <-> ~ In k specials) /\ nget anyName special = Some AnyToken /\ nget eofName special = Some Lexer.EofTokenType /\ nget eoiName special = Some Lexer.EoiTokenType.
Proof.
  split; [|auto]. unfold nput at 1 2 3, LangText.nput. rewrite nget_None. unfold specials. cbn [map fst In]. tauto.
Qed.
Lemma special_range k x : nget k special = Some x -> x = AnyToken /\ k = anyName \/ x = Lexer.EofTokenType /\ k = eofName \/ x = Lexer.EoiTokenType /\ k = eoiName.
Proof.
  rewrite !nget_put. destruct (nameEqb k eoiName) eqn:A; [apply LangTextTotal.nameEqb_ok in A; intros H; injection H as <-; auto|]. destruct (nameEqb k eofName) eqn:B; [apply LangTextTotal.nameEqb_ok in B; intros H; injection H as <-; auto|]. destruct (nameEqb k anyName) eqn:C; [apply LangTextTotal.nameEqb_ok in C; intros H; injection H as <-; auto|discriminate].
Qed.
Hypothesis GN : goodNames g.
(** what the index of names of types holds *)
Lemma tokenNames_ok k x : nget k (tbTokenNames tb) = Some x <->
  (x = AnyToken /\ k = anyName \/ x = Lexer.EofTokenType /\ k = eofName \/ x = Lexer.EoiTokenType /\ k = eoiName) \/ exists d, namedType g x d /\ gtName d = k.
Proof.
  unfold newTables. destruct (addNodes_tokens (gNodes g) 0 (addTokens 0 (gTokens g) (mkTables special [] (nput anyName (-1) [])))) as (-> & _).
  destruct (addTokens_ok (gTokens g) 0 (mkTables special [] (nput anyName (-1) []))) as (A & B & C & _). cbn [tbTokenNames] in A, C.
  assert (A' : forall k x, nget k (tbTokenNames (addTokens 0 (gTokens g) (mkTables special [] (nput anyName (-1) [])))) = Some x -> (exists d, namedType g x d /\ gtName d = k) \/ nget k special = Some x).
  { intros k' x' H. destruct (A k' x' H) as [(j & d & G1 & G2 & G3 & G4 & G5)|H1]; [left|right; exact H1]. replace x' with j by lia. exists d. split; [repeat split; assumption|exact G4]. }
  split.
  - intros H. destruct (A' k x H) as [X|X]; [right; exact X|left; apply special_range, X].
  - intros [H|(d & (G1 & G2 & G3) & <-)].
    + assert (S : In k specials /\ nget k special = Some x). { destruct (special_ok k) as (_ & S1 & S2 & S3). destruct H as [(-> & ->)|[(-> & ->)|(-> & ->)]]; (split; [unfold specials; cbn [In]; tauto|assumption]). }
      destruct S as (S1 & S2). destruct (nget k (tbTokenNames (addTokens 0 (gTokens g) (mkTables special [] (nput anyName (-1) []))))) as [y|] eqn:Y; [|exfalso; apply (C k); [rewrite S2; discriminate|exact Y]]. destruct (A' k y Y) as [(d & N & E)|N]; [|congruence]. exfalso. apply (gn_special g GN y d N). rewrite E. exact S1.
    + specialize (B x d G1 G2 G3). destruct (nget (gtName d) (tbTokenNames (addTokens 0 (gTokens g) (mkTables special [] (nput anyName (-1) []))))) as [y|] eqn:Y; [|contradiction]. destruct (A' _ y Y) as [(d' & N & E)|N].
      * f_equal. apply (gn_types g GN y x d' d); [exact N|repeat split; assumption|exact E].
      * exfalso. apply (gn_special g GN x d); [repeat split; assumption|]. destruct (special_range _ _ N) as [(_ & ->)|[(_ & ->)|(_ & ->)]]; cbn; auto.
Qed.
Lemma tokenNames_known k : (exists x, nget k (tbTokenNames tb) = Some x) <-> knownType g k.
Proof.
  split.
  - intros (x & H). apply tokenNames_ok in H. destruct H as [[(_ & ->)|[(_ & ->)|(_ & ->)]]|(d & N & E)]; [left; cbn; auto|left; cbn; auto|left; cbn; auto|right; eauto].
  - intros [H|(i & d & N & E)]; [|exists i; apply tokenNames_ok; right; eauto]. cbn [In] in H. destruct H as [<-|[<-|[<-|[]]]]; eexists; apply tokenNames_ok; left; [left|right; left|right; right]; split; reflexivity.
Qed.
Lemma tokenNames_inj k k' x : nget k (tbTokenNames tb) = Some x -> nget k' (tbTokenNames tb) = Some x -> k = k'.
Proof.
  rewrite !tokenNames_ok. unfold AnyToken, Lexer.EofTokenType, Lexer.EoiTokenType.
  assert (NN : forall x d, namedType g x d -> 0 <= x) by (intros y d (H & _); apply LangTextTotal.zget_in in H; lia).
  intros [A|(d & N & <-)] [B|(d' & N' & <-)].
  - destruct A as [(? & ->)|[(? & ->)|(? & ->)]], B as [(? & ->)|[(? & ->)|(? & ->)]]; try lia; reflexivity.
  - apply NN in N'. lia.
  - apply NN in N. lia.
  - destruct N as (E & _), N' as (E' & _). congruence.
Qed.
Lemma tokenNames_low k x : nget k (tbTokenNames tb) = Some x -> -3 <= x < zlen (gTokens g).
Proof.
  rewrite tokenNames_ok. unfold AnyToken, Lexer.EofTokenType, Lexer.EoiTokenType. assert (0 <= zlen (gTokens g)) by (unfold zlen; lia). intros [A|(d & (E & _) & _)]; [lia|]. apply LangTextTotal.zget_in in E. lia.
Qed.
Lemma literals_ok k x : nget k (tbLiterals tb) = Some x -> exists d, zget (gTokens g) x = Some d /\ hasFlag (gtFlags d) LiteralToken = true /\ gtName d = k.
Proof.
  unfold newTables. destruct (addNodes_tokens (gNodes g) 0 (addTokens 0 (gTokens g) (mkTables special [] (nput anyName (-1) [])))) as (_ & ->).
  destruct (addTokens_ok (gTokens g) 0 (mkTables special [] (nput anyName (-1) []))) as (_ & _ & _ & D). intros H. destruct (D k x H) as [(j & d & G1 & G2 & G3 & G4)|H1]; [|discriminate]. replace x with j by lia. eauto.
Qed.

(** ** Literals *)
Lemma NoDup_app_k {A} (a b : list A) : NoDup a -> NoDup b -> (forall x, In x a -> In x b -> False) -> NoDup (a ++ b).
Proof. induction a as [|x a IH]; intros N M H; [exact M|]. inversion N; subst. cbn [app]. constructor; [intros I; apply in_app_or in I; destruct I as [I|I]; [contradiction|apply (H x); [left; reflexivity|exact I]]|apply IH; [assumption|exact M|intros y Y; apply H; right; exact Y]]. Qed.
Definition litsInv (lits : list (name * Z)) : Prop := exists new, NoDup new /\ (forall k, In k new -> nget k (tbLiterals tb) = None) /\ zlen lits = zlen (tbLiterals tb) + zlen new /\
  forall k x, nget k lits = Some x <-> nget k (tbLiterals tb) = Some x \/ exists p, nth_error new p = Some k /\ x = zlen (gTokens g) + Z.of_nat p.
Lemma litsInv_start : litsInv (tbLiterals tb).
Proof. exists []. split; [constructor|]. split; [intros k []|]. split; [unfold zlen; cbn; lia|]. intros k x. split; [auto|]. intros [H|([|p] & H & _)]; [exact H|discriminate|discriminate]. Qed.
Lemma litsInv_nonneg lits k x : litsInv lits -> nget k lits = Some x -> 0 <= x.
Proof. intros (new & _ & _ & _ & A) H. apply A in H. destruct H as [H|(p & _ & H)]; [|unfold zlen in H; lia]. apply literals_ok in H. destruct H as (d & G & _). apply LangTextTotal.zget_in in G. lia. Qed.
Lemma litsInv_inj lits k k' x : litsInv lits -> nget k lits = Some x -> nget k' lits = Some x -> k = k'.
Proof.
  intros (new & N & _ & _ & A) H H'. apply A in H. apply A in H'. destruct H as [H|(p & H & E)], H' as [H'|(p' & H' & E')].
  - apply literals_ok in H. apply literals_ok in H'. destruct H as (d & G & _ & <-), H' as (d' & G' & _ & <-). congruence.
  - apply literals_ok in H. destruct H as (d & G & _). apply LangTextTotal.zget_in in G. lia.
  - apply literals_ok in H'. destruct H' as (d & G & _). apply LangTextTotal.zget_in in G. lia.
  - assert (p = p') by lia. subst p'. congruence.
Qed.
Lemma litsInv_disj lits k k' x : litsInv lits -> nget k lits = Some x -> nget k' (tbTokenNames tb) = Some x -> False.
Proof.
  intros I H H'. pose proof (litsInv_nonneg _ _ _ I H) as NN. destruct I as (new & N & _ & _ & A). apply A in H. pose proof (tokenNames_low _ _ H') as L. apply tokenNames_ok in H'.
  destruct H' as [H'|(d & (G & G1 & _) & _)]; [unfold AnyToken, Lexer.EofTokenType, Lexer.EoiTokenType in H'; lia|].
  destruct H as [H|(p & H & E)]; [|lia]. apply literals_ok in H. destruct H as (d' & G' & F & _). congruence.
Qed.
Lemma litsInv_put lits k : litsInv lits -> nget k lits = None -> litsInv (nput k (zlen (gTokens g) + zlen lits - zlen (tbLiterals tb)) lits).
Proof.
  intros (new & N & D & L & A) H. assert (H0 : nget k (tbLiterals tb) = None) by (destruct (nget k (tbLiterals tb)) as [x|] eqn:E; [|reflexivity]; assert (nget k lits = Some x) by (apply A; auto); congruence).
  assert (NI : ~ In k new). { intros I. apply In_nth_error in I. destruct I as (p & I). assert (nget k lits = Some (zlen (gTokens g) + Z.of_nat p)) by (apply A; right; eauto). congruence. }
  exists (new ++ [k]). split; [|split; [|split]].
  - apply NoDup_app_k; [exact N|constructor; [intros []|constructor]|]. intros y Y [<-|[]]. contradiction.
  - intros k' I. apply in_app_or in I. destruct I as [I|[<-|[]]]; [apply D, I|exact H0].
  - unfold zlen in *. rewrite app_length. cbn [length LangText.nput]. lia.
  - intros k' x. rewrite nget_put. replace (zlen (gTokens g) + zlen lits - zlen (tbLiterals tb)) with (zlen (gTokens g) + Z.of_nat (length new)) by (unfold zlen in *; lia).
    destruct (nameEqb k' k) eqn:E.
    + apply LangTextTotal.nameEqb_ok in E. subst k'. split.
      * intros X. injection X as <-. right. exists (length new). split; [rewrite nth_error_app2, Nat.sub_diag by lia; reflexivity|reflexivity].
      * intros [X|(p & X & Y)]; [congruence|]. destruct (Nat.lt_ge_cases p (length new)) as [Q|Q].
        -- rewrite nth_error_app1 in X by exact Q. apply nth_error_In in X. contradiction.
        -- rewrite nth_error_app2 in X by exact Q. destruct (p - length new)%nat as [|q] eqn:W; [|destruct q; discriminate]. f_equal. lia.
    + apply nameEqb_neq in E. rewrite A. split; (intros [X|(p & X & Y)]; [left; exact X|right; exists p; split; [|exact Y]]).
      * rewrite nth_error_app1; [exact X|]. apply nth_error_Some. congruence.
      * destruct (Nat.lt_ge_cases p (length new)) as [Q|Q]; [rewrite nth_error_app1 in X by exact Q; exact X|]. rewrite nth_error_app2 in X by exact Q. destruct (p - length new)%nat as [|[|q]]; [cbn in X; congruence|discriminate|discriminate].
Qed.
Definition extends (lits lits' : list (name * Z)) : Prop := forall k x, nget k lits = Some x -> nget k lits' = Some x.
Lemma maxLiterals_ok {TH} : forall (l : list (name * TH)) lits m, litsInv lits -> let (lits', m') := maxLiterals g l lits m in
  litsInv lits' /\ extends lits lits' /\ m <= m' /\ forall k h, In (k, h) l -> exists x, nget k lits' = Some x /\ x <= m'.
Proof.
  induction l as [|(k, h) l IH]; intros lits m I; cbn [maxLiterals].
  - split; [exact I|]. split; [intros k x H; exact H|]. split; [lia|]. intros k h [].
  - destruct (nget k lits) as [i|] eqn:E.
    + specialize (IH lits (Z.max i m) I). destruct (maxLiterals g l lits (Z.max i m)) as (lits', m'). destruct IH as (A & B & C & D). split; [exact A|]. split; [exact B|]. split; [lia|]. intros k' h' [X|X]; [injection X as <- <-; exists i; split; [apply B, E|lia]|apply (D k' h' X)].
    + set (i := zlen (gTokens g) + zlen lits - zlen (tbLiterals tb)). pose proof (litsInv_put lits k I E) as I'. fold i in I'. specialize (IH (nput k i lits) (Z.max i m) I'). destruct (maxLiterals g l (nput k i lits) (Z.max i m)) as (lits', m'). destruct IH as (A & B & C & D). split; [exact A|]. split; [|split; [lia|]].
      * intros k' x H. apply B. rewrite nget_put. destruct (nameEqb k' k) eqn:F; [apply LangTextTotal.nameEqb_ok in F; congruence|exact H].
      * intros k' h' [X|X]; [injection X as <- <-; exists i; split; [apply B; rewrite nget_put, nameEqb_refl; reflexivity|lia]|apply (D k' h' X)].
Qed.
Lemma maxTokens_ok {TH} : forall (l : list (name * TH)) m, match maxTokens g l m with
  | inl m' => m <= m' /\ forall k h, In (k, h) l -> exists x, nget k (tbTokenNames tb) = Some x /\ x <= m'
  | inr e => exists k h, In (k, h) l /\ nget k (tbTokenNames tb) = None /\ e = UnknownTokenType k
  end.
Proof.
  induction l as [|(k, h) l IH]; intros m; cbn [maxTokens]; [split; [lia|intros k h []]|]. destruct (nget k (tbTokenNames tb)) as [i|] eqn:E.
  - specialize (IH (Z.max i m)). destruct (maxTokens g l (Z.max i m)) as [m'|e].
    + destruct IH as (A & B). split; [lia|]. intros k' h' [X|X]; [injection X as <- <-; exists i; split; [exact E|lia]|apply (B k' h' X)].
    + destruct IH as (k' & h' & X & Y). exists k', h'. split; [right; exact X|exact Y].
  - exists k, h. split; [left; reflexivity|auto].
Qed.

(** ** Tables *)
Fixpoint putAll {A} (ids : list (Z * A)) (t : list (option A)) : option (list (option A)) :=
  match ids with
  | [] => Some t
  | (i, h) :: r => do t <- zset t i (Some h) ; putAll r t
  end.
Lemma putAll_app {A} (a b : list (Z * A)) : forall t, putAll (a ++ b) t = (do t <- putAll a t ; putAll b t).
Proof. induction a as [|(i, h) a IH]; intros t; [reflexivity|]. cbn [app putAll]. destruct (zset t i (Some h)); cbn [obind]; [apply IH|reflexivity]. Qed.
Lemma zset_get {A} (t : list A) i v t' : zset t i v = Some t' -> zlen t' = zlen t /\ forall x, zget t' x = if x =? i then Some v else zget t x.
Proof.
  intros H. apply zset_inv in H. destruct H as (R & ->). split; [unfold zlen; rewrite upd_length; reflexivity|]. intros x. assert (Z.to_nat i < length t)%nat by (unfold zlen in R; lia). unfold zget. destruct (Z.eqb_spec x i) as [->|N].
  - destruct (Z.ltb_spec i 0); [lia|]. rewrite nth_error_upd, Nat.eqb_refl by assumption. reflexivity.
  - destruct (Z.ltb_spec x 0); [reflexivity|]. rewrite nth_error_upd by assumption. destruct (Nat.eqb_spec (Z.to_nat x) (Z.to_nat i)); [lia|reflexivity].
Qed.
Lemma putAll_ok {A} : forall (ids : list (Z * A)) t, (forall i h, In (i, h) ids -> 0 <= i < zlen t) -> NoDup (map fst ids) ->
  exists t', putAll ids t = Some t' /\ zlen t' = zlen t /\ forall x, zget t' x = match find (fun p => fst p =? x) ids with Some p => Some (Some (snd p)) | None => zget t x end.
Proof.
  induction ids as [|(i, h) ids IH]; intros t R N; [exists t; auto|]. inversion N as [|? ? N1 N2]; subst. cbn [putAll].
  destruct (zset t i (Some h)) as [t1|] eqn:E; [|rewrite zset_Some in E by (apply (R i h); left; reflexivity); discriminate]. cbn [obind]. destruct (zset_get _ _ _ _ E) as (L & G). destruct (IH t1) as (t' & P & L' & G'); [intros j h' I; rewrite L; apply (R j h'); right; exact I|exact N2|].
  exists t'. split; [exact P|]. split; [lia|]. intros x. rewrite G'. cbn [find fst snd]. destruct (Z.eqb_spec i x) as [->|NE].
  - destruct (find (fun p => fst p =? x) ids) as [(j, h')|] eqn:F.
    + apply find_some in F. destruct F as (F1 & F2). cbn in F2. apply Z.eqb_eq in F2. subst j. destruct N1. apply in_map_iff. exists (x, h'). auto.
    + rewrite G, Z.eqb_refl. reflexivity.
  - destruct (find (fun p => fst p =? x) ids) as [(j, h')|]; [reflexivity|]. rewrite G. destruct (Z.eqb_spec x i); [lia|reflexivity].
Qed.
Lemma putAll_in {A} (ids : list (Z * A)) n t' : (forall i h, In (i, h) ids -> 0 <= i < n) -> NoDup (map fst ids) -> putAll ids (repeat None (Z.to_nat n)) = Some t' ->
  forall x h, zget t' x = Some (Some h) <-> In (x, h) ids.
Proof.
  intros R N P x h. assert (LN : zlen (repeat (@None A) (Z.to_nat n)) = n \/ n < 0) by (unfold zlen; rewrite repeat_length; lia).
  assert (R' : forall i h, In (i, h) ids -> 0 <= i < zlen (repeat (@None A) (Z.to_nat n))) by (intros i h' I; specialize (R i h' I); lia).
  destruct (putAll_ok ids (repeat None (Z.to_nat n)) R' N) as (t2 & P2 & _ & G). rewrite P in P2. injection P2 as <-. rewrite G. destruct (find (fun p => fst p =? x) ids) as [(j, h')|] eqn:F.
  - apply find_some in F. destruct F as (F1 & F2). cbn in F2. apply Z.eqb_eq in F2. subst j. cbn [snd]. split; [intros H; injection H as <-; exact F1|]. intros I. do 2 f_equal.
    clear - N F1 I. induction ids as [|(y, z) ids IH]; [destruct F1|]. inversion N as [|? ? N1 N2]; subst. destruct F1 as [F1|F1], I as [I|I]; [congruence|injection F1 as -> ->; destruct N1; apply in_map_iff; exists (x, h); auto|injection I as -> ->; destruct N1; apply in_map_iff; exists (x, h'); auto|auto].
  - split; [intros H; exfalso|intros I; apply (find_none _ _ F) in I; cbn in I; rewrite Z.eqb_refl in I; discriminate].
    unfold zget in H. destruct (x <? 0); [discriminate|]. apply nth_error_In, repeat_spec in H. discriminate.
Qed.
Lemma putAll_len {A} (ids : list (Z * A)) : forall t t', putAll ids t = Some t' -> zlen t' = zlen t.
Proof. induction ids as [|(i, h) ids IH]; intros t t' H; cbn [putAll] in H; [congruence|]. destruct (zset t i (Some h)) as [t1|] eqn:E; [|discriminate]. cbn [obind] in H. apply IH in H. destruct (zset_get _ _ _ _ E) as (L & _). lia. Qed.

Section T.
Context {TH NH : Type}.
Implicit Types hs : hooks TH NH.
Definition tokId (p : name * TH) : Z * TH := ((match nget (fst p) (tbTokenNames tb) with Some i => i | None => 0 end) + Parser.tokenHooksOffset, snd p).
Definition litId lits (p : name * TH) : Z * TH := ((match nget (fst p) lits with Some i => i | None => 0 end) + Parser.tokenHooksOffset, snd p).
Lemma setTokens_put : forall (l : list (name * TH)) t, setTokens g l t = putAll (map tokId l) t.
Proof. induction l as [|(k, h) l IH]; intros t; [reflexivity|]. cbn [setTokens map putAll tokId fst snd]. unfold tokId at 1. cbn [fst snd]. destruct (zset _ _ _); cbn [obind]; [apply IH|reflexivity]. Qed.
Lemma setLiterals_put lits : litsInv lits -> forall (l : list (name * TH)) t, setLiterals g lits l t = putAll (map (litId lits) l) t.
Proof.
  intros I. induction l as [|(k, h) l IH]; intros t; [reflexivity|]. cbn [setLiterals map putAll]. unfold litId at 1. cbn [fst snd].
  replace (match nget k (tbLiterals tb) with Some i => i | None => match nget k lits with Some i => i | None => 0 end end) with (match nget k lits with Some i => i | None => 0 end).
  - destruct (zset _ _ _); cbn [obind]; [apply IH|reflexivity].
  - destruct I as (new & _ & _ & _ & A). destruct (nget k (tbLiterals tb)) as [i|] eqn:E; [|reflexivity]. assert (H : nget k lits = Some i) by (apply A; auto). rewrite H. reflexivity.
Qed.
(** the table of hooks of a layer *)
Definition tableOf hs lits (t : list (option TH)) : Prop := 4 <= zlen t /\ (forall k h, In (k, h) (hTokens hs) -> nget k (tbTokenNames tb) <> None) /\ (forall k h, In (k, h) (hLiterals hs) -> nget k lits <> None) /\ forall x h, zget t (x + Parser.tokenHooksOffset) = Some (Some h) <->
  (exists k, In (k, h) (hTokens hs) /\ nget k (tbTokenNames tb) = Some x) \/ (exists k, In (k, h) (hLiterals hs) /\ nget k lits = Some x).
Lemma NoDup_map_key {A B C} (f : A -> B) (e : A -> C) l : NoDup (map e l) -> (forall x y, In x l -> In y l -> f x = f y -> e x = e y) -> NoDup (map f l).
Proof.
  induction l as [|a l IH]; intros N H; [constructor|]. inversion N as [|? ? N1 N2]; subst. cbn [map]. constructor.
  - intros I. apply in_map_iff in I. destruct I as (b & E & I). apply N1. apply in_map_iff. exists b. split; [apply H; [right; exact I|left; reflexivity|exact E]|exact I].
  - apply IH; [exact N2|]. intros x y X Y. apply H; right; assumption.
Qed.
Lemma newTokenHooks_ok hs st : maps hs -> litsInv (iLiterals st) ->
  (knownTokens g hs /\ exists lits t, newTokenHooks g hs st = Some (mkInst lits (if hooksTokens hs then iTokens st ++ [t] else iTokens st) (iNodes st), None) /\ litsInv lits /\ extends (iLiterals st) lits /\ (hooksTokens hs = true -> tableOf hs lits t)) \/
  (exists n h, In (n, h) (hTokens hs) /\ ~ knownType g n /\ newTokenHooks g hs st = Some (st, Some (UnknownTokenType n))).
Proof.
  intros MP I.
  assert (C : newTokenHooks g hs st = if hooksTokens hs then (match maxTokens g (hTokens hs) 0 with
      | inr e => Some (st, Some e)
      | inl m =>
          let (lits, m) := maxLiterals g (hLiterals hs) (iLiterals st) m in
          do t <- zmake None (m + Parser.tokenHooksOffset + 1) ;
          do t <- setTokens g (hTokens hs) t ;
          do t <- setLiterals g lits (hLiterals hs) t ;
          Some (mkInst lits (iTokens st ++ [t]) (iNodes st), None)
      end) else Some (st, None)).
  { unfold newTokenHooks, hooksTokens. destruct (hTokens hs); [|reflexivity]. destruct (hLiterals hs); reflexivity. }
  rewrite C. clear C. destruct (hooksTokens hs) eqn:HT.
  - pose proof (maxTokens_ok (hTokens hs) 0) as MT. destruct (maxTokens g (hTokens hs) 0) as [m|e].
    + destruct MT as (M0 & MT). left. split; [intros n h H; destruct (MT n h H) as (x & X & _); apply tokenNames_known; eauto|].
      pose proof (maxLiterals_ok (hLiterals hs) (iLiterals st) m I) as ML. destruct (maxLiterals g (hLiterals hs) (iLiterals st) m) as (lits, m'). destruct ML as (I' & EX & M1 & ML).
      change Parser.tokenHooksOffset with 3. rewrite zmake_Some by lia. cbn [obind]. rewrite setTokens_put.
      set (ids := map tokId (hTokens hs) ++ map (litId lits) (hLiterals hs)).
      assert (R : forall i h, In (i, h) ids -> 0 <= i < m' + 3 + 1).
      { intros i h H. apply in_app_or in H. destruct H as [H|H]; apply in_map_iff in H; destruct H as ((k, h') & E & H); [unfold tokId in E|unfold litId in E]; cbn [fst snd] in E; change Parser.tokenHooksOffset with 3 in E; injection E as <- <-.
        - destruct (MT k h' H) as (x & X & Y). rewrite X. apply tokenNames_low in X. lia.
        - destruct (ML k h' H) as (x & X & Y). rewrite X. apply (litsInv_nonneg _ _ _ I') in X. lia. }
      assert (N : NoDup (map fst ids)).
      { unfold ids. rewrite map_app. apply NoDup_app_k.
        - rewrite map_map. apply (NoDup_map_key _ fst); [apply MP|]. intros (k, h) (k', h') H H' E. unfold tokId in E. cbn [fst snd] in E |- *. destruct (MT k h H) as (x & X & _), (MT k' h' H') as (x' & X' & _). rewrite X, X' in E. apply (tokenNames_inj k k' x); [exact X|]. rewrite X'. f_equal. lia.
        - rewrite map_map. apply (NoDup_map_key _ fst); [apply MP|]. intros (k, h) (k', h') H H' E. unfold litId in E. cbn [fst snd] in E |- *. destruct (ML k h H) as (x & X & _), (ML k' h' H') as (x' & X' & _). rewrite X, X' in E. apply (litsInv_inj lits k k' x I'); [exact X|]. rewrite X'. f_equal. lia.
        - intros x H H'. rewrite map_map in H, H'. apply in_map_iff in H. apply in_map_iff in H'. destruct H as ((k, h) & E & H), H' as ((k', h') & E' & H'). unfold tokId in E. unfold litId in E'. cbn [fst snd] in E, E'. destruct (MT k h H) as (y & X & _), (ML k' h' H') as (y' & X' & _). rewrite X in E. rewrite X' in E'. apply (litsInv_disj lits k' k y' I' X'). rewrite X. f_equal. lia. }
      assert (PA : exists t, putAll ids (repeat None (Z.to_nat (m' + 3 + 1))) = Some t).
      { destruct (putAll_ok ids (repeat None (Z.to_nat (m' + 3 + 1)))) as (t & P & _); [|exact N|eauto]. intros i h H. unfold zlen. rewrite repeat_length. specialize (R i h H). lia. }
      destruct PA as (t & PA). pose proof PA as PA'. unfold ids in PA. rewrite putAll_app in PA. destruct (putAll (map tokId (hTokens hs)) (repeat None (Z.to_nat (m' + 3 + 1)))) as [t1|]; [|discriminate]. cbn [obind] in PA |- *. rewrite setLiterals_put by exact I'. rewrite PA. cbn [obind].
      exists lits, t. split; [reflexivity|]. split; [exact I'|]. split; [exact EX|]. intros _. split; [apply putAll_len in PA'; unfold zlen in *; rewrite repeat_length in PA'; lia|]. split; [intros k h H; destruct (MT k h H) as (x & X & _); congruence|]. split; [intros k h H; destruct (ML k h H) as (x & X & _); congruence|].
      intros x h. rewrite (putAll_in ids _ t R N PA'). unfold ids. change Parser.tokenHooksOffset with 3. rewrite in_app_iff, !in_map_iff. split.
      * intros [((k, h') & E & H)|((k, h') & E & H)]; [left|right]; exists k; [unfold tokId in E|unfold litId in E]; cbn [fst snd] in E; change Parser.tokenHooksOffset with 3 in E; injection E as E1 <-; (split; [exact H|]).
        -- destruct (MT k h' H) as (y & Y & _). rewrite Y in *. f_equal. lia.
        -- destruct (ML k h' H) as (y & Y & _). rewrite Y in *. f_equal. lia.
      * intros [(k & H & E)|(k & H & E)]; [left|right]; exists (k, h); (split; [|exact H]); [unfold tokId|unfold litId]; cbn [fst snd]; rewrite E; reflexivity.
    + destruct MT as (k & h & H & E & ->). right. exists k, h. split; [exact H|]. split; [|reflexivity]. intros K. apply tokenNames_known in K. destruct K as (x & K). congruence.
  - left. split; [intros n h H; unfold hooksTokens in HT; destruct (hTokens hs); [destruct H|destruct (hLiterals hs); discriminate]|]. exists (iLiterals st), []. split; [destruct st; reflexivity|]. split; [exact I|]. split; [intros k x H; exact H|discriminate].
Qed.

(** ** Nodes *)
Lemma addNodes_ok : forall ns i tb,
  (forall k x, nget k (tbNodeNames (addNodes i ns tb)) = Some x -> (exists j d, zget ns j = Some d /\ gnName d = k /\ x = i + j) \/ nget k (tbNodeNames tb) = Some x) /\
  (forall j d, zget ns j = Some d -> nget (gnName d) (tbNodeNames (addNodes i ns tb)) <> None) /\
  (forall k, nget k (tbNodeNames tb) <> None -> nget k (tbNodeNames (addNodes i ns tb)) <> None).
Proof.
  induction ns as [|t ns IH]; intros i tb; cbn [addNodes].
  - repeat split; auto. intros j d H. unfold zget in H. destruct (j <? 0); [discriminate|]. destruct (Z.to_nat j); discriminate.
  - match goal with |- context [addNodes (i + 1) ns ?tb1] => destruct (IH (i + 1) tb1) as (A & B & C) end. cbn [tbNodeNames] in A, C. repeat split.
    + intros k x H. destruct (A k x H) as [(j & d & G1 & G2 & G3)|H1].
      * left. exists (j + 1), d. split; [|split; [exact G2|lia]]. rewrite zget_cons. pose proof (LangTextTotal.zget_in _ _ _ G1). destruct (Z.eqb_spec (j + 1) 0); [lia|]. replace (j + 1 - 1) with j by lia. exact G1.
      * rewrite nget_put in H1. destruct (nameEqb k (gnName t)) eqn:K; [|right; exact H1]. apply LangTextTotal.nameEqb_ok in K. injection H1 as <-. left. exists 0, t. repeat split; auto. lia.
    + intros j d G1. rewrite zget_cons in G1. destruct (Z.eqb_spec j 0) as [->|N]; [|apply (B (j - 1) d G1)]. injection G1 as ->. apply C. rewrite nget_put, nameEqb_refl. discriminate.
    + intros k H. apply C. rewrite nget_put. destruct (nameEqb k (gnName t)); [discriminate|exact H].
Qed.
Lemma NoDup_zget {A B} (f : A -> B) l i j x y : NoDup (map f l) -> zget l i = Some x -> zget l j = Some y -> f x = f y -> i = j.
Proof.
  intros N H H' E. pose proof (LangTextTotal.zget_in _ _ _ H) as R. pose proof (LangTextTotal.zget_in _ _ _ H') as R'. unfold zget in H, H'. destruct (Z.ltb_spec i 0); [lia|]. destruct (Z.ltb_spec j 0); [lia|].
  apply (map_nth_error f) in H. apply (map_nth_error f) in H'. rewrite NoDup_nth_error in N. assert (Z.to_nat i = Z.to_nat j); [|lia]. apply N; [apply nth_error_Some; congruence|congruence].
Qed.
Lemma nodeNames_ok k x : nget k (tbNodeNames tb) = Some x <-> (x = -1 /\ k = anyName) \/ exists d, zget (gNodes g) x = Some d /\ gnName d = k.
Proof.
  unfold newTables. match goal with |- context [addNodes 0 (gNodes g) ?t] => set (tb0 := t) end.
  assert (N0 : tbNodeNames tb0 = nput anyName (-1) []) by (unfold tb0; rewrite addTokens_nodes; reflexivity).
  destruct (addNodes_ok (gNodes g) 0 tb0) as (A & B & C). rewrite N0 in A, C.
  assert (A' : forall k x, nget k (tbNodeNames (addNodes 0 (gNodes g) tb0)) = Some x -> (x = -1 /\ k = anyName) \/ exists d, zget (gNodes g) x = Some d /\ gnName d = k).
  { intros k' x' H. destruct (A k' x' H) as [(j & d & G1 & G2 & G3)|H1]; [right; replace x' with j by lia; eauto|]. rewrite nget_put in H1. destruct (nameEqb k' anyName) eqn:E; [|discriminate]. apply LangTextTotal.nameEqb_ok in E. injection H1 as <-. left. auto. }
  split; [apply A'|]. intros [(-> & ->)|(d & G & <-)].
  - specialize (C anyName). destruct (nget anyName (tbNodeNames (addNodes 0 (gNodes g) tb0))) as [y|] eqn:Y; [|exfalso; apply C; [rewrite nget_put, nameEqb_refl; discriminate|reflexivity]]. destruct (A' _ _ Y) as [(-> & _)|(d & G & E)]; [reflexivity|]. exfalso. apply (gn_any g GN). rewrite <- E. apply in_map. unfold zget in G. destruct (y <? 0); [discriminate|]. eapply nth_error_In, G.
  - specialize (B x d G). destruct (nget (gnName d) (tbNodeNames (addNodes 0 (gNodes g) tb0))) as [y|] eqn:Y; [|contradiction]. destruct (A' _ _ Y) as [(_ & E)|(d' & G' & E)].
    + exfalso. apply (gn_any g GN). rewrite <- E. apply in_map. unfold zget in G. destruct (x <? 0); [discriminate|]. eapply nth_error_In, G.
    + f_equal. apply (NoDup_zget gnName (gNodes g) y x d' d (gn_nodes g GN) G' G E).
Qed.
Lemma nodeNames_known k : (exists x, nget k (tbNodeNames tb) = Some x) <-> knownNode g k.
Proof.
  split.
  - intros (x & H). apply nodeNames_ok in H. destruct H as [(_ & ->)|(d & G & <-)]; [left; reflexivity|right]. apply in_map. unfold zget in G. destruct (x <? 0); [discriminate|]. eapply nth_error_In, G.
  - intros [->|H]; [exists (-1); apply nodeNames_ok; left; auto|]. apply in_map_iff in H. destruct H as (d & <- & H). apply In_nth_error in H. destruct H as (i & H). exists (Z.of_nat i). apply nodeNames_ok. right. exists d. split; [|reflexivity]. unfold zget. destruct (Z.ltb_spec (Z.of_nat i) 0); [lia|]. rewrite Nat2Z.id. exact H.
Qed.
Lemma nodeNames_inj k k' x : nget k (tbNodeNames tb) = Some x -> nget k' (tbNodeNames tb) = Some x -> k = k'.
Proof.
  rewrite !nodeNames_ok. intros [(A & ->)|(d & G & <-)] [(B & ->)|(d' & G' & <-)]; [reflexivity| | |congruence].
  - apply LangTextTotal.zget_in in G'. lia.
  - apply LangTextTotal.zget_in in G. lia.
Qed.
Lemma nodeNames_low k x : nget k (tbNodeNames tb) = Some x -> -1 <= x < zlen (gNodes g).
Proof. rewrite nodeNames_ok. assert (0 <= zlen (gNodes g)) by (unfold zlen; lia). intros [(A & _)|(d & E & _)]; [lia|]. apply LangTextTotal.zget_in in E. lia. Qed.
Definition nodeId (p : name * NH) : Z * NH := ((match nget (fst p) (tbNodeNames tb) with Some i => i | None => 0 end) + 1, snd p).
Lemma setNodes_ok : forall (l : list (name * NH)) t, zlen t = zlen (gNodes g) + 1 ->
  ((forall n h, In (n, h) l -> knownNode g n) /\ setNodes g l t = (do t' <- putAll (map nodeId l) t ; Some (inl t'))) \/
  (exists n h, In (n, h) l /\ ~ knownNode g n /\ setNodes g l t = Some (inr (UnknownNode n))).
Proof.
  induction l as [|(k, h) l IH]; intros t L; cbn [setNodes map putAll]; [left; split; [intros n h []|reflexivity]|]. destruct (nget k (tbNodeNames tb)) as [i|] eqn:E.
  - pose proof (nodeNames_low _ _ E) as R. destruct (zset t (i + 1) (Some h)) as [t1|] eqn:ZS; [|rewrite zset_Some in ZS by lia; discriminate]. cbn [obind].
    destruct (zset_get _ _ _ _ ZS) as (L1 & _). destruct (IH t1) as [(A & B)|(n & h' & A & B & C)]; [lia| |].
    + left. split.
      * intros n h' [X|X]; [injection X as <- <-; apply nodeNames_known; eauto|apply (A n h' X)].
      * unfold nodeId at 1. cbn [fst snd]. rewrite E, ZS. cbn [obind]. exact B.
    + right. exists n, h'. split; [right; exact A|]. split; [exact B|exact C].
  - right. exists k, h. split; [left; reflexivity|]. split; [|reflexivity]. intros K. apply nodeNames_known in K. destruct K as (x & K). congruence.
Qed.
Definition nodeTableOf hs (t : list (option NH)) : Prop := zlen t = zlen (gNodes g) + 1 /\ forall x h, zget t (x + 1) = Some (Some h) <-> exists k, In (k, h) (hNodes hs) /\ nget k (tbNodeNames tb) = Some x.
Lemma newHookLayer_ok hs st : maps hs -> litsInv (iLiterals st) ->
  (exists n h, In (n, h) (hTokens hs) /\ ~ knownType g n /\ newHookLayer g hs st = Some (st, Some (UnknownTokenType n))) \/
  (knownTokens g hs /\ exists lits t, litsInv lits /\ extends (iLiterals st) lits /\ (hooksTokens hs = true -> tableOf hs lits t) /\
    let st1 := mkInst lits (if hooksTokens hs then iTokens st ++ [t] else iTokens st) (iNodes st) in
    (exists n h, In (n, h) (hNodes hs) /\ ~ knownNode g n /\ newHookLayer g hs st = Some (st1, Some (UnknownNode n))) \/
    (knownNodes g hs /\ exists nt, (hooksNodes hs = true -> nodeTableOf hs nt) /\ newHookLayer g hs st = Some (mkInst lits (iTokens st1) (if hooksNodes hs then iNodes st ++ [nt] else iNodes st), None))).
Proof.
  intros MP I. unfold newHookLayer. destruct (newTokenHooks_ok hs st MP I) as [(K & lits & t & E & I' & EX & TO)|(n & h & A & B & E)]; rewrite E; cbn [obind].
  - right. split; [exact K|]. exists lits, t. split; [exact I'|]. split; [exact EX|]. split; [exact TO|]. cbn [iLiterals iTokens iNodes].
    assert (CH : (hooksNodes hs = false /\ hNodes hs = []) \/ (hooksNodes hs = true /\ hNodes hs <> [])) by (unfold hooksNodes; destruct (hNodes hs); [left|right]; split; auto; discriminate).
    destruct CH as [(HN & HE)|(HN & HE)].
    + right. rewrite HE, HN. split; [intros n h H; rewrite HE in H; destruct H|]. exists []. split; [discriminate|reflexivity].
    + assert (NN : 0 <= zlen (gNodes g) + 1) by (unfold zlen; lia).
      destruct (hNodes hs) as [|p ns] eqn:HNE; [contradiction|]. rewrite <- HNE in *. rewrite zmake_Some by exact NN. cbn [obind].
      assert (LT : zlen (repeat (@None NH) (Z.to_nat (zlen (gNodes g) + 1))) = zlen (gNodes g) + 1) by (unfold zlen in *; rewrite repeat_length; lia).
      destruct (setNodes_ok (hNodes hs) _ LT) as [(A & B)|(n & h & A & B & C)].
      * right. split; [exact A|]. rewrite B.
        assert (R : forall i h, In (i, h) (map nodeId (hNodes hs)) -> 0 <= i < zlen (gNodes g) + 1).
        { intros i h H. apply in_map_iff in H. destruct H as ((k, h') & X & H). unfold nodeId in X. cbn [fst snd] in X. injection X as <- <-. pose proof (A k h' H) as KN. apply nodeNames_known in KN. destruct KN as (x & KN). rewrite KN. apply nodeNames_low in KN. lia. }
        assert (N : NoDup (map fst (map nodeId (hNodes hs)))).
        { rewrite map_map. apply (NoDup_map_key _ fst); [apply MP|]. intros (k, h) (k', h') H H' X. unfold nodeId in X. cbn [fst snd] in X |- *. pose proof (A k h H) as Y. pose proof (A k' h' H') as Y'. apply nodeNames_known in Y. apply nodeNames_known in Y'. destruct Y as (x & Y), Y' as (x' & Y'). rewrite Y, Y' in X. apply (nodeNames_inj k k' x Y). rewrite Y'. f_equal. lia. }
        destruct (putAll_ok (map nodeId (hNodes hs)) (repeat None (Z.to_nat (zlen (gNodes g) + 1)))) as (nt & P & L & _); [rewrite LT; exact R|exact N|]. rewrite P. cbn [obind]. exists nt. rewrite HN. split; [|reflexivity]. intros _. split; [lia|].
        intros x h. rewrite (putAll_in _ _ nt R N P), in_map_iff. split.
        -- intros ((k, h') & X & H). unfold nodeId in X. cbn [fst snd] in X. injection X as X <-. exists k. split; [exact H|]. pose proof (A k h' H) as Y. apply nodeNames_known in Y. destruct Y as (y & Y). rewrite Y in X |- *. f_equal. lia.
        -- intros (k & H & X). exists (k, h). split; [|exact H]. unfold nodeId. cbn [fst snd]. rewrite X. reflexivity.
      * left. exists n, h. split; [exact A|]. split; [exact B|]. rewrite C. reflexivity.
  - left. exists n, h. auto.
Qed.
(** ** Reading of tables *)
Lemma table_none {A} (t : list (option A)) x : 0 <= x < zlen t -> (forall h, zget t x <> Some (Some h)) -> zget t x = Some None.
Proof. intros R H. rewrite (zget_Some t x None R) in *. destruct (nth (Z.to_nat x) t None) as [h|]; [destruct (H h); reflexivity|reflexivity]. Qed.
Lemma slot_token hs lits t n x : maps hs -> litsInv lits -> tableOf hs lits t -> nget n (tbTokenNames tb) = Some x -> x + Parser.tokenHooksOffset < zlen t -> zget t (x + Parser.tokenHooksOffset) = Some (nget n (hTokens hs)).
Proof.
  intros MP I (L & _ & _ & T) N R. pose proof (tokenNames_low _ _ N) as LO. change Parser.tokenHooksOffset with 3 in *. destruct (nget n (hTokens hs)) as [h|] eqn:E.
  - apply T. left. exists n. split; [apply nget_In, E|exact N].
  - apply table_none; [lia|]. intros h H. apply T in H. destruct H as [(k & H & K)|(k & H & K)].
    + assert (k = n) by (apply (tokenNames_inj k n x K N)). subst k. rewrite (In_nget n h (hTokens hs)) in E by (apply MP || exact H). discriminate.
    + apply (litsInv_disj lits k n x I K N).
Qed.
Lemma slot_literal hs lits F t n x : maps hs -> litsInv F -> extends lits F -> tableOf hs lits t -> nget n F = Some x -> x + Parser.tokenHooksOffset < zlen t -> zget t (x + Parser.tokenHooksOffset) = Some (nget n (hLiterals hs)).
Proof.
  intros MP IF EX (L & _ & KL & T) N R. pose proof (litsInv_nonneg _ _ _ IF N) as LO. change Parser.tokenHooksOffset with 3 in *. destruct (nget n (hLiterals hs)) as [h|] eqn:E.
  - apply nget_In in E. apply T. right. exists n. split; [exact E|]. specialize (KL n h E). destruct (nget n lits) as [y|] eqn:Y; [|contradiction]. apply EX in Y. congruence.
  - apply table_none; [lia|]. intros h H. apply T in H. destruct H as [(k & H & K)|(k & H & K)].
    + apply (litsInv_disj F n k x IF N K).
    + assert (k = n) by (apply (litsInv_inj F k n x IF); [apply EX, K|exact N]). subst k. rewrite (In_nget n h (hLiterals hs)) in E by (apply MP || exact H). discriminate.
Qed.
(** a hook for a literal is in the range *)
Lemma slot_far hs lits F t n x : extends lits F -> tableOf hs lits t -> nget n F = Some x -> zlen t <= x + Parser.tokenHooksOffset -> nget n (hLiterals hs) = None.
Proof.
  intros EX (L & _ & KL & T) N R. destruct (nget n (hLiterals hs)) as [h|] eqn:E; [exfalso|reflexivity]. apply nget_In in E. pose proof (KL n h E) as K. destruct (nget n lits) as [y|] eqn:Y; [|contradiction]. assert (y = x) by (apply EX in Y; congruence). subst y. assert (X : zget t (x + Parser.tokenHooksOffset) = Some (Some h)) by (apply T; right; eauto). apply LangTextTotal.zget_in in X. lia.
Qed.
Lemma slot_far_token hs lits t n x : tableOf hs lits t -> nget n (tbTokenNames tb) = Some x -> zlen t <= x + Parser.tokenHooksOffset -> nget n (hTokens hs) = None.
Proof.
  intros (L & _ & KL & T) N R. destruct (nget n (hTokens hs)) as [h|] eqn:E; [exfalso|reflexivity]. apply nget_In in E. assert (X : zget t (x + Parser.tokenHooksOffset) = Some (Some h)) by (apply T; left; eauto). apply LangTextTotal.zget_in in X. lia.
Qed.
Lemma no_literal hs lits F t n : extends lits F -> tableOf hs lits t -> nget n F = None -> nget n (hLiterals hs) = None.
Proof. intros EX (_ & _ & KL & _) N. destruct (nget n (hLiterals hs)) as [h|] eqn:E; [exfalso|reflexivity]. apply nget_In in E. specialize (KL n h E). destruct (nget n lits) as [y|] eqn:Y; [|contradiction]. apply EX in Y. congruence. Qed.
End T.
Section Calls.
Context {Tok Src W E Inst R NH : Type}.
Notation TH := (@Parser.tokenHook Tok Src W E).
Lemma hookFor_ok (c : Parser.config Tok Src W E Inst R) (hs : hooks TH NH) lits F t tok : Parser.cGrammar c = g -> (forall k, Parser.cLiterals c k = nget k F) -> maps hs -> litsInv lits -> litsInv F -> extends lits F -> tableOf hs lits t ->
  properType g (Parser.cType c tok) -> Parser.hookFor c t tok = Some (pick g hs (Parser.cType c tok) (Parser.cText c tok)).
Proof.
  intros CG CL MP I IF EX T PT. pose proof T as (L & _). unfold Parser.hookFor, pick. set (tt := Parser.cType c tok) in *. rewrite CG, CL.
  pose proof (proj2 (tokenNames_ok eofName Lexer.EofTokenType)) as N1. specialize (N1 (or_introl (or_intror (or_introl (conj eq_refl eq_refl))))).
  pose proof (proj2 (tokenNames_ok eoiName Lexer.EoiTokenType)) as N2. specialize (N2 (or_introl (or_intror (or_intror (conj eq_refl eq_refl))))).
  pose proof (proj2 (tokenNames_ok anyName AnyToken)) as N3. specialize (N3 (or_introl (or_introl (conj eq_refl eq_refl)))).
  destruct (Z.eqb_spec tt Lexer.EofTokenType) as [Q|Q1].
  - rewrite Q in *. change (Lexer.EofTokenType <? 0) with true. cbv iota. cbn [obind Parser.firstHook]. rewrite (slot_token hs lits t _ _ MP I T N1) by (change (Lexer.EofTokenType + Parser.tokenHooksOffset) with 1; lia). cbn [obind]. destruct (nget eofName (hTokens hs)); reflexivity.
  - destruct (Z.eqb_spec tt Lexer.EoiTokenType) as [Q|Q2].
    + rewrite Q in *. change (Lexer.EoiTokenType <? 0) with true. cbv iota. cbn [obind Parser.firstHook]. rewrite (slot_token hs lits t _ _ MP I T N2) by (change (Lexer.EoiTokenType + Parser.tokenHooksOffset) with 0; lia). cbn [obind]. destruct (nget eoiName (hTokens hs)); reflexivity.
    + destruct PT as [PT|[PT|(d & PT)]]; [contradiction|contradiction|]. pose proof PT as (G & G1 & G2). pose proof (LangTextTotal.zget_in _ _ _ G) as RG. destruct (Z.ltb_spec tt 0); [lia|]. rewrite G. cbn [obind].
      assert (N4 : nget (gtName d) (tbTokenNames (newTables g)) = Some tt) by (apply tokenNames_ok; right; exists d; split; [exact PT|reflexivity]).
      assert (R3 : Parser.firstHook t [Parser.anyOffset] = Some (nget anyName (hTokens hs))).
      { cbn [Parser.firstHook]. change Parser.anyOffset with AnyToken. rewrite (slot_token hs lits t _ _ MP I T N3) by (change (AnyToken + Parser.tokenHooksOffset) with 2; lia). cbn [obind]. destruct (nget anyName (hTokens hs)); reflexivity. }
      assert (R2 : Parser.firstHook t ((if tt <=? zlen t - Parser.tokenHooksOffset - 1 then [tt] else []) ++ [Parser.anyOffset]) = Some (orElse (nget (gtName d) (hTokens hs)) (nget anyName (hTokens hs)))).
      { destruct (Z.leb_spec tt (zlen t - Parser.tokenHooksOffset - 1)) as [LE|LE].
        - cbn [app Parser.firstHook]. cbn [Parser.firstHook] in R3. rewrite (slot_token hs lits t _ _ MP I T N4) by lia. cbn [obind]. destruct (nget (gtName d) (hTokens hs)); [reflexivity|exact R3].
        - rewrite (slot_far_token hs lits t _ _ T N4) by lia. exact R3. }
      destruct (hasFlag (gtFlags d) NoLiteralsToken); [exact R2|]. destruct (nget (Parser.cText c tok) F) as [i|] eqn:EL.
      * destruct (Z.leb_spec i (zlen t - Parser.tokenHooksOffset - 1)) as [LE|LE].
        -- cbn [app Parser.firstHook]. rewrite (slot_literal hs lits F t _ _ MP IF EX T EL) by lia. cbn [obind]. destruct (nget (Parser.cText c tok) (hLiterals hs)); [reflexivity|exact R2].
        -- rewrite (slot_far hs lits F t _ _ EX T EL) by lia. exact R2.
      * rewrite (no_literal hs lits F t _ EX T EL). exact R2.
Qed.
End Calls.
(** the hook getNodeHook calls *)
Definition nodeHookFor {NH} (t : list (option NH)) (node : Z) : option (option NH) := do h <- zget t (node + 1) ; do a <- zget t 0 ; Some (orElse h a).
Lemma nodeHookFor_ok {TH NH} (hs : hooks TH NH) t i d : maps hs -> nodeTableOf hs t -> zget (gNodes g) i = Some d -> nodeHookFor t i = Some (pickNode hs (gnName d)).
Proof.
  intros MP (L & T) G. pose proof (LangTextTotal.zget_in _ _ _ G) as R. assert (N : nget (gnName d) (tbNodeNames (newTables g)) = Some i) by (apply nodeNames_ok; right; eauto).
  assert (N0 : nget anyName (tbNodeNames (newTables g)) = Some (-1)) by (apply nodeNames_ok; left; auto).
  assert (S : forall n x, nget n (tbNodeNames (newTables g)) = Some x -> zget t (x + 1) = Some (nget n (hNodes hs))).
  { intros n x X. pose proof (nodeNames_low _ _ X) as LO. destruct (nget n (hNodes hs)) as [h|] eqn:E.
    - apply T. exists n. split; [apply nget_In, E|exact X].
    - apply table_none; [lia|]. intros h H. apply T in H. destruct H as (k & H & K). assert (k = n) by (apply (nodeNames_inj k n x K X)). subst k. rewrite (In_nget n h (hNodes hs)) in E by (apply MP || exact H). discriminate. }
  unfold nodeHookFor, pickNode. rewrite (S _ _ N). cbn [obind]. rewrite (S _ _ N0 : zget t 0 = _). reflexivity.
Qed.

(** ** Installation *)
Section I.
Context {TH NH : Type}.
Implicit Types hs : hooks TH NH.
Definition inst (st : installed TH NH) (tl nl : list (hooks TH NH)) : Prop := litsInv (iLiterals st) /\
  Forall2 (fun hs t => maps hs /\ exists lits, litsInv lits /\ extends lits (iLiterals st) /\ tableOf hs lits t) tl (iTokens st) /\
  Forall2 (fun hs t => maps hs /\ nodeTableOf hs t) nl (iNodes st).
Lemma extends_trans a b c : extends a b -> extends b c -> extends a c.
Proof. intros A B k x H. apply B, A, H. Qed.
Lemma Forall2_app1 {A B} (P : A -> B -> Prop) l l' b x y : Forall2 P l l' -> (b = true -> P x y) -> Forall2 P (l ++ (if b then [x] else [])) (if b then l' ++ [y] else l').
Proof. intros F H. destruct b; [apply Forall2_app; [exact F|constructor; [apply H; reflexivity|constructor]]|rewrite app_nil_r; exact F]. Qed.
Lemma Forall2_mono {A B} (P Q : A -> B -> Prop) l l' : (forall x y, P x y -> Q x y) -> Forall2 P l l' -> Forall2 Q l l'.
Proof. intros H F. induction F; constructor; auto. Qed.
Lemma maps_part hs : maps hs -> maps (mkHooks (hTokens hs) (hLiterals hs) (@nil (name * NH))).
Proof. intros [A B C]. constructor; [exact A|exact B|constructor]. Qed.
Lemma newHookLayer_inst hs st tl nl : maps hs -> inst st tl nl -> exists st' e hs', newHookLayer g hs st = Some (st', e) /\ effective g hs hs' /\
  inst st' (tl ++ (if hooksTokens hs' then [hs'] else [])) (nl ++ (if hooksNodes hs' then [hs'] else [])) /\
  match e with None => knownTokens g hs /\ knownNodes g hs | Some e => namesUnknown g hs e end.
Proof.
  intros MP (I & FT & FN). destruct (newHookLayer_ok hs st MP I) as [(n & h & A & B & E)|(K & lits & t & I' & EX & TO & [(n & h & A & B & E)|(KN & nt & NT & E)])].
  - exists st, (Some (UnknownTokenType n)), (mkHooks [] [] []). split; [exact E|]. split; [apply eff_none; intros Q; apply B, (Q n h A)|]. split; [cbn [hooksTokens hooksNodes hTokens hLiterals hNodes]; rewrite !app_nil_r; split; [exact I|split; assumption]|]. split; [eauto|exact B].
  - eexists _, _, (mkHooks (hTokens hs) (hLiterals hs) []). split; [exact E|]. split; [apply eff_tokens; [exact K|intros Q; apply B, (Q n h A)]|]. split; [|split; [eauto|exact B]].
    split; [exact I'|]. cbn [iLiterals iTokens iNodes]. split.
    + change (hooksTokens (mkHooks (hTokens hs) (hLiterals hs) [])) with (hooksTokens hs). apply Forall2_app1.
      * eapply Forall2_mono; [|exact FT]. intros x y (Q & l & Q1 & Q2 & Q3). split; [exact Q|]. exists l. split; [exact Q1|]. split; [eapply extends_trans; eassumption|exact Q3].
      * intros HT. split; [apply maps_part, MP|]. exists lits. split; [exact I'|]. split; [intros k x H; exact H|exact (TO HT)].
    + change (hooksNodes (mkHooks (hTokens hs) (hLiterals hs) [])) with false. cbv iota. rewrite app_nil_r. exact FN.
  - eexists _, _, hs. split; [exact E|]. split; [apply eff_all; assumption|]. split; [|split; assumption]. split; [exact I'|]. cbn [iLiterals iTokens iNodes]. split.
    + apply Forall2_app1.
      * eapply Forall2_mono; [|exact FT]. intros x y (Q & l & Q1 & Q2 & Q3). split; [exact Q|]. exists l. split; [exact Q1|]. split; [eapply extends_trans; eassumption|exact Q3].
      * intros HT. split; [exact MP|]. exists lits. split; [exact I'|]. split; [intros k x H; exact H|exact (TO HT)].
    + apply Forall2_app1; [exact FN|]. intros HN. split; [exact MP|exact (NT HN)].
Qed.
Lemma filter_one {A} (f : A -> bool) x l : filter f (x :: l) = (if f x then [x] else []) ++ filter f l.
Proof. cbn [filter]. destruct (f x); reflexivity. Qed.
Lemma installLayers_inst : forall l st tl nl, Forall maps l -> inst st tl nl -> exists st' l', installLayers g l st = Some st' /\ Forall2 (effective g) l l' /\ inst st' (tl ++ filter hooksTokens l') (nl ++ filter hooksNodes l').
Proof.
  induction l as [|hs l IH]; intros st tl nl M I; [exists st, []; cbn [filter]; rewrite !app_nil_r; repeat split; auto; apply I|].
  inversion M as [|? ? M1 M2]; subst. cbn [installLayers]. destruct (newHookLayer_inst hs st tl nl M1 I) as (st1 & e & hs' & E & EF & I1 & _). rewrite E. cbn [obind fst].
  destruct (IH st1 _ _ M2 I1) as (st2 & l' & E2 & F & I2). exists st2, (hs' :: l'). split; [exact E2|]. split; [constructor; assumption|]. rewrite !filter_one, !app_assoc. exact I2.
Qed.
Lemma inst_start : inst (mkInst (tbLiterals (newTables g)) [] []) [] [].
Proof. split; [apply litsInv_start|]. split; constructor. Qed.
Lemma maps_default dflt hs : maps hs -> maps (withDefault dflt hs).
Proof.
  intros [A B C]. unfold withDefault. destruct (hNodes hs) as [|p l] eqn:E; [constructor; rewrite ?E; assumption|]. destruct (nget anyName (p :: l)) eqn:N; [constructor; rewrite ?E; assumption|]. constructor; cbn [hTokens hLiterals hNodes]; [exact A|exact B|]. unfold aMap. rewrite map_app. apply NoDup_app_k; [exact C|constructor; [intros []|constructor]|]. intros x X [<-|[]]. apply nget_None in N. apply N. exact X.
Qed.
Lemma default_table dflt hs h0 t : maps hs -> hooksNodes hs = true -> nodeTableOf hs (h0 :: t) -> nodeTableOf (withDefault dflt hs) ((match h0 with None => Some dflt | Some h => Some h end) :: t).
Proof.
  intros MP HN (L & T). assert (N0 : nget anyName (tbNodeNames (newTables g)) = Some (-1)) by (apply nodeNames_ok; left; auto).
  assert (S0 : h0 = nget anyName (hNodes hs)).
  { destruct (nget anyName (hNodes hs)) as [h|] eqn:E.
    - assert (X : zget (h0 :: t) (-1 + 1) = Some (Some h)) by (apply T; exists anyName; split; [apply nget_In, E|exact N0]). cbn in X. congruence.
    - destruct h0 as [h|]; [|reflexivity]. exfalso. assert (X : zget (Some h :: t) (-1 + 1) = Some (Some h)) by reflexivity. apply T in X. destruct X as (k & X & K). assert (k = anyName) by (apply (nodeNames_inj k anyName (-1) K N0)). subst k. rewrite (In_nget _ _ _ (mp_nodes _ MP) X) in E. discriminate. }
  unfold hooksNodes in HN. unfold withDefault. destruct (hNodes hs) as [|p l] eqn:EN; [discriminate|]. rewrite <- EN in *. rewrite <- S0. destruct h0 as [h|].
  - split; assumption.
  - split; [exact L|]. intros x h. cbn [hNodes]. rewrite zget_cons. destruct (Z.eqb_spec (x + 1) 0) as [Z|NZ].
    + assert (x = -1) by lia. subst x. split.
      * intros H. injection H as <-. exists anyName. split; [apply in_or_app; right; left; reflexivity|exact N0].
      * intros (k & H & K). assert (k = anyName) by (apply (nodeNames_inj k anyName (-1) K N0)). subst k. apply in_app_or in H. destruct H as [H|[H|[]]]; [|congruence]. rewrite (In_nget _ _ _ (mp_nodes _ MP) H) in S0. discriminate.
    + specialize (T x h). rewrite zget_cons in T. destruct (Z.eqb_spec (x + 1) 0); [lia|]. rewrite T. split; intros (k & H & K); exists k; (split; [|exact K]).
      * apply in_or_app. left. exact H.
      * apply in_app_or in H. destruct H as [H|[H|[]]]; [exact H|]. injection H as <- <-. exfalso. rewrite N0 in K. injection K as K. lia.
Qed.
Lemma installHooks_inst dflt user layers : maps user -> Forall maps layers ->
  (exists e, installHooks g dflt user layers = Some (inr e) /\ namesUnknown g user e) \/
  (knownTokens g user /\ knownNodes g user /\ exists st layers', installHooks g dflt user layers = Some (inl st) /\ Forall2 (effective g) layers layers' /\
    inst st (filter hooksTokens (user :: rev layers')) (filter hooksNodes (withDefault dflt user :: rev layers'))).
Proof.
  intros MU ML. unfold installHooks. destruct (newHookLayer_inst user _ _ _ MU inst_start) as (st & e & hs' & E & EF & I & K). rewrite E. cbn [obind]. destruct e as [e|]; [left; exists e; auto|]. right. destruct K as (K1 & K2). split; [exact K1|]. split; [exact K2|].
  assert (hs' = user) by (destruct EF; [reflexivity|contradiction|contradiction]). subst hs'. cbn [app] in I.
  assert (ST : exists st1, (match hNodes user with
                | [] => Some st
                | _ => match iNodes st with
                       | (None :: t) :: r => Some (mkInst (iLiterals st) (iTokens st) ((Some dflt :: t) :: r))
                       | (Some _ :: _) :: _ => Some st
                       | _ => None
                       end
                end) = Some st1 /\ inst st1 (if hooksTokens user then [user] else []) (if hooksNodes (withDefault dflt user) then [withDefault dflt user] else [])).
  { destruct (hNodes user) as [|p l] eqn:EN.
    - exists st. split; [reflexivity|]. replace (withDefault dflt user) with user by (unfold withDefault; rewrite EN; reflexivity). exact I.
    - assert (HN : hooksNodes user = true) by (unfold hooksNodes; rewrite EN; reflexivity). assert (HD : hooksNodes (withDefault dflt user) = true) by (unfold withDefault; rewrite EN; destruct (nget anyName (p :: l)); [exact HN|reflexivity]).
      rewrite HN in I. rewrite HD. destruct I as (I1 & I2 & I3). inversion I3 as [|? t ? r (MM & NT) I4 Q1 Q2]; subst. inversion I4; subst. assert (t <> []) by (intros ->; destruct NT as (L & _); unfold zlen in L; cbn in L; lia). destruct t as [|h0 t]; [contradiction|].
      pose proof (default_table dflt user h0 t MU HN NT) as D. exists (mkInst (iLiterals st) (iTokens st) [match h0 with None => Some dflt | Some h => Some h end :: t]). split.
      + destruct h0; [|reflexivity]. destruct st as [a b c]. cbn [iLiterals iTokens iNodes] in *. congruence.
      + split; [exact I1|]. split; [exact I2|]. constructor; [split; [apply maps_default, MU|exact D]|constructor]. }
  destruct ST as (st1 & -> & I1). cbn [obind]. destruct (installLayers_inst (rev layers) st1 _ _ (Forall_rev ML) I1) as (st2 & l' & E2 & F & I2). rewrite E2. cbn [obind]. exists st2, (rev l'). split; [reflexivity|]. split.
  - rewrite <- (rev_involutive layers). clear - F. induction F; cbn [rev]; [constructor|]. apply Forall2_app; [exact IHF|constructor; [assumption|constructor]].
  - rewrite rev_involutive, !filter_one. exact I2.
Qed.
End I.
End G.
