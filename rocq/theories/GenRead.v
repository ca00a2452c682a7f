(** Reading of generated Go files: lines and values. *)
From Coq Require Import String ZArith List Bool Lia.
From Verif Require Import Base BaseProofs Utf8 Grammar LangTypes LangString Gen GoSpec GenProofs.
From Verif Require LangText.
Import ListNotations.
Local Open Scope string_scope.
Local Open Scope list_scope.
Open Scope Z_scope.

Lemma zget_In {A} (l : list A) i x : zget l i = Some x -> In x l.
Proof. unfold zget. destruct (i <? 0); [discriminate|]. apply nth_error_In. Qed.
Lemma Some_inj {A} (a b : A) : Some a = Some b -> a = b.
Proof. congruence. Qed.
(** ** Values *)
Lemma read_mono f : forall f', (f <= f')%nat -> (forall ts x, readVal f ts = Some x -> readVal f' ts = Some x) /\ (forall ts x, readElems f ts = Some x -> readElems f' ts = Some x).
Proof.
  induction f as [|f IH]; intros f' L; [split; discriminate|]. destruct f' as [|f']; [lia|]. destruct (IH f' ltac:(lia)) as (V & E). split.
  - intros ts x H. cbn [readVal] in *.
    assert (K : forall t, (do r <- isOp 123 (snd t) ; do x <- readElems f r ; Some (VLit (Some (fst t)) (fst x), snd x)) = Some x -> (do r <- isOp 123 (snd (A := gotype) t) ; do x <- readElems f' r ; Some (VLit (Some (fst t)) (fst x), snd x)) = Some x).
    { intros t. destruct (isOp 123 (snd t)) as [r|]; cbn [obind]; [|discriminate]. destruct (readElems f r) as [y|] eqn:Y; cbn [obind]; [|discriminate]. rewrite (E _ _ Y). auto. }
    assert (KT : forall l, (do t <- readType l ; do r <- isOp 123 (snd t) ; do x <- readElems f r ; Some (VLit (Some (fst t)) (fst x), snd x)) = Some x -> (do t <- readType l ; do r <- isOp 123 (snd t) ; do x <- readElems f' r ; Some (VLit (Some (fst t)) (fst x), snd x)) = Some x).
    { intros l. destruct (readType l) as [t|]; cbn [obind]; [apply K|discriminate]. }
    assert (KE : forall l, (do x <- readElems f l ; Some (VLit None (fst x), snd x)) = Some x -> (do x <- readElems f' l ; Some (VLit None (fst x), snd x)) = Some x).
    { intros l. destruct (readElems f l) as [y|] eqn:Y; cbn [obind]; [|discriminate]. rewrite (E _ _ Y). auto. }
    assert (KV : forall l, (do x <- readVal f l ; Some (VAddr (fst x), snd x)) = Some x -> (do x <- readVal f' l ; Some (VAddr (fst x), snd x)) = Some x).
    { intros l. destruct (readVal f l) as [y|] eqn:Y; cbn [obind]; [|discriminate]. rewrite (V _ _ Y). auto. }
    repeat match goal with
    | H : match ?a with _ => _ end = Some _ |- _ => destruct a; try (apply KT; exact H); try (apply KE; exact H); try (apply KV; exact H); try exact H; try discriminate H
    end.
  - intros ts x H. cbn [readElems] in *.
    assert (K : forall key l, (do v <- readVal f l ; match snd v with GOp 44 :: r => do x <- readElems f r ; Some ((key, fst v) :: fst x, snd x) | GOp 125 :: r => Some ([(key, fst v)], r) | _ => None end) = Some x ->
      (do v <- readVal f' l ; match snd v with GOp 44 :: r => do x <- readElems f' r ; Some ((key, fst v) :: fst x, snd x) | GOp 125 :: r => Some ([(key : option name, fst v)], r) | _ => None end) = Some x).
    { intros key l. destruct (readVal f l) as [v|] eqn:Y; cbn [obind]; [|discriminate]. rewrite (V _ _ Y). cbn [obind]. 
      assert (KE : forall r, (do x <- readElems f r ; Some ((key, fst v) :: fst x, snd x)) = Some x -> (do x <- readElems f' r ; Some ((key, fst v) :: fst x, snd x)) = Some x).
      { intros r. destruct (readElems f r) as [y|] eqn:Z; cbn [obind]; [|discriminate]. rewrite (E _ _ Z). auto. }
      intros G. repeat match goal with | H : match ?a with _ => _ end = Some _ |- _ => destruct a; try (apply KE; exact H); try exact H; try discriminate H end. }
    destruct ts as [|t ts]; [exact (K None [] H)|]. destruct t; try exact (K None _ H).
    + destruct ts as [|t' ts]; [exact (K None _ H)|]. destruct t'; try exact (K None _ H). repeat match goal with | H : (let (_, _) := match ?a with _ => _ end in _) = Some _ |- _ => destruct a; try exact (K None _ H); try exact (K (Some n) _ H) end.
    + repeat match goal with | H : match ?a with _ => _ end = Some _ |- _ => is_var a; destruct a; try exact (K None _ H); try exact H end.
Qed.
Lemma readVal_mono f f' ts x : (f <= f')%nat -> readVal f ts = Some x -> readVal f' ts = Some x.
Proof. intros L. apply (read_mono f f' L). Qed.

Lemma read_ints f z r : readVal (S f) (ints z ++ r) = Some (VInt z, r).
Proof. unfold ints. destruct (z <? 0); cbn; [rewrite Z.opp_involutive|]; reflexivity. Qed.
(** one element *)
Lemma elem_key f k ts v r : readVal f ts = Some (v, r) -> readElems (S f) (GIdent k :: GOp 58 :: ts) =
  match r with GOp 44 :: r => do x <- readElems f r ; Some ((Some k, v) :: fst x, snd x) | GOp 125 :: r => Some ([(Some k, v)], r) | _ => None end.
Proof. intros H. cbn [readElems]. rewrite H. reflexivity. Qed.
Lemma elem_int f z r : readElems (S (S f)) (ints z ++ r) =
  match r with GOp 44 :: r => do x <- readElems (S f) r ; Some ((None, VInt z) :: fst x, snd x) | GOp 125 :: r => Some ([(None, VInt z)], r) | _ => None end.
Proof.
  pose proof (read_ints f z r) as H. remember (S f) as f1. unfold ints in *. destruct (z <? 0); cbn [app] in *; cbn [readElems]; rewrite H; reflexivity.
Qed.
Lemma elem_struct f ts v r : readVal f (GOp 123 :: ts) = Some (v, GOp 44 :: r) -> readElems (S f) (GOp 123 :: ts) = do x <- readElems f r ; Some ((None, v) :: fst x, snd x).
Proof. intros H. cbn [readElems]. rewrite H. reflexivity. Qed.
Lemma val_struct f ts es r : readElems f ts = Some (es, r) -> readVal (S f) (GOp 123 :: ts) = Some (VLit None es, r).
Proof. intros H. cbn [readVal]. rewrite H. reflexivity. Qed.

Lemma val_slice f a b ts es r : readElems f ts = Some (es, r) -> readVal (S f) (GOp 91 :: GOp 93 :: GIdent a :: GOp 46 :: GIdent b :: GOp 123 :: ts) = Some (VLit (Some (TSlice (TName [a; b]))) es, r).
Proof. intros H. cbn [readVal readType obind fst snd isOp]. change (123 =? 123) with true. cbv iota. cbn [obind]. rewrite H. reflexivity. Qed.

(** ** Lines *)
Definition K (s : string) : name := bytes s.
Definition key (s : string) : list gotok := [GIdent (bytes s); GOp 58].
Definition tokenToks (t : gtoken) : list gotok :=
  GOp 123 :: key "Name" ++ [GStr (gtName t); GOp 44] ++ key "Re" ++ [GStr (gtRe t); GOp 44] ++ key "Group" ++ ints (gtGroup t) ++ [GOp 44] ++ key "Flags" ++ ints (gtFlags t) ++ [GOp 125].
Definition tokenVal (t : gtoken) : val :=
  VLit None [(Some (K "Name"), VStr (gtName t)); (Some (K "Re"), VStr (gtRe t)); (Some (K "Group"), VInt (gtGroup t)); (Some (K "Flags"), VInt (gtFlags t))].
Definition nodeToks (n : gnode) : list gotok := GOp 123 :: key "Name" ++ [GStr (gnName n); GOp 44] ++ key "FirstState" ++ ints (gnFirst n) ++ [GOp 125].
Definition nodeVal (n : gnode) : val := VLit None [(Some (K "Name"), VStr (gnName n)); (Some (K "FirstState"), VInt (gnFirst n))].
Definition stateToks (s : state) : list gotok := GOp 123 :: ints (sTypes s) ++ [GOp 44] ++ ints (sLowMulti s) ++ [GOp 44] ++ ints (sHighMulti s) ++ [GOp 44] ++ ints (sLow s) ++ [GOp 44] ++ ints (sHigh s) ++ [GOp 125].
Definition stateVal (s : state) : val := VLit None (map (fun z => (None, VInt z)) [sTypes s; sLowMulti s; sHighMulti s; sLow s; sHigh s]).
Definition tripleToks (a b c : Z) : list gotok := GOp 123 :: ints a ++ [GOp 44] ++ ints b ++ [GOp 44] ++ ints c ++ [GOp 125].
Definition tripleVal (a b c : Z) : val := VLit None (map (fun z => (None, VInt z)) [a; b; c]).

Ltac elems := repeat first
  [ progress cbn [app obind fst snd]
  | rewrite <- app_assoc
  | rewrite elem_int
  | rewrite read_ints
  | match goal with |- context [readElems (S ?f) (GIdent ?k :: GOp 58 :: ints ?z ++ ?r)] => rewrite (elem_key f k (ints z ++ r) (VInt z) r (read_ints _ z r)) end
  | match goal with |- context [readElems (S (S ?f)) (GIdent ?k :: GOp 58 :: GStr ?s :: ?r)] => rewrite (elem_key (S f) k (GStr s :: r) (VStr s) r eq_refl) end ].
Lemma read_token f t r : readVal (9 + f) (tokenToks t ++ r) = Some (tokenVal t, r).
Proof. unfold tokenToks, key. cbn [app Nat.add]. apply val_struct. elems. reflexivity. Qed.
Lemma read_node f n r : readVal (9 + f) (nodeToks n ++ r) = Some (nodeVal n, r).
Proof. unfold nodeToks, key. cbn [app Nat.add]. apply val_struct. elems. reflexivity. Qed.
Lemma read_state f s r : readVal (9 + f) (stateToks s ++ r) = Some (stateVal s, r).
Proof. unfold stateToks, key. cbn [app Nat.add]. apply val_struct. elems. reflexivity. Qed.
Lemma read_triple f a b c r : readVal (9 + f) (tripleToks a b c ++ r) = Some (tripleVal a b c, r).
Proof. unfold tripleToks, key. cbn [app Nat.add]. apply val_struct. elems. reflexivity. Qed.

Section List.
Context {A : Type}.
Variable toks : A -> list gotok.
Variable v : A -> val.
Hypothesis OPEN : forall x, exists l, toks x = GOp 123 :: l.
Hypothesis READ : forall f x r, readVal (9 + f) (toks x ++ r) = Some (v x, r).
Definition lines (l : list A) : list gotok := concat (map (fun x => toks x ++ [GOp 44]) l).
Lemma read_lines l : forall f r, readElems (10 + length l + f) (lines l ++ GOp 125 :: r) = Some (map (fun x => (None, v x)) l, r).
Proof.
  induction l as [|x l IH]; intros f r; [reflexivity|]. cbn [lines map concat length]. fold (lines l). rewrite <- !app_assoc. cbn [app]. destruct (OPEN x) as (ts & E).
  pose proof (READ (S (length l) + f) x (GOp 44 :: lines l ++ GOp 125 :: r)) as R. rewrite E in *. cbn [app] in *. replace (10 + S (length l) + f)%nat with (S (9 + (S (length l) + f)))%nat by lia.
  rewrite (elem_struct _ _ _ _ R). replace (9 + (S (length l) + f))%nat with (10 + length l + f)%nat by lia. rewrite IH. reflexivity.
Qed.
Lemma lines_length l : (length l <= length (lines l))%nat.
Proof. induction l as [|x l IH]; [auto|]. cbn [lines map concat length]. fold (lines l). rewrite !app_length. cbn. lia. Qed.
(** a field of the grammar *)
Definition fieldToks (k ty : string) (l : list A) : list gotok :=
  key k ++ [GOp 91; GOp 93; GIdent (bytes "grammar"); GOp 46; GIdent (bytes ty); GOp 123] ++ lines l ++ [GOp 125; GOp 44].
Definition fieldVal (ty : string) (l : list A) : val := VLit (Some (TSlice (gType ty))) (map (fun x => (None, v x)) l).
Lemma read_field f k ty l r : readElems (12 + length l + f) (fieldToks k ty l ++ r) = do x <- readElems (11 + length l + f) r ; Some ((Some (bytes k), fieldVal ty l) :: fst x, snd x).
Proof.
  unfold fieldToks, key. repeat (rewrite <- app_assoc; cbn [app]).
  rewrite (elem_key (11 + length l + f) _ _ (fieldVal ty l) (GOp 44 :: r)); [reflexivity|]. apply (val_slice (10 + length l + f)). apply read_lines.
Qed.
End List.

(** ** Tokens of lines *)
Section Run.
Variable isPrint : Z -> bool.
Hypothesis PR : forall r, isPrint r = true -> 32 <= r /\ r <> 65279.
Lemma run_const p ts b b' r : run (Idle b) p = Some (ts, Idle b') -> run (Idle b) (p ++ r) = pre ts (run (Idle b') r).
Proof. apply run_app. Qed.
(** constant text: find its tokens *)
Ltac const := match goal with |- context [run (Idle ?b) (?p ++ ?r)] =>
  let x := eval vm_compute in (run (Idle b) p) in
  match x with Some (?ts, Idle ?b') => rewrite (run_const p ts b b' r) by (vm_compute; reflexivity) end end.
Ltac num := match goal with |- context [run (Idle ?b) (dec ?z ++ bytes ?s ++ ?r)] =>
  let x := eval vm_compute in (bytes s) in match x with ?c :: ?t => change (bytes s ++ r) with (c :: (t ++ r)); rewrite (run_dec z c (t ++ r) b) by (assumption || reflexivity); change (c :: (t ++ r)) with (bytes s ++ r) end end.
Ltac pieces := repeat first [ rewrite <- !app_assoc | rewrite (run_quote isPrint PR) by assumption | num | const ]; rewrite ?pre_pre.
Ltac same := f_equal; repeat (first [rewrite <- app_assoc | progress cbn [app] | rewrite app_nil_r]); reflexivity.

Definition goodToken (t : gtoken) : Prop := Forall byteZ (gtName t) /\ Forall byteZ (gtRe t) /\ small (gtGroup t) /\ small (gtFlags t).
Definition goodNode (n : gnode) : Prop := Forall byteZ (gnName n) /\ small (gnFirst n).
Definition goodState (s : state) : Prop := small (sTypes s) /\ small (sLowMulti s) /\ small (sHighMulti s) /\ small (sLow s) /\ small (sHigh s).
Lemma run_tokenLine t r : goodToken t -> run (Idle false) (tokenLine isPrint t ++ r) = pre (tokenToks t ++ [GOp 44]) (run (Idle false) r).
Proof.
  intros (A & B & C & D). unfold tokenLine. pieces. unfold tokenToks, key. same.
Qed.
Lemma run_nodeLine n r : goodNode n -> run (Idle false) (nodeLine isPrint n ++ r) = pre (nodeToks n ++ [GOp 44]) (run (Idle false) r).
Proof. intros (A & B). unfold nodeLine. pieces. unfold nodeToks, key. same. Qed.
Lemma run_lines {X} (line : X -> list Z) (toks : X -> list gotok) (good : X -> Prop) (H : forall x r, good x -> run (Idle false) (line x ++ r) = pre (toks x ++ [GOp 44]) (run (Idle false) r)) l r :
  Forall good l -> run (Idle false) (concat (map line l) ++ r) = pre (lines toks l) (run (Idle false) r).
Proof. intros F. induction F as [|x l G F IH]; [symmetry; apply pre_nil|]. cbn [map concat lines]. rewrite <- app_assoc, H, IH, pre_pre by exact G. reflexivity. Qed.
Lemma run_comment p s r : Forall (fun b => b <> 10) p -> run (Comment s) (p ++ 10 :: r) = run (Idle s) (10 :: r).
Proof.
  intros F. induction F as [|b p B F IH]; cbn [app]; [rewrite !run_cons; reflexivity|]. rewrite (run_cons (Comment s) b). cbn [step]. apply Z.eqb_neq in B. rewrite B, pre_nil. exact IH.
Qed.
Lemma run_marked p r : Forall (fun b => b <> 10) p -> run (Idle false) (bytes " // " ++ p ++ 10 :: r) = run (Idle false) r.
Proof.
  intros F. rewrite (run_app _ (bytes " // ") _ [] (Comment false)) by reflexivity. rewrite pre_nil, run_comment by exact F. rewrite run_cons. assert (X : step (Idle false) 10 = Some ([], Idle false)) by reflexivity. rewrite X. apply pre_nil.
Qed.
Definition noNl (p : list Z) : Prop := Forall (fun b => b <> 10) p.
Lemma noNl_app a b : noNl a -> noNl b -> noNl (a ++ b).
Proof. intros A B. apply Forall_app. auto. Qed.
Lemma noNl_digits f n : 0 <= n -> noNl (digits f n).
Proof.
  revert n. induction f as [|f IH]; intros n H; [constructor|]. cbn [digits]. destruct (n <? 10); [repeat constructor; lia|]. apply noNl_app; [apply IH, Z.div_pos; lia|]. pose proof (Z.mod_pos_bound n 10 ltac:(lia)). repeat constructor. lia.
Qed.
Lemma noNl_dec z : noNl (dec z).
Proof. unfold dec. destruct (Z.ltb_spec z 0); [constructor; [lia|]|]; apply noNl_digits; lia. Qed.
(** names of nodes stand in comments *)
Lemma run_stateLines nodes sts : Forall (fun n => noNl (gnName n)) nodes -> Forall goodState sts -> forall i next item text r, stateLines nodes i sts next item = Some text ->
  run (Idle false) (text ++ r) = pre (lines stateToks sts) (run (Idle false) r).
Proof.
  intros NN F. induction F as [|s sts (A & B & C & D & E) F IH]; intros i next item text r H; cbn [stateLines] in H; [apply Some_inj in H; subst text; symmetry; apply pre_nil|].
  cbn [lines map concat]. fold (lines stateToks sts). destruct (i =? next).
  - destruct (zget nodes item) as [n|] eqn:N; cbn [obind] in H; [|discriminate]. destruct (if item + 1 <? zlen nodes then _ else _) as [next'|]; cbn [obind] in H; [|discriminate]. destruct (stateLines nodes (i + 1) sts next' (item + 1)) as [rest|] eqn:R; cbn [obind] in H; [|discriminate]. apply Some_inj in H; subst text.
    assert (NG : noNl (gnName n)) by (rewrite Forall_forall in NN; apply NN; apply zget_In in N; exact N).
    rewrite <- !app_assoc. do 13 first [num | const]. rewrite !pre_pre.
    assert (X : bytes " // " ++ gnName n ++ bytes "(" ++ dec i ++ bytes ")" ++ nl ++ rest ++ r = bytes " // " ++ (gnName n ++ bytes "(" ++ dec i ++ bytes ")") ++ 10 :: rest ++ r) by (rewrite <- !app_assoc; reflexivity). rewrite X, run_marked.
    + rewrite (IH _ _ _ _ r R), pre_pre. unfold stateToks. same.
    + repeat apply noNl_app; try apply noNl_dec; auto; repeat constructor; discriminate.
  - destruct (stateLines nodes (i + 1) sts next item) as [rest|] eqn:R; cbn [obind] in H; [|discriminate]. apply Some_inj in H; subst text.
    rewrite <- !app_assoc. do 14 first [num | const]. rewrite (IH _ _ _ _ r R), !pre_pre. unfold stateToks. same.
Qed.
Lemma run_triple a b c r : small a -> small b -> small c -> run (Idle false) (triple a b c ++ r) = pre (tripleToks a b c ++ [GOp 44]) (run (Idle false) r).
Proof. intros A B C. unfold triple. pieces. unfold tripleToks. same. Qed.
Lemma run_mark item i p r : run (Idle false) (mark item i ++ 10 :: r) = run (Idle false) r /\ run (Idle false) (mark item i ++ 10 :: p ++ r) = run (Idle false) (p ++ r).
Proof.
  assert (X : forall q, run (Idle false) (mark item i ++ 10 :: q) = run (Idle false) q).
  { intros q. unfold mark. assert (Y : (bytes " // " ++ dec item ++ bytes "(" ++ dec i ++ bytes ")") ++ 10 :: q = bytes " // " ++ (dec item ++ bytes "(" ++ dec i ++ bytes ")") ++ 10 :: q) by (rewrite <- !app_assoc; reflexivity). rewrite Y. apply run_marked. repeat apply noNl_app; try apply noNl_dec; repeat constructor; discriminate. }
  split; apply X.
Qed.
Lemma run_nl r : run (Idle false) (10 :: r) = run (Idle false) r.
Proof. rewrite run_cons. assert (X : step (Idle false) 10 = Some ([], Idle false)) by reflexivity. rewrite X. apply pre_nil. Qed.
Definition goodMulti (m : multiRule) : Prop := small (mToken m) /\ small (mLow m) /\ small (mHigh m).
Definition goodRule (r : rule) : Prop := small (rToken r) /\ small (rState r) /\ small (rNode r).
Definition multiToks (m : multiRule) := tripleToks (mToken m) (mLow m) (mHigh m).
Definition ruleToks (r : rule) := tripleToks (rToken r) (rState r) (rNode r).
(** lines of rules start with a newline *)
Lemma run_multiLines gr ms : Forall goodMulti ms -> forall i ni r, run (Idle false) (multiLines gr i ms ni ++ 10 :: r) = pre (lines multiToks ms) (run (Idle false) r).
Proof.
  intros F. induction F as [|m ms (A & B & C) F IH]; intros i ni r; [cbn [multiLines app lines map concat]; rewrite run_nl, pre_nil; reflexivity|].
  cbn [multiLines lines map concat]. fold (lines multiToks ms). rewrite <- app_assoc, run_triple by assumption. unfold multiToks at 1. destruct (i =? fst ni).
  - rewrite <- app_assoc. specialize (IH (i + 1) (findMultiRuleState gr (snd ni + 1)) r). rewrite <- (pre_pre (tripleToks (mToken m) (mLow m) (mHigh m) ++ [GOp 44]) (lines multiToks ms)), <- IH. f_equal. destruct (multiLines gr (i + 1) ms _) as [|c l] eqn:E; [cbn [app]; rewrite (proj1 (run_mark _ _ [] r)), run_nl; reflexivity|].
    assert (c = 10) as -> by (destruct ms as [|m' ms]; [discriminate E|]; cbn [multiLines] in E; unfold triple, nl in E; cbn [app] in E; congruence). cbn [app]. rewrite (proj1 (run_mark _ _ [] _)), run_nl. reflexivity.
  - rewrite IH, pre_pre. reflexivity.
Qed.
Lemma run_ruleLines gr rs : Forall goodRule rs -> forall i ni text r, ruleLines gr i rs ni = Some text -> run (Idle false) (text ++ 10 :: r) = pre (lines ruleToks rs) (run (Idle false) r).
Proof.
  intros F. induction F as [|x rs (A & B & C) F IH]; intros i ni text r H; cbn [ruleLines] in H; [apply Some_inj in H; subst text; cbn [app lines map concat]; rewrite run_nl, pre_nil; reflexivity|].
  cbn [lines map concat]. fold (lines ruleToks rs). unfold ruleToks at 1. destruct (i =? fst ni).
  - destruct (findRuleState gr (snd ni + 1)) as [ni'|]; cbn [obind] in H; [|discriminate]. destruct (ruleLines gr (i + 1) rs ni') as [rest|] eqn:R; cbn [obind] in H; [|discriminate]. apply Some_inj in H; subst text. rewrite <- !app_assoc, run_triple by assumption.
    rewrite (app_assoc _ [GOp 44] (lines ruleToks rs)), <- (pre_pre (tripleToks (rToken x) (rState x) (rNode x) ++ [GOp 44]) (lines ruleToks rs)), <- (IH _ _ _ r R). f_equal. destruct rest as [|c l]; [cbn [app]; rewrite (proj1 (run_mark _ _ [] r)), run_nl; reflexivity|].
    assert (c = 10) as ->.
    { destruct rs as [|x' rs]; [discriminate R|]. cbn [ruleLines] in R. destruct (i + 1 =? fst ni').
      - destruct (findRuleState gr (snd ni' + 1)) as [ni''|]; cbn [obind] in R; [|discriminate]. destruct (ruleLines gr (i + 1 + 1) rs ni'') as [rest|]; cbn [obind] in R; [|discriminate]. unfold triple, nl in R. cbn [app] in R. congruence.
      - destruct (ruleLines gr (i + 1 + 1) rs ni') as [rest|]; cbn [obind] in R; [|discriminate]. unfold triple, nl in R. cbn [app] in R. congruence. }
    cbn [app]. rewrite (proj1 (run_mark _ _ [] _)), run_nl. reflexivity.
  - destruct (ruleLines gr (i + 1) rs ni) as [rest|] eqn:R; cbn [obind] in H; [|discriminate]. apply Some_inj in H; subst text. rewrite <- !app_assoc, run_triple by assumption. rewrite (IH _ _ _ r R), pre_pre, <- app_assoc. reflexivity.
Qed.

(** ** The header *)
Lemma run_word p : isIdent p = true -> exists acc, run (Idle false) p = Some ([], Word acc) /\ rev acc = p.
Proof.
  intros H. destruct p as [|b p]; [discriminate|]. cbn [isIdent] in H. apply andb_true_iff in H. destruct H as (A & B). cbn [forallb] in B. apply andb_true_iff in B. destruct B as (B & C).
  assert (LT : letterB b = true) by (unfold identByte in B; apply negb_true_iff in A; rewrite A, orb_false_r in B; exact B).
  assert (S1 : step (Idle false) b = Some ([], Word [b])).
  { cbn [step]. unfold idle. unfold letterB, between in LT. rewrite !orb_true_iff, !andb_true_iff, !Z.leb_le, Z.eqb_eq in LT. replace ((b =? 32) || (b =? 9) || (b =? 13)) with false by (symmetry; rewrite !orb_false_iff, !Z.eqb_neq; lia). replace (b =? 10) with false by (symmetry; apply Z.eqb_neq; lia).
    replace (letterB b) with true; [reflexivity|]. symmetry. unfold letterB, between. rewrite !orb_true_iff, !andb_true_iff, !Z.leb_le, Z.eqb_eq. exact LT. }
  rewrite run_cons, S1, pre_nil. enough (G : forall acc, exists acc', run (Word acc) p = Some ([], Word acc') /\ rev acc' = rev acc ++ p) by (destruct (G [b]) as (a & X & Y); exists a; split; [exact X|exact Y]).
  clear - C. revert C. induction p as [|c p IH]; intros C acc; [exists acc; rewrite app_nil_r; auto|]. cbn [forallb] in C. apply andb_true_iff in C. destruct C as (C & D). rewrite run_cons. cbn [step].
  assert (LD : letterB c || digitB c = true) by exact C. rewrite LD, pre_nil. destruct (IH D (c :: acc)) as (a & X & Y). exists a. split; [exact X|]. rewrite Y. cbn [rev]. rewrite <- app_assoc. reflexivity.
Qed.
Lemma run_ident p c r : isIdent p = true -> isKey p = false -> letterB c || digitB c = false -> run (Idle false) (p ++ c :: r) = pre [GIdent p] (run (Idle true) (c :: r)).
Proof.
  intros I NK C. destruct (run_word p I) as (acc & R & <-). rewrite (run_app _ _ _ _ _ R), pre_nil, !run_cons. cbn [step]. rewrite C. unfold word. rewrite NK. destruct (idle true c) as [(a, m)|]; cbn [obind fst snd]; [|reflexivity]. rewrite pre_pre. reflexivity.
Qed.
Definition headToks (pkg var : name) : list gotok :=
  [GKey (bytes "package"); GIdent pkg; GSemi; GKey (bytes "import"); GStr (bytes "github.com/ava12/llx/grammar"); GSemi; GKey (bytes "var"); GIdent var; GOp 61].
Definition openToks : list gotok := [GOp 38; GIdent (bytes "grammar"); GOp 46; GIdent (bytes "Grammar"); GOp 123].
Lemma run_header pkg var r : isIdent pkg = true -> isKey pkg = false -> isIdent var = true -> isKey var = false -> run (Idle false) (header pkg var ++ r) = pre (headToks pkg var ++ openToks) (run (Idle false) r).
Proof.
  intros A B C D. unfold header. rewrite <- !app_assoc. set (rest := bytes "package " ++ _). change (bytes "// Code generated with llxgen." ++ nl ++ nl ++ rest) with ((bytes "// Code generated with llxgen." ++ nl ++ nl) ++ rest). const. subst rest. rewrite (run_const (bytes "package ") [GKey (bytes "package")] false false) by (vm_compute; reflexivity). unfold nl at 1. cbn [app]. rewrite (run_ident pkg 10) by auto.
  change (10 :: nl ++ bytes "import ""github.com/ava12/llx/grammar""" ++ nl ++ nl ++ bytes "var " ++ var ++ bytes " = &grammar.Grammar{" ++ nl ++ r) with ((10 :: nl ++ bytes "import ""github.com/ava12/llx/grammar""" ++ nl ++ nl ++ bytes "var ") ++ var ++ 32 :: bytes "= &grammar.Grammar{" ++ nl ++ r).
  const. rewrite (run_ident var 32) by auto. change (32 :: bytes "= &grammar.Grammar{" ++ nl ++ r) with ((32 :: bytes "= &grammar.Grammar{" ++ nl) ++ r). const. rewrite !pre_pre. reflexivity.
Qed.

(** ** Body *)
Definition goodGrammar (g : grammar) : Prop :=
  Forall goodToken (gTokens g) /\ Forall goodNode (gNodes g) /\ Forall (fun n => noNl (gnName n)) (gNodes g) /\ Forall goodState (gStates g) /\ Forall goodMulti (gMultiRules g) /\ Forall goodRule (gRules g).
Definition tokensText (g : grammar) : list Z := tab ++ bytes "Tokens: []grammar.Token{" ++ nl ++ concat (map (tokenLine isPrint) (gTokens g)) ++ tab ++ bytes "}," ++ nl.
Definition bodyToks (g : grammar) : list gotok :=
  fieldToks tokenToks "Tokens" "Token" (gTokens g) ++ fieldToks nodeToks "Nodes" "Node" (gNodes g) ++ fieldToks stateToks "States" "State" (gStates g) ++
  fieldToks multiToks "MultiRules" "MultiRule" (gMultiRules g) ++ fieldToks ruleToks "Rules" "Rule" (gRules g) ++ [GOp 125; GSemi].
Lemma run_tokensText g r : Forall goodToken (gTokens g) -> run (Idle false) (tokensText g ++ r) = pre (fieldToks tokenToks "Tokens" "Token" (gTokens g)) (run (Idle false) r).
Proof.
  intros F. unfold tokensText. rewrite <- !app_assoc. do 3 const. rewrite (run_lines (tokenLine isPrint) tokenToks goodToken) by (auto; intros; apply run_tokenLine; auto). do 3 const. rewrite !pre_pre. unfold fieldToks, key. same.
Qed.
Lemma run_body g text : goodGrammar g -> gLayers g = [] -> body isPrint g = Some text -> run (Idle false) text = Some (bodyToks g, Idle false).
Proof.
  intros (A & B & B' & C & D & E) L H. unfold body in H. rewrite L in H. destruct (stateLines (gNodes g) 0 (gStates g) 0 0) as [sts|] eqn:S0; cbn [obind] in H; [|discriminate].
  destruct (match gRules g with [] => _ | _ => _ end) as [rs|] eqn:R0; cbn [obind] in H; [|discriminate]. apply Some_inj in H; subst text. cbn [app].
  change (tab ++ bytes "Tokens: []grammar.Token{" ++ nl ++ concat (map (tokenLine isPrint) (gTokens g)) ++ tab ++ bytes "}," ++ nl) with (tokensText g). rewrite run_tokensText by auto.
  rewrite <- !app_assoc. do 3 const. rewrite (run_lines (nodeLine isPrint) nodeToks goodNode) by (auto; intros; apply run_nodeLine; auto). do 3 const. do 3 const. rewrite (run_stateLines _ _ B' C _ _ _ _ _ S0). do 3 const. do 2 const.
  assert (M : forall r, run (Idle false) (match gMultiRules g with [] => bytes "}," ++ nl | _ => multiLines g 0 (gMultiRules g) (findMultiRuleState g 0) ++ nl ++ tab ++ bytes "}," ++ nl end ++ r) = pre (lines multiToks (gMultiRules g) ++ [GOp 125; GOp 44]) (run (Idle false) r)).
  { intros r. destruct (gMultiRules g) as [|m ms] eqn:EM; [rewrite <- app_assoc; do 2 const; rewrite !pre_pre; reflexivity|]. rewrite <- EM in *. rewrite <- !app_assoc. unfold nl at 1. cbn [app]. rewrite run_multiLines by exact D. do 3 const. rewrite !pre_pre. same. }
  assert (R : forall r, run (Idle false) (rs ++ r) = pre (lines ruleToks (gRules g) ++ [GOp 125; GOp 44]) (run (Idle false) r)).
  { intros r. destruct (gRules g) as [|m ms] eqn:EM; [apply Some_inj in R0; subst rs; rewrite <- app_assoc; do 2 const; rewrite !pre_pre; reflexivity|]. rewrite <- EM in *. destruct (findRuleState g 0) as [ni|]; cbn [obind] in R0; [|discriminate]. destruct (ruleLines g 0 (gRules g) ni) as [l|] eqn:RL; cbn [obind] in R0; [|discriminate]. apply Some_inj in R0; subst rs.
    rewrite <- !app_assoc. unfold nl at 1. cbn [app]. rewrite (run_ruleLines g _ E _ _ _ _ RL). do 3 const. rewrite !pre_pre. same. }
  destruct (gMultiRules g) as [|m0 ms0] eqn:EM; rewrite M; do 2 const; rewrite R; const; (assert (Z : run (Idle true) nl = Some ([GSemi], Idle false)) by reflexivity); rewrite Z; cbn [pre]; f_equal; unfold bodyToks, fieldToks, key; rewrite EM; f_equal; repeat (first [rewrite <- app_assoc | progress cbn [app] | rewrite app_nil_r]); reflexivity.
Qed.
End Run.
