(** Hook layer indent (C35, C56, C57). *)
From Coq Require Import String ZArith List Bool Lia.
From Verif Require Import Base BaseProofs Grammar LangTypes Layers LayersSpec LayersProofs StdLayers StdLayersSpec Prop_StdLayers Indent IndentSpec IndentProofs IndentLayout.
From Verif Require Lexer LangText LangTextTotal.
Import ListNotations.
Local Open Scope string_scope.
Local Open Scope list_scope.
Open Scope Z_scope.

(** ** Definitions of the layer *)
Section Setup.
Variable tokenType : name -> option Z.
Variable tokens : list gtoken.
(** the empty name is not a name of a type of tokens (it stands for any token, parser.go:24-32) *)
Hypothesis noEmpty : forall i, tokenType [] = Some i -> i < 0.
Definition spaceType (cs : list gcommand) (ty : Z) : Prop := exists n, In n (argsOf (b "space") cs) /\ tokenType n = Some ty.
Definition sideType (ty : Z) : Prop := exists d, zget tokens ty = Some d /\ hasFlag (gtFlags d) SideToken = true.
Definition moves : list name := [b "on-indent"; b "on-dedent"].
(** an error that names a broken rule: by the command that breaks it *)
Definition iexplained (pre : list gcommand) (c : gcommand) (e : stdError) : Prop :=
  match e with
  | NumberOfArguments n => n = gcName c /\ ((n = b "space" /\ gcArgs c = []) \/ (In n moves /\ length (gcArgs c) <> 1%nat))
  | CommandAlreadyUsed n => n = gcName c /\ In n moves /\ has n pre
  | UnknownType n a => n = gcName c /\ In a (gcArgs c) /\ ((n = b "space" /\ tokenType a = None) \/ (In n moves /\ forall i, tokenType a = Some i -> i < 0))
  | _ => False
  end.
Definition cmdOK (c : gcommand) : Prop :=
  (gcName c = b "space" -> gcArgs c <> [] /\ forall n, In n (gcArgs c) -> tokenType n <> None) /\
  (In (gcName c) moves -> exists n i, gcArgs c = [n] /\ tokenType n = Some i /\ 0 <= i).
Fixpoint rget (i : Z) (m : list (Z * role)) : option role := match m with [] => None | (k, r) :: m => if i =? k then Some r else rget i m end.
Record isInv (pre : list gcommand) (s : isetup) : Prop := mkIsInv {
  iv_each : Forall cmdOK pre;
  iv_roles : forall i, rget i (isRoles s) = Some RSpace /\ spaceType pre i \/ rget i (isRoles s) = Some RSide /\ ~ spaceType pre i /\ sideType i \/ rget i (isRoles s) = None /\ ~ spaceType pre i /\ ~ sideType i;
  iv_max : 0 <= isMax s /\ forall i, rget i (isRoles s) <> None -> i <= isMax s;
  iv_got : isGot s = true <-> has (b "space") pre;
  iv_in : (isIn s = [] -> ~ has (b "on-indent") pre) /\ (isIn s <> [] -> once (b "on-indent") pre /\ argsOf (b "on-indent") pre = [isIn s]);
  iv_de : (isDe s = [] -> ~ has (b "on-dedent") pre) /\ (isDe s <> [] -> once (b "on-dedent") pre /\ argsOf (b "on-dedent") pre = [isDe s]) }.
Lemma sideRoles_ok : forall ts i s, 0 <= i -> (forall d, i <= d -> rget d (isRoles s) = None) -> (forall d, rget d (isRoles s) <> None -> d <= isMax s) -> 0 <= isMax s ->
  let s' := sideRoles i ts s in isGot s' = isGot s /\ isIn s' = isIn s /\ isDe s' = isDe s /\ 0 <= isMax s' /\ (forall d, rget d (isRoles s') <> None -> d <= isMax s') /\
  forall d, rget d (isRoles s') = (if (i <=? d) && match zget ts (d - i) with Some t => hasFlag (gtFlags t) SideToken | None => false end then Some RSide else rget d (isRoles s)).
Proof.
  induction ts as [|t ts IH]; intros i s I F M P; cbn [sideRoles].
  - repeat split; auto. intros d. unfold zget. destruct (d - i <? 0); [|destruct (Z.to_nat (d - i))]; rewrite andb_false_r; reflexivity.
  - set (s1 := if hasFlag (gtFlags t) SideToken then mkIs i (isGot s) ((i, RSide) :: isRoles s) (isIn s) (isDe s) else s).
    assert (R1 : forall d, rget d (isRoles s1) = if (i =? d) && hasFlag (gtFlags t) SideToken then Some RSide else rget d (isRoles s)).
    { intros d. unfold s1. destruct (hasFlag (gtFlags t) SideToken); [cbn [isRoles rget]; rewrite andb_true_r, (Z.eqb_sym i d); reflexivity|rewrite andb_false_r; reflexivity]. }
    destruct (IH (i + 1) s1) as (A & B & C & D & E & G); [lia| | | |].
    + intros d L. rewrite R1. replace (i =? d) with false by (symmetry; apply Z.eqb_neq; lia). apply F. lia.
    + intros d. rewrite R1. unfold s1. destruct (hasFlag (gtFlags t) SideToken); [|rewrite andb_false_r; apply M]. cbn [isMax]. rewrite andb_true_r. destruct (Z.eqb_spec i d); [lia|]. intros H. destruct (Z.lt_ge_cases i d) as [L|L]; [|lia]. exfalso. apply H, F. lia.
    + unfold s1. destruct (hasFlag (gtFlags t) SideToken); [exact I|exact P].
    + rewrite A, B, C. split; [unfold s1; destruct (hasFlag _ _); reflexivity|]. split; [unfold s1; destruct (hasFlag _ _); reflexivity|]. split; [unfold s1; destruct (hasFlag _ _); reflexivity|]. split; [exact D|]. split; [exact E|].
      intros d. rewrite G, R1. destruct (Z.eqb_spec i d) as [->|N].
      * replace (d + 1 <=? d) with false by (symmetry; apply Z.leb_gt; lia). replace (d <=? d) with true by (symmetry; apply Z.leb_le; lia). replace (d - d) with 0 by lia. cbn [andb]. change (zget (t :: ts) 0) with (Some t). reflexivity.
      * cbn [andb]. destruct (Z.leb_spec (i + 1) d) as [L|L].
        -- replace (i <=? d) with true by (symmetry; apply Z.leb_le; lia). replace (zget (t :: ts) (d - i)) with (zget ts (d - (i + 1))); [reflexivity|]. unfold zget. replace (d - (i + 1) <? 0) with false by (symmetry; apply Z.ltb_ge; lia). replace (d - i <? 0) with false by (symmetry; apply Z.ltb_ge; lia). replace (Z.to_nat (d - i)) with (S (Z.to_nat (d - (i + 1)))) by lia. reflexivity.
        -- replace (i <=? d) with false by (symmetry; apply Z.leb_gt; lia). reflexivity.
Qed.
Lemma isInv_start : isInv [] (sideRoles 0 tokens (mkIs 0 false [] [] [])).
Proof.
  destruct (sideRoles_ok tokens 0 (mkIs 0 false [] [] [])) as (A & B & C & D & E & F); [lia|reflexivity|intros d H; cbn in H; contradiction|cbn; lia|]. cbn [isGot isIn isDe isRoles rget] in *.
  assert (NH : forall n, ~ has n []) by (intros n (c & [] & _)).
  constructor; [constructor| |auto|rewrite A; split; [discriminate|intros H; destruct (NH _ H)]|rewrite B; split; [intros _; apply NH|contradiction]|rewrite C; split; [intros _; apply NH|contradiction]].
  intros i. right. rewrite F. replace (i - 0) with i by lia. assert (NS : ~ spaceType [] i) by (intros (n & [] & _)). destruct (zget tokens i) as [d|] eqn:Z.
  - pose proof (zget_Some_inv _ _ _ Z) as L. replace (0 <=? i) with true by (symmetry; apply Z.leb_le; lia). cbn [andb]. destruct (hasFlag (gtFlags d) SideToken) eqn:FL; [left|right]; (split; [reflexivity|split; [exact NS|]]); [exists d; auto|intros (d' & Z' & F'); congruence].
  - rewrite andb_false_r. right. split; [reflexivity|]. split; [exact NS|]. intros (d & Z' & _). congruence.
Qed.
Lemma spaceRoles_ok : forall args s, match spaceRoles tokenType args s with
  | inl s' => (forall n, In n args -> tokenType n <> None) /\ isGot s' = isGot s /\ isIn s' = isIn s /\ isDe s' = isDe s /\ isMax s <= isMax s' /\
      (forall i, rget i (isRoles s') <> None -> i <= isMax s' \/ rget i (isRoles s) <> None) /\
      (forall i, rget i (isRoles s') = Some RSpace /\ (exists n, In n args /\ tokenType n = Some i) \/ rget i (isRoles s') = rget i (isRoles s) /\ ~ (exists n, In n args /\ tokenType n = Some i))
  | inr e => exists a, e = UnknownType (b "space") a /\ In a args /\ tokenType a = None
  end.
Proof.
  induction args as [|n args IH]; intros s; cbn [spaceRoles].
  - split; [intros n []|]. split; [reflexivity|]. split; [reflexivity|]. split; [reflexivity|]. split; [lia|]. split; [auto|]. intros i. right. split; [reflexivity|]. intros (n & [] & _).
  - destruct (tokenType n) as [ty|] eqn:T; [|exists n; split; [reflexivity|]; split; [left; reflexivity|exact T]].
    specialize (IH (mkIs (if isMax s <=? ty then ty else isMax s) (isGot s) ((ty, RSpace) :: isRoles s) (isIn s) (isDe s))). destruct (spaceRoles tokenType args _) as [s'|e].
    + destruct IH as (A & B & C & D & E & F & G). cbn [isGot isIn isDe isMax isRoles rget] in *. split; [intros m [<-|M]; [congruence|apply A, M]|]. split; [exact B|]. split; [exact C|]. split; [exact D|].
      assert (MX : isMax s <= isMax s' /\ ty <= isMax s') by (destruct (Z.leb_spec (isMax s) ty); lia). split; [lia|]. split.
      * intros i H. destruct (F i H) as [Q|Q]; [auto|]. destruct (Z.eqb_spec i ty); [left; lia|auto].
      * intros i. destruct (G i) as [(Q & m & M & TM)|(Q & N)]; [left; split; [exact Q|exists m; split; [right; exact M|exact TM]]|]. destruct (Z.eqb_spec i ty) as [Ei|NT]; [left; split; [exact Q|exists n; split; [left; reflexivity|congruence]]|]. right. split; [exact Q|]. intros (m & [<-|M] & TM); [congruence|]. apply N. eauto.
    + destruct IH as (a & X & I & Y). exists a. split; [exact X|]. split; [right; exact I|exact Y].
Qed.
Lemma once_app cmd p c : once cmd p -> gcName c <> cmd -> once cmd (p ++ [c]).
Proof.
  intros (x & p1 & p2 & -> & N & H1 & H2) D. exists x, p1, (p2 ++ [c]). split; [rewrite <- app_assoc; reflexivity|]. split; [exact N|]. split; [exact H1|]. rewrite has_app, has_one. tauto.
Qed.
Lemma once_new cmd p c : ~ has cmd p -> gcName c = cmd -> once cmd (p ++ [c]).
Proof. intros H N. exists c, p, []. split; [reflexivity|]. split; [exact N|]. split; [exact H|]. intros (x & [] & _). Qed.
Lemma no_args cmd p : ~ has cmd p -> argsOf cmd p = [].
Proof.
  intros H. induction p as [|c p IH]; [reflexivity|]. cbn [argsOf]. destruct (list_eq_dec Z.eq_dec (gcName c) cmd) as [E|E]; [destruct H; exists c; split; [left; reflexivity|exact E]|]. apply IH. intros (x & X & Y). apply H. exists x. split; [right; exact X|exact Y].
Qed.
Lemma once_has cmd p : once cmd p -> has cmd p.
Proof. intros (c & a & r & -> & N & _). exists c. split; [apply in_or_app; right; left; reflexivity|exact N]. Qed.
Lemma isCommand_ok pre c s : isInv pre s -> match isCommand tokenType c s with inl s' => isInv (pre ++ [c]) s' | inr e => iexplained pre c e end.
Proof.
  intros [E R M G I D]. unfold isCommand. change spaceCommand with (b "space"). change onIndentCommand with (b "on-indent"). change onDedentCommand with (b "on-dedent"). destruct c as (cmd, args). cbn [gcName gcArgs].
  assert (SA : forall i, cmd <> b "space" -> (spaceType (pre ++ [mkCmd cmd args]) i <-> spaceType pre i)) by (intros i N; unfold spaceType; rewrite argsOf_app, argsOf_one; cbn [gcName]; rewrite dec_neq by exact N; rewrite app_nil_r; tauto).
  assert (KEEP : forall n v, gcName (mkCmd cmd args) <> n -> (v = [] -> ~ has n pre) /\ (v <> [] -> once n pre /\ argsOf n pre = [v]) -> (v = [] -> ~ has n (pre ++ [mkCmd cmd args])) /\ (v <> [] -> once n (pre ++ [mkCmd cmd args]) /\ argsOf n (pre ++ [mkCmd cmd args]) = [v])).
  { intros n v N (K1 & K2). split; [intros V; rewrite has_app, has_one; intros [Q|Q]; [exact (K1 V Q)|contradiction]|]. intros V. destruct (K2 V) as (K3 & K4). split; [apply once_app; assumption|]. rewrite argsOf_app, argsOf_one, K4. rewrite dec_neq by exact N. reflexivity. }
  destruct (nameEqb cmd (b "space")) eqn:E1.
  { apply b_name in E1. subst cmd. destruct args as [|a0 args0] eqn:EA; [split; [reflexivity|left; auto]|]. rewrite <- EA in *. pose proof (spaceRoles_ok args (mkIs (isMax s) true (isRoles s) (isIn s) (isDe s))) as S. destruct (spaceRoles tokenType args _) as [s'|e].
    - destruct S as (S1 & S2 & S3 & S4 & S5 & S6 & S7). cbn [isMax isGot isRoles isIn isDe] in *.
      assert (SP : forall i, spaceType (pre ++ [mkCmd (b "space") args]) i <-> spaceType pre i \/ exists n, In n args /\ tokenType n = Some i).
      { intros i. unfold spaceType. rewrite argsOf_app, argsOf_one. cbn [gcName gcArgs]. rewrite dec_eq. split; [intros (n & N & T); apply in_app_or in N; destruct N; eauto|intros [(n & N & T)|(n & N & T)]; exists n; (split; [apply in_or_app; auto|exact T])]. }
      constructor.
      + apply Forall_app. split; [exact E|]. constructor; [|constructor]. split; cbn [gcName gcArgs]; [intros _; split; [rewrite EA; discriminate|exact S1]|]. intros [Q|[Q|[]]]; discriminate.
      + intros i. rewrite SP. destruct (S7 i) as [(Q & X)|(Q & X)]; [left; auto|]. rewrite Q. destruct (R i) as [(Y & Z)|[(Y & Z & W)|(Y & Z & W)]]; tauto.
      + destruct M as (M1 & M2). split; [lia|]. intros i Q. destruct (S6 i Q) as [X|X]; [exact X|]. apply M2 in X. lia.
      + rewrite S2, has_app, has_one. cbn [gcName]. tauto.
      + rewrite S3. apply KEEP; [discriminate|exact I].
      + rewrite S4. apply KEEP; [discriminate|exact D].
    - destruct S as (a & -> & X & Y). split; [reflexivity|]. split; [exact X|]. left. auto. }
  apply nameEqb_neq in E1. assert (HS : has (b "space") (pre ++ [mkCmd cmd args]) <-> has (b "space") pre) by (rewrite has_app, has_one; cbn [gcName]; tauto).
  assert (MOVE : In cmd moves -> forall n i, args = [n] -> tokenType n = Some i -> 0 <= i -> Forall cmdOK (pre ++ [mkCmd cmd args])).
  { intros MV n i A T L. apply Forall_app. split; [exact E|]. constructor; [|constructor]. split; cbn [gcName gcArgs]; [contradiction|]. intros _. eauto. }
  assert (NN : forall n i, tokenType n = Some i -> 0 <= i -> n <> []) by (intros n i T L ->; apply noEmpty in T; lia).
  destruct (nameEqb cmd (b "on-indent")) eqn:E2; cbn [orb].
  { apply b_name in E2. subst cmd. destruct args as [|n [|? ?]]; [split; [reflexivity|right; split; [left; reflexivity|discriminate]]| |split; [reflexivity|right; split; [left; reflexivity|discriminate]]].
    destruct (tokenType n) as [ty|] eqn:T; [|split; [reflexivity|split; [left; reflexivity|right; split; [left; reflexivity|congruence]]]]. destruct (Z.ltb_spec ty 0) as [L|L]; [split; [reflexivity|split; [left; reflexivity|right; split; [left; reflexivity|intros i Q; congruence]]]|].
    destruct (negb (nameEqb (isIn s) [])) eqn:NE.
    - apply negb_true_iff, nameEqb_neq in NE. split; [reflexivity|]. split; [left; reflexivity|]. apply once_has, I, NE.
    - apply negb_false_iff in NE. apply b_name in NE. apply I in NE. constructor; cbn [isRoles isMax isGot isIn isDe].
      + apply (MOVE (or_introl eq_refl) n ty); auto.
      + intros i. rewrite (SA i E1). apply R.
      + exact M.
      + rewrite HS. exact G.
      + split; [intros ->; destruct (NN [] ty T L eq_refl)|]. intros _. split; [apply once_new; auto|]. rewrite argsOf_app, argsOf_one, (no_args _ _ NE). cbn [gcName gcArgs]. rewrite dec_eq. reflexivity.
      + apply KEEP; [discriminate|exact D]. }
  apply nameEqb_neq in E2. destruct (nameEqb cmd (b "on-dedent")) eqn:E3.
  { apply b_name in E3. subst cmd. destruct args as [|n [|? ?]]; [split; [reflexivity|right; split; [right; left; reflexivity|discriminate]]| |split; [reflexivity|right; split; [right; left; reflexivity|discriminate]]].
    destruct (tokenType n) as [ty|] eqn:T; [|split; [reflexivity|split; [left; reflexivity|right; split; [right; left; reflexivity|congruence]]]]. destruct (Z.ltb_spec ty 0) as [L|L]; [split; [reflexivity|split; [left; reflexivity|right; split; [right; left; reflexivity|intros i Q; congruence]]]|].
    destruct (negb (nameEqb (isDe s) [])) eqn:NE.
    - apply negb_true_iff, nameEqb_neq in NE. split; [reflexivity|]. split; [right; left; reflexivity|]. apply once_has, D, NE.
    - apply negb_false_iff in NE. apply b_name in NE. apply D in NE. constructor; cbn [isRoles isMax isGot isIn isDe].
      + apply (MOVE (or_intror (or_introl eq_refl)) n ty); auto.
      + intros i. rewrite (SA i E1). apply R.
      + exact M.
      + rewrite HS. exact G.
      + apply KEEP; [discriminate|exact I].
      + split; [intros ->; destruct (NN [] ty T L eq_refl)|]. intros _. split; [apply once_new; auto|]. rewrite argsOf_app, argsOf_one, (no_args _ _ NE). cbn [gcName gcArgs]. rewrite dec_eq. reflexivity. }
  apply nameEqb_neq in E3. constructor.
  - apply Forall_app. split; [exact E|]. constructor; [|constructor]. split; cbn [gcName gcArgs]; [contradiction|]. intros [Q|[Q|[]]]; congruence.
  - intros i. rewrite (SA i E1). apply R.
  - exact M.
  - rewrite HS. exact G.
  - apply KEEP; [exact E2|exact I].
  - apply KEEP; [exact E3|exact D].
Qed.
Lemma isCommands_ok : forall cs pre s, isInv pre s -> match isCommands tokenType cs s with inl s' => isInv (pre ++ cs) s' | inr e => exists p c r, pre ++ cs = p ++ c :: r /\ iexplained p c e end.
Proof.
  induction cs as [|c cs IH]; intros pre s I; cbn [isCommands]; [rewrite app_nil_r; exact I|]. pose proof (isCommand_ok pre c s I) as H. destruct (isCommand tokenType c s) as [s'|e].
  - specialize (IH (pre ++ [c]) s' H). rewrite <- app_assoc in IH. exact IH.
  - exists pre, c, cs. auto.
Qed.
Lemma upd_len {A} (l : list A) n x : length (upd l n x) = length l.
Proof. revert n. induction l as [|y l IH]; intros [|n]; cbn; try reflexivity. rewrite IH. reflexivity. Qed.
Lemma fillRoles_some m l l' : fillRoles m l = Some l' -> zlen l' = zlen l /\ (forall i, rget i m <> None -> 0 <= i < zlen l) /\ forall i, 0 <= i < zlen l -> zget l' i = match rget i m with Some r => Some r | None => zget l i end.
Proof.
  revert l'. induction m as [|(k, r) m IH]; intros l' H; cbn [fillRoles] in H; [injection H as <-; split; [reflexivity|]; split; [intros i Q; cbn in Q; contradiction|reflexivity]|].
  destruct (fillRoles m l) as [l1|]; [|discriminate]. cbn [obind] in H. apply zset_inv in H. destruct H as (L & ->). destruct (IH l1 eq_refl) as (A & B & C). split; [unfold zlen in *; rewrite upd_len; exact A|]. rewrite A in L. split.
  - intros i. cbn [rget]. destruct (Z.eqb_spec i k) as [->|N]; [intros _; exact L|apply B].
  - intros i I. cbn [rget]. destruct (Z.eqb_spec i k) as [Ei|N]; [|rewrite <- (C i I)]; unfold zget; (destruct (Z.ltb_spec i 0); [lia|]); rewrite nth_error_upd by (unfold zlen in *; lia); [rewrite Ei, Nat.eqb_refl; reflexivity|]. destruct (Nat.eqb_spec (Z.to_nat i) (Z.to_nat k)); [lia|reflexivity].
Qed.
Lemma fillRoles_total m l : (forall i, rget i m <> None -> 0 <= i < zlen l) -> exists l', fillRoles m l = Some l'.
Proof.
  induction m as [|(k, r) m IH]; intros H; cbn [fillRoles]; [eauto|]. destruct IH as (l1 & E).
  - intros i I. apply H. cbn [rget]. destruct (i =? k); [discriminate|exact I].
  - rewrite E. cbn [obind]. destruct (fillRoles_some _ _ _ E) as (A & _). rewrite zset_Some; [eauto|]. rewrite A. apply H. cbn [rget]. rewrite Z.eqb_refl. discriminate.
Qed.
(** what is not checked by the code: names of commands, repeated space commands, special types for spaces *)
Definition realTypes (cs : list gcommand) : Prop := forall n i, In n (argsOf (b "space") cs) -> tokenType n = Some i -> 0 <= i.
Definition iplain (cs : list gcommand) : Prop := (forall c, In c cs -> In (gcName c) (b "space" :: moves)) /\ (forall p c r, cs = p ++ c :: r -> gcName c = b "space" -> ~ has (b "space") p) /\ realTypes cs.
Lemma setup_cases cs : match isCommands tokenType cs (sideRoles 0 tokens (mkIs 0 false [] [] [])) with
  | inr e => isSetup tokenType tokens cs = Some (inr e) /\ exists p c r, cs = p ++ c :: r /\ iexplained p c e
  | inl s => isInv cs s /\ (
      (exists n, isSetup tokenType tokens cs = Some (inr (MissingCommand n)) /\ In n (b "space" :: moves) /\ ~ has n cs) \/
      (isGot s = true /\ isIn s <> [] /\ isDe s <> [] /\ isSetup tokenType tokens cs = match fillRoles (isRoles s) (repeat RCommon (Z.to_nat (isMax s + 1))) with Some l => Some (inl (isIn s, isDe s, l)) | None => None end))
  end.
Proof.
  pose proof (isCommands_ok cs [] _ isInv_start) as H. cbn [app] in H. unfold isSetup. destruct (isCommands tokenType cs _) as [s|e]; [|auto]. split; [exact H|]. destruct H as [E R M G I D]. destruct (isGot s); cbn [negb].
  - destruct (nameEqb (isIn s) []) eqn:N1; [left; exists onIndentCommand; split; [reflexivity|]; split; [right; left; reflexivity|]; apply I, b_name, N1|]. destruct (nameEqb (isDe s) []) eqn:N2; [left; exists onDedentCommand; split; [reflexivity|]; split; [right; right; left; reflexivity|]; apply D, b_name, N2|]. right. apply nameEqb_neq in N1. apply nameEqb_neq in N2.
    split; [reflexivity|]. split; [exact N1|]. split; [exact N2|]. rewrite zmake_Some by lia. cbn [obind]. destruct (fillRoles _ _); reflexivity.
  - left. exists spaceCommand. split; [reflexivity|]. split; [left; reflexivity|]. intros Q. apply G in Q. discriminate.
Qed.
Lemma zlen_repeat {A} (x : A) n : 0 <= n -> zlen (repeat x (Z.to_nat n)) = n.
Proof. intros H. unfold zlen. rewrite repeat_length. lia. Qed.
Lemma explained_bad p c r e : iexplained p c e -> ~ indentDef tokenType (p ++ c :: r).
Proof.
  intros X [E S I D]. assert (EC : indentCmd tokenType c) by (apply Forall_app in E; destruct E as (_ & E); inversion E; assumption).
  assert (ONCE : forall n, has n p -> gcName c = n -> once n (p ++ c :: r) -> False).
  { intros n (x & HX & XN) N (y & p1 & p2 & Q & NY & A & B). 
    assert (CN : forall l l', l = p ++ c :: r -> l' = l -> (length (filter (fun d => if list_eq_dec Z.eq_dec (gcName d) n then true else false) l') >= 2)%nat).
    { intros l l' -> ->. rewrite filter_app, app_length. cbn [filter]. destruct (list_eq_dec Z.eq_dec (gcName c) n); [|contradiction]. cbn [length]. apply in_split in HX. destruct HX as (u & v & ->). rewrite filter_app, app_length. cbn [filter]. destruct (list_eq_dec Z.eq_dec (gcName x) n); [|contradiction]. cbn [length]. lia. }
    specialize (CN _ _ eq_refl (eq_sym Q)). 
    assert (NF : forall l, ~ has n l -> filter (fun d => if list_eq_dec Z.eq_dec (gcName d) n then true else false) l = []).
    { induction l as [|d l IH]; intros H; [reflexivity|]. cbn [filter]. destruct (list_eq_dec Z.eq_dec (gcName d) n) as [F|F]; [destruct H; exists d; split; [left; reflexivity|exact F]|]. apply IH. intros (z & Z & W). apply H. exists z. split; [right; exact Z|exact W]. }
    rewrite filter_app, (NF p1 A) in CN. cbn [filter app] in CN. destruct (list_eq_dec Z.eq_dec (gcName y) n); cbn [length] in CN; rewrite (NF p2 B) in CN; cbn in CN; lia. }
  destruct e as [n|n|n|n a|n|n a]; cbn [iexplained] in X; try contradiction.
  - destruct X as (-> & [(N & A)|(N & A)]); inversion EC; subst c; cbn in *; try discriminate; try lia; destruct N as [N|[N|[]]]; discriminate.
  - destruct X as (-> & N & HP). destruct N as [N|[N|[]]]; apply (ONCE (gcName c) HP eq_refl); rewrite <- N; assumption.
  - destruct X as (-> & A & [(N & T)|(N & T)]); inversion EC as [x args Q|x i Q L|x i Q L]; subst c; cbn in *; try discriminate.
    + destruct (Q a A) as (i & Q' & _). congruence.
    + destruct N as [N|[N|[]]]; discriminate.
    + destruct A as [<-|[]]. apply T in Q. lia.
    + destruct A as [<-|[]]. apply T in Q. lia.
Qed.
Lemma accepts_any cs : iplain cs -> ((exists r, isSetup tokenType tokens cs = Some (inl r)) <-> indentDef tokenType cs).
Proof.
  intros (P1 & P2 & P3). pose proof (setup_cases cs) as H. destruct (isCommands tokenType cs _) as [s|e].
  - destruct H as (I & [(n & -> & N & NH)|(G & N1 & N2 & ->)]).
    + split; [intros (r & X); discriminate|]. intros [_ S IN DE]. exfalso. apply NH. destruct N as [<-|[<-|[<-|[]]]]; apply once_has; assumption.
    + destruct I as [E R M GG I D]. split.
      * intros _. apply GG in G. constructor; [|..]; [|destruct G as (c & C & N); apply in_split in C; destruct C as (p & r & C)|apply I, N1|apply D, N2].
        -- apply Forall_forall. intros c C. rewrite Forall_forall in E. destruct (E c C) as (E1 & E2). specialize (P1 c C). destruct c as (cmd, args). cbn [gcName gcArgs] in *. destruct P1 as [<-|[<-|[<-|[]]]].
           ++ destruct (E1 eq_refl) as (A1 & A2). destruct args as [|x args]; [contradiction|]. constructor. intros n N. destruct (tokenType n) as [i|] eqn:T; [|destruct (A2 n N T)]. exists i. split; [reflexivity|]. apply (P3 n i); [|exact T]. apply in_split in C. destruct C as (p & r & ->). rewrite argsOf_app. apply in_or_app. right. cbn [argsOf gcName gcArgs]. rewrite dec_eq. apply in_or_app. left. exact N.
           ++ destruct (E2 (or_introl eq_refl)) as (n & i & -> & T & L). econstructor; eassumption.
           ++ destruct (E2 (or_intror (or_introl eq_refl))) as (n & i & -> & T & L). econstructor; eassumption.
        -- exists c, p, r. split; [exact C|]. split; [exact N|]. split; [apply (P2 p c r C N)|]. intros (d & DD & ND). apply in_split in DD. destruct DD as (u & v & ->). apply (P2 (p ++ c :: u) d v); [rewrite C, <- app_assoc; reflexivity|exact ND|]. apply has_app. right. exists c. split; [left; reflexivity|exact N].
      * intros _. destruct (fillRoles_total (isRoles s) (repeat RCommon (Z.to_nat (isMax s + 1)))) as (l & ->); [|eauto]. rewrite zlen_repeat by lia. destruct M as (M1 & M2). intros i Q. split; [|apply M2 in Q; lia]. destruct (R i) as [(_ & n & A & T)|[(_ & _ & d & Z & _)|(X & _)]]; [apply (P3 n i A T)|apply zget_Some_inv in Z; lia|congruence].
  - destruct H as (-> & p & c & r & -> & X). split; [intros (y & Y); discriminate|]. intros Q. destruct (explained_bad p c r e X Q).
Qed.
Lemma error_any cs : realTypes cs -> (exists r, isSetup tokenType tokens cs = Some (inl r)) \/
  (exists n, isSetup tokenType tokens cs = Some (inr (MissingCommand n)) /\ In n [b "space"; b "on-indent"; b "on-dedent"] /\ ~ has n cs) \/
  exists e p c r, isSetup tokenType tokens cs = Some (inr e) /\ cs = p ++ c :: r /\ iexplained p c e.
Proof.
  intros P3. pose proof (setup_cases cs) as H. destruct (isCommands tokenType cs _) as [s|e].
  - destruct H as ([E R M GG I D] & [X|(G & N1 & N2 & ->)]); [right; left; exact X|]. left. destruct (fillRoles_total (isRoles s) (repeat RCommon (Z.to_nat (isMax s + 1)))) as (l & ->); [|eauto]. rewrite zlen_repeat by lia. destruct M as (M1 & M2). intros i Q. split; [|apply M2 in Q; lia]. destruct (R i) as [(_ & n & A & T)|[(_ & _ & d & Z & _)|(X & _)]]; [apply (P3 n i A T)|apply zget_Some_inv in Z; lia|congruence].
  - right. right. destruct H as (A & p & c & r & B & X). exists e, p, c, r. auto.
Qed.
Lemma types_any cs tin tde roles : isSetup tokenType tokens cs = Some (inl (tin, tde, roles)) ->
  argsOf (b "on-indent") cs = [tin] /\ argsOf (b "on-dedent") cs = [tde] /\
  exists kind : forall Pos, ltok Pos -> role, forall Pos, kinds (spaceType cs) sideType (kind Pos) /\ forall t, roleOf roles t = Some (kind Pos t).
Proof.
  pose proof (setup_cases cs) as H. destruct (isCommands tokenType cs _) as [s|e]; [|intros X; destruct H as (H & _); congruence]. destruct H as ([E R M GG I D] & [(n & X & _)|(G & N1 & N2 & ->)]); [congruence|]. destruct (fillRoles (isRoles s) _) as [l|] eqn:F; [|discriminate]. intros X. injection X as <- <- <-.
  split; [apply I, N1|]. split; [apply D, N2|]. apply fillRoles_some in F. rewrite zlen_repeat in F by lia. destruct F as (L & IN & GET).
  exists (fun Pos t => match roleOf l t with Some r => r | None => RCommon end). intros Pos.
  assert (ZG : forall i, 0 <= i < zlen l -> zget l i = Some (match rget i (isRoles s) with Some r => r | None => RCommon end)).
  { intros i LI. rewrite L in LI. rewrite (GET i LI). destruct (rget i (isRoles s)); [reflexivity|]. rewrite (zget_Some _ i RCommon) by (rewrite zlen_repeat; lia). rewrite nth_repeat. reflexivity. }
  assert (RO : forall t : ltok Pos, roleOf l t = Some (if lType t =? Lexer.EoiTokenType then REoi else if (lType t <? 0) || (zlen (lText t) =? 0) then REmpty else match rget (lType t) (isRoles s) with Some r => r | None => RCommon end)).
  { intros t. unfold roleOf. destruct (lType t =? Lexer.EoiTokenType); [reflexivity|]. destruct (Z.ltb_spec (lType t) 0) as [N|N]; [reflexivity|]. cbn [orb]. destruct (zlen (lText t) =? 0); [reflexivity|]. destruct (Z.ltb_spec (lType t) (zlen l)) as [Q|Q]; [apply ZG; lia|]. destruct (rget (lType t) (isRoles s)) eqn:RG; [|reflexivity]. exfalso. assert (X : rget (lType t) (isRoles s) <> None) by congruence. apply IN in X. lia. }
  split; [|intros t; rewrite RO; reflexivity].
  intros t. cbv zeta. rewrite RO.
  assert (ZL : zlen (lText t) = 0 <-> lText t = []) by (unfold zlen; destruct (lText t); cbn; split; intros; (reflexivity || discriminate || lia)).
  destruct (Z.eqb_spec (lType t) Lexer.EoiTokenType) as [EE|NE].
  { assert (SPC : lType t < 0) by (rewrite EE; reflexivity). intuition (congruence || discriminate). }
  destruct (Z.ltb_spec (lType t) 0) as [N|N]; cbn [orb]; [intuition (congruence || discriminate)|]. destruct (Z.eqb_spec (zlen (lText t)) 0) as [Z0|Z0]; [intuition (congruence || discriminate)|].
  assert (NSP : ~ (lType t < 0 \/ lText t = [])) by (intros [Q|Q]; [lia|tauto]).
  destruct (R (lType t)) as [(Y & Z)|[(Y & Z & W)|(Y & Z & W)]]; rewrite Y; intuition (congruence || discriminate).
Qed.
End Setup.

(** Types of tokens of a grammar, by name (Parser.TokenType) *)
Definition typeOf (g : grammar) (n : name) : option Z := nget n (tbTokenNames (newTables g)).
Lemma typeOf_empty g : goodNames g -> forall i, typeOf g [] = Some i -> i < 0.
Proof.
  intros GN i H. assert (N : nget anyName (tbTokenNames (newTables g)) = Some AnyToken) by (apply (tokenNames_ok g GN); left; left; auto). unfold typeOf in H. change (@nil Z) with anyName in H. rewrite N in H. injection H as <-. reflexivity.
Qed.
(** A definition is accepted exactly if it is as documented, provided that names of commands are known, space is used at most once and not for
    special types. *)
Theorem indent_accepts_partial g cs : goodNames g -> iplain (typeOf g) cs -> ((exists r, isSetup (typeOf g) (gTokens g) cs = Some (inl r)) <-> indentDef (typeOf g) cs).
Proof. intros GN. apply accepts_any, typeOf_empty, GN. Qed.
(** Otherwise the error tells what is wrong; there is no panic. *)
Theorem indent_error_partial g cs : goodNames g -> realTypes (typeOf g) cs -> (exists r, isSetup (typeOf g) (gTokens g) cs = Some (inl r)) \/
  (exists n, isSetup (typeOf g) (gTokens g) cs = Some (inr (MissingCommand n)) /\ In n [b "space"; b "on-indent"; b "on-dedent"] /\ ~ has n cs) \/
  exists e p c r, isSetup (typeOf g) (gTokens g) cs = Some (inr e) /\ cs = p ++ c :: r /\ iexplained (typeOf g) p c e.
Proof. intros GN. apply error_any, typeOf_empty, GN. Qed.
(** An accepted definition makes a layer for the given types of tokens. *)
Theorem indent_types g cs tin tde roles : goodNames g -> isSetup (typeOf g) (gTokens g) cs = Some (inl (tin, tde, roles)) ->
  argsOf (b "on-indent") cs = [tin] /\ argsOf (b "on-dedent") cs = [tde] /\
  exists kind : forall Pos, ltok Pos -> role, forall Pos, kinds (spaceType (typeOf g) cs) (sideType (gTokens g)) (kind Pos) /\ forall t, roleOf roles t = Some (kind Pos t).
Proof. intros GN. apply types_any, typeOf_empty, GN. Qed.

(** ** Tokens *)
Section Tokens.
Context {Pos PE : Type}.
Variable g : grammar.
Hypothesis GN : goodNames g.
Variable cs : list gcommand.
Variable tin tde : name.
Variable roles : list role.
Hypothesis SETUP : isSetup (typeOf g) (gTokens g) cs = Some (inl (tin, tde, roles)).
Variable kind : ltok Pos -> role.
Hypothesis KINDS : kinds (spaceType (typeOf g) cs) (sideType (gTokens g)) kind.
Lemma roles_kind t : roleOf roles t = Some (kind t).
Proof.
  destruct (indent_types g cs tin tde roles GN SETUP) as (_ & _ & k & K). destruct (K Pos) as (K1 & K2). rewrite K2. f_equal. destruct (K1 t) as (A & B & C & D), (KINDS t) as (A' & B' & C' & D'). destruct (k Pos t) eqn:E1, (kind t) eqn:E2; try reflexivity; exfalso; intuition (congruence || discriminate).
Qed.
(** Indents and dedents are balanced whatever is peeked; tokens are kept in order: those with no text among themselves, and the rest.
    Missing: the order of both together, and that the last token is given out once. *)
Theorem indent_balanced_partial (indentTok dedentTok : ltok Pos) (s : list (ltok Pos * (option (ltok Pos) * option PE))) e pe o ls :
  lType e = Lexer.EoiTokenType -> (forall t p, In (t, p) s -> lType t <> Lexer.EoiTokenType) ->
  run indentTok dedentTok roles (s ++ [(e, pe)]) initState = Some (o, None, ls) ->
  exists a, o = map snd a ++ [e] /\ honest indentTok dedentTok a /\ walk 0 a = Some 0%nat /\
    nonEmpty kind (kept a) = nonEmpty kind (map fst s) ++ [e] /\ empties kind (kept a) = empties kind (map fst s).
Proof.
  intros E S R. assert (KE : kind e = REoi) by (apply (KINDS e), E). destruct (run_balanced indentTok dedentTok roles kind roles_kind _ _ KINDS s e pe initState o ls) as (a & A & B & C & D & F); auto.
  - constructor; cbn; try discriminate; intros t [].
  - intros t p I K. apply (KINDS t) in K. exact (S t p I K).
  - exists a. split; [exact A|]. split; [exact B|]. split; [exact C|]. split; [|exact F]. cbn [lsSpaces initState app] in D. rewrite D. unfold nonEmpty. rewrite filter_app. cbn. unfold isEmpty at 2. rewrite KE. reflexivity.
Qed.
(** Tokens with no text are not held back. *)
Theorem indent_empty_at_once (indentTok dedentTok : ltok Pos) t p (ls : lstate Pos) : kind t = REmpty -> layerStep (PE := PE) indentTok dedentTok roles t p ls = Some ([t], None, ls).
Proof. apply step_empty. exact roles_kind. Qed.
(** The input is accepted exactly if its lines have right indentations, and then tokens for indents and dedents are put in exactly where they
    are due; otherwise the error names a token of the input. *)
Theorem indent_layout_partial (indentTok dedentTok : ltok Pos) (s : list (ltok Pos * (option (ltok Pos) * option PE))) e pe :
  lType e = Lexer.EoiTokenType -> (forall t p, In (t, p) s -> lType t <> Lexer.EoiTokenType) -> truePeeks kind (s ++ [(e, pe)]) ->
  (exists a ls, run indentTok dedentTok roles (s ++ [(e, pe)]) initState = Some (map snd a ++ [e], None, ls) /\
     layout kind indentTok dedentTok true [[]] (nonEmpty kind (map fst s) ++ [e]) (solid kind a)) \/
  (exists o t ls, run indentTok dedentTok roles (s ++ [(e, pe)]) initState = Some (o, Some (WrongToken t), ls) /\ In t (map fst s) /\
     forall a, ~ layout kind indentTok dedentTok true [[]] (nonEmpty kind (map fst s) ++ [e]) a).
Proof.
  intros E S T. apply (run_layout indentTok dedentTok roles kind roles_kind _ _ KINDS); [|apply (KINDS e), E|exact T]. intros t I K. apply (KINDS t) in K. apply in_map_iff in I. destruct I as ((t', p) & <- & I). exact (S t' p I K).
Qed.
End Tokens.
(** There is only one way to put tokens in. *)
Theorem indent_layout_unique {Pos} kind (indentTok dedentTok : ltok Pos) ts a a' : layout kind indentTok dedentTok true [[]] ts a -> layout kind indentTok dedentTok true [[]] ts a' -> a = a'.
Proof. apply layout_unique. reflexivity. Qed.

(** ** Examples *)
Module Example1.
  Definition g : grammar := mkGrammar [mkTok (b "sp") [] 0 SideToken; mkTok (b "c") [] 0 SideToken; mkTok (b "x") [] 0 0; mkTok (b "in") [] 0 ExternalToken; mkTok (b "de") [] 0 ExternalToken] [] [mkNode (b "root") 0] [] [] [].
  Example names_good : goodNames g.
  Proof. apply Prop_Layers.goodNamesb_ok. vm_compute. reflexivity. Qed.
  Definition cs : list gcommand := [mkCmd (b "space") [b "sp"]; mkCmd (b "on-indent") [b "in"]; mkCmd (b "on-dedent") [b "de"]].
  Example is_plain : iplain (typeOf g) cs.
  Proof.
    split; [intros c [<-|[<-|[<-|[]]]]; cbn; auto|]. split.
    - intros [|c0 [|c1 [|c2 [|c3 p]]]] c r E N; cbn in E; inversion E; subst; cbn in N; try discriminate. intros (x & [] & _).
    - intros n i I T. vm_compute in I. destruct I as [<-|[]]. vm_compute in T. injection T as <-. lia.
  Qed.
  Definition roles : list role := [RSpace; RSide].
  Example accepted : isSetup (typeOf g) (gTokens g) cs = Some (inl (b "in", b "de", roles)).
  Proof. vm_compute. reflexivity. Qed.
  Example def_ok : indentDef (typeOf g) cs.
  Proof. apply (indent_accepts_partial g cs names_good is_plain). eauto using accepted. Qed.
  Definition sp (s : string) : ltok unit := mkLTok 0 (b "sp") (b s) tt.
  Definition nl (s : string) : ltok unit := mkLTok 0 (b "sp") (10 :: b s) tt.
  Definition c : ltok unit := mkLTok 1 (b "c") (b "#") tt.
  Definition x : ltok unit := mkLTok 2 (b "x") (b "x") tt.
  Definition ti : ltok unit := mkLTok 3 (b "in") [] tt.
  Definition td : ltok unit := mkLTok 4 (b "de") [] tt.
  Definition eoi : ltok unit := mkLTok Lexer.EoiTokenType (b "-eoi-") [] tt.
  Definition eof : ltok unit := mkLTok Lexer.EofTokenType (b "-eof-") [] tt.
  (** each token with the next one *)
  Fixpoint peeks (l : list (ltok unit)) : list (ltok unit * (option (ltok unit) * option unit)) :=
    match l with [] => [] | t :: r => (t, (match r with [] => None | n :: _ => Some n end, None)) :: peeks r end.
  Definition kind (t : ltok unit) : role := match roleOf roles t with Some r => r | None => RCommon end.
  Example kinds_ok : kinds (spaceType (typeOf g) cs) (sideType (gTokens g)) kind.
  Proof.
    destruct (indent_types g cs _ _ _ names_good accepted) as (_ & _ & k & K). destruct (K unit) as (K1 & K2). intros t. unfold kind. rewrite K2. apply K1.
  Qed.
  (** x; a line with a comment only; a deeper line; a still deeper one; back by two levels *)
  Definition input := [x; nl "  "; c; nl "  "; x; sp " "; x; nl "    "; x; eof; nl ""; x; eof].
  Example true_peeks : truePeeks kind (peeks (input ++ [eoi])).
  Proof. cbn. repeat split; (intros [Q|Q]; vm_compute in Q; try discriminate Q); eexists; (split; [reflexivity|]); intros H; vm_compute in H; try discriminate H; repeat eexists. Qed.
  Example runs : exists ls, run ti td roles (peeks (input ++ [eoi])) initState = Some ([x; nl "  "; c; ti; nl "  "; x; sp " "; x; ti; nl "    "; x; eof; td; td; nl ""; x; eof; eoi; eoi], None, ls).
  Proof. eexists. vm_compute. reflexivity. Qed.
  Example fails : exists o ls, run ti td roles (peeks [x; nl "  "; x; nl " "; x; eoi]) initState = Some (o, Some (WrongToken (nl " ")), ls).
  Proof. eexists _, _. vm_compute. reflexivity. Qed.
End Example1.
(** Commands that are not documented are accepted, and so is a repeated space command; with a special type for spaces the setup panics
    (indent.go:386-446). *)
Theorem indent_accepts_refuted : exists g cs1 cs2 cs3 r1 r2, goodNames g /\
  isSetup (typeOf g) (gTokens g) cs1 = Some (inl r1) /\ ~ indentDef (typeOf g) cs1 /\ has (b "unknown") cs1 /\
  isSetup (typeOf g) (gTokens g) cs2 = Some (inl r2) /\ ~ once (b "space") cs2 /\
  isSetup (typeOf g) (gTokens g) cs3 = None.
Proof.
  exists Example1.g, (mkCmd (b "unknown") [] :: Example1.cs), (mkCmd (b "space") [b "c"] :: Example1.cs), (mkCmd (b "space") [b "-eof-"] :: Example1.cs). eexists _, _.
  split; [apply Example1.names_good|]. split; [vm_compute; reflexivity|]. split; [intros [Q _ _ _]; inversion Q as [|? ? Q1 _]; inversion Q1|]. split; [exists (mkCmd (b "unknown") []); split; [left; reflexivity|reflexivity]|].
  split; [vm_compute; reflexivity|]. split; [|vm_compute; reflexivity]. intros (c & p & r & E & N & H1 & H2). destruct p as [|c0 p]; cbn in E; inversion E; subst.
  - apply H2. exists (mkCmd (b "space") [b "sp"]). split; [left; reflexivity|reflexivity].
  - apply H1. exists (mkCmd (b "space") [b "c"]). split; [left; reflexivity|reflexivity].
Qed.
(** The end of input token is given out twice (indent.go:330-346 with parser.go:799-806); a token with no text overtakes spaces that are held. *)
Theorem indent_tokens_refuted : exists g cs tin tde roles (indentTok dedentTok : ltok unit) s1 s2 o1 o2 ls1 ls2,
  goodNames g /\ isSetup (typeOf g) (gTokens g) cs = Some (inl (tin, tde, roles)) /\
  run (PE := unit) indentTok dedentTok roles s1 initState = Some (o1, None, ls1) /\ ~ In indentTok o1 /\ ~ In dedentTok o1 /\ length (filter (fun t => lType t =? Lexer.EoiTokenType) o1) = S (length (filter (fun t => lType t =? Lexer.EoiTokenType) (map fst s1))) /\
  run (PE := unit) indentTok dedentTok roles s2 initState = Some (o2, None, ls2) /\ ~ In indentTok o2 /\ ~ In dedentTok o2 /\
  exists x y p q, map fst s2 = p ++ x :: y :: q /\ o2 = p ++ y :: x :: q ++ [Example1.eoi] /\ x <> y.
Proof.
  exists Example1.g, Example1.cs. eexists _, _, _, Example1.ti, Example1.td, (Example1.peeks [Example1.x; Example1.eoi]), (Example1.peeks [Example1.x; Example1.nl ""; Example1.eof; Example1.x; Example1.eoi]). eexists _, _, _, _.
  split; [apply Example1.names_good|]. split; [apply Example1.accepted|]. split; [vm_compute; reflexivity|]. split; [vm_compute; intuition discriminate|]. split; [vm_compute; intuition discriminate|]. split; [reflexivity|]. split; [vm_compute; reflexivity|]. split; [vm_compute; intuition discriminate|]. split; [vm_compute; intuition discriminate|].
  exists (Example1.nl ""), Example1.eof, [Example1.x], [Example1.x; Example1.eoi]. split; [reflexivity|]. split; [reflexivity|discriminate].
Qed.
(** "The first non-side token in a source code must have zero indentation level", but an indent is made. *)
Theorem indent_first_line_refuted : exists g cs tin tde roles (indentTok dedentTok : ltok unit) s x o ls,
  goodNames g /\ isSetup (typeOf g) (gTokens g) cs = Some (inl (tin, tde, roles)) /\ map fst s = [Example1.sp "  "; x; Example1.eoi] /\
  run (PE := unit) indentTok dedentTok roles s initState = Some (indentTok :: Example1.sp "  " :: x :: dedentTok :: o, None, ls).
Proof.
  exists Example1.g, Example1.cs. eexists _, _, _, Example1.ti, Example1.td, (Example1.peeks [Example1.sp "  "; Example1.x; Example1.eoi]), Example1.x. eexists _, _.
  split; [apply Example1.names_good|]. split; [apply Example1.accepted|]. split; [reflexivity|]. vm_compute. reflexivity.
Qed.
Print Assumptions indent_accepts_partial.
Print Assumptions indent_error_partial.
Print Assumptions indent_types.
Print Assumptions indent_balanced_partial.
Print Assumptions indent_empty_at_once.
Print Assumptions indent_layout_partial.
Print Assumptions indent_layout_unique.
Print Assumptions indent_accepts_refuted.
Print Assumptions indent_tokens_refuted.
Print Assumptions indent_first_line_refuted.
