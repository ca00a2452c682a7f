(** Lookahead: the rules found by resolveConflict can be replayed. *)
From Coq Require Import ZArith List Bool Lia Arith Permutation.
From Verif Require Import Base BaseProofs Grammar Rules RulesSpec Prop_Rules Parser ParserSpec ParserProofs ParserInv ParserStream.
Import ListNotations.
Open Scope Z_scope.

Section P.
Context {Tok Src W E Inst R : Type}.
Variable c : config Tok Src W E Inst R.
Notation g := (cGrammar c).
Notation pstate := (pstate Tok Src W E Inst R).
Notation event := (event Tok E Inst R).
Notation res := (res Tok Src W E Inst R).
Notation nodeRec := (nodeRec Tok Inst).
Notation branch := (branch Tok Inst).
Notation look := (Parser.look (Tok:=Tok) (Inst:=Inst)).
Notation clog := (clog (Tok:=Tok) (Src:=Src) (W:=W) (E:=E) (Inst:=Inst) (R:=R)).
Notation findRules := (findRules (cType c) (cText c) (cUpper c) g).
Notation isSide := (isSide (cType c) g).

Lemma zslice_In {A} (l : list A) a b m x : zslice l a b = Some m -> In x m -> In x l.
Proof.
  unfold zslice. destruct (_ && _); [|discriminate]. intros H. injection H as <-. intros H.
  rewrite <- (firstn_skipn (Z.to_nat a) l). apply in_or_app. right.
  rewrite <- (firstn_skipn (Z.to_nat (b - a)) (skipn (Z.to_nat a) l)). apply in_or_app. left. exact H.
Qed.

Lemma selected_In rules multi keys rs r : selected g rules multi keys rs -> In r rs -> exists key, In key keys /\ hasRules g rules multi key rs.
Proof. induction 1 as [|key ks rs H|key ks rs H S IH]; intros HI; [destruct HI| |]; [exists key; cbn; auto|]. destruct (IH HI) as (k & A & B). exists k. cbn. auto. Qed.

Lemma findRules_fits j st t l r : tablesOk g -> zget (gStates g) j = Some st -> findRules t st = Some l -> In r l -> fits c j t r.
Proof.
  intros [TF TO] ES EF HI. destruct (TO j st ES) as (rules & multi & SO & SM).
  unfold Rules.findRules in EF. destruct (isSideToken (cType c) g t) eqn:SD.
  - left. destruct t as [t|]; [|discriminate]. injection EF as <-. destruct HI as [<-|[]]. exists t. split; auto.
    split; auto. apply isSideToken_spec. auto.
  - assert (NS : ~ isSide t) by (intros H; apply isSideToken_spec in H; congruence). clear SD.
    right. split; auto. destruct (possibleRuleKeys (cType c) (cText c) (cUpper c) g t) as [keys|] eqn:EK; [|discriminate].
    assert (K : keysOf (cType c) (cText c) (cUpper c) g t keys).
    { destruct (keys_spec (cType c) (cText c) (cUpper c) g t) as (keys' & E1 & K); [|rewrite EK in E1; injection E1 as <-; auto].
      intros tok ->. cbn [possibleRuleKeys] in EK. destruct (Z.leb_spec 0 (cType c tok)); [|left; auto]. right.
      destruct (zget (gTokens g) (cType c tok)); [eauto|discriminate]. }
    cbn [obind] in EF. destruct SO as [E1 E2 S1 S2 S3 S4] eqn:ESO. rewrite E1, E2 in EF. cbn [obind] in EF.
    destruct (findByKeys_spec g st rules multi SO keys) as (rs & E3 & SEL). rewrite E3 in EF. injection EF as <-.
    destruct (selected_In _ _ _ _ _ SEL HI) as (key & HK & HR).
    assert (TK : rToken r = key /\ In r (gRules g)).
    { destruct HR as [r' A B|m rs' A B C].
      - destruct HI as [<-|[]]. split; auto. eapply zslice_In; eauto.
      - split; [rewrite <- B; eapply SM; eauto|]. eapply zslice_In; eauto. }
    destruct TK as [TK IR]. split; [|split; [|split]].
    + exists st, rules, multi, rs. rewrite TK. auto.
    + specialize (TF r IR). unfold FinalState, repeatState in *. lia.
    + intros tok -> NA. exists keys. split; auto. rewrite TK. auto.
    + intros ->. inversion K; subst. destruct HK as [<-|[]]. auto.
Qed.

(** Rules that can be applied one after another, each being found for the top of the stack and
    the current token. *)
Inductive step : list nodeRec -> list (option Tok) -> rule -> list nodeRec -> list (option Tok) -> Prop :=
| ST n ls t toks r st l cons ls' : zget (gStates g) (nState n) = Some st -> findRules t st = Some l -> In r l ->
    dryRule c t r (n :: ls) = Some (cons, ls') -> step (n :: ls) (t :: toks) r ls' (if cons then toks else t :: toks).
Inductive canReplay : list nodeRec -> list (option Tok) -> list rule -> Prop :=
| CR_nil ls toks : canReplay ls toks []
| CR_cons ls toks r ls' toks' rs : step ls toks r ls' toks' -> canReplay ls' toks' rs -> canReplay ls toks (r :: rs).
Inductive brun (s0 : list nodeRec) : list (option Tok) -> list rule -> list nodeRec -> list (option Tok) -> Prop :=
| B_nil toks : brun s0 toks [] s0 toks
| B_snoc toks rs ls rem r ls' rem' : brun s0 toks rs ls rem -> step ls rem r ls' rem' -> brun s0 toks (rs ++ [r]) ls' rem'.

Lemma step_ext ls toks r ls' toks' x : step ls toks r ls' toks' -> step ls (toks ++ x) r ls' (toks' ++ x).
Proof.
  intros [n ls0 t tk r0 st l cons ls1 A1 A2 A3 A4]. cbn [app].
  replace ((if cons then tk else t :: tk) ++ x) with (if cons then tk ++ x else t :: tk ++ x) by (destruct cons; auto).
  eapply ST; eauto.
Qed.
Lemma brun_ext s0 toks rs ls rem x : brun s0 toks rs ls rem -> brun s0 (toks ++ x) rs ls (rem ++ x).
Proof. induction 1; [apply B_nil|]. eapply B_snoc; eauto. apply step_ext. auto. Qed.
Lemma brun_replay s0 toks rs ls rem : brun s0 toks rs ls rem -> forall rs2, canReplay ls rem rs2 -> canReplay s0 toks (rs ++ rs2).
Proof.
  induction 1 as [toks|toks rs ls rem r ls' rem' HB IH HS]; intros rs2 HC; auto.
  rewrite <- app_assoc. apply IH. eapply CR_cons; eauto.
Qed.
Lemma canReplay_nil toks rs : canReplay [] toks rs -> rs = [].
Proof. intros H. inversion H; auto. inversion H0. Qed.

(** the stack may be longer *)
Lemma dryPop_app (ls rest : list nodeRec) : dryPop (ls ++ rest) = match dryPop ls with [] => dryPop rest | l => l ++ rest end.
Proof. induction ls as [|n ls IH]; cbn [app dryPop]; auto. destruct (nState n =? FinalState); auto. Qed.
Lemma dryPop_end (l : list nodeRec) : match l with n :: _ => if nState n =? FinalState then dryPop l else l | [] => l end = dryPop l.
Proof. destruct l as [|n l]; auto. cbn [dryPop]. destruct (nState n =? FinalState); auto. Qed.
Lemma dryRule_app t r ls rest cons ls' : dryRule c t r ls = Some (cons, ls') ->
  dryRule c t r (ls ++ rest) = Some (cons, match ls' with [] => dryPop rest | _ => ls' ++ rest end).
Proof.
  unfold dryRule. destruct ls as [|n ls]; [discriminate|]. cbn [app].
  match goal with |- context [if rState r =? repeatState then ?a else ?b] => destruct (if rState r =? repeatState then a else b) as [n'|] end; [|discriminate].
  cbn [obind].
  assert (H : forall (st : option (list nodeRec)) st', (forall x, st = Some x -> st' = Some (x ++ rest)) -> forall cc : bool,
    (do stack <- st; Some (cc, match stack with n :: _ => if nState n =? FinalState then dryPop stack else stack | [] => stack end)) = Some (cons, ls') ->
    (do stack <- st'; Some (cc, match stack with n :: _ => if nState n =? FinalState then dryPop stack else stack | [] => stack end)) =
      Some (cons, match ls' with [] => dryPop rest | _ => ls' ++ rest end)).
  { intros [x|] st' HX cc; [|discriminate]. rewrite (HX x eq_refl). cbn [obind]. rewrite !dryPop_end, dryPop_app.
    intros H. assert (cc = cons) by congruence. assert (EX : dryPop x = ls') by congruence. rewrite EX. subst cc. destruct ls'; reflexivity. }
  apply H. intros x. destruct (rNode r =? SameNode); [intros HX; injection HX as <-; auto|].
  destruct (zget (gNodes g) (rNode r)) as [nt|]; [|discriminate]. cbn [obind].
  destruct (zget (gStates g) (gnFirst nt)) as [st|]; [|discriminate]. cbn [obind]. intros HX. injection HX as <-. auto.
Qed.

(** ** Branches *)
Variable s0 : list nodeRec.
Definition branchAt (T : list (option Tok)) (store : list branch) (rem : list (option Tok)) (b : nat) : Prop :=
  exists br, nth_error store b = Some br /\ brun s0 T (bRules br) (bStack br) rem.
Record KI (T : list (option Tok)) (t : option Tok) (rest : list nat) (k : look) : Prop := mkKI {
  ki_store : Forall (fun br => exists rem, brun s0 T (bRules br) (bStack br) rem) (kStore k);
  ki_cur : Forall (branchAt T (kStore k) [t]) (rest ++ kQueue k);
  ki_next : Forall (branchAt T (kStore k) []) (kNext k);
  ki_nodup : NoDup (rest ++ kQueue k ++ kNext k) }.

Lemma branchAt_lt T store rem b : branchAt T store rem b -> (b < length store)%nat.
Proof. intros (br & E1 & _). apply nth_error_Some. congruence. Qed.
Lemma branchAt_upd T store rem b b' x : b <> b' -> branchAt T store rem b -> branchAt T (upd store b' x) rem b.
Proof.
  intros NE (br & E1 & H). exists br. split; auto. destruct (Nat.lt_ge_cases b' (length store)).
  - rewrite nth_error_upd; auto. destruct (Nat.eqb_spec b b'); [congruence|auto].
  - replace (upd store b' x) with store; auto. clear - H0. revert b' H0. induction store as [|y l IH]; intros b' H; [destruct b'; reflexivity|].
    destruct b'; cbn in *; [lia|]. rewrite <- IH; auto. lia.
Qed.
Lemma Forall_upd {A} (P : A -> Prop) l n x : Forall P l -> P x -> Forall P (upd l n x).
Proof.
  intros H HX. revert n. induction H as [|y l HY H IH]; intros n; [destruct n; constructor|].
  destruct n; cbn; constructor; auto.
Qed.

Lemma lookApply_ok T t b r rest k k' br n ls st l :
  KI T t (b :: rest) k -> nth_error (kStore k) b = Some br -> bStack br = n :: ls ->
  zget (gStates g) (nState n) = Some st -> findRules t st = Some l -> In r l ->
  lookApply c t b r k = Some k' ->
  KI T t rest k' /\ (forall b', b' <> b -> nth_error (kStore k') b' = nth_error (kStore k) b') /\ length (kStore k') = length (kStore k).
Proof.
  intros [A1 A2 A3 A4] EB EN ES EF HI H. unfold lookApply in H. rewrite EB in H. cbn [obind] in H. rewrite EN in H.
  destruct (dryRule c t r (n :: ls)) as [[cons ls']|] eqn:ED; [|discriminate]. cbn [obind] in H.
  pose proof (Forall_inv A2) as (br' & EB' & BR). rewrite EB in EB'. injection EB' as <-. rewrite EN in BR.
  set (br' := mkBranch ls' (bRules br ++ [r])) in *.
  assert (BR' : brun s0 T (bRules br') (bStack br') (if cons then [] else [t])) by (eapply B_snoc; [exact BR|]; eapply ST; eauto).
  assert (LT : (b < length (kStore k))%nat) by (apply nth_error_Some; congruence).
  apply Forall_inv_tail in A2. inversion A4 as [|? ? NI ND]; subst.
  assert (ST1 : Forall (fun br => exists rem, brun s0 T (bRules br) (bStack br) rem) (upd (kStore k) b br')) by (apply Forall_upd; eauto).
  assert (CUR : Forall (branchAt T (upd (kStore k) b br') [t]) (rest ++ kQueue k)).
  { apply Forall_forall. intros x HX. apply branchAt_upd; [|rewrite Forall_forall in A2; auto].
    intros ->. apply NI. rewrite app_assoc. apply in_or_app. auto. }
  assert (NXT : Forall (branchAt T (upd (kStore k) b br') []) (kNext k)).
  { apply Forall_forall. intros x HX. apply branchAt_upd; [|rewrite Forall_forall in A3; auto].
    intros ->. apply NI. rewrite app_assoc. apply in_or_app. auto. }
  assert (HB : branchAt T (upd (kStore k) b br') (if cons then [] else [t]) b).
  { exists br'. split; auto. rewrite nth_error_upd; auto. rewrite Nat.eqb_refl. auto. }
  assert (OTH : forall b', b' <> b -> nth_error (upd (kStore k) b br') b' = nth_error (kStore k) b').
  { intros b' NE. rewrite nth_error_upd; auto. destruct (Nat.eqb_spec b' b); congruence. }
  assert (LEN : length (upd (kStore k) b br') = length (kStore k)) by apply upd_length.
  destruct (match ls' with [] => true | _ => false end || cons) eqn:C1; [destruct cons|]; injection H as <-; cbn [kStore kNext kQueue];
    (split; [|split; assumption]); constructor; cbn [kStore kNext kQueue]; auto.
  - apply Forall_app. auto.
  - eapply Permutation_NoDup; [|exact A4]. cbn [app]. rewrite !app_assoc. apply (Permutation_cons_append (_ ++ _)).
  - apply orb_false_iff in C1 as [_ ->]. rewrite app_assoc. apply Forall_app. auto.
  - eapply Permutation_NoDup; [|exact A4]. cbn [app]. rewrite <- app_assoc. cbn [app]. rewrite !(app_assoc rest). apply Permutation_middle.
Qed.

Lemma lookSplit_ok T t br n ls st l : bStack br = n :: ls -> zget (gStates g) (nState n) = Some st -> findRules t st = Some l ->
  forall ids rs rest k k', (length ids = length rs)%nat -> (forall r, In r rs -> In r l) ->
  KI T t (ids ++ rest) k -> (forall b, In b ids -> nth_error (kStore k) b = Some br) ->
  lookSplit c t ids rs k = Some k' -> KI T t rest k'.
Proof.
  intros EN ES EF. induction ids as [|b ids IH]; intros rs rest k k' HL HR HK HB H.
  - destruct rs; [|discriminate]. injection H as <-. auto.
  - destruct rs as [|r rs]; [discriminate|]. cbn [lookSplit] in H.
    destruct (lookApply c t b r k) as [k1|] eqn:E1; [|discriminate]. cbn [obind] in H.
    destruct (lookApply_ok T t b r (ids ++ rest) k k1 br n ls st l) as (A1 & A2 & A3); auto; [apply HB; left; auto|apply HR; left; auto|].
    eapply IH; [| |exact A1| |exact H]; [cbn in HL; lia|intros; apply HR; right; auto|].
    intros b' HB'. rewrite A2; [apply HB; right; auto|]. intros ->.
    pose proof (ki_nodup _ _ _ _ HK) as ND. cbn in ND. inversion ND as [|? ? NI _]; subst. apply NI. rewrite <- app_assoc. apply in_or_app. auto.
Qed.

Lemma KI_pop T t b q rest k : KI T t rest k -> kQueue k = b :: q ->
  KI T t (b :: rest) (mkLook (kStore k) (kNext k) q (kSuccess k) (kError k)).
Proof.
  intros [A1 A2 A3 A4] EQ. rewrite EQ in *. constructor; cbn [kStore kNext kQueue]; auto.
  - cbn. apply Forall_app in A2 as [B1 B2]. constructor; [exact (Forall_inv B2)|]. apply Forall_app. split; auto. exact (Forall_inv_tail B2).
  - eapply Permutation_NoDup; [|exact A4]. cbn [app]. symmetry. apply Permutation_middle.
Qed.
Lemma KI_drop T t b rest k : KI T t (b :: rest) k -> KI T t rest k.
Proof. intros [A1 A2 A3 A4]. constructor; auto; [exact (Forall_inv_tail A2)|]. inversion A4; auto. Qed.
Lemma KI_ext T t rest k s e : KI T t rest k -> KI T t rest (mkLook (kStore k) (kNext k) (kQueue k) s e).
Proof. intros []. constructor; auto. Qed.
Lemma branchAt_app T store more rem b : branchAt T store rem b -> branchAt T (store ++ more) rem b.
Proof. intros H. pose proof (branchAt_lt _ _ _ _ H). destruct H as (br & E1 & H). exists br. split; auto. rewrite nth_error_app1; auto. Qed.

Lemma lookBranch_ok T t rest : forall fuel k k', KI T t rest k -> lookBranch c fuel t k = Some (Some k') -> KI T t rest k' /\ kQueue k' = [].
Proof.
  induction fuel as [|f IH]; intros k k' HK H; cbn [lookBranch] in H; [discriminate|].
  destruct (kQueue k) as [|b q] eqn:EQ; [injection H as <-; auto|].
  pose proof (KI_pop T t b q rest k HK EQ) as HK1. cbn [kStore kNext kQueue kSuccess kError] in H.
  destruct (nth_error (kStore k) b) as [br|] eqn:EB; [|discriminate].
  destruct (bStack br) as [|n ls] eqn:EN.
  - eapply IH; [|exact H]. apply (KI_ext _ _ _ _ (Some b) (kError k)) in HK1. apply KI_drop in HK1. exact HK1.
  - destruct (zget (gStates g) (nState n)) as [st|] eqn:ES; [|discriminate]. cbn [obind] in H.
    destruct (findRules t st) as [rs|] eqn:EF; [|discriminate].
    destruct rs as [|r0 rs].
    + eapply IH; [|exact H]. apply (KI_ext _ _ _ _ (kSuccess k) (Some b)) in HK1. apply KI_drop in HK1. exact HK1.
    + remember (r0 :: rs) as l eqn:El.
      match type of H with match lookSplit c t ?ids l ?k0 with _ => _ end = _ => set (kk := k0) in *; set (idl := ids) in * end.
      destruct (lookSplit c t idl l kk) as [k1|] eqn:E1; [|discriminate].
      eapply IH; [|exact H]. eapply (lookSplit_ok T t br n ls st l EN ES EF idl l rest kk k1); auto.
      * unfold idl. cbn. rewrite seq_length. rewrite El. cbn. lia.
      * pose proof (Forall_inv (ki_cur _ _ _ _ HK1)) as HB. cbn [kStore] in HB.
        destruct HK1 as [A1 A2 A3 A4]. cbn [kStore kNext kQueue] in *.
        assert (HB' : exists rem, brun s0 T (bRules br) (bStack br) rem) by (destruct HB as (br' & E2 & X); rewrite EB in E2; injection E2 as <-; eauto).
        assert (LT : forall x, In x (b :: rest ++ q ++ kNext k) -> (x < length (kStore k))%nat).
        { intros x HX. rewrite Forall_forall in A2, A3. change (b :: rest ++ q ++ kNext k) with ((b :: rest) ++ q ++ kNext k) in HX.
          rewrite app_assoc in HX. apply in_app_or in HX as [HX|HX]; [apply A2 in HX|apply A3 in HX]; eapply branchAt_lt; eauto. }
        constructor; unfold kk, idl; cbn [kStore kNext kQueue].
        -- apply Forall_app. split; auto. apply Forall_forall. intros x HX. apply repeat_spec in HX. subst x. auto.
        -- apply Forall_forall. intros x HX. rewrite <- app_assoc in HX. cbn [app] in HX. destruct HX as [<-|HX]; [apply branchAt_app; exact HB|].
           apply in_app_or in HX as [HX|HX].
           ++ apply in_seq in HX. destruct HB as (br' & E2 & X). rewrite EB in E2. injection E2 as <-. exists br. split; auto.
              rewrite nth_error_app2 by lia. apply nth_error_repeat. lia.
           ++ apply branchAt_app. rewrite Forall_forall in A2. apply A2. right. auto.
        -- apply Forall_forall. intros x HX. apply branchAt_app. rewrite Forall_forall in A3. auto.
        -- cbn [app]. inversion A4 as [|? ? NI ND]; subst. constructor.
           ++ intros HX. rewrite <- app_assoc in HX. apply in_app_or in HX as [HX|HX]; [|exact (NI HX)].
              apply in_seq in HX. specialize (LT b (or_introl eq_refl)). lia.
           ++ rewrite <- app_assoc. set (len := (length (r0 :: rs) - 1)%nat) in *.
              assert (SD := seq_NoDup len (length (kStore k))).
              revert ND LT SD. generalize (rest ++ q ++ kNext k) (length (kStore k)). clear.
              intros Y m ND LT SD. assert (DJ : forall x, In x (seq m len) -> ~ In x Y).
              { intros x HX HY. apply in_seq in HX. specialize (LT x (or_intror HY)). lia. }
              revert SD DJ. generalize (seq m len). intros X. induction X as [|x X IHX]; intros SD DJ; [exact ND|].
              cbn. inversion SD as [|? ? N1 N2]; subst. constructor.
              ** intros HX. apply in_app_or in HX as [HX|HX]; [auto|]. exact (DJ x (or_introl eq_refl) HX).
              ** apply IHX; auto. intros y HY. apply DJ. right. auto.
      * intros x HX. unfold kk. cbn [kStore]. destruct HX as [<-|HX].
        -- rewrite nth_error_app1; auto. apply nth_error_Some. congruence.
        -- apply in_seq in HX. rewrite nth_error_app2 by lia. apply nth_error_repeat. lia.
Qed.

Lemma lookRound_lost fuel t : forall branches i k lost k' lost', lookRound c fuel t i branches k lost = Some (Some (k', lost')) -> lost = true -> lost' = true.
Proof.
  induction branches as [|b r IH]; intros i k lost k' lost' H HL; cbn [lookRound] in H; [congruence|].
  destruct (nth_error (kNext k) i) as [b'|].
  - destruct (lookBranch c fuel t _) as [[k1|]|]; try discriminate. eauto.
  - destruct (lookBranch c fuel t _) as [[k1|]|]; try discriminate. eauto.
Qed.
Lemma lookRound_ok T t fuel : forall branches i k lost k', KI T t branches k -> kQueue k = [] ->
  lookRound c fuel t i branches k lost = Some (Some (k', false)) -> KI T t [] k' /\ kQueue k' = [].
Proof.
  induction branches as [|b r IH]; intros i k lost k' HK HQ H; cbn [lookRound] in H; [injection H as <- ->; auto|].
  destruct (nth_error (kNext k) i) as [b'|].
  - destruct (lookBranch c fuel t _) as [[k1|]|]; try discriminate. apply lookRound_lost in H; [discriminate|auto].
  - destruct (lookBranch c fuel t _) as [[k1|]|] eqn:EL; try discriminate.
    edestruct (lookBranch_ok T t r fuel) as [A B]; [|exact EL|].
    + destruct HK as [A1 A2 A3 A4]. rewrite HQ in *. constructor; cbn [kStore kNext kQueue]; auto.
      * apply Forall_app. rewrite app_nil_r in A2. split; [exact (Forall_inv_tail A2)|]. constructor; auto. exact (Forall_inv A2).
      * eapply Permutation_NoDup; [|exact A4]. cbn [app]. apply Permutation_middle.
    + eapply IH; eauto.
Qed.
Lemma KI_start T t k s e : KI T t [] k -> kQueue k = [] -> forall t', KI (T ++ [t']) t' (kNext k) (mkLook (kStore k) [] [] s e).
Proof.
  intros [A1 A2 A3 A4] HQ t'. rewrite HQ in *. constructor; cbn [kStore kNext kQueue].
  - eapply Forall_impl; [|exact A1]. intros br (rem & H). exists (rem ++ [t']). apply brun_ext. auto.
  - rewrite app_nil_r. eapply Forall_impl; [|exact A3]. intros b (br & E1 & H). exists br. split; auto. apply (brun_ext _ _ _ _ _ [t']) in H. exact H.
  - constructor.
  - rewrite app_nil_r. exact A4.
Qed.
End P.
