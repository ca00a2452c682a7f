(** Tables made for LL(1) definitions: the next token tells which rule to take. *)
From Coq Require Import ZArith List Bool Lia.
From Verif Require Import Base BaseProofs Grammar RulesSpec Parser ParserSpec ParserTermSpec PredictSpec LangBuild LangSpec LangProofs LangFrame LangComplete LangSound LangShare LangNodesSpec
  LangDrop LangFair LangTables LangRules Prop_LangStates Prop_LangTables Prop_LangGrammar LangIdleTables LangLLSpec LangLL LangLLBuild.
Import ListNotations.
Open Scope Z_scope.

Section Nodes.
Variable defs : list (option chunk).
Variable clash : Z -> Z -> Prop.
Hypothesis CR : forall k, clash k k.
Hypothesis CS : forall k k', clash k k' -> clash k' k.
Variable firsts : list (list Z).
Hypothesis FI : forall i, 0 <= i < zlen defs -> NoDup (firstsOf firsts i) /\ forall k, In k (firstsOf firsts i) -> firstToken defs i k /\ 0 <= k.
Hypothesis ONE : forall i k k', firstToken defs i k -> firstToken defs i k' -> clash k k' -> k = k'.
Hypothesis LL : ll1 defs clash.
Notation none := (fun _ : Z => False).
Notation clear := (clear clash).
Notation fits := (LangLLBuild.fits defs).

(** The states from [f] to [hi] are those of the machine of the node [i]. *)
Record machineOf (p : pres) (i f hi : Z) (den : tokenSets) : Prop := mkMachine {
  mo_range : 0 <= f < hi /\ hi <= zlen (sts p);
  mo_rules : forall q r, f <= q < hi -> has p q r -> (rState r = FinalState \/ f <= rState r < hi) /\ fits den q r;
  mo_clear : forall q, f <= q < hi -> clear den p q;
  mo_end : forall k, den FinalState k <-> follows defs i k
}.
Lemma machine_same p p' i f hi den : machineOf p i f hi den -> zlen (sts p) <= zlen (sts p') -> (forall q, q < zlen (sts p) -> zget (sts p') q = zget (sts p) q) -> machineOf p' i f hi den.
Proof.
  intros [R U C E] Z S. split; [lia| | |exact E].
  - intros q r Q H. apply (U q r Q). apply (has_same p p'); [apply S; lia|exact H].
  - intros q Q. eapply bounded_same; [apply C, Q|apply S; lia|exact Z|intros x _; reflexivity].
Qed.

Lemma nodes_ll ds : forall b, (forall j d, nth_error ds j = Some d -> LangNodesSpec.defined defs (b + Z.of_nat j) d /\ wf defs d) ->
  forall p fs p', buildNodes firsts ds p = Some (fs, p') -> okP p ->
  zlen (sts p) <= zlen (sts p') /\ (forall q, q < zlen (sts p) -> zget (sts p') q = zget (sts p) q) /\
  (forall j f, nth_error fs j = Some f -> exists hi den, machineOf p' (b + Z.of_nat j) f hi den) /\
  (forall q, zlen (sts p) <= q < zlen (sts p') -> exists i f hi den, machineOf p' i f hi den /\ f <= q < hi).
Proof.
  induction ds as [|d ds IH]; intros b W p fs p' H OK; cbn [buildNodes] in H.
  - injection H as <- <-. split; [lia|]. split; [reflexivity|]. split; [intros [|j]; discriminate|lia].
  - destruct (addState p) as (f, p1) eqn:A. ob H. rename x into p2. ob H. destruct x as (fs', p3). injection H as <- <-.
    destruct (W 0%nat d eq_refl) as (Dd & Wd). replace (b + Z.of_nat 0) with b in Dd by lia.
    pose proof (addState_ok _ _ _ OK A) as O1. apply addState_spec in A. destruct A as (-> & A2 & A3 & A4 & _).
    pose proof (zlen_nonneg (sts p)) as ZP. set (f := zlen (sts p)) in *.
    pose proof (wf_written _ _ Wd) as Wr.
    pose proof (build_zlen _ _ _ _ _ _ Wr H0) as Z2.
    assert (LV : live p1 f) by (unfold live; lia).
    pose proof (build_keeps firsts d Wr _ _ _ _ H0 LV) as KP.
    set (den1 := fun q k => if q =? f then begins defs d k \/ isOptional d = true /\ follows defs b k else follows defs b k).
    assert (DF : den1 FinalState = follows defs b). { unfold den1. destruct (Z.eqb_spec FinalState f); [unfold FinalState in *; lia|reflexivity]. }
    assert (D1 : den1 f = fun k => begins defs d k \/ isOptional d = true /\ follows defs b k). { unfold den1. rewrite Z.eqb_refl. reflexivity. }
    destruct (build_member defs clash CR CS f firsts FI ONE d Wd (follows defs b) none none f FinalState p1 p2 den1 H0 O1 LV) as (den2 & AG2 & AD2 & BD2 & CL2).
    { unfold FinalState. lia. }
    { apply LL, Dd. }
    { rewrite DF. intros k K. exact K. }
    { unfold req. rewrite DF, D1. split; [lia|]. split; [left; reflexivity|]. split; [intros k K; left; exact K|]. split; [intros O k K; right; auto|]. split; [intros _ k K; exact K|].
      intros v i u w S. destruct w as [|x w]; intros k K; [eapply FO_last; eassumption|eapply FO_next; eassumption]. }
    { apply bounded_fresh, A4. }
    { intros k k' []. }
    { intros k k' []. }
    { intros _ k k' []. }
    assert (O2 : okP p2) by (eapply build_ok; eassumption).
    assert (MA : machineOf p2 b f (zlen (sts p2)) den2).
    { split; [lia| | |].
      - intros q r Q X. apply AD2 in X. destruct X as [(e0 & G & Y)|(G1 & G2 & G3)].
        + exfalso. destruct (Z.eq_dec q f) as [->|NE]; [rewrite A4 in G; injection G as <-; destruct Y|]. apply zget_Some_inv in G. lia.
        + split; [|exact G3]. destruct G1; [auto|right; lia].
      - intros q Q. destruct (Z.eq_dec q f) as [->|NE]; [eapply bounded_clear, BD2|apply CL2; lia].
      - intros k. rewrite <- (AG2 FinalState) by (unfold FinalState; lia). rewrite DF. reflexivity. }
    destruct (IH (b + 1)) with (p := p2) (fs := fs') (p' := p3) as (Z3 & S3 & N3 & C3).
    + intros j d' D. specialize (W (S j) d' D). replace (b + 1 + Z.of_nat j) with (b + Z.of_nat (S j)) by lia. exact W.
    + exact H1.
    + exact O2.
    + pose proof (machine_same _ p3 _ _ _ _ MA Z3 S3) as MB. split; [lia|]. split; [|split].
      * intros q Q. rewrite S3, KP by lia. apply A3. lia.
      * intros [|j] f' F; [injection F as <-; replace (b + Z.of_nat 0) with b by lia; eauto|]. replace (b + Z.of_nat (S j)) with (b + 1 + Z.of_nat j) by lia. apply N3, F.
      * intros q Q. destruct (Z.lt_ge_cases q (zlen (sts p2))) as [L|G]; [exists b, f, (zlen (sts p2)), den2; split; [exact MB|lia]|apply C3; lia].
Qed.
End Nodes.

(** ** No multiple rules *)
Lemma mget_sound {V} k (m : list (Z * V)) v : mget k m = Some v -> In (k, v) m.
Proof.
  induction m as [|(k', v') m IH]; cbn [mget]; [discriminate|]. destruct (Z.eqb_spec k k') as [->|NE]; [intros [= ->]; left; reflexivity|]. intros H. right. auto.
Qed.
Lemma rmKeys_singles e : singles (ePos e) -> snd (rmKeys e) = [].
Proof.
  intros S. unfold rmKeys. cbn [snd]. replace (filter _ (entryKeys e)) with (@nil Z); [reflexivity|]. symmetry. induction (entryKeys e) as [|k l IH]; [reflexivity|]. cbn [filter].
  destruct (Z.ltb_spec 1 (zlen (entryRules e k))) as [L|L]; [|exact IH]. exfalso. unfold entryRules in L. destruct (mget k (ePos e)) as [rs|] eqn:G.
  - apply mget_sound in G. specialize (S _ _ G). unfold zlen in L. lia.
  - destruct (mget k (eNeg e)) as [(c0, r)|]; cbn in L; lia.
Qed.
Lemma buildState_singles e rules multi x : singles (ePos e) -> buildState e rules multi = Some x -> snd x = multi.
Proof.
  intros S H. unfold buildState in H. pose proof (rmKeys_singles e S) as M. destruct (rmKeys e) as (rk, mk). cbn [snd] in M. subst mk. ob H. cbn [writeMulti] in H. injection H as <-. reflexivity.
Qed.
Lemma writeStates_singles : forall es sts rules multi x, (forall e, In e es -> singles (ePos e)) -> writeStates es sts rules multi = Some x -> snd x = multi.
Proof.
  induction es as [|e es IH]; intros ss rules multi x S H; cbn [writeStates] in H; [injection H as <-; reflexivity|].
  ob H. destruct x0 as ((st, rules'), multi'). match goal with X : buildState _ _ _ = Some _ |- _ => apply buildState_singles in X; [|apply S; left; reflexivity]; cbn [snd] in X; subst multi' end.
  eapply IH; [|exact H]. intros e' E. apply S. right. exact E.
Qed.
Lemma posLike_singles b m' m : posLike b m' m -> singles m -> singles m'.
Proof.
  intros F. induction F as [|x y l l' (E1 & E2) F IH]; intros S k rs X; [destruct X|]. destruct X as [->|X].
  - destruct y as (k', rs'). cbn [snd] in E2. replace (length rs) with (length rs'); [apply (S k' rs'); left; reflexivity|]. symmetry. clear - E2. induction E2; cbn; auto.
  - apply (IH (fun k0 rs0 Y => S k0 rs0 (or_intror Y)) k rs X).
Qed.
Lemma compiled_singles tokens layers names firsts defs g : (forall d, In d defs -> written d) -> compiled tokens layers names firsts defs g ->
  (forall fs p q e, buildNodes firsts defs (mkPres [] 0) = Some (fs, p) -> zget (sts p) q = Some e -> singles (ePos e)) -> gMultiRules g = [].
Proof.
  intros W (LN & fs & es & (p & H & R) & B) SG. destruct (built_ready _ _ _ _ _ W H R) as (OK & CF & NB & RG).
  destruct (drop_fair fs es OK CF NB) as (fs' & es' & phi & D & [S1 S2 S3 S4]); [intros e r E I; apply (RG e r E I)|].
  assert (UB : forall x, In x (usedStates fs es) -> 0 <= x < zlen es).
  { intros x X. apply used_In in X. destruct X as [X|(e & r & E & R0 & P & ->)]; [apply NB, X|]. specialize (RG e r E R0). lia. }
  assert (SG' : forall e, In e es' -> singles (ePos e)).
  { intros e' E'. apply In_zget in E'. destruct E' as (y & G'). destruct (S4 y e' G') as (x & X & E). subst y.
    destruct (zget es x) as [e|] eqn:G; [|apply nth_error_zget_None in G; specialize (UB x X); lia].
    destruct (S2 x e X G) as (e1 & G1 & (_ & LK & _)). rewrite G' in G1. injection G1 as <-. eapply posLike_singles; [exact LK|].
    destruct (retyped_zget _ _ _ _ R G) as (e0 & G0 & -> & _). eapply SG; eassumption. }
  unfold buildGrammar in B. rewrite D in B. cbn [obind] in B. ob B. destruct x as ((s, r), m). injection B as <-. cbn [gMultiRules].
  match goal with X : writeStates _ _ _ _ = Some _ |- _ => apply writeStates_singles in X; [exact X|exact SG'] end.
Qed.

(** ** The tables *)
Section T.
Context {Tok Src W E Inst R : Type}.
Variable c : config Tok Src W E Inst R.
Notation g := (cGrammar c).
Notation tokenMatches := (tokenMatches (cType c) (cText c) (cUpper c) g).
Variable lexed : Tok -> Prop.
Variable firsts : list (list Z).
Variable defs : list chunk.
Notation odefs := (map Some defs).
Variable clash : Z -> Z -> Prop.
Hypothesis CR : forall k, clash k k.
Hypothesis CS : forall k k', clash k k' -> clash k' k.
Hypothesis CT : forall t k k', lexed t -> 0 <= k -> 0 <= k' -> tokenMatches t k -> tokenMatches t k' -> clash k k'.
Hypothesis WF : forall d, In d defs -> wf odefs d /\ skipsApart d false = true.
Hypothesis FI : forall i, 0 <= i < zlen odefs -> NoDup (firstsOf firsts i) /\ forall k, In k (firstsOf firsts i) -> firstToken odefs i k /\ 0 <= k.
Hypothesis LL : ll1 odefs clash.

Lemma wf_in d : In d defs -> written d.
Proof. intros D. apply (wf_written _ _ (proj1 (WF d D))). Qed.
Lemma eoi_key t k : cType c t = EoiTokenType -> tokenMatches t k -> k < 0.
Proof.
  intros ET (keys & K & I0). assert (NL : forall i, ~ literalFor (cType c) (cText c) (cUpper c) g t i).
  { intros i [d G _ _]. apply zget_Some_inv in G. rewrite ET in G. unfold EoiTokenType, Lexer.EoiTokenType in G. lia. }
  inversion K as [|t' N|t' i LI NR|t' i LI RS]; subst; [|destruct (NL _ LI)..]. rewrite ET in I0. cbn in I0. unfold EoiTokenType, Lexer.EoiTokenType, AnyToken in I0. lia.
Qed.

Lemma ll_predictive tokens layers names : compiled tokens layers names firsts defs g -> predictive c lexed.
Proof.
  intros C.
  assert (WR : forall i d, LangNodesSpec.defined odefs i d -> written d). { intros i d D. apply defined_in in D. apply wf_in. eapply zget_In, D. }
  assert (ONE : forall i k k', firstToken odefs i k -> firstToken odefs i k' -> clash k k' -> k = k').
  { intros i k k' A B. revert B. apply (first_one odefs clash CS LL WR i k A). }
  assert (ND : forall fs p, buildNodes firsts defs (mkPres [] 0) = Some (fs, p) ->
    (forall j f, nth_error fs j = Some f -> exists hi den, machineOf odefs clash p (0 + Z.of_nat j) f hi den) /\
    (forall q, 0 <= q < zlen (sts p) -> exists i f hi den, machineOf odefs clash p i f hi den /\ f <= q < hi)).
  { intros fs p H. destruct (nodes_ll odefs clash CR CS firsts FI ONE LL defs 0) with (p := mkPres [] 0) (fs := fs) (p' := p) as (_ & _ & N & Q).
    - intros j d D. split; [|apply WF; eapply nth_error_In, D]. apply defined_in. unfold zget. destruct (Z.ltb_spec (0 + Z.of_nat j) 0); [lia|]. rewrite Z.add_0_l, Nat2Z.id. exact D.
    - exact H.
    - intros q x G. apply zget_Some_inv in G. cbn in G. lia.
    - split; [exact N|exact Q]. }
  destruct (compiled_rules _ _ _ _ _ _ wf_in C) as (fs & es & fs' & es' & ST & LF & DR & _ & FS & _ & LF' & RU).
  assert (MU : gMultiRules g = []).
  { apply (compiled_singles _ _ _ _ _ _ wf_in C). intros fs0 p q e H G. destruct (ND _ _ H) as (_ & Q). pose proof (zget_Some_inv _ _ _ G) as RG.
    destruct (Q q RG) as (i & f & hi & den & M & Z). apply (bd_single _ _ _ _ _ _ (mo_clear _ _ _ _ _ _ _ M q Z) e G). }
  destruct (drop_keeps_machine_partial firsts defs fs es) as (fs1 & es1 & phi & DR1 & SM).
  { intros d D. split; [apply wf_in, D|apply WF, D]. }
  { intros d i t D M T. apply (FI i); [apply (wf_nodes _ _ (proj1 (WF d D)) i M)|exact T]. }
  { exact ST. }
  rewrite DR in DR1. injection DR1 as <- <-. destruct ST as (p & BN & RT). destruct (ND _ _ BN) as (NM & NQ). clear ND.
  pose proof (retyped_len _ _ RT) as ZE.
  destruct (built_ready _ _ _ _ _ wf_in BN RT) as (_ & _ & NB & BR).
  assert (HS : forall q r, hasRule es q r <-> has p q r) by (intros q r; apply (retyped_has _ _ q r RT)).
  assert (TG : forall q r, hasRule es q r -> FinalState <= rState r < zlen es). { intros q r (x & G & I0). apply (BR x r (zget_In _ _ _ G) I0). }
  set (is := fun x y => x = FinalState /\ y = FinalState \/ inUse fs es x /\ y = phi x).
  assert (UB : forall x, inUse fs es x -> 0 <= x < zlen es).
  { intros x [X|(q & r & H & <- & P)]; [apply NB, X|]. specialize (TG q r H). lia. }
  assert (NX : forall x r, hasRule es x r -> is (rState r) (rState (rename phi r))).
  { intros x r H. unfold rename. cbn [rState]. destruct (Z.eqb_spec (rState r) FinalState) as [EQ|EQ]; [left; auto|]. right. split; [|reflexivity]. right. exists x, r. specialize (TG x r H). unfold FinalState in *. split; [exact H|]. split; [reflexivity|lia]. }
  assert (PH : forall x, inUse fs es x -> 0 <= phi x).
  { intros x X. destruct (zget es x) as [e0|] eqn:G; [|apply nth_error_zget_None in G; specialize (UB x X); lia]. destruct (sm_types _ _ _ _ _ SM x e0 X G) as (e' & G' & _). apply zget_Some_inv in G'. lia. }
  assert (RB : forall x y r', is x y -> ruleOf g y r' -> exists r, hasRule es x r /\ r' = rename phi r).
  { intros x y r' [(-> & ->)|(X & ->)] H; apply RU in H.
    - destruct H as (x & G & _). apply zget_Some_inv in G. unfold FinalState in G. lia.
    - apply (sm_rules _ _ _ _ _ SM x X) in H. exact H. }
  assert (IN : forall y r, ruleOf g y r -> exists x, is x y /\ 0 <= x < zlen es).
  { intros y r H. apply RU in H. destruct H as (e0 & G & _). destruct (sm_only _ _ _ _ _ SM y e0 G) as (x & X & <-). exists x. split; [right; auto|apply UB, X]. }
  assert (INJ : forall x x' y, is x y -> is x' y -> x = x').
  { intros x x' y [(-> & ->)|(X & ->)] [(-> & EQ)|(X' & EQ)]; auto.
    - specialize (PH x' X'). unfold FinalState in EQ. lia.
    - specialize (PH x X). unfold FinalState in EQ. lia.
    - apply (sm_inj _ _ _ _ _ SM); auto. }
  (* machines of nodes *)
  set (M := fun n f hi den => machineOf odefs clash p n f hi den /\ nth_error fs (Z.to_nat n) = Some f /\ 0 <= n).
  set (inM := fun (f hi x : Z) => x = FinalState \/ f <= x < hi).
  assert (ON : forall n y, ofNode c n y -> exists f hi den x, M n f hi den /\ is x y /\ inM f hi x).
  { induction 1 as [n nt G|n y r' _ IH H].
    - unfold zget in G. destruct (Z.ltb_spec n 0) as [L|L]; [discriminate|].
      assert (F' : nth_error fs' (Z.to_nat n) = Some (gnFirst nt)) by (rewrite <- FS, nth_error_map, G; reflexivity).
      rewrite (sm_first _ _ _ _ _ SM), nth_error_map in F'. destruct (nth_error fs (Z.to_nat n)) as [f|] eqn:F; [|discriminate]. injection F' as F'.
      destruct (NM _ _ F) as (hi & den & MM). rewrite Z.add_0_l, Z2Nat.id in MM by lia. exists f, hi, den, f. split; [split; auto|]. split; [right; split; [left; eapply nth_error_In, F|auto]|].
      right. pose proof (mo_range _ _ _ _ _ _ _ MM). lia.
    - destruct IH as (f & hi & den & x & (MM & F & N0) & X & IX). destruct (RB x y r' X H) as (r & HR & ->). exists f, hi, den, (rState r). split; [split; auto|]. split; [apply (NX x r HR)|].
      destruct IX as [->|IX]; [apply HS, has_live in HR; unfold live, FinalState in HR; lia|]. apply (mo_rules _ _ _ _ _ _ _ MM x r IX), HS, HR. }
  (* what may come next *)
  assert (CN : forall n y t, comesNext c n y t -> forall f hi den x, M n f hi den -> is x y -> inM f hi x ->
    (exists k, 0 <= k /\ den x k /\ tokenMatches t k) \/ cType c t = EoiTokenType).
  { induction 1 as [n y r' t H RD TM|n y r' t H RD _ IH|n m y r' t ONm H RN _ IH|t ET]; intros f hi den x (MM & FM & N0) X IX.
    - destruct (RB x y r' X H) as (r & HR & ->). destruct IX as [->|IX]; [apply HS, has_live in HR; unfold live, FinalState in HR; lia|].
      destruct (mo_rules _ _ _ _ _ _ _ MM x r IX (proj1 (HS _ _) HR)) as (_ & FT). unfold reads in RD. cbn [rToken rename] in RD, TM. unfold LangLLBuild.fits in FT. apply Z.eqb_neq in RD. rewrite RD in FT. left. exists (rToken r). split; [apply FT|]. split; [apply FT|exact TM].
    - destruct (RB x y r' X H) as (r & HR & ->). destruct IX as [->|IX]; [apply HS, has_live in HR; unfold live, FinalState in HR; lia|].
      destruct (mo_rules _ _ _ _ _ _ _ MM x r IX (proj1 (HS _ _) HR)) as (IX' & FT). cbn [rToken rename] in RD. unfold LangLLBuild.fits in FT. rewrite RD, Z.eqb_refl in FT. destruct FT as (_ & SB).
      destruct (IH f hi den (rState r) (conj MM (conj FM N0)) (NX x r HR) IX') as [(k & K0 & D & TM)|ET]; [|auto]. left. exists k. split; [exact K0|]. split; [apply SB, D|exact TM].
    - assert (x = FinalState) as ->. { apply (INJ x FinalState FinalState X). left. auto. }
      destruct (ON m y ONm) as (f' & hi' & den' & x' & MMM & X' & IX'). pose proof (proj1 MMM) as MM'. destruct (RB x' y r' X' H) as (r & HR & ->). destruct IX' as [->|IX']; [apply HS, has_live in HR; unfold live, FinalState in HR; lia|].
      destruct (mo_rules _ _ _ _ _ _ _ MM' x' r IX' (proj1 (HS _ _) HR)) as (IR & FT). cbn [rNode rename] in RN. subst n.
      destruct (IH f' hi' den' (rState r) MMM (NX x' r HR) IR) as [(k & K0 & D & TM)|ET]; [|auto]. left. exists k. split; [exact K0|]. split; [|exact TM]. apply (mo_end _ _ _ _ _ _ _ MM).
      unfold LangLLBuild.fits in FT. destruct (Z.eqb_spec (rToken r) AnyToken) as [AT|AT].
      + exfalso. destruct FT as (FT & _). unfold SameNode in FT. lia.
      + apply FT; [unfold SameNode; lia|exact D].
    - auto. }
  split; [exact MU| |].
  - intros y r1 r2 t H1 H2 RD1 RD2 LX TM1 TM2. destruct (IN y r1 H1) as (x & X & XB). destruct (RB x y r1 X H1) as (r & HR & ->). destruct (RB x y r2 X H2) as (r' & HR' & ->). f_equal.
    rewrite ZE in XB. destruct (NQ x XB) as (i & f & hi & den & MM & IX). apply HS in HR, HR'. unfold reads in RD1, RD2. cbn [rToken rename] in *.
    pose proof (mo_clear _ _ _ _ _ _ _ MM x IX) as CL. destruct (bd_kind _ _ _ _ _ _ CL r HR) as [Y|(K & _)]; [contradiction|]. destruct (bd_kind _ _ _ _ _ _ CL r' HR') as [Y|(K' & _)]; [contradiction|].
    apply (bd_one _ _ _ _ _ _ CL r r' HR HR' RD1 RD2). eapply CT; eassumption.
  - intros n y r1 r2 t ONy H1 AT H2 RD LX TM CNX. destruct (ON n y ONy) as (f & hi & den & x & MMM & X & IX). pose proof (proj1 MMM) as MM. destruct (RB x y r1 X H1) as (r & HR & ->). destruct (RB x y r2 X H2) as (r' & HR' & ->).
    destruct IX as [->|IX]; [apply HS, has_live in HR; unfold live, FinalState in HR; lia|]. unfold reads in RD. cbn [rToken rename] in *.
    apply HS in HR, HR'. pose proof (mo_clear _ _ _ _ _ _ _ MM x IX) as CL. destruct (bd_kind _ _ _ _ _ _ CL r' HR') as [Y|(K' & _)]; [contradiction|].
    destruct (CN _ _ _ CNX f hi den (rState r) MMM) as [(k & K0 & D & TK)|ET].
    + apply HS in HR. apply (NX x r HR).
    + apply (mo_rules _ _ _ _ _ _ _ MM x r IX HR).
    + apply (bd_apart _ _ _ _ _ _ CL r r' k HR HR' AT RD D). eapply CT; eassumption.
    + pose proof (eoi_key t _ ET TM). lia.
Qed.
End T.
