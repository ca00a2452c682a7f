(** Compilation of descriptions as a whole (C51); types of tokens states ask lexers for (C50). *)
From Coq Require Import ZArith List Bool Lia Sorted Relations Permutation.
From Verif Require Import Base BaseProofs Grammar RulesSpec ParserSpec ParserSafeSpec LangBuild LangSpec LangProofs LangFrame LangComplete LangTotal
  TablesSpec LangTables LangDrop LangShare LangFair LangRules Prop_LangStates Prop_LangTables LangTreeSpec LangNodes LangNodesSpec LangNodesProofs LangFirst Prop_LangNodes Prop_LangGrammar
  LangTypes LangTypesSpec LangTypesProofs LangCompile LangFuel.
Import ListNotations.
Open Scope Z_scope.

(** ** Tokens of a description *)
Lemma uses_tokens firsts d t n : uses firsts d t n -> (n = SameNode /\ (mentionsToken d t \/ t = EoiToken)) \/ (mentions d n /\ In t (firstsOf firsts n)).
Proof.
  induction 1 as [t| |i t I|l c t n C _ IH|opt rep l c t n C _ IH].
  - left. split; [reflexivity|]. left. constructor.
  - left. split; [reflexivity|]. right. reflexivity.
  - right. split; [constructor|exact I].
  - destruct IH as [(-> & [M|E])|(M & I)]; [left; split; [reflexivity|left; econstructor; eassumption]|left; auto|right; split; [econstructor; eassumption|exact I]].
  - destruct IH as [(-> & [M|E])|(M & I)]; [left; split; [reflexivity|left; econstructor; eassumption]|left; auto|right; split; [econstructor; eassumption|exact I]].
Qed.
Lemma derives_tokens st :
  (forall d w, derives st d w -> forall t, In (STok t) w -> mentionsToken d t) /\
  (forall l w, derivesSeq st l w -> forall t, In (STok t) w -> exists d, In d l /\ mentionsToken d t).
Proof.
  apply derives_both.
  - intros k t [E|[]]. injection E as ->. constructor.
  - intros t [E|[]]. discriminate.
  - intros i k _ t [E|[]]. discriminate.
  - intros l c w C _ IH t I. econstructor; [exact C|apply IH, I].
  - intros opt rep l w _ IH t I. destruct (IH t I) as (d & D & M). econstructor; eassumption.
  - intros rep l t [].
  - intros opt l w v _ IH _ IH' t I. apply in_app_iff in I. destruct I as [I|I]; [destruct (IH t I) as (d & D & M); econstructor; eassumption|apply IH', I].
  - intros t [].
  - intros c l w v _ IH _ IH' t I. apply in_app_iff in I. destruct I as [I|I]; [exists c; split; [left; reflexivity|apply IH, I]|destruct (IH' t I) as (d & D & M); exists d; split; [right; exact D|exact M]].
Qed.
Lemma firstToken_mentioned defs i t : firstToken defs i t -> t = EoiToken \/ exists j d, defined defs j d /\ mentionsToken d t.
Proof.
  induction 1 as [i d t w G S|i d w G S|i d j u w t G S F IH]; [right|left; reflexivity|exact IH].
  exists i, d. split; [exact G|]. eapply (proj1 (derives_tokens _)); [exact S|left; reflexivity].
Qed.

Section Compile.
Variable fullMatch : name -> name -> bool.
Variable toUpper : name -> name.
Variable tokens : list gtoken.
Variable layers : list glayer.
Variable names : list name.
Variable defs : list (option chunk).
Variables o1 o2 o3 : list Z.
Notation compileD fuel := (compileDescription fullMatch toUpper fuel o1 o2 o3 tokens layers names defs).
Notation mayBe := (mayBe fullMatch toUpper tokens).

(** What reading the text of a description results in: tokens in the order of kinds, at most 64 types of tokens; nodes with
    names and written definitions, tokens of the definitions are in the list. *)
Record readWell : Prop := mkReadWell {
  rw_arranged : arranged tokens;
  rw_few : forall i t, zget tokens i = Some t -> hasFlag (gtFlags t) LiteralToken = false -> i < 64;
  rw_sides : forall t, In t tokens -> hasFlag (gtFlags t) SideToken = true -> hasFlag (gtFlags t) LiteralToken = false;
  rw_described : described defs;
  rw_root : defs <> [];
  rw_names : length names = length defs;
  rw_tokens : forall i d t, defined defs i d -> mentionsToken d t -> 0 <= t < zlen tokens
}.
Hypothesis RW : readWell.
Hypothesis P1 : Permutation o1 (indexes (length defs)).
Hypothesis P2 : Permutation o2 (indexes (length defs)).
Hypothesis P3 : Permutation o3 (indexes (length defs)).

(** a key of a state is a token of the list *)
Lemma built_keys firsts fs p cs : map Some cs = defs -> (forall i t, 0 <= i < zlen defs -> (In t (firstsOf firsts i) <-> firstToken defs i t)) -> buildNodes firsts cs (mkPres [] 0) = Some (fs, p) ->
  (forall d, In d cs -> written d) -> forall e k, In e (prStates p) -> In k (map fst (ePos e)) -> 0 <= k < zlen tokens.
Proof.
  intros CS FX B W e k I K. destruct RW as [R1 R2 R2' R3 R4 R5 R6].
  destruct (built_ready _ _ _ _ _ W B (retyped_refl _)) as (OK & _). pose proof (OK e I) as O.
  apply in_map_iff in K. destruct K as ((k0, rs) & E & X). cbn in E. subst k0. destruct (eo_posKey e O k rs X) as (K0 & NE & RT). destruct rs as [|r rs]; [contradiction|].
  assert (IR : In r (allRules e)) by (rewrite allRules_eq, in_app_iff; left; apply posRules_In; exists k, (r :: rs); split; [exact X|left; reflexivity]).
  rewrite <- (RT r (or_introl eq_refl)) in *. clear RT.
  assert (WI : within (fun t n => 0 <= t -> 0 <= t < zlen tokens) p).
  { assert (DC : forall d, In d cs -> exists i, defined defs i d). { intros d D. apply In_zget in D. destruct D as (i & G). exists i. unfold defined. rewrite <- CS, zget_map, G. reflexivity. }
    refine (proj2 (nodes_within firsts (fun t n => 0 <= t -> 0 <= t < zlen tokens) _ cs _ _ _ _ B (fa_ok _ empty_fair) _)).
    - unfold AnyToken. lia.
    - intros d D. split; [apply W, D|]. intros t n U T0. destruct (DC d D) as (i & GD). apply uses_tokens in U. destruct U as [(_ & [M|E])|(M & F)]; [eapply R6; eassumption|unfold EoiToken in E; lia|].
      apply FX in F; [|apply (ds_refers _ R3 i n); exists d; auto]. apply firstToken_mentioned in F. destruct F as [E|(j & d' & GD' & M')]; [unfold EoiToken in E; lia|exact (R6 _ _ _ GD' M')].
    - intros q r1 (e1 & G1 & _). apply zget_Some_inv in G1. cbn in G1. lia. }
  apply In_zget in I. destruct I as (i & G). apply (WI i r); [exists e; auto|exact K0].
Qed.
Lemma first_zero firsts cs fs p : buildNodes firsts cs (mkPres [] 0) = Some (fs, p) -> match fs with [] => prStates p = [] | f :: _ => f = 0 end.
Proof.
  intros B. destruct cs as [|d cs]; cbn [buildNodes] in B.
  - injection B as <- <-. reflexivity.
  - destruct (addState (mkPres [] 0)) as (f, p1) eqn:A. ob B. ob B. destruct x0 as (fs', p'). injection B as <- _. apply addState_spec in A. destruct A as (-> & _). reflexivity.
Qed.
(** the step of types, then tables *)
Lemma types_given firsts fs p cs ttypes : map Some cs = defs -> (forall i t, 0 <= i < zlen defs -> (In t (firstsOf firsts i) <-> firstToken defs i t)) -> buildNodes firsts cs (mkPres [] 0) = Some (fs, p) ->
  (forall d, In d cs -> written d) -> zlen ttypes = zlen tokens ->
  exists es, stateTypes tokens ttypes fs (prStates p) = Some es /\ retyped es (prStates p) /\ (forall i e, zget es i = Some e -> typedE ttypes (sideTypes 0 tokens) e).
Proof.
  intros CS FX B W LT. destruct (built_ready _ _ _ _ _ W B (retyped_refl _)) as (_ & _ & NB & _).
  destruct (typeNodes_spec ttypes (sideTypes 0 tokens) (fun k K => let '(ex_intro _ x (conj G _)) := zget_has ttypes k K in ex_intro _ x G) fs (prStates p)) as (es & E & S & T).
  - intros e k I K. rewrite LT. eapply built_keys; eassumption.
  - intros f F. specialize (NB f F). lia.
  - exists es. split; [exact E|]. split; [exact S|]. intros i e G. apply (T i e G). left. pose proof (first_zero _ _ _ _ B) as Z. pose proof (zget_Some_inv _ _ _ G) as GI. destruct fs as [|f fs]; [|lia].
    rewrite (sameRules_len _ _ S), Z in GI. cbn in GI. lia.
Qed.
Lemma tables_total firsts fs p cs es : (forall d, In d cs -> written d) -> buildNodes firsts cs (mkPres [] 0) = Some (fs, p) -> retyped es (prStates p) -> exists g, buildGrammar tokens layers names fs es = Some g.
Proof.
  intros W B R. destruct (built_ready _ _ _ _ _ W B R) as (OK & CF & NB & RG).
  destruct (drop_fair fs es OK CF NB) as (fs' & es' & phi & D & [S1 S2 S3 S4]); [intros e r E I; apply (RG e r E I)|].
  assert (OK' : forall e, In e es' -> entryOk e).
  { intros e' E'. apply In_zget in E'. destruct E' as (y & G'). destruct (S4 y e' G') as (x & X & E). subst y.
    assert (Q : 0 <= x < zlen es). { apply used_In in X. destruct X as [X|(e & r & E & R0 & P & ->)]; [apply NB, X|]. specialize (RG e r E R0). lia. }
    destruct (zget_has _ _ Q) as (e & G & I). destruct (S2 x e X G) as (e1 & G1 & LK). rewrite G' in G1. injection G1 as <-. eapply likeE_ok; [exact LK|apply OK, I]. }
  destruct (writeStates_spec es' [] [] [] [] OK' written_empty) as (sts & rules & multi & WS & _).
  eexists. unfold buildGrammar. rewrite D. cbn [obind]. rewrite WS. cbn [obind]. reflexivity.
Qed.
(** types of the states of the grammar *)
Definition typesExact (g : grammar) : Prop := forall j st, zget (gStates g) j = Some st -> forall b, 0 <= b ->
  (Z.testbit (sTypes st) b = true <-> sideType tokens b \/ exists r, ruleOf g j r /\ 0 <= rToken r /\ mayBe (rToken r) b).
Definition typesSome (g : grammar) : Prop := forall j st r, zget (gStates g) j = Some st -> ruleOf g j r -> 0 <= rToken r -> sTypes st <> 0.
Lemma types_kept firsts fs p cs ttypes es g : (forall d, In d cs -> written d) -> buildNodes firsts cs (mkPres [] 0) = Some (fs, p) -> retyped es (prStates p) ->
  (forall e k, In e (prStates p) -> In k (map fst (ePos e)) -> 0 <= k < zlen ttypes) ->
  (forall k ty, zget ttypes k = Some ty -> ty <> 0 /\ forall b, Z.testbit ty b = true <-> mayBe k b) ->
  (forall i e, zget es i = Some e -> typedE ttypes (sideTypes 0 tokens) e) -> buildGrammar tokens layers names fs es = Some g -> typesExact g /\ typesSome g.
Proof.
  intros W B R KB TT TE BG. destruct (built_ready _ _ _ _ _ W B R) as (OK & CF & NB & RG).
  destruct (drop_fair fs es OK CF NB) as (fs' & es' & phi & D & [S1 S2 S3 S4]); [intros e r E I; apply (RG e r E I)|].
  assert (BACK : forall y e', zget es' y = Some e' -> exists e, In e es /\ typedE ttypes (sideTypes 0 tokens) e /\ eTypes e' = eTypes e /\ map fst (ePos e') = map fst (ePos e) /\ entryOk e').
  { intros y e' G'. destruct (S4 y e' G') as (x & X & E). subst y.
    assert (Q : 0 <= x < zlen es). { apply used_In in X. destruct X as [X|(e & r & E & R0 & P & ->)]; [apply NB, X|]. specialize (RG e r E R0). lia. }
    destruct (zget_has _ _ Q) as (e & G & I). destruct (S2 x e X G) as (e1 & G1 & LK). rewrite G' in G1. injection G1 as <-. exists e. split; [exact I|]. split; [eapply TE, G|]. pose proof LK as (L1 & L2 & _).
    split; [exact L1|]. split; [apply (F2_map_fst _ _ _ L2)|]. eapply likeE_ok; [exact LK|apply OK, I]. }
  assert (OK' : forall e, In e es' -> entryOk e). { intros e' E'. apply In_zget in E'. destruct E' as (y & G'). destruct (BACK y e' G') as (e & _ & _ & _ & _ & O). exact O. }
  destruct (writeStates_spec es' [] [] [] [] OK' written_empty) as (sts & rules & multi & WS & WR). cbn [app] in WR.
  unfold buildGrammar in BG. rewrite D in BG. cbn [obind] in BG. rewrite WS in BG. cbn [obind] in BG. injection BG as <-.
  assert (RI := fun i r => ruleOf_iff tokens layers (map (fun '(n, f) => mkNode n f) (combine names fs')) es' sts rules multi i r WR OK').
  assert (MAIN : forall j st, zget sts j = Some st -> exists e', zget es' j = Some e' /\ exists ty, keyTypes ttypes (map fst (ePos e')) (sideTypes 0 tokens) = Some ty /\ sTypes st = ty /\
      (forall k, In k (map fst (ePos e')) -> exists t, zget ttypes k = Some t) /\ (forall k, In k (map fst (ePos e')) <-> 0 <= k /\ exists r, In r (allRules e') /\ rToken r = k)).
  { intros j st GS. destruct (zget_same sts es' j st (wr_len _ _ _ _ WR) GS) as (e' & G'). exists e'. split; [exact G'|]. destruct (wr_fits _ _ _ _ WR j e' st G' GS) as (TY & _).
    destruct (BACK j e' G') as (e & IE & T & E1 & E2 & O). exists (eTypes e). split; [rewrite E2; exact T|]. split; [congruence|]. split.
    - intros k K. rewrite E2 in K. assert (KK : 0 <= k < zlen ttypes). { apply In_zget in IE. destruct IE as (x & GX). destruct (retyped_zget _ _ _ _ R GX) as (e0 & G0 & A & _). rewrite A in K. eapply KB; [eapply zget_In, G0|exact K]. }
      destruct (zget_has ttypes k KK) as (t & GT & _). eauto.
    - intros k. split.
      + intros K. apply in_map_iff in K. destruct K as ((k0, rs) & E & X). cbn in E. subst k0. destruct (eo_posKey e' O k rs X) as (K0 & NE & RT). split; [exact K0|]. destruct rs as [|r rs]; [contradiction|].
        exists r. split; [|apply RT; left; reflexivity]. rewrite allRules_eq, in_app_iff. left. apply posRules_In. exists k, (r :: rs). split; [exact X|left; reflexivity].
      + intros (K0 & r & I & <-). rewrite allRules_eq, in_app_iff in I. destruct I as [I|I].
        * apply posRules_In in I. destruct I as (k & rs & X & IR). destruct (eo_posKey e' O k rs X) as (_ & _ & RT). rewrite (RT r IR). apply in_map_iff. exists (k, rs). auto.
        * apply negRules_In in I. destruct I as (k & i & X). destruct (eo_negKey e' O k i r X). lia. }
  split.
  - intros j st GS b B0. cbn [gStates] in GS. destruct (MAIN j st GS) as (e' & G' & ty & KT & -> & KG & KEYS). destruct (keyTypes_spec ttypes (map fst (ePos e')) (sideTypes 0 tokens) KG) as (ty' & KT' & BB & _).
    rewrite KT in KT'. injection KT' as <-. rewrite BB, sideTypes_test.
    + rewrite Z.sub_0_r. split.
      * intros [X|(k & t & K & G & T)]; [left; exact X|right]. apply KEYS in K. destruct K as (K0 & r & I & <-). exists r. split; [apply RI; exists e'; auto|]. split; [exact K0|]. apply (TT _ _ G), T.
      * intros [X|(r & HR & K0 & M)]; [left; exact X|right]. apply RI in HR. destruct HR as (e1 & G1 & I). rewrite G' in G1. injection G1 as <-.
        assert (K : In (rToken r) (map fst (ePos e'))) by (apply KEYS; eauto). destruct (KG _ K) as (t & G). exists (rToken r), t. split; [exact K|]. split; [exact G|]. apply (TT _ _ G), M.
    + lia.
    + intros i t G SF. rewrite Z.add_0_l. apply (rw_few RW i t G). apply (rw_sides RW t (zget_In _ _ _ G) SF).
  - intros j st r GS HR K0. cbn [gStates] in GS. destruct (MAIN j st GS) as (e' & G' & ty & KT & -> & KG & KEYS). destruct (keyTypes_spec ttypes (map fst (ePos e')) (sideTypes 0 tokens) KG) as (ty' & KT' & _ & NZ).
    rewrite KT in KT'. injection KT' as <-. apply RI in HR. destruct HR as (e1 & G1 & I). rewrite G' in G1. injection G1 as <-.
    assert (K : In (rToken r) (map fst (ePos e'))) by (apply KEYS; eauto). destruct (KG _ K) as (t & G). apply (NZ _ _ K G), (TT _ _ G).
Qed.

(** what is known about the grammar: [firsts] are the first tokens of the nodes *)
Definition grammarOf (g : grammar) : Prop := exists cs firsts, map Some cs = defs /\ (length firsts = length defs /\ forall s, In s firsts -> StronglySorted Z.lt s) /\
  (forall i t, 0 <= i < zlen defs -> (In t (firstsOf firsts i) <-> firstToken defs i t)) /\ compiled tokens layers names firsts cs g /\ tablesSound g.
Lemma compile_all : exists n, forall fuel, (n <= fuel)%nat ->
  match compileD fuel with
  | Compiled g => allDefined defs /\ allReachable defs /\ allBegin defs /\ grammarOf g /\ typesExact g /\ typesSome g
  | BadNodes e => explained defs e
  | BadLiteral n => exists k lt, zget tokens k = Some lt /\ literalToken lt /\ gtName lt = n /\ forall b, ~ mayBe k b
  | Endless | Panic => False
  end.
Proof.
  pose proof RW as [R1 R2 R2' R3 R4 R5 R6]. unfold compileDescription.
  destruct (token_types_all fullMatch toUpper tokens R1 R2) as [(tt & E & L & TT)|(k & lt & E & G & LT & N)]; rewrite E.
  2: { exists O. intros _ _. eauto 6. }
  destruct (description_checked defs R3 R4 o1 o2 o3 P1 P2 P3) as (n & H). exists n. intros fuel F. specialize (H fuel F).
  destruct (checkNodes fuel o1 o2 o3 defs) as [((firsts, fs), p)|e| |]; [|exact H|exact H|exact H].
  destruct H as [A1 A2 A3 A4 A5 A6 (cs & CS & B) A8].
  assert (W : forall d, In d cs -> written d). { intros d I. apply In_zget in I. destruct I as (i & G). apply (ds_written _ R3 i d). unfold defined. rewrite <- CS, zget_map, G. reflexivity. }
  destruct (types_given firsts fs p cs tt CS A5 B W L) as (es & ES & RT & TE). rewrite ES. cbn [obind]. destruct (tables_total firsts fs p cs es W B RT) as (g & BG). rewrite BG.
  assert (LD : length cs = length defs) by (rewrite <- CS, map_length; reflexivity).
  assert (C : compiled tokens layers names firsts cs g) by (split; [congruence|]; exists fs, es; split; [exists p; auto|exact BG]).
  split; [exact A1|]. split; [exact A2|]. split; [exact A3|]. split.
  - exists cs, firsts. split; [exact CS|]. split; [split; [exact A4|exact A6]|]. split; [exact A5|]. split; [exact C|]. eapply compiled_tables_sound; [exact W| |exact C].
    intros d i I M. apply In_zget in I. destruct I as (j & G). assert (X : 0 <= i < zlen defs). { apply (ds_refers _ R3 j i). exists d. split; [|exact M]. unfold defined. rewrite <- CS, zget_map, G. reflexivity. } unfold zlen in *. lia.
  - eapply types_kept; try eassumption. rewrite L. intros e k. eapply built_keys; eassumption.
Qed.

(** the number of steps does not matter *)
Lemma compile_any fuel g : compileD fuel = Compiled g -> allDefined defs /\ allReachable defs /\ allBegin defs /\ grammarOf g /\ typesExact g /\ typesSome g.
Proof.
  intros E. destruct compile_all as (n & H). specialize (H (n + fuel)%nat ltac:(lia)).
  destruct (le_compile fullMatch toUpper fuel (n + fuel) o1 o2 o3 tokens layers names defs ltac:(lia)) as [X|X]; rewrite E in X; [discriminate|]. rewrite X in H. exact H.
Qed.

(** *** C51 *)
(** The compilation of a description that has been read ends with a grammar whose tables are sound, or with an error that
    names the right nodes or a literal no type of tokens may be. *)
Theorem compilation_ends : exists n, forall fuel, (n <= fuel)%nat ->
  match compileD fuel with
  | Compiled g => tablesSound g /\ gTokens g = tokens /\ map gnName (gNodes g) = names
  | BadNodes e => explained defs e
  | BadLiteral n => exists k lt, zget tokens k = Some lt /\ literalToken lt /\ gtName lt = n /\ forall b, ~ mayBe k b
  | Endless | Panic => False
  end.
Proof.
  destruct compile_all as (n & H). exists n. intros fuel F. specialize (H fuel F). destruct (compileD fuel) as [g| | | |]; auto.
  destruct H as (_ & _ & _ & (cs & firsts & CS & _ & _ & C & TS) & _). split; [exact TS|].
  destruct (compiled_rules tokens layers names firsts cs g) as (_ & _ & _ & _ & _ & _ & _ & X & _ & Y & _); [|exact C|auto].
  intros d I. apply In_zget in I. destruct I as (i & G). apply (ds_written _ (rw_described RW) i d). unfold defined. rewrite <- CS, zget_map, G. reflexivity.
Qed.

(** *** C50 *)
(** A state asks for a type of tokens if and only if the type is a side one or the state has a rule for a token of the description that a
    token of this type may be. *)
Theorem state_types_exact fuel g : compileD fuel = Compiled g ->
  forall j st, zget (gStates g) j = Some st -> forall b, 0 <= b ->
  (Z.testbit (sTypes st) b = true <-> sideType tokens b \/ exists r, ruleOf g j r /\ 0 <= rToken r /\ mayBe (rToken r) b).
Proof. intros E. apply (compile_any fuel g E). Qed.
(** A literal that may be a token of no type is reported; such a literal is the only reason for the error. *)
Theorem literals_checked fuel :
  (exists lit, compileD fuel = BadLiteral lit) <-> exists k lt, zget tokens k = Some lt /\ literalToken lt /\ forall b, ~ mayBe k b.
Proof.
  pose proof RW as [R1 R2 R2' R3 R4 R5 R6]. unfold compileDescription.
  destruct (token_types_all fullMatch toUpper tokens R1 R2) as [(tt & E & L & TT)|(k & lt & E & G & LT & N)]; rewrite E.
  - split.
    + intros (lit & X). exfalso. destruct (checkNodes fuel o1 o2 o3 defs) as [((firsts, fs), p)|e| |]; try discriminate. destruct (obind _ _); discriminate.
    + intros (k & lt & G & LT & N). exfalso. destruct (zget_has tt k) as (ty & GT & _); [rewrite L; eapply zget_Some_inv, G|]. destruct (TT k ty GT) as (NZ & B). apply NZ. apply Z.bits_inj_0. intros b.
      destruct (Z.testbit ty b) eqn:T; [|reflexivity]. destruct (N b). apply B, T.
  - split; eauto.
Qed.
End Compile.

(** *** What is read, computably *)
Fixpoint chunkTokens (d : chunk) : list Z :=
  match d with
  | CTok t => [t]
  | CEoi | CNode _ => []
  | CGroup _ _ l | CVar l => flat_map chunkTokens l
  end.
Lemma chunkTokens_In d t : mentionsToken d t -> In t (chunkTokens d).
Proof. induction 1; cbn [chunkTokens]; [left; reflexivity|apply in_flat_map; eauto..]. Qed.
Definition kindOf (t : gtoken) : Z := if hasFlag (gtFlags t) LiteralToken then match gtRe t with [] => 2 | _ => 3 end else match gtRe t with [] => 1 | _ => 0 end.
Fixpoint arrangedb (k : nat) (ts : list gtoken) : bool :=
  match ts with
  | [] => true
  | t :: r => (Z.of_nat k <=? kindOf t) && (kindOf t <=? 2) && arrangedb (Z.to_nat (kindOf t)) r
  end.
Lemma kind_0 t : kindOf t = 0 -> regexpType t.
Proof. unfold kindOf, regexpType. destruct (hasFlag _ _), (gtRe t); try discriminate; (split; [try discriminate|]; reflexivity || discriminate). Qed.
Lemma kind_1 t : kindOf t = 1 -> externalType t.
Proof. unfold kindOf, externalType. destruct (hasFlag _ _), (gtRe t); try discriminate; (split; [try discriminate|]; reflexivity || discriminate). Qed.
Lemma kind_2 t : kindOf t = 2 -> literalToken t.
Proof. unfold kindOf, literalToken. destruct (hasFlag _ _), (gtRe t); try discriminate; (split; [try discriminate|]; reflexivity || discriminate). Qed.
Lemma arrangedb_ok ts : arrangedb 0 ts = true -> arranged ts.
Proof.
  assert (X2 : forall ts, arrangedb 2 ts = true -> Forall literalToken ts).
  { clear. induction ts as [|t r IH]; intros H; [constructor|]. cbn [arrangedb] in H. rewrite !andb_true_iff in H. destruct H as ((A & B) & C). apply Z.leb_le in A, B. cbn [Z.of_nat Pos.of_succ_nat Pos.succ] in A. assert (E : kindOf t = 2) by lia. rewrite E in C. constructor; [apply kind_2, E|apply IH, C]. }
  assert (X1 : forall ts, arrangedb 1 ts = true -> exists b c, ts = b ++ c /\ Forall externalType b /\ Forall literalToken c).
  { clear -X2. induction ts as [|t r IH]; intros H; [exists [], []; auto|]. cbn [arrangedb] in H. rewrite !andb_true_iff in H. destruct H as ((A & B) & C). apply Z.leb_le in A, B. cbn [Z.of_nat Pos.of_succ_nat Pos.succ] in A. assert (E : kindOf t = 1 \/ kindOf t = 2) by lia. destruct E as [E|E]; rewrite E in C.
    - destruct (IH C) as (b & c & -> & FB & FC). exists (t :: b), c. split; [reflexivity|]. split; [constructor; [apply kind_1, E|exact FB]|exact FC].
    - exists [], (t :: r). split; [reflexivity|]. split; [constructor|]. constructor; [apply kind_2, E|apply X2, C]. }
  induction ts as [|t r IH]; intros H; [exists [], [], []; auto|]. cbn [arrangedb] in H. rewrite !andb_true_iff in H. destruct H as ((A & B) & C). apply Z.leb_le in A, B. cbn [Z.of_nat Pos.of_succ_nat Pos.succ] in A. assert (E : kindOf t = 0 \/ kindOf t = 1 \/ kindOf t = 2) by lia. destruct E as [E|[E|E]]; rewrite E in C.
  - destruct (IH C) as (a & b & c & -> & FA & FB & FC). exists (t :: a), b, c. split; [reflexivity|]. split; [constructor; [apply kind_0, E|exact FA]|auto].
  - destruct (X1 r C) as (b & c & -> & FB & FC). exists [], (t :: b), c. split; [reflexivity|]. split; [constructor|]. split; [constructor; [apply kind_1, E|exact FB]|exact FC].
  - exists [], [], (t :: r). split; [reflexivity|]. split; [constructor|]. split; [constructor|]. constructor; [apply kind_2, E|apply X2, C].
Qed.
Definition readWellb (tokens : list gtoken) (names : list name) (defs : list (option chunk)) : bool :=
  arrangedb 0 tokens && forallb (fun i => (i <? 64) || match zget tokens i with Some t => hasFlag (gtFlags t) LiteralToken | None => true end) (indexes (length tokens)) &&
  forallb (fun t => negb (hasFlag (gtFlags t) SideToken) || negb (hasFlag (gtFlags t) LiteralToken)) tokens && describedb defs &&
  negb (match defs with [] => true | _ => false end) && (Nat.eqb (length names) (length defs)) &&
  forallb (fun d => match d with Some c => forallb (fun t => (0 <=? t) && (t <? zlen tokens)) (chunkTokens c) | None => true end) defs.
Lemma readWellb_ok tokens names defs : readWellb tokens names defs = true -> readWell tokens names defs.
Proof.
  unfold readWellb. rewrite !andb_true_iff. intros ((((((A & B) & C) & D) & E) & F) & G). rewrite forallb_forall in B, C, G. constructor.
  - apply arrangedb_ok, A.
  - intros i t GT NL. specialize (B i). rewrite GT, NL in B. pose proof (zget_Some_inv _ _ _ GT) as R. assert (I : In i (indexes (length tokens))) by (apply indexes_In; exact R). specialize (B I). apply orb_true_iff in B. destruct B; [lia|discriminate].
  - intros t I SF. specialize (C t I). rewrite SF in C. cbn in C. apply negb_true_iff, C.
  - apply describedb_ok, D.
  - intros ->. discriminate E.
  - apply PeanoNat.Nat.eqb_eq, F.
  - intros i d t GD M. apply chunkTokens_In in M. unfold defined in GD. apply zget_In in GD. specialize (G _ GD). cbn in G. rewrite forallb_forall in G. specialize (G t M). lia.
Qed.

(** root = item, {'+', item}; item = $name;  tokens: space 0 (side), name 1, op 2, '+' 3 *)
Module Example1.
  Definition fullMatch (re text : name) : bool :=
    match re, text with
    | [1], [x] => x =? 32
    | [2], [x] => (97 <=? x) && (x <=? 122)
    | [3], [x] => (x =? 43) || (x =? 45)
    | _, _ => false
    end.
  Definition tokens : list gtoken := [mkTok [1] [1] 0 SideToken; mkTok [2] [2] 0 0; mkTok [3] [3] 0 0; mkTok [43] [] 0 LiteralToken].
  Definition defs : list (option chunk) := [Some (CGroup false false [CNode 1; CGroup true true [CTok 3; CNode 1]]); Some (CGroup false false [CTok 1])].
  Example read : readWell tokens [[10]; [11]] defs.
  Proof. apply readWellb_ok. vm_compute. reflexivity. Qed.
  Example orders : Permutation [1; 0] (indexes (length defs)).
  Proof. apply perm_swap. Qed.
  (** states ask for spaces and names, for spaces and operators *)
  Example types : match compileDescription fullMatch (fun x => x) 20 [1; 0] [1; 0] [1; 0] tokens [] [[10]; [11]] defs with Compiled g => map sTypes (gStates g) | _ => [] end = [3; 5; 3; 3].
  Proof. vm_compute. reflexivity. Qed.
  (** the literal '*' is not an operator *)
  Definition tokens' : list gtoken := [mkTok [1] [1] 0 SideToken; mkTok [2] [2] 0 0; mkTok [3] [3] 0 0; mkTok [42] [] 0 LiteralToken].
  Example bad_literal : readWell tokens' [[10]; [11]] defs /\ compileDescription fullMatch (fun x => x) 20 [1; 0] [1; 0] [1; 0] tokens' [] [[10]; [11]] defs = BadLiteral [42].
  Proof. split; [apply readWellb_ok|]; vm_compute; reflexivity. Qed.
  (** root = item, {'+', item}; item = other; *)
  Example bad_nodes : readWell tokens [[10]; [11]; [12]] [Some (CGroup false false [CNode 1; CGroup true true [CTok 3; CNode 1]]); Some (CGroup false false [CNode 2]); None] /\
    compileDescription fullMatch (fun x => x) 20 [2; 1; 0] [1; 0; 2] [1; 2; 0] tokens [] [[10]; [11]; [12]] [Some (CGroup false false [CNode 1; CGroup true true [CTok 3; CNode 1]]); Some (CGroup false false [CNode 2]); None] = BadNodes (EUndefined [2]).
  Proof. split; [apply readWellb_ok|]; vm_compute; reflexivity. Qed.
End Example1.

Print Assumptions compilation_ends.
Print Assumptions state_types_exact.
Print Assumptions literals_checked.
