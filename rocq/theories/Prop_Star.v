(** C77: when the longest variant is the right one at each conflict, a valid input is accepted. *)
From Coq Require Import ZArith List Bool Lia Arith.
From Verif Require Import Base BaseProofs Grammar Rules RulesSpec Prop_Rules TablesCheck SafeCheck IdleCheck Parser ParserSpec ParserSafeSpec ParserFlowSpec ParserTermSpec ParserDemo ParserProofs ParserInv ParserLook ParserTerm LookLongest VariantSpec Variant PredictSpec Prop_ParserSafe Prop_ParserTerm StarSpec StarRun Star StarDemo.
Import ListNotations.
Open Scope Z_scope.

(** Whatever the grammar, and however long the lookahead has to be: an input that can be read to its end is accepted
    if at each conflict on the way the right variant is the longest one.  The exception is a lookahead
    that has overwritten its branches. *)
Theorem right_way_is_followed_partial {Tok Src W E Inst R} (c : config Tok Src W E Inst R) view eoi src w t0 root rs :
  plainSetting c view eoi -> zget (gNodes (cGrammar c)) RootNode = Some root ->
  reading c view eoi (gnFirst root) src rs -> decided c view eoi (gnFirst root) src rs ->
  exists bound, forall fuel, (bound <= fuel)%nat ->
    match parseFrom c fuel (src, w) t0 with
    | Done _ _ => True
    | Fail _ s | NoFuel s => pLost s = true
    | Panic => False
    end.
Proof.
  intros [SO CH EA NL TZ] GR RD DC. pose proof (st_grammar _ SO) as GO. destruct (go_first _ GO _ _ GR) as (st0 & GS).
  destruct (parse_terminates_partial c (fun src => length (view src)) (src, w) t0) as (N & HN); [exact (go_tables _ GO)|exact NL|apply (eager_finite c view eoi EA)|apply quiet_adds, (ch_quiet _ CH)|exact (ch_tokens _ CH)|].
  exists N. intros fuel LE. pose proof (parseFrom_right c view eoi GO CH EA TZ src root st0 rs GR GS RD DC fuel w t0) as PR.
  pose proof (parse_never_panics_partial c fuel (src, w) t0 SO (or_introl (eager_always c view eoi EA))) as NP. specialize (HN fuel LE).
  destruct (parseFrom c fuel (src, w) t0) as [x s|e s| |s]; [exact I|exact PR|congruence|apply HN; reflexivity].
Qed.
Print Assumptions right_way_is_followed_partial.

(** A setting for examples; types out of range are taken for the end of input. *)
Module Example1.
  Definition kType (n : Z) (t : dTok) : Z := if (0 <=? fst t) && (fst t <? n) then fst t else EoiTokenType.
  Definition conf (g : grammar) : config dTok (list dTok) Z Z Z Z := let d := demo g [] true true in
    mkConfig (kType (zlen (gTokens g))) (cText d) (cUpper d) (cMethods d) (cGrammar d) (cLexers d) (cLiterals d)
      (cTokenHooks d) (cNodeHooks d) (cCtx d) (cPassSides d) (cWatchNodes d) (cFullSource d) (cUnread d).
  Notation vw := (fun src : list dTok => src).
  Lemma known g t : knownToken (conf g) t.
  Proof.
    unfold knownToken. cbn [cType conf cGrammar demo]. unfold kType. pose proof (zlen_nonneg (gTokens g)). change EoiTokenType with (-3).
    destruct ((0 <=? fst t) && (fst t <? zlen (gTokens g))) eqn:EB; [|lia]. apply andb_true_iff in EB as [E1 E2]. apply Z.leb_le in E1. apply Z.ltb_lt in E2. lia.
  Qed.
  Lemma conf_eager g : eager (conf g) vw dEoi.
  Proof.
    split; [reflexivity|]. intros types src. unfold fetchToken. cbn [conf demo cLexers fetchLoop]. unfold dLexer. destruct src as [|t r]; eexists; split; reflexivity.
  Qed.
  Lemma conf_plain g rank empty : grammarB g = true -> idleB g rank empty = true -> forallb (fun st => negb (sTypes st =? 0)) (gStates g) = true -> plainSetting (conf g) vw dEoi.
  Proof.
    intros GB IB TB. constructor.
    - constructor.
      + apply (grammarB_ok g); auto.
      + intros. apply known.
      + apply (eager_always _ vw dEoi (conf_eager g)).
      + intros table [].
      + intros text i H. discriminate.
      + intros table [<-|[]]. unfold zlen. cbn [length conf cGrammar demo]. rewrite map_length. lia.
    - assert (CR : forall table h n (t : option dTok) (w : world (list dTok) Z), In table (cNodeHooks (conf g)) -> In (Some h) table -> h n t w = (w, (Some n, None))).
      { intros table h n t w [<-|[]] [X|X]; [injection X as <-; reflexivity|]. apply in_map_iff in X as (x & X & _). discriminate. }
      constructor.
      + constructor; try reflexivity. intros. erewrite CR by eassumption. reflexivity.
      + constructor; try reflexivity; [intros; erewrite CR by eassumption; reflexivity|intros table h t []].
      + reflexivity.
      + intros table [<-|[]]. unfold zlen. cbn [length conf cGrammar demo]. rewrite map_length. lia.
    - apply conf_eager.
    - apply (idleB_ok g rank empty IB).
    - intros i st G. rewrite forallb_forall in TB. specialize (TB st (zget_In _ _ _ G)). apply negb_true_iff, Z.eqb_neq in TB. exact TB.
  Qed.

  (** "a b" and "a c d" *)
  Definition gr := mkGrammar [mkTok [97] [97] 0 0; mkTok [98] [98] 0 0; mkTok [99] [99] 0 0; mkTok [100] [100] 0 0] [] [mkNode [1] 0]
    [mkState 15 0 1 0 0; mkState 15 0 0 0 1; mkState 15 0 0 1 2; mkState 15 0 0 2 3] [mkMulti 0 3 5]
    [mkRule 1 (-1) (-1); mkRule 2 3 (-1); mkRule 3 (-1) (-1); mkRule 0 1 (-1); mkRule 0 2 (-1)].
  Definition rank (i : Z) : nat := O.
  Example plain : plainSetting (conf gr) vw dEoi.
  Proof. apply (conf_plain gr rank [-1]); vm_compute; reflexivity. Qed.
  Definition src : list dTok := [(0, 1); (2, 2); (3, 3)].
  Definition way := [mkRule 0 2 (-1); mkRule 2 3 (-1); mkRule 3 (-1) (-1)].
  Lemma TO : tablesOk gr.
  Proof. apply tablesB_ok. vm_compute. reflexivity. Qed.
  Example can_be_read : reading (conf gr) vw dEoi 0 src way.
  Proof.
    apply (reading_runs (conf gr) vw dEoi TO 0 15 src way [Some dEoi]); [|repeat constructor].
    eapply brun_cons; [apply nexts_step; vm_compute; auto|]. eapply brun_cons; [apply nexts_step; vm_compute; auto|]. eapply brun_cons; [apply nexts_step; vm_compute; auto|]. apply B_nil.
  Qed.


  (** lists runs of an example *)
  Ltac follow c B := apply (brun_nexts c) in B as [(? & ? & ?)|(?r & ?s & ?k & ?rs & ?E & ?I & B)];
    [subst|match goal with I : In _ (nexts _ _ _) |- _ => vm_compute in I; repeat (destruct I as [I|I]; [injection I; clear I; intros; subst|]); try contradiction I end].
  Ltac prune := match goal with EA : _ = _ ++ _ |- _ => try (vm_compute in EA; discriminate EA) end.
  Ltac lone := match goal with CR : exists st r1 r2 l, _ |- _ => let st := fresh "st" in let A := fresh "A" in let F := fresh "F" in
    destruct CR as (st & ? & ? & ? & A & F); vm_compute in A; injection A as <-; vm_compute in F; try discriminate F end.
  Ltac finish := first [left; eexists; cbn [app]; reflexivity|right; left; cbn [length]; lia|right; right; split; [reflexivity|discriminate]].
  Ltac runs c BA := repeat (match type of BA with ParserLook.brun _ _ _ _ _ _ => follow c BA; try discriminate; try prune end).
  Ltac check c B BA BB := repeat (match type of B with ParserLook.brun _ _ _ _ _ _ => follow c B; try discriminate; try prune end);
    repeat match goal with H : _ :: _ = _ |- _ => injection H; clear H; intros; subst end; lone; runs c BA; runs c BB; finish.
  Example is_decided : decided (conf gr) vw dEoi 0 src way.
  Proof.
    apply (decided_runs (conf gr) vw dEoi TO 0 15). intros m rs1 rs2 n ls t rem EA B CR rsa rsb mid ER BA rs' l' rem' BB.
    assert (EI : input (conf gr) vw dEoi src m = Some (0, 1) :: Some (2, 2) :: Some (3, 3) :: @ends dTok dEoi m) by reflexivity. rewrite EI in B. clear EI. generalize dependent (@ends dTok dEoi m). intros X B.
    check (conf gr) B BA BB.
  Qed.
  Example accepted : exists x s, parseFrom (conf gr) 50 (src, 0) (0, 1) = Done x s /\ pLost s = false.
  Proof. do 2 eexists. split; vm_compute; reflexivity. Qed.
End Example1.

(** "a b d", "a b e", "a b c": branches are overwritten, "a b c" is refused. *)
Module Example2.
  Import Example1.
  Definition gr := mkGrammar
    [mkTok [97] [97] 0 0; mkTok [98] [98] 0 0; mkTok [99] [99] 0 0; mkTok [100] [100] 0 0; mkTok [101] [101] 0 0] [] [mkNode [1] 0]
    [mkState 31 0 1 0 0; mkState 31 1 2 0 0; mkState 31 0 0 0 1; mkState 31 0 0 1 2; mkState 31 0 0 2 3; mkState 31 0 0 3 4]
    [mkMulti 0 4 6; mkMulti 1 6 8]
    [mkRule 1 5 (-1); mkRule 3 (-1) (-1); mkRule 4 (-1) (-1); mkRule 2 (-1) (-1);
     mkRule 0 1 (-1); mkRule 0 2 (-1); mkRule 1 3 (-1); mkRule 1 4 (-1)].
  Definition src : list dTok := [(0, 1); (1, 2); (2, 3)].
  Definition way := [mkRule 0 2 (-1); mkRule 1 5 (-1); mkRule 2 (-1) (-1)].
  Lemma TO : tablesOk gr.
  Proof. apply tablesB_ok. vm_compute. reflexivity. Qed.
  Example can_be_read : reading (conf gr) vw dEoi 0 src way.
  Proof.
    apply (reading_runs (conf gr) vw dEoi TO 0 31 src way [Some dEoi]); [|repeat constructor].
    eapply brun_cons; [apply nexts_step; vm_compute; auto|]. eapply brun_cons; [apply nexts_step; vm_compute; auto|]. eapply brun_cons; [apply nexts_step; vm_compute; auto|]. apply B_nil.
  Qed.
  Example is_decided : decided (conf gr) vw dEoi 0 src way.
  Proof.
    apply (decided_runs (conf gr) vw dEoi TO 0 31). intros m rs1 rs2 n ls t rem EA B CR rsa rsb mid ER BA rs' l' rem' BB.
    assert (EI : input (conf gr) vw dEoi src m = Some (0, 1) :: Some (1, 2) :: Some (2, 3) :: @ends dTok dEoi m) by reflexivity. rewrite EI in B. clear EI. generalize dependent (@ends dTok dEoi m). intros X B.
    check (conf gr) B BA BB.
  Qed.
End Example2.

(** "pair c", where a pair is "a" or "a b"; lexers return nothing when the next token is not of the types wanted *)
Module Example3.
  Import Example1.
  Definition gr := mkGrammar [mkTok [97] [97] 0 0; mkTok [98] [98] 0 0; mkTok [99] [99] 0 0] [] [mkNode [1] 0; mkNode [2] 2]
    [mkState 1 0 0 0 1; mkState 4 0 0 1 2; mkState 1 0 1 0 0; mkState 2 0 0 2 3] [mkMulti 0 3 5]
    [mkRule 0 1 1; mkRule 2 (-1) (-1); mkRule 1 (-1) (-1); mkRule 0 (-1) (-1); mkRule 0 3 (-1)].
  Definition c := Prop_ParserSafe.Example1.conf gr [].
  Definition src : list dTok := [(0, 1); (2, 2)].
  Definition way := [mkRule 0 1 1; mkRule 0 (-1) (-1); mkRule 2 (-1) (-1)].
  Lemma TO : tablesOk gr.
  Proof. apply tablesB_ok. vm_compute. reflexivity. Qed.
  Example can_be_read : reading c vw dEoi 0 src way.
  Proof.
    apply (reading_runs c vw dEoi TO 0 1 src way [Some dEoi]); [|repeat constructor].
    eapply brun_cons; [apply nexts_step; vm_compute; auto|]. eapply brun_cons; [apply nexts_step; vm_compute; auto|]. eapply brun_cons; [apply nexts_step; vm_compute; auto|]. apply B_nil.
  Qed.
  Example is_decided : decided c vw dEoi 0 src way.
  Proof.
    apply (decided_runs c vw dEoi TO 0 1). intros m rs1 rs2 n ls t rem EA B CR rsa rsb mid ER BA rs' l' rem' BB.
    assert (EI : input c vw dEoi src m = Some (0, 1) :: Some (2, 2) :: @ends dTok dEoi m) by reflexivity. rewrite EI in B. clear EI. generalize dependent (@ends dTok dEoi m). intros X B.
    check c B BA BB.
  Qed.
  Lemma setting : settingOk c.
  Proof. apply Prop_ParserSafe.Example1.conf_ok; [vm_compute; reflexivity|intros table []]. Qed.
  Lemma calm : calmHooks c.
  Proof.
    assert (CR : forall table h n (t : option dTok) (w : world (list dTok) Z), In table (cNodeHooks c) -> In (Some h) table -> h n t w = (w, (Some n, None))).
    { intros table h n t w [<-|[]] [X|X]; [injection X as <-; reflexivity|]. apply in_map_iff in X as (x & X & _). discriminate. }
    constructor.
    - constructor; try reflexivity. intros. erewrite CR by eassumption. reflexivity.
    - constructor; try reflexivity; [intros; erewrite CR by eassumption; reflexivity|intros table h t []].
    - reflexivity.
    - intros table [<-|[]]. reflexivity.
  Qed.
  Lemma source : sourceOf c vw dEoi.
  Proof.
    split; [reflexivity|]. unfold fetchToken. cbn [c Prop_ParserSafe.Example1.conf cLexers fetchLoop]. unfold Prop_ParserSafe.Example1.kLexer. split; intros types [|t0 r] src'.
    - intros t H. injection H as <- <-. auto.
    - intros t. destruct (_ && _); [|discriminate]. destruct (Z.testbit types (fst t0)); [|discriminate]. intros H. injection H as <- <-. auto.
    - discriminate.
    - intros H. destruct (_ && _) in H; [destruct (Z.testbit types (fst t0)) in H; [discriminate H|]|]; destruct (types =? AllTokenTypes) in H; first [discriminate H|injection H as <-; reflexivity].
  Qed.
  Lemma loops : noIdleLoop gr.
  Proof. apply (idleB_ok gr (fun i => if i =? 0 then 1%nat else O) [-1]). vm_compute. reflexivity. Qed.
  Lemma types i st : zget (gStates gr) i = Some st -> sTypes st <> 0.
  Proof. intros G. assert (TB : forallb (fun st => negb (sTypes st =? 0)) (gStates gr) = true) by reflexivity. rewrite forallb_forall in TB. specialize (TB st (zget_In _ _ _ G)). apply negb_true_iff, Z.eqb_neq in TB. exact TB. Qed.
End Example3.

(** The full statement does not hold: a valid input is refused because branches were overwritten; and another one, though
    none were, because lexers return nothing for unwanted types while the parser looks ahead. *)
Theorem right_way_is_followed_refuted :
  (exists (c : config dTok (list dTok) Z Z Z Z) view eoi src root rs e s, plainSetting c view eoi /\ zget (gNodes (cGrammar c)) RootNode = Some root /\
     reading c view eoi (gnFirst root) src rs /\ decided c view eoi (gnFirst root) src rs /\ parseFrom c 50 (src, 0) (0, 1) = Fail e s) /\
  (exists (c : config dTok (list dTok) Z Z Z Z) view eoi src root rs t text s, settingOk c /\ calmHooks c /\ sourceOf c view eoi /\ noIdleLoop (cGrammar c) /\
     (forall i st, zget (gStates (cGrammar c)) i = Some st -> sTypes st <> 0) /\ zget (gNodes (cGrammar c)) RootNode = Some root /\
     reading c view eoi (gnFirst root) src rs /\ decided c view eoi (gnFirst root) src rs /\
     parseFrom c 50 (src, 0) (0, 1) = Fail (UnexpectedToken t text) s /\ pLost s = false /\
     (** the token reported is the token expected *)
     exists d, zget (gTokens (cGrammar c)) (cType c t) = Some d /\ text = expectedText d).
Proof.
  split.
  - exists (Example1.conf Example2.gr), (fun src => src), dEoi, Example2.src, (mkNode [1] 0), Example2.way. do 2 eexists. split; [apply (Example1.conf_plain Example2.gr Example1.rank [-1]); vm_compute; reflexivity|].
    split; [reflexivity|]. split; [exact Example2.can_be_read|]. split; [exact Example2.is_decided|]. vm_compute. reflexivity.
  - exists Example3.c, (fun src => src), dEoi, Example3.src, (mkNode [1] 0), Example3.way. do 3 eexists. split; [exact Example3.setting|]. split; [exact Example3.calm|]. split; [exact Example3.source|]. split; [exact Example3.loops|].
    split; [exact Example3.types|]. split; [reflexivity|]. split; [exact Example3.can_be_read|]. split; [exact Example3.is_decided|]. split; [vm_compute; reflexivity|]. split; [reflexivity|]. eexists. split; reflexivity.
Qed.
Print Assumptions right_way_is_followed_refuted.
