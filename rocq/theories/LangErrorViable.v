(** Reading of descriptions (LangText.v): what was read before a syntax error begins a correct text. *)
From Coq Require Import ZArith List Bool Lia.
From Verif Require Import Base BaseProofs Grammar LangBuild LangTypes LangString LangText LangTextSpec LangTextFuel LangTextTotal LangDescSpec LangDescParse LangErrorLocal LangErrorSteps.
Import ListNotations.
Open Scope Z_scope.

(** Tokens a text is completed with *)
Definition aWord : tok := mkT KName [97].
Definition filler (t : tok) : Prop := t = aWord \/ exists b, opByte b /\ t = op b.
Definition begun {X} (sp : list tok -> X -> Prop) (p : list tok) : Prop := exists q x, Forall filler q /\ sp (p ++ q) x.
Lemma fill_op b : opByte b -> filler (op b). Proof. intros O. right. eauto. Qed.
Lemma fill_word : filler aWord. Proof. left. reflexivity. Qed.
Ltac fills := repeat first [apply Forall_nil | apply Forall_cons | apply Forall_app; split | apply fill_word | (apply fill_op; cbn; tauto) | assumption].
Notation spSeqQ := (spSeq quotedOf). Notation spItemQ := (spItem quotedOf). Notation spVarQ := (spVar quotedOf).
Notation spLArgQ := (spLArg quotedOf). Notation spArgsQ := (spArgs quotedOf). Notation spCommandQ := (spCommand quotedOf). Notation spCommandsQ := (spCommands quotedOf).
Notation spRecordQ := (spRecord quotedOf). Notation spRecordsQ := (spRecords quotedOf).
Lemma begun_item p : begun spItemQ p -> begun spSeqQ p.
Proof. intros (q & x & F & S). exists q, [x]. split; [exact F|]. constructor; exact S. Qed.
Lemma begun_var p : begun spVarQ p -> begun spItemQ p.
Proof. intros (q & x & F & S). exists q, [x]. split; [exact F|]. constructor; exact S. Qed.
Lemma begun_nil : begun spVarQ [].
Proof. exists [aWord], (VNode [97]). split; [fills|]. constructor. Qed.
(** a fetch that does not fail *)
Lemma fetch_ready types ts c o c' : ready ts c -> fetch types false c = ROk o c' ->
  match o with
  | Some t => (exists ts', ts = t :: ts' /\ taken t /\ matches types t = true /\ ready ts' c') \/ (ts = [] /\ isEof t = true /\ ready [] c')
  | None => ready ts c'
  end.
Proof.
  intros R H. pose proof (fetch_inv _ _ _ _ _ _ _ (proj1 R) H) as F. inversion F as [b t ts2 c3 E T MT A2 B1 B2 B3|b t c3 E EO MT TX A2 B1 B2 B3|t ts2 c3 E T MT A2 B1 B2 B3]; subst.
  - left. exists ts2. split; [reflexivity|]. split; [exact T|]. split; [exact MT|]. eapply ready_ok; [apply k_fetch|exact R|exact H|exact A2].
  - right. split; [reflexivity|]. split; [exact EO|]. eapply ready_ok; [apply k_fetch|exact R|exact H|exact A2].
  - eapply ready_ok; [apply k_fetch|exact R|exact H|exact A2].
Qed.
Lemma k_item f : keeps (parseVariants f). Proof. apply k_chunks. Qed.
Lemma k_var f : keeps (parseVariant f). Proof. apply k_chunks. Qed.
Definition vSeq f := forall ts c e c', syntax e -> ready ts c -> parseGroup f c = RFail e c' -> exists p, stops e ts p c' /\ begun spSeqQ p.
Definition vItem f := forall ts c e c', syntax e -> ready ts c -> parseVariants f c = RFail e c' -> exists p, stops e ts p c' /\ begun spItemQ p.
Definition vMore f := forall ts c e c', syntax e -> ready ts c -> parseMore f c = RFail e c' -> exists p, stops e ts p c' /\ begun spItemQ p.
Definition vVar f := forall ts c e c', syntax e -> ready ts c -> parseVariant f c = RFail e c' -> exists p, stops e ts p c' /\ begun spVarQ p.
Lemma item_more ts1 x p : spVarQ ts1 x -> begun spItemQ p -> begun spItemQ (ts1 ++ op 124 :: p).
Proof. intros S (q & y & F & S'). exists q, (x :: y). split; [exact F|]. rewrite <- app_assoc. cbn [app]. constructor; assumption. Qed.
Lemma seq_more ts1 x p : spItemQ ts1 x -> begun spSeqQ p -> begun spSeqQ (ts1 ++ op 44 :: p).
Proof. intros S (q & y & F & S'). exists q, (x :: y). split; [exact F|]. rewrite <- app_assoc. cbn [app]. constructor; assumption. Qed.
Lemma begun_done {X} (sp : list tok -> X -> Prop) p x : sp p x -> begun sp p.
Proof. intros S. exists [], x. split; [constructor|]. rewrite app_nil_r. exact S. Qed.
Lemma viable_seq : forall f, vSeq f /\ vItem f /\ vMore f /\ vVar f.
Proof.
  induction f as [|f (IS & II & IM & IV)]; [repeat split; intros ts c e c' SE R H; discriminate H|]. destruct (seq_sound f) as (SS & SI & SM & SV). repeat split; intros ts c e c' SE R H.
  - cbn [parseGroup] in H. apply bind_fail in H. destruct H as [H|(item & c1 & H1 & H)].
    { destruct (II _ _ _ _ SE R H) as (p & ST & B). exists p. split; [exact ST|apply begun_item, B]. }
    destruct (SI _ _ _ _ _ (proj1 R) H1) as (x & ts1 & ts' & -> & SP & _ & A1). assert (R1 : ready ts' c1) by (eapply ready_ok; [apply k_item|exact R|exact H1|exact A1]).
    apply bind_fail in H. destruct H as [H|(o & c2 & H2 & H)]; [destruct (fetch_calm _ _ _ _ _ R1 H)|]. pose proof (fetch_ready _ _ _ _ _ R1 H2) as F. destruct o as [t|]; [|discriminate]. apply bind_fail in H. destruct H as [H|(l & c3 & _ & H)]; [|discriminate]. destruct F as [(ts2 & -> & T & MT & R2)|(-> & _ & R2)].
    + apply (match_op 44) in MT; [|cbn; tauto|exact T]. subst t. destruct (IS _ _ _ _ SE R2 H) as (p & ST & B). exists (ts1 ++ op 44 :: p). split; [apply stops_app, stops_cons, ST|eapply seq_more; eassumption].
    + destruct (IS _ _ _ _ SE R2 H) as (p & ST & B). destruct (stops_nil _ _ _ ST) as (-> & -> & TE). exists ts1. rewrite app_nil_r. split; [left; auto|]. apply begun_item, (begun_done _ _ x), SP.
  - cbn [parseVariants] in H. apply bind_fail in H. destruct H as [H|(item & c1 & H1 & H)].
    { destruct (IV _ _ _ _ SE R H) as (p & ST & B). exists p. split; [exact ST|apply begun_var, B]. }
    destruct (SV _ _ _ _ _ (proj1 R) H1) as (x & ts1 & ts' & -> & SP & _ & A1). assert (R1 : ready ts' c1) by (eapply ready_ok; [apply k_var|exact R|exact H1|exact A1]).
    apply bind_fail in H. destruct H as [H|(o & c2 & H2 & H)]; [destruct (fetch_calm _ _ _ _ _ R1 H)|]. pose proof (fetch_ready _ _ _ _ _ R1 H2) as F. destruct o as [t|]; [|discriminate]. apply bind_fail in H. destruct H as [H|(l & c3 & _ & H)]; [|discriminate]. destruct F as [(ts2 & -> & T & MT & R2)|(-> & _ & R2)].
    + apply (match_op 124) in MT; [|cbn; tauto|exact T]. subst t. destruct (IM _ _ _ _ SE R2 H) as (p & ST & B). exists (ts1 ++ op 124 :: p). split; [apply stops_app, stops_cons, ST|eapply item_more; eassumption].
    + destruct (IM _ _ _ _ SE R2 H) as (p & ST & B). destruct (stops_nil _ _ _ ST) as (-> & -> & TE). exists ts1. rewrite app_nil_r. split; [left; auto|]. apply begun_var, (begun_done _ _ x), SP.
  - cbn [parseMore] in H. apply bind_fail in H. destruct H as [H|(item & c1 & H1 & H)].
    { destruct (IV _ _ _ _ SE R H) as (p & ST & B). exists p. split; [exact ST|apply begun_var, B]. }
    destruct (SV _ _ _ _ _ (proj1 R) H1) as (x & ts1 & ts' & -> & SP & _ & A1). assert (R1 : ready ts' c1) by (eapply ready_ok; [apply k_var|exact R|exact H1|exact A1]).
    apply bind_fail in H. destruct H as [H|(o & c2 & H2 & H)]; [destruct (fetch_calm _ _ _ _ _ R1 H)|]. pose proof (fetch_ready _ _ _ _ _ R1 H2) as F. destruct o as [t|]; [|discriminate]. apply bind_fail in H. destruct H as [H|(l & c3 & _ & H)]; [|discriminate]. destruct F as [(ts2 & -> & T & MT & R2)|(-> & _ & R2)].
    + apply (match_op 124) in MT; [|cbn; tauto|exact T]. subst t. destruct (IM _ _ _ _ SE R2 H) as (p & ST & B). exists (ts1 ++ op 124 :: p). split; [apply stops_app, stops_cons, ST|eapply item_more; eassumption].
    + destruct (IM _ _ _ _ SE R2 H) as (p & ST & B). destruct (stops_nil _ _ _ ST) as (-> & -> & TE). exists ts1. rewrite app_nil_r. split; [left; auto|]. apply begun_var, (begun_done _ _ x), SP.
  - cbn [parseVariant] in H. apply bind_fail in H. destruct H as [H|(t & c1 & H1 & H)].
    { exists []. split; [exact (strict_err _ _ _ _ _ R H)|exact begun_nil]. }
    destruct (strict_ok _ _ _ _ _ noEof_heads R H1) as (ts' & -> & T & MT & R1 & _). destruct (heads_inv t T MT) as [K|[K|[K|(b & ->)]]].
    + exfalso. rewrite K in H. revert H SE. apply (c_bind (addNode (tText t) false)); [apply c_addNode|intros; apply c_ret].
    + exfalso. destruct (taken_token t T K) as (n & ->). cbn [tKind tText] in H. rewrite (bind_ok _ _ _ _ _ (textFrom_1 36 n c1)) in H. destruct n as [|x n]; [discriminate|]. revert H SE. apply (c_typeRef (x :: n)).
    + exfalso. destruct (taken_string t T K) as (s & q & Q & ->). cbn [tKind tText] in H. rewrite (bind_ok _ _ _ _ _ (unquoted_q q s q c1)) in H. revert H SE. apply (c_literalRef s).
    + assert (G : exists last, closingOf b = op last /\ opByte last /\ (parseGroup f c1 = RFail e c' \/ exists l c2, parseGroup f c1 = ROk l c2 /\ skipOne [last] c2 = RFail e c')).
      { destruct b; cbn [opening op tKind tText] in H; [exists 41|exists 93|exists 125]; (split; [reflexivity|]); (split; [cbn; tauto|]);
          apply bind_fail in H; (destruct H as [H|(l & c2 & H2 & H)]; [left; exact H|right; exists l, c2; split; [exact H2|]]); apply bind_fail in H; (destruct H as [H|(u & c3 & _ & H)]; [exact H|discriminate]). }
      clear H. destruct G as (last & CL & OB & [H|(l & c2 & H2 & H)]).
      * destruct (IS _ _ _ _ SE R1 H) as (p & ST & q & y & F & S). exists (opening b :: p). split; [apply stops_cons, ST|]. exists (q ++ [op last]), (VList b y). split; [apply Forall_app; split; [exact F|constructor; [apply fill_op, OB|constructor]]|]. cbn [app]. rewrite app_assoc, <- CL. constructor. exact S.
      * destruct (SS _ _ _ _ _ (proj1 R1) H2) as (y & ts3 & ts4 & -> & S & _ & A3). assert (R2 : ready ts4 c2) by (eapply ready_ok; [apply k_group|exact R1|exact H2|exact A3]).
        pose proof (skip_err _ _ _ _ _ R2 H) as ST. exists (opening b :: ts3). split; [apply stops_cons; rewrite <- (app_nil_r ts3) at 2; apply stops_app, ST|].
        exists [op last], (VList b y). split; [constructor; [apply fill_op, OB|constructor]|]. rewrite <- CL. constructor. exact S.
Qed.

(** ** Layers *)
Lemma larg_word : spLArgQ aWord [97]. Proof. constructor. Qed.
Lemma viable_args : forall f ts c e c', syntax e -> ready ts c -> parseArgs f c = RFail e c' -> exists p q l, stops e ts p c' /\ Forall filler q /\ p ++ q = fst l ++ [op 41] /\ spArgsQ (fst l) (snd l).
Proof.
  induction f as [|f IH]; intros ts c e c' SE R H; [discriminate|]. cbn [parseArgs] in H. apply bind_fail in H. destruct H as [H|(t & c1 & H1 & H)].
  { exists [], [aWord; op 41], ([aWord], [[97]]). split; [exact (strict_err _ _ _ _ _ R H)|]. split; [fills|]. split; [reflexivity|]. apply LS_one, larg_word. }
  destruct (strict_ok _ _ _ _ _ noEof_1 R H1) as (ts' & -> & T & MT & R1 & _). fold (argText t) in H. destruct (larg_inv t c1 T MT) as (a & SA & AT). rewrite (bind_ok _ _ _ _ _ AT) in H. apply bind_fail in H. destruct H as [H|(t2 & c2 & H2 & H)].
  { exists [t], [op 41], ([t], [a]). split; [apply stops_cons; exact (strict_err _ _ _ _ _ R1 H)|]. split; [fills|]. split; [reflexivity|]. apply LS_one, SA. }
  destruct (strict_ok _ _ _ _ _ noEof_2 R1 H2) as (ts2 & -> & T' & MT' & R2 & _). apply (match_op2 44 41) in MT'; [|cbn; tauto|cbn; tauto|exact T']. destruct MT' as [-> | ->]; [|discriminate].
  change (nameEqb (tText (op 44)) rBraceTok) with false in H. cbn iota in H. apply bind_fail in H. destruct H as [H|(l & c3 & _ & H)]; [|discriminate]. destruct (IH _ _ _ _ SE R2 H) as (p & q & (l1 & l2) & ST & F & E & S). cbn [fst snd] in *.
  exists (t :: op 44 :: p), q, (t :: op 44 :: l1, a :: l2). split; [apply stops_cons, stops_cons, ST|]. split; [exact F|]. split; [cbn; rewrite E; reflexivity|]. constructor; assumption.
Qed.
Definition closed (ts : list tok) (l : list gcommand) : Prop := exists ts1, ts = ts1 ++ [op 59] /\ spCommandsQ ts1 l.
Lemma cmd_one n : spCommandQ [mkT KName n; op 40; op 41] (mkCmd n []). Proof. constructor. Qed.
Lemma closed_one ts x : spCommandQ ts x -> closed (ts ++ [op 59]) [x].
Proof. intros S. exists ts. split; [reflexivity|]. rewrite <- (app_nil_r ts). constructor; [exact S|constructor]. Qed.
Lemma closed_more ts x p : spCommandQ ts x -> begun closed p -> begun closed (ts ++ p).
Proof. intros S (q & l & F & ts1 & E & C). exists q, (x :: l). split; [exact F|]. exists (ts ++ ts1). split; [rewrite <- !app_assoc, E; reflexivity|constructor; assumption]. Qed.
Lemma viable_commands : forall f ts c e c', syntax e -> ready ts c -> parseCommands f c = RFail e c' -> exists p, stops e ts p c' /\ begun closed p.
Proof.
  induction f as [|f IH]; intros ts c e c' SE R H; [discriminate|]. cbn [parseCommands] in H. apply bind_fail in H. destruct H as [H|(t & c1 & H1 & H)].
  { exists []. split; [exact (strict_err _ _ _ _ _ R H)|]. exists [op 59], []. split; [fills|]. exists []. split; [reflexivity|constructor]. }
  destruct (strict_ok _ _ _ _ _ noEof_3 R H1) as (ts1 & -> & T & MT & R1 & _). destruct (nameEqb (typeName (tKind t)) opTok) eqn:K; [discriminate|].
  assert (KN : t = mkT KName (tText t)). { rewrite (tok_eta t) at 1. f_equal. rewrite matches_cons in MT. destruct MT as [[E|E]|E]; [destruct (tKind t); try discriminate E; reflexivity|apply (name_only _ _ nameTok_name T E)|]. apply (match_op 59) in E; [|cbn; tauto|exact T]. subst t. discriminate. }
  set (n := tText t) in *. rewrite KN. clear KN K MT T H1 R. apply bind_fail in H. destruct H as [H|(u & c2 & H2 & H)].
  { exists [mkT KName n]. split; [apply stops_cons; exact (skip_err _ _ _ _ _ R1 H)|]. exists [op 40; op 41; op 59], [mkCmd n []]. split; [fills|]. exact (closed_one _ _ (cmd_one n)). }
  destruct (skip_ok 40 _ _ _ _ ltac:(cbn; tauto) R1 H2) as (ts2 & -> & R2). clear R1 H2 u. unfold ignoreError in H. unfold bind at 1 in H. destruct (fetch [rBraceTok] false c2) as [o c3|e3 c3| |] eqn:F; try discriminate; [|destruct (fetch_calm _ _ _ _ _ R2 F)].
  pose proof (fetch_ready _ _ _ _ _ R2 F) as FR. destruct o as [t'|].
  - unfold bind at 1 in H. cbn in H. apply bind_fail in H. destruct H as [H|(l & c4 & _ & H)]; [|discriminate]. destruct FR as [(ts3 & -> & T' & MT' & R3)|(-> & _ & R3)].
    + apply (match_op 41) in MT'; [|cbn; tauto|exact T']. subst t'. destruct (IH _ _ _ _ SE R3 H) as (p & ST & B). exists ([mkT KName n; op 40; op 41] ++ p). split; [apply (stops_app [mkT KName n; op 40; op 41]), ST|]. eapply closed_more; [apply cmd_one|exact B].
    + destruct (IH _ _ _ _ SE R3 H) as (p & ST & _). destruct (stops_nil _ _ _ ST) as (-> & -> & TE). exists [mkT KName n; op 40]. split; [left; auto|]. exists [op 41; op 59], [mkCmd n []]. split; [fills|]. exact (closed_one _ _ (cmd_one n)).
  - apply bind_fail in H. destruct H as [H|(args & c4 & H4 & H)].
    + destruct (viable_args _ _ _ _ _ SE FR H) as (p & q & (l1 & l2) & ST & FQ & E & S). cbn [fst snd] in *. exists (mkT KName n :: op 40 :: p). split; [apply stops_cons, stops_cons, ST|]. exists (q ++ [op 59]), [mkCmd n l2]. split; [fills|]. cbn [app]. rewrite app_assoc, E.
      apply (closed_one (mkT KName n :: op 40 :: l1 ++ [op 41])). constructor. exact S.
    + destruct (args_sound (fun _ => true) _ _ _ _ _ _ (proj1 FR) H4) as (ts3 & ts4 & -> & SP & A3). assert (R4 : ready ts4 c4) by (eapply ready_ok; [apply k_args|exact FR|exact H4|exact A3]). apply bind_fail in H. destruct H as [H|(l & c5 & _ & H)]; [|discriminate].
      destruct (IH _ _ _ _ SE R4 H) as (p & ST & B). exists ((mkT KName n :: op 40 :: ts3 ++ [op 41]) ++ p). split; [|eapply closed_more; [constructor; exact SP|exact B]].
      replace (mkT KName n :: op 40 :: ts3 ++ op 41 :: ts4) with ((mkT KName n :: op 40 :: ts3 ++ [op 41]) ++ ts4) by (cbn [app]; rewrite <- app_assoc; reflexivity). apply stops_app, ST.
Qed.
Lemma fresh_stops e t ts c : wrongAt e t -> ready ts c -> fresh c -> stops e (t :: ts) [] c.
Proof. intros W (A & _) F. right. exists t, ts. split; [exact W|]. split; [reflexivity|]. split; [|exact F]. rewrite <- (at_stream _ _ _ A). unfold stream. destruct F as (-> & _). reflexivity. Qed.
(** either the record cannot begin so, or it is begun *)
Definition vRecord (Q : record -> Prop) (e : readError) (ts : list tok) (c' : ctx) : Prop := exists p, stops e ts p c' /\ (p = [] \/ exists q r, Forall filler q /\ spRecordQ (p ++ q) r /\ Q r).
Lemma viable_layer f t ts c e c' : taken t -> tKind t = KOp -> syntax e -> ready ts c -> fresh c -> parseLayerDef f t c = RFail e c' -> vRecord isLayer e (t :: ts) c'.
Proof.
  intros T K SE R FR H. unfold parseLayerDef in H. destruct (nameEqb (tText t) atTok) eqn:E; cbn [negb] in H.
  - apply nameEqb_ok in E. assert (t = op 64) as -> by (rewrite (tok_eta t), K, E; reflexivity). apply bind_fail in H. destruct H as [H|(n & c1 & H1 & H)].
    { exists [op 64]. split; [apply stops_cons; exact (strict_err _ _ _ _ _ R H)|]. right. exists [aWord; op 59], (RLayer (mkLayer [97] [])). split; [fills|]. split; [|exact I]. apply (RC_layer quotedOf [97] []). constructor. }
    destruct (strict_ok _ _ _ _ _ noEof_5 R H1) as (ts1 & -> & T' & MT & R1 & _). assert (KN : n = mkT KName (tText n)).
    { rewrite (tok_eta n) at 1. f_equal. apply matches_one in MT. destruct MT as [E'|E']; [destruct (tKind n); try discriminate E'; reflexivity|apply (name_only _ _ nameTok_name T' E')]. }
    set (m := tText n) in *. apply bind_fail in H. destruct H as [H|(l & c2 & _ & H)]; [|discriminate]. destruct (viable_commands _ _ _ _ _ SE R1 H) as (p & ST & q & l & F & ts2 & E2 & S). exists (op 64 :: n :: p). split; [apply stops_cons, stops_cons, ST|]. right.
    exists q, (RLayer (mkLayer m l)). split; [exact F|]. split; [|exact I]. cbn [app]. rewrite E2, KN. constructor. exact S.
  - injection H as <- <-. exists []. split; [|left; reflexivity]. apply fresh_stops; [left; reflexivity|exact R|exact FR].
Qed.
(** ** Nodes *)
Lemma seq_word : spSeqQ [aWord] [[VNode [97]]]. Proof. constructor. constructor. constructor. Qed.
Lemma viable_node f n ts c e c' : syntax e -> ready ts c -> readNode f n c = RFail e c' -> exists p, stops e (mkT KName n :: ts) (mkT KName n :: p) c' /\ exists q r, Forall filler q /\ spRecordQ (mkT KName n :: p ++ q) r /\ isNode r.
Proof.
  intros SE R H. unfold readNode, parseNodeDef in H. apply bind_fail in H. destruct H as [H|(u1 & c1 & H1 & H)]; [destruct (c_nodeFree _ _ _ _ H SE)|]. pose proof (pure_ok _ _ _ _ _ (p_nodeFree n) R H1) as R1. apply bind_fail in H. destruct H as [H|(i & c2 & H2 & H)]; [destruct (c_addNode _ _ _ _ _ H SE)|]. pose proof (pure_ok _ _ _ _ _ (p_addNode n true) R1 H2) as R2.
  apply bind_fail in H. destruct H as [H|(u3 & c3 & H3 & H)].
  { exists []. split; [apply stops_cons; exact (skip_err _ _ _ _ _ R2 H)|]. exists [op 61; aWord; op 59], (RNode n [[VNode [97]]]). split; [fills|]. split; [|exact I]. apply (RC_node quotedOf n [aWord]). exact seq_word. }
  destruct (skip_ok 61 _ _ _ _ ltac:(cbn; tauto) R2 H3) as (ts1 & -> & R3). apply bind_fail in H. destruct H as [H|(cs & c4 & H4 & H)].
  { destruct (viable_seq f) as (VS & _). destruct (VS _ _ _ _ SE R3 H) as (p & ST & q & l & F & S). exists (op 61 :: p). split; [apply stops_cons, stops_cons, ST|]. exists (q ++ [op 59]), (RNode n l). split; [fills|]. split; [|exact I]. cbn [app]. rewrite app_assoc. constructor. exact S. }
  destruct (seq_sound f) as (SS & _). destruct (SS _ _ _ _ _ (proj1 R3) H4) as (l & ts2 & ts3 & -> & SP & _ & A4). assert (R4 : ready ts3 c4) by (eapply ready_ok; [apply k_group|exact R3|exact H4|exact A4]). apply bind_fail in H. destruct H as [H|(u5 & c5 & _ & H)]; [|discriminate].
  exists (op 61 :: ts2). split; [apply stops_cons, stops_cons; rewrite <- (app_nil_r ts2) at 2; apply stops_app; exact (skip_err _ _ _ _ _ R4 H)|]. exists [op 59], (RNode n l). split; [fills|]. split; [|exact I]. constructor. exact SP.
Qed.
(** ** Directives *)
Lemma viable_dir f n ts c e c' : syntax e -> ready ts c -> fresh c -> plainArguments (mkT KDir n :: ts) -> parseDir f (mkT KDir n) c = RFail e c' -> vRecord (fun r => ~ isNode r) e (mkT KDir n :: ts) c'.
Proof.
  intros SE R FR U H. assert (D : (exists d, n = dirName d) \/ e = RE_unknownDirective (mkT KDir n) /\ c' = c).
  { unfold parseDir in H. cbn [tText] in H. destruct (nameEqb n sideDir) eqn:E1; [apply nameEqb_ok in E1; left; exists DSide; exact E1|]. destruct (nameEqb n caselessDir) eqn:E2; [apply nameEqb_ok in E2; left; exists DCaseless; exact E2|]. destruct (nameEqb n externDir) eqn:E3; [apply nameEqb_ok in E3; left; exists DExtern; exact E3|]. destruct (nameEqb n errorDir) eqn:E4; [apply nameEqb_ok in E4; left; exists DError; exact E4|].
    cbn [orb] in H. destruct (nameEqb n groupDir) eqn:E5; [apply nameEqb_ok in E5; left; exists DGroup; exact E5|]. destruct (nameEqb n reservedDir) eqn:E6; [apply nameEqb_ok in E6; left; exists DReserved; exact E6|]. destruct (nameEqb n literalDir) eqn:E7; [apply nameEqb_ok in E7; left; exists DLiteral; exact E7|]. injection H as <- <-. auto. }
  destruct D as [(d & ->)|(-> & ->)]; [|exists []; split; [apply fresh_stops; [right; reflexivity|exact R|exact FR]|left; reflexivity]].
  rewrite parseDir_is in H. apply bind_fail in H. destruct H as [H|(l & c1 & H1 & H)]; [destruct (fetchAll_calm _ _ _ _ _ _ R H)|]. destruct (fetchAll_inv _ _ _ _ _ _ _ (proj1 R) H1) as (ts1 & -> & FA & _ & A1). assert (R1 : ready ts1 c1) by (eapply ready_ok; [apply k_fetchAll|exact R|exact H1|exact A1]).
  apply bind_fail in H. destruct H as [H|(u & c2 & _ & H)]; [|destruct (c_dirActs _ _ _ _ _ H SE)].
  assert (FB : Forall (fun t => exists a, spArg quotedOf d t a) l). { rewrite Forall_forall in *. intros t I. apply arg_inv; [apply FA, I|apply FA, I|]. apply in_split in I. destruct I as (b & r & ->). apply (U [] (mkT KDir (dirName d)) b t (r ++ ts1)); [cbn [app]; rewrite <- app_assoc; reflexivity|reflexivity|].
    intros X. destruct (FA (op 59)) as (_ & X'); [apply in_or_app; left; exact X|]. rewrite matches_semi in X'. discriminate. }
  destruct (Forall_to2 _ _ FB) as (args & F2). exists (mkT KDir (dirName d) :: l). split; [apply stops_cons; rewrite <- (app_nil_r l) at 2; apply stops_app; exact (skip_err _ _ _ _ _ R1 H)|]. right. exists [op 59], (RDirective d args). split; [fills|]. split; [|intros []]. constructor. exact F2.
Qed.
(** ** Types *)
Section R.
Variable compiles : name -> bool.
Definition regexpText (ts : list tok) (ps : list part) : Prop := exists l, ts = op 61 :: l ++ [op 59] /\ ps <> [] /\ Forall2 spPart l ps.
Lemma part_word : spPart aWord (PTemplate [97]). Proof. constructor. Qed.
Lemma viable_regexp f ts c e c' : syntax e -> ready ts c -> regexpDef compiles f c = RFail e c' -> exists p, stops e ts p c' /\ begun regexpText p.
Proof.
  intros SE R H. unfold regexpDef in H. apply bind_fail in H. destruct H as [H|(u & c1 & H1 & H)].
  { exists []. split; [exact (skip_err _ _ _ _ _ R H)|]. exists [op 61; aWord; op 59], [PTemplate [97]]. split; [fills|]. exists [aWord]. split; [reflexivity|]. split; [discriminate|]. repeat constructor. }
  destruct (skip_ok 61 _ _ _ _ ltac:(cbn; tauto) R H1) as (ts1 & -> & R1). apply bind_fail in H. destruct H as [H|(re & c2 & H2 & H)].
  - unfold fetchRegexp in H. apply bind_fail in H. destruct H as [H|(l & c4 & H4 & H)]; [destruct (fetchAll_calm _ _ _ _ _ _ R1 H)|]. destruct (fetchAll_inv _ _ _ _ _ _ _ (proj1 R1) H4) as (ts2 & -> & FA & NH & A2). assert (R2 : ready ts2 c4) by (eapply ready_ok; [apply k_fetchAll|exact R1|exact H4|exact A2]). destruct l as [|t0 l].
    + apply bind_fail in H. destruct H as [H|(o & c5 & _ & H)]; [|discriminate]. exists [op 61]. split; [apply stops_cons; exact (fetch_err _ _ _ _ _ R2 H)|]. exists [aWord; op 59], [PTemplate [97]]. split; [fills|]. exists [aWord]. split; [reflexivity|]. split; [discriminate|]. repeat constructor.
    + exfalso. apply bind_fail in H. destruct H as [H|(re & c5 & _ & H)]; [exact (c_join _ _ _ _ H SE)|]. destruct (compiles re); [discriminate|]. injection H as <- _. revert SE. nosyntax.
  - apply bind_fail in H. destruct H as [H|(u' & c3 & _ & H)]; [|discriminate]. unfold fetchRegexp in H2. apply bind_inv in H2. destruct H2 as (l & c4 & H4 & H2). destruct (fetchAll_inv _ _ _ _ _ _ _ (proj1 R1) H4) as (ts2 & -> & FA & NH & A2). assert (R2 : ready ts2 c4) by (eapply ready_ok; [apply k_fetchAll|exact R1|exact H4|exact A2]). destruct l as [|t0 l].
    { exfalso. apply bind_inv in H2. destruct H2 as (o & c5 & H5 & H2). pose proof (fetch_inv _ _ _ _ _ _ _ A2 H5) as F. destruct NH as (t & ts3 & -> & MT). inversion F as [b t' ts4 c6 E T' MT' A6 B1 B2 B3|b t' c6 E EO MT' TX A6 B1 B2 B3|]; subst; [|discriminate]. injection E as <- <-. congruence. }
    assert (FB : Forall (fun t => exists p, spPart t p) (t0 :: l)) by (rewrite Forall_forall in *; intros t I; apply part_inv; apply FA, I). destruct (Forall_to2 _ _ FB) as (ps & F2).
    assert (R3 : ready ts2 c2). { refine (pure_ok (let* re := joinRegexp (t0 :: l) in if compiles re then ret re else fail (RE_regexp t0)) _ _ _ _ _ R2 H2). apply p_bind; [|intros re0; destruct (compiles re0); [apply p_ret|apply p_fail]]. clear. induction (t0 :: l) as [|t r IH]; cbn [joinRegexp]; pures. }
    exists (op 61 :: t0 :: l). split; [apply stops_cons; rewrite <- (app_nil_r (t0 :: l)) at 2; apply stops_app; exact (skip_err _ _ _ _ _ R3 H)|]. exists [op 59], ps. split; [fills|]. exists (t0 :: l). split; [reflexivity|]. split; [intros ->; inversion F2|exact F2].
Qed.
Lemma viable_head f t ts c e c' : taken t -> matches starts t = true -> tKind t <> KName -> syntax e -> ready ts c -> fresh c -> plainArguments (t :: ts) -> headRecord compiles f t c = RFail e c' -> vRecord (fun r => ~ isNode r) e (t :: ts) c'.
Proof.
  intros T MT NK SE R FR U H. unfold headRecord in H. destruct (starts_inv t T MT) as [K|[K|[K|[K|K]]]]; [contradiction| | | |]; rewrite K in H.
  - destruct (taken_dir t T K) as (n & ->). exact (viable_dir _ _ _ _ _ _ SE R FR U H).
  - destruct (viable_layer _ _ _ _ _ _ T K SE R FR H) as (p & ST & [E|(q & r & F & S & L)]); exists p; (split; [exact ST|]); [left; exact E|right]. exists q, r. split; [exact F|]. split; [exact S|]. intros N. destruct r; contradiction.
  - destruct (taken_template t T K) as (n & ->). cbn [tText] in H. rewrite (bind_ok _ _ _ _ _ (textFrom_2 _ _ _ c)) in H. unfold get at 1 in H. unfold bind at 1 in H. destruct (nget n (cTemplates c)) eqn:TP; [exfalso; injection H as <- _; revert SE; nosyntax|]. rewrite template_is in H.
    apply bind_fail in H. destruct H as [H|(re & c2 & _ & H)]; [|discriminate]. destruct (viable_regexp _ _ _ _ _ SE R H) as (p & ST & q & ps & F & l & E & NE & F2). exists (mkT KTemplate (36 :: 36 :: n) :: p). split; [apply stops_cons, ST|]. right. exists q, (RTemplate n ps). split; [exact F|]. split; [|intros []]. cbn [app]. rewrite E. constructor; assumption.
  - destruct (taken_token t T K) as (n & ->). cbn [tText] in H. rewrite (bind_ok _ _ _ _ _ (textFrom_1 _ _ c)) in H. apply bind_fail in H. destruct H as [H|(has & c1 & H1 & H)]; [destruct (c_typeDefined _ _ _ _ H SE)|]. pose proof (pure_ok _ _ _ _ _ (p_typeDefined n) R H1) as R1. destruct (has || nameEqb n []) eqn:HN; [exfalso; injection H as <- _; revert SE; nosyntax|]. rewrite tokenDef_is in H.
    apply bind_fail in H. destruct H as [H|(re & c2 & _ & H)]; [|exfalso; exact (c_addToken _ _ _ _ _ _ H SE)]. destruct (viable_regexp _ _ _ _ _ SE R1 H) as (p & ST & q & ps & F & l & E & NE & F2). exists (mkT KToken (36 :: n) :: p). split; [apply stops_cons, ST|]. right. exists q, (RType n ps). split; [exact F|]. split; [|intros []]. cbn [app]. rewrite E. constructor; try assumption. intros ->. rewrite orb_true_r in HN. discriminate.
Qed.
(** ** Descriptions *)
Definition spHead (ts : list tok) (rs : list record) : Prop := spRecordsQ ts rs /\ Forall (fun r => ~ isNode r) rs.
Definition spDesc (ts : list tok) (rs : list record) : Prop := spRecordsQ ts rs /\ ordered rs.
Definition spLater (ts : list tok) (rs : list record) : Prop := spRecordsQ ts rs /\ Forall laterRecord rs.
Lemma records_one ts r : spRecordQ ts r -> spRecordsQ ts [r].
Proof. intros S. rewrite <- (app_nil_r ts). constructor; [exact S|constructor]. Qed.
Lemma records_app ts rs ts' rs' : spRecordsQ ts rs -> spRecordsQ ts' rs' -> spRecordsQ (ts ++ ts') (rs ++ rs').
Proof. induction 1; cbn [app]; intros S'; [exact S'|]. rewrite <- app_assoc. constructor; auto. Qed.
Lemma head_nil : begun spHead []. Proof. exists [], []. split; [constructor|]. split; constructor. Qed.
Lemma head_more ts1 r p : spRecordQ ts1 r -> ~ isNode r -> begun spHead p -> begun spHead (ts1 ++ p).
Proof. intros S N (q & rs & F & S' & N'). exists q, (r :: rs). split; [exact F|]. rewrite <- app_assoc. split; constructor; assumption. Qed.
Lemma head_desc p : begun spHead p -> begun spDesc p.
Proof.
  intros (q & rs & F & S & N). exists (q ++ [aWord; op 61; aWord; op 59]), (rs ++ [RNode [97] [[VNode [97]]]]). split; [fills|]. rewrite app_assoc. split.
  - apply records_app; [exact S|]. apply records_one. apply (RC_node quotedOf [97] [aWord]). exact seq_word.
  - exists rs, (RNode [97] [[VNode [97]]]), []. split; [reflexivity|]. split; [exact N|]. split; [exact I|constructor].
Qed.
Lemma viable_readHead : forall f ts c e c', syntax e -> ready ts c -> plainArguments ts -> readHead compiles f c = RFail e c' -> exists p, stops e ts p c' /\ begun spHead p.
Proof.
  induction f as [|f IH]; intros ts c e c' SE R U H; [discriminate|]. rewrite readHead_is in H. apply bind_fail in H. destruct H as [H|(t & c1 & H1 & H)]; [exists []; split; [exact (strict_err _ _ _ _ _ R H)|exact head_nil]|].
  destruct (strict_ok _ _ _ _ _ noEof_starts R H1) as (ts1 & -> & T & MT & R1 & FR). assert (D : tKind t = KName \/ tKind t <> KName) by (destruct (tKind t); (left; reflexivity) || (right; discriminate)). destruct D as [K|K]; [rewrite K in H; discriminate|].
  assert (H' : (headRecord compiles f t ;;; readHead compiles f) c1 = RFail e c') by (destruct (tKind t); try contradiction; exact H). clear H. apply bind_fail in H'. destruct H' as [H|(u & c2 & H2 & H)].
  - destruct (viable_head _ _ _ _ _ _ T MT K SE R1 FR U H) as (p & ST & [->|(q & r & F & S & N)]); [exists []; split; [exact ST|exact head_nil]|]. exists p. split; [exact ST|]. exists q, [r]. split; [exact F|]. split; [apply records_one, S|constructor; [exact N|constructor]].
  - destruct (headRecord_sound _ _ _ _ _ _ _ _ T MT K (proj1 R1) U H2) as (r & tsa & tsb & E & _ & SP & NN & _ & A2). assert (R2 : ready tsb c2) by (eapply ready_ok; [apply k_headRecord|exact R1|exact H2|exact A2]). assert (U2 : plainArguments tsb) by (rewrite E in U; apply plain_app in U; exact U).
    destruct (IH _ _ _ _ SE R2 U2 H) as (p & ST & B). exists (tsa ++ p). rewrite E. split; [apply stops_app, ST|eapply head_more; eassumption].
Qed.
Lemma readNodes_eq f t c : tKind t = KName \/ tKind t = KOp -> readNodes (S f) t c = (nodeRecord f t ;;; let* t := fetchStrict nodeStarts in readNodes f t) c.
Proof.
  intros K. cbn [readNodes]. assert (isEof t = false) as -> by (unfold isEof; destruct K as [-> | ->]; reflexivity). unfold nodeRecord, readNode, nodeFree, nodeStarts. destruct t as [k n]. cbn [tKind tText] in *. destruct K as [-> | ->]; cbn [typeName]; [change (nameEqb nameTok opTok) with false|change (nameEqb opTok opTok) with true]; cbn iota; [|reflexivity].
  unfold bind. cbn. destruct (nodeIndex 0 n (cNames c)) as [i|]; [|reflexivity]. cbn. destruct (zget (cDefs c) i) as [d|]; cbn; [|reflexivity]. destruct d; reflexivity.
Qed.
(** the rest of a description *)
Lemma later_nil : begun spLater []. Proof. exists [], []. split; [constructor|]. split; constructor. Qed.
Lemma later_more ts1 r p : spRecordQ ts1 r -> laterRecord r -> begun spLater p -> begun spLater (ts1 ++ p).
Proof. intros S N (q & rs & F & S' & N'). exists q, (r :: rs). split; [exact F|]. rewrite <- app_assoc. split; constructor; assumption. Qed.
Definition rootFirst (ts : list tok) (rs : list record) : Prop := spLater ts rs /\ exists r rs', rs = r :: rs' /\ isNode r.
Lemma viable_nodes : forall f t ts c e c', taken t -> tKind t = KName \/ tKind t = KOp -> syntax e -> ready ts c -> (tKind t = KOp -> fresh c) -> readNodes f t c = RFail e c' ->
  exists p, stops e (t :: ts) p c' /\ begun spLater p /\ (tKind t = KName -> begun rootFirst p).
Proof.
  induction f as [|f IH]; intros t ts c e c' T K SE R FR H; [discriminate|]. rewrite (readNodes_eq f t c K) in H. apply bind_fail in H. destruct H as [H|(u & c1 & H1 & H)].
  - unfold nodeRecord in H. destruct K as [K|K]; rewrite K in H |- *; cbn [typeName] in H; [change (nameEqb nameTok opTok) with false in H|change (nameEqb opTok opTok) with true in H]; cbn iota in H.
    + destruct t as [k n]. cbn [tKind tText] in *. subst k. destruct (viable_node _ _ _ _ _ _ SE R H) as (p & ST & q & r & F & S & N). exists (mkT KName n :: p). split; [exact ST|]. assert (SL : spLater ((mkT KName n :: p) ++ q) [r]) by (split; [apply records_one, S|constructor; [left; exact N|constructor]]).
      split; [exists q, [r]; auto|]. intros _. exists q, [r]. split; [exact F|]. split; [exact SL|]. exists r, []. auto.
    + destruct (viable_layer _ _ _ _ _ _ T K SE R (FR K) H) as (p & ST & V). exists p. split; [exact ST|]. split; [|discriminate]. destruct V as [->|(q & r & F & S & N)]; [exact later_nil|].
      exists q, [r]. split; [exact F|]. split; [apply records_one, S|constructor; [right; exact N|constructor]].
  - destruct (nodeRecord_sound compiles _ _ _ _ _ _ _ T K (proj1 R) H1) as (r & ts1 & ts2 & E & SP & N & LR & _ & A1). assert (R1 : ready ts2 c1) by (eapply ready_ok; [apply k_nodeRecord|exact R|exact H1|exact A1]). rewrite E.
    assert (G : exists p, stops e ts2 p c' /\ begun spLater p).
    { apply bind_fail in H. destruct H as [H|(t' & c2 & H2 & H)]; [exists []; split; [exact (strict_err _ _ _ _ _ R1 H)|exact later_nil]|]. destruct ts2 as [|t2 ts2].
      - destruct (at_nil_eof _ _ (proj1 R1)) as (t3 & c3 & F3 & EO & _). rewrite F3 in H2. injection H2 as -> ->. destruct f; [discriminate|]. rewrite (readNodes_end _ _ _ EO) in H. discriminate.
      - assert (M2 : taken t2 /\ ready ts2 c2 /\ fresh c2 /\ t' = t2 /\ matches nodeStarts t2 = true).
        { destruct (take_hit _ _ _ _ (proj1 R1)) as (c3 & T3 & A3 & _). pose proof (take_fresh _ _ _ _ R1 T3) as F3. pose proof (at_taken _ _ _ (proj1 R1)) as TT. inversion TT as [|? ? T2 _]; subst. assert (R2 : ready ts2 c2 /\ t' = t2 /\ c2 = c3 /\ matches nodeStarts t2 = true).
          { pose proof H2 as H2'. unfold fetchStrict, fetch, bind in H2. rewrite T3 in H2. destruct (matches nodeStarts t2); [cbn in H2; injection H2 as <- <-; split; [eapply ready_ok; [apply k_strict|exact R1|exact H2'|exact A3]|auto]|]. rewrite (taken_kind t2 T2) in H2. discriminate. }
          destruct R2 as (R2 & -> & -> & MT). auto. }
        destruct M2 as (T2 & R2 & F2 & -> & MT). destruct (IH _ _ _ _ _ T2 (nodeStarts_inv _ T2 MT) SE R2 (fun _ => F2) H) as (p & ST & B & _). exists p. auto. }
    destruct G as (p & ST & B). exists (ts1 ++ p). split; [apply stops_app, ST|]. split; [eapply later_more; eassumption|]. intros KN. destruct B as (q & rs & F & S & L). exists q, (r :: rs). split; [exact F|]. rewrite <- app_assoc. split; [split; constructor; assumption|]. exists r, rs. auto.
Qed.
Lemma k_head : forall f, keeps (readHead compiles f).
Proof.
  induction f as [|f IH]; [intros c E; exact I|]. intros c E. rewrite readHead_is. revert c E. change (keeps (let* t := fetchStrict starts in match tKind t with KName => ret t | _ => headRecord compiles f t ;;; readHead compiles f end)). pose proof (k_headRecord compiles f) as KH. apply k_bind; [apply k_strict|]. intros t.
  destruct (tKind t); first [(apply k_bind; [apply KH|intros; exact IH]) | (apply k_pure, p_ret)].
Qed.
Lemma viable_description f ts c e c' : syntax e -> ready ts c -> plainArguments ts -> readDescription compiles f c = RFail e c' -> exists p, stops e ts p c' /\ begun spDesc p.
Proof.
  intros SE R U H. unfold readDescription in H. apply bind_fail in H. destruct H as [H|(t & c1 & H1 & H)]; [destruct (viable_readHead _ _ _ _ _ SE R U H) as (p & ST & B); exists p; split; [exact ST|apply head_desc, B]|].
  apply bind_fail in H. destruct H as [H|(u & c2 & H2 & H)]; [destruct (c_finish _ _ _ H SE)|].
  destruct (readHead_sound _ _ _ _ _ _ _ (proj1 R) U H1) as (rs & ts1 & ts' & -> & SR & NR & K & _ & A1). assert (R1 : ready ts' c1) by (eapply ready_ok; [apply k_head|exact R|exact H1|exact A1]). pose proof (pure_ok _ _ _ _ _ p_finish R1 H2) as R2.
  assert (T : taken t). { pose proof (at_taken _ _ _ (proj1 R)) as X. rewrite Forall_app in X. destruct X as (_ & X). inversion X; assumption. }
  destruct (viable_nodes _ _ _ _ _ _ T (or_introl K) SE R2 ltac:(rewrite K; discriminate) H) as (p & ST & _ & B). destruct (B K) as (q & rs2 & F & (S & L) & r & rs3 & -> & N). exists (ts1 ++ p). split; [apply stops_app, ST|]. exists q, (rs ++ r :: rs3). split; [exact F|]. rewrite <- app_assoc.
  split; [apply records_app; assumption|]. exists rs, r, rs3. split; [reflexivity|]. split; [exact NR|]. split; [exact N|]. inversion L; assumption.
Qed.
End R.
