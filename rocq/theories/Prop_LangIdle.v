(** Parsers made from descriptions come to an end (C67). *)
From Coq Require Import String ZArith List Bool Lia Permutation Relations.
From Verif Require Import Base BaseProofs Utf8 Regexp Grammar Queue SourceQueue SourceQueueSpec Prop_SourceQueue Lexer LexerSpec LexerProofs ParserNew ParserNewSpec ParserNewProofs
  ParserRegexp ParserRegexpProofs Prop_ParserNew TextParser.
From Verif Require Import LangBuild LangSpec Parser ParserSpec ParserTermSpec Prop_ParserTerm LangNodes LangNodesSpec Prop_LangNodes LangRecursion LangFuel LangFirst LangDrop LangTables LangTreeSpec LangComplete LangCompile LangTypes TablesSpec Prop_LangStates Prop_LangTables Prop_LangGrammar Prop_LangCompile LangText LangTextSpec Prop_LangText
  LangDescSpec LangDescFacts LangDescUnique Prop_LangDesc DescTreeSpec DescTree Prop_DescTree DescLexer DescLexerSpec DescLexerProofs Prop_DescLexer TextParserSpec TextParserProofs Prop_TextParser
  LangIdleSpec LangIdle LangIdleTables.
Import ListNotations.
Open Scope Z_scope.

(** ** Compiled descriptions *)
Section C.
Variable fullMatch : name -> name -> bool.
Variable toUpper : name -> name.
Variables (tokens : list gtoken) (layers : list glayer) (names : list name) (defs : list (option chunk)) (o1 o2 o3 : list Z).
Hypothesis RW : readWell tokens names defs.
Hypothesis P1 : Permutation o1 (indexes (length defs)).
Hypothesis P2 : Permutation o2 (indexes (length defs)).
Hypothesis P3 : Permutation o3 (indexes (length defs)).
(** [$] is not used; nothing that may be skipped shares states (see C20). *)
Hypothesis EN : forall i d, LangNodesSpec.defined defs i d -> endless d = true /\ skipsApart d false = true.

Lemma begins_token : forall i t, firstToken defs i t -> 0 <= t.
Proof.
  induction 1 as [i d t w G S|i d w G S|i d j u w t G S F IH]; [| |exact IH].
  - eapply (rw_tokens _ _ _ RW); [exact G|]. eapply (proj1 (Prop_LangCompile.derives_tokens _)); [exact S|left; reflexivity].
  - exfalso. exact (proj1 (derives_endless _) _ _ S (proj1 (EN i d G)) (or_introl eq_refl)).
Qed.
(** Definitions without left recursion (nodes that may be empty included) and without repetitions of something that may be empty:
    the tables have no idle loops. *)
Theorem compiled_no_idle_loop_partial fuel g : compileDescription fullMatch toUpper fuel o1 o2 o3 tokens layers names defs = Compiled g ->
  (forall i d, LangNodesSpec.defined defs i d -> loopsRead defs d) -> (forall i, ~ leftRecursive (leftCornerOrEmpty defs) i) -> noIdleLoop g.
Proof.
  intros CD LR NR. destruct (compile_any fullMatch toUpper _ layers _ _ o1 o2 o3 RW P1 P2 P3 _ _ CD) as (_ & _ & _ & (cs & firsts & CS & _ & FX & C1 & _) & _).
  assert (DI : forall d, In d cs -> exists i, LangNodesSpec.defined defs i d). { intros d I0. apply In_zget in I0. destruct I0 as (i & G). exists i. unfold LangNodesSpec.defined. rewrite <- CS, zget_map, G. reflexivity. }
  assert (ZL : zlen defs = zlen cs) by (rewrite <- CS; unfold zlen; rewrite map_length; reflexivity).
  apply (no_idle firsts cs) with (tokens := tokens) (layers := layers) (names := names); try rewrite CS; auto.
  - intros d I0. destruct (DI d I0) as (i & G). split; [apply (ds_written _ (rw_described _ _ _ RW) i d G)|apply (EN i d G)].
  - intros d I0. destruct (DI d I0) as (i & G). apply (EN i d G).
  - intros d I0. destruct (DI d I0) as (i & G). apply (LR i d G).
  - intros d i t I0 M T. destruct (DI d I0) as (j & G). eapply begins_token. apply FX; [|exact T]. apply (ds_refers _ (rw_described _ _ _ RW) j i). exists d. auto.
Qed.
(** When no node may be empty, left recursion is refused by the compiler. *)
Lemma compiled_flat fuel g : compileDescription fullMatch toUpper fuel o1 o2 o3 tokens layers names defs = Compiled g -> neverEmpty defs -> forall i, ~ leftRecursive (leftCornerOrEmpty defs) i.
Proof.
  intros CD NV i H. assert (FL : exists firsts fs p, accepted defs firsts fs p).
  { destruct (description_checked defs (rw_described _ _ _ RW) (rw_root _ _ _ RW) o1 o2 o3 P1 P2 P3) as (n & X). specialize (X (n + fuel)%nat ltac:(lia)).
    destruct (le_compile fullMatch toUpper fuel (n + fuel) o1 o2 o3 tokens layers names defs ltac:(lia)) as [Y|Y]; rewrite CD in Y; [discriminate|]. unfold compileDescription in Y.
    destruct (tokenTypes fullMatch toUpper tokens) as [[tt|?]|]; try discriminate. destruct (checkNodes (n + fuel) o1 o2 o3 defs) as [((firsts, fs), p)|e| |]; try discriminate. eauto. }
  destruct FL as (firsts & fs & p & [_ _ AB _ _ _ _ FL]). refine (FL _ i _).
  - intros j R. destruct (AB j R) as (t & T). exists t. split; [eapply begins_token, T|exact T].
  - unfold leftRecursive in *. revert H. generalize i at 2 4. intros k H. induction H as [a b H|a b c _ IH1 _ IH2]; [apply t_step, corner_empty; assumption|eapply t_trans; eassumption].
Qed.
Theorem solid_no_idle_loop_partial fuel g : compileDescription fullMatch toUpper fuel o1 o2 o3 tokens layers names defs = Compiled g ->
  neverEmpty defs -> (forall i d, LangNodesSpec.defined defs i d -> loopsRead defs d) -> noIdleLoop g.
Proof. intros CD NV LR. eapply compiled_no_idle_loop_partial; [exact CD|exact LR|eapply compiled_flat; eassumption]. Qed.
End C.

(** A check for repetitions, when no node may be empty: something repeated is not in brackets or braces. *)
Fixpoint loopsB (c : chunk) : bool :=
  match c with
  | CTok _ | CEoi | CNode _ => true
  | CGroup _ rep l => negb (rep && forallb isOptional l) && forallb loopsB l
  | CVar l => forallb loopsB l
  end.
Lemma loopsB_ok defs d : neverEmpty defs -> loopsB d = true -> loopsRead defs d.
Proof.
  intros NV LB opt l WI P. remember (CGroup opt true l) as x eqn:EX. induction WI as [|m d I0 WI IH|o r m d I0 WI IH]; subst.
  - cbn [loopsB] in LB. apply andb_true_iff in LB. destruct LB as (LB & _). cbn [andb] in LB. assert (X : forall m w, producesSeq defs m w -> w = [] -> forallb isOptional m = true).
    { apply (produces_both defs (fun c w => w = [] -> isOptional c = true) (fun m w => w = [] -> forallb isOptional m = true)); try discriminate.
      - intros j d w G PD _ ->. destruct (NV j). econstructor; eassumption.
      - intros m c w C _ IH E. cbn [isOptional]. apply existsb_exists. exists c. auto.
      - intros op rep m w _ IH E. cbn [isOptional]. rewrite (IH E). apply orb_true_r.
      - intros rep m _. reflexivity.
      - intros op m w v _ IH _ _ E. apply app_eq_nil in E. destruct E as (-> & ->). cbn [isOptional]. rewrite (IH eq_refl). apply orb_true_r.
      - reflexivity.
      - intros c m w v _ IH _ IH' E. apply app_eq_nil in E. destruct E as (-> & ->). cbn [forallb]. rewrite (IH eq_refl), (IH' eq_refl). reflexivity. }
    rewrite (X _ _ P eq_refl) in LB. discriminate.
  - apply IH; auto. cbn [loopsB] in LB. rewrite forallb_forall in LB. apply LB, I0.
  - apply IH; auto. cbn [loopsB] in LB. apply andb_true_iff in LB. destruct LB as (_ & LB). rewrite forallb_forall in LB. apply LB, I0.
Qed.

(** ** Texts *)
(** What is left of a queue of sources: bytes, and one more for each source *)
Definition leftOf {S} (content : S -> list Z) (l : aq S) : nat := fold_right (fun x n => (Z.to_nat (zlen (content (fst x)) - snd x) + 1 + n)%nat) 0%nat l.
Definition unreadSize {S} (content : S -> list Z) (src : queueState content) : nat := leftOf content (itemsOf content src).

Section T.
Context {S : Type} (content : S -> list Z) (same : S -> S -> bool).
Context {W Err Inst R : Type} (wrap : lexError S -> Err).
Variable prefers : name -> list Z -> option Z.
Hypothesis PO : regexpsOk prefers.
Variable ts : list gtoken.
Notation items := (itemsOf content).
Lemma call_shrinks k pl (SP : sane content pl) src tts src' t e : pl = groupLexer prefers ts k -> lexCall content wrap pl SP src tts = (src', (t, e)) ->
  match t with Some tok => tokType tok = EoiTokenType /\ items src' = items src \/ (unreadSize content src' < unreadSize content src)%nat | None => items src' = items src end.
Proof.
  intros -> E. destruct (lexer_call prefers PO ts k content (queueOf content src) (items src) (u64 tts) (proj2_sig src) (u64_nonneg tts)) as (q' & res & E1 & CL & _).
  destruct (lexCall_is content wrap _ SP src tts q' res E1) as (src1 & E2 & EQ & EI). rewrite E2 in E. injection E as <- <- _. unfold unreadSize. rewrite EI.
  destruct (proj2_sig src) as (A & O & _). change (fst (proj1_sig src)) with (queueOf content src) in A. change (snd (proj1_sig src)) with (items src) in A, O.
  destruct res as ([tok|], e0); cbn [fst]; [|destruct (items src) as [|(s, p) r]; reflexivity]. destruct (items src) as [|(s, p) r]; cbn [absq] in A; destruct A as (A1 & A2 & _); unfold seen at 1 in CL; rewrite A1, A2 in CL.
  - inversion CL; subst. left. split; reflexivity.
  - inversion CL as [?|W0|s1 a1 W0|s1 p1 i d n HR FT Hn I64 B|s1 p1 i d n W0 HR FT Hn I64 B|s1 p1 i d n W0 HR FT Hn I64|s1 p1 W0 HR X]; subst; right; cbn [afterRes tokType tokContent eofToken].
    + rewrite Z.eqb_refl. cbn [leftOf fold_right]. unfold leftOf. lia.
    + assert (RI : 0 <= i) by (destruct (ft_type _ _ _ _ _ _ _ FT) as (G & _); apply zget_Some_inv in G; lia). destruct (Z.eqb_spec i Lexer.EofTokenType) as [X|_]; [unfold Lexer.EofTokenType in X; lia|].
      pose proof (PO _ _ _ (ft_match _ _ _ _ _ _ _ FT)) as RN. cbn [leftOf fold_right fst snd]. unfold leftOf. replace (zlen (firstn (Z.to_nat n) (rest content s (spos (queueOf content src))))) with n by (unfold zlen in *; rewrite firstn_length; lia). lia.
Qed.
Lemma fetch_shrinks tts : forall ls (SA : forall pl, In pl ls -> sane content pl) src first src' t e, (forall pl, In pl ls -> exists k, pl = groupLexer prefers ts k) ->
  fetchLoop (lexersOf content wrap ls SA) tts src first = (src', (t, e)) ->
  (unreadSize content src' <= unreadSize content src)%nat /\ forall tok, t = Some tok -> tokType tok <> EoiTokenType -> (unreadSize content src' < unreadSize content src)%nat.
Proof.
  induction ls as [|pl ls IH]; intros SA src first src' t e K H; cbn [lexersOf fetchLoop] in H.
  - injection H as <- <- _. split; [lia|]. intros tok X. discriminate.
  - destruct (lexCall content wrap pl _ src tts) as (src1, (t1, e1)) eqn:CL. destruct (K pl (or_introl eq_refl)) as (k & EK). pose proof (call_shrinks k pl _ src tts src1 t1 e1 EK CL) as X.
    assert (K' : forall p, In p ls -> exists k, p = groupLexer prefers ts k) by (intros p I0; apply K; right; exact I0).
    destruct t1 as [tok1|].
    + assert (LE : (unreadSize content src1 <= unreadSize content src)%nat). { destruct X as [(_ & X)|X]; [unfold unreadSize; rewrite X; lia|lia]. } destruct e1 as [e1|].
      * destruct (IH _ _ _ _ _ _ K' H) as (A & B). split; [lia|]. intros tok TT NI. specialize (B tok TT NI). lia.
      * injection H as <- <- _. split; [exact LE|]. intros tok TT NI. injection TT as <-. destruct X as [(X & _)|X]; [contradiction|exact X].
    + destruct (IH _ _ _ _ _ _ K' H) as (A & B). unfold unreadSize in *. rewrite X in A, B. auto.
Qed.
(** Each token of a text, the end of input excepted, leaves less of it: for lexers made by parser.New, whatever groups there are. *)
Theorem texts_finite compilesAll (c : config (token S) (queueState content) W Err Inst R) ls SA :
  newParser prefers compilesAll (cGrammar c) = NewLexers ls -> overText content same wrap c ls SA -> ts = gTokens (cGrammar c) -> finiteSource c (unreadSize content).
Proof.
  intros N OT ET types src src' t e F. unfold fetchToken in F. rewrite (ot_lexers _ _ _ _ _ _ OT) in F. rewrite (ot_type _ _ _ _ _ _ OT). eapply fetch_shrinks; [|exact F].
  intros pl I0. destruct (newParser_lexers _ _ _ _ N) as (_ & H). apply In_nth_error in I0. destruct I0 as (k & E). exists (Z.of_nat k). rewrite ET. apply H, LexerProofs.zget_nat, E.
Qed.
End T.

Section M.
Context {S : Type} (content : S -> list Z) (same : S -> S -> bool).
Context {W Err Inst R : Type} (wrap : lexError S -> Err).
Variable prefers : name -> list Z -> option Z.
Hypothesis PO : regexpsOk prefers.
Variable compiles : name -> bool.
Variable compilesAll : list name -> bool.
Variable orders : nat -> list Z * list Z * list Z.
Hypothesis anyOrders : forall n, let '(o1, o2, o3) := orders n in Permutation o1 (indexes n) /\ Permutation o2 (indexes n) /\ Permutation o3 (indexes n).
Variable c : config (token S) (queueState content) W Err Inst R.
Notation g := (cGrammar c).
Variable description : list Z.
Variable fuel : nat.
Variable rs : list record.
Variable res : list (name * name).
Variable ls : list plexer.
Variable SA : forall pl, In pl ls -> sane content pl.
Hypothesis MF : madeFrom content same wrap prefers compiles compilesAll orders c description fuel rs res ls SA.
Notation defs := (map Some (defsOf rs)).
(** Definitions of the nodes: [$] is not used; nothing that may be skipped shares states; what is repeated is never empty. *)
Record readingLoops : Prop := mkReadingLoops {
  rl_endless : forall d, In d (defsOf rs) -> endless d = true;
  rl_apart : forall d, In d (defsOf rs) -> skipsApart d false = true;
  rl_loops : forall d, In d (defsOf rs) -> loopsRead defs d
}.
Hypothesis RL : readingLoops.
(** Nodes do not begin with themselves, or no node may be empty (then langdef has checked the rest). *)
Definition noLeftRecursion : Prop := (forall i, ~ leftRecursive (leftCornerOrEmpty defs) i) \/ neverEmpty defs.

Lemma made_tables : tablesOk g /\ (noLeftRecursion -> noIdleLoop g).
Proof.
  destruct (described _ _ _ _ _ _ _ _ _ _ _ _ _ _ MF) as (input & D). destruct (understood c compiles (fullMatch prefers) orders anyOrders fuel input TEnd rs D) as (res' & V' & GT & RW & CD & ALL & LD & AB & _).
  pose proof (anyOrders (length (nodeNames rs))) as AO. destruct (orders (length (nodeNames rs))) as ((o1, o2), o3). destruct AO as (P1 & P2 & P3). rewrite <- LD in P1, P2, P3. split.
  - destruct (compile_any (fullMatch prefers) (cUpper c) _ _ _ _ o1 o2 o3 RW P1 P2 P3 _ _ CD) as (_ & _ & _ & (cs & firsts & _ & _ & _ & _ & TS) & _). apply sound_tablesOk, TS.
  - assert (IN : forall i d, LangNodesSpec.defined defs i d -> In d (defsOf rs)) by (intros i d G; eapply zget_In; apply def_defined, G).
    assert (EN : forall i d, LangNodesSpec.defined defs i d -> endless d = true /\ skipsApart d false = true) by (intros i d G; split; [apply (rl_endless RL)|apply (rl_apart RL)]; eapply IN, G).
    assert (LR : forall i d, LangNodesSpec.defined defs i d -> loopsRead defs d) by (intros i d G; apply (rl_loops RL); eapply IN, G).
    intros [NR|NV]; [exact (compiled_no_idle_loop_partial _ _ _ _ _ _ o1 o2 o3 RW P1 P2 P3 EN _ _ CD LR NR)|exact (solid_no_idle_loop_partial _ _ _ _ _ _ o1 o2 o3 RW P1 P2 P3 EN _ _ CD NV LR)].
Qed.
(** Whatever the sources are, a parse ends: with no token hooks, and with node hooks and methods that add no sources; unless an ambiguity is resolved wrongly (C25). *)
Theorem made_parser_ends_partial src w t0 : noLeftRecursion -> cTokenHooks c = [] -> addsNothing c (unreadSize content) ->
  exists bound, forall pfuel, (bound <= pfuel)%nat -> forall s, parseFrom c pfuel (src, w) t0 = NoFuel s -> pLost s = true.
Proof.
  intros NR TH AN. destruct made_tables as (TO & NI). apply parse_terminates_partial with (size := unreadSize content); auto.
  eapply texts_finite; [exact PO|exact (mf_lexers _ _ _ _ _ _ _ _ _ _ _ _ _ _ MF)|exact (mf_over _ _ _ _ _ _ _ _ _ _ _ _ _ _ MF)|reflexivity].
Qed.
(** Without ambiguous rules it always ends, with the same result and the same error however many steps are allowed. *)
Theorem made_parser_ends_unambiguous_partial src w t0 : noLeftRecursion -> cTokenHooks c = [] -> addsNothing c (unreadSize content) -> gMultiRules g = [] ->
  exists bound x, (forall s, x <> NoFuel s) /\ forall pfuel, (bound <= pfuel)%nat -> parseFrom c pfuel (src, w) t0 = x.
Proof.
  intros NR TH AN GM. destruct made_tables as (TO & NI). apply parse_terminates_unambiguous_partial with (size := unreadSize content); auto.
  eapply texts_finite; [exact PO|exact (mf_lexers _ _ _ _ _ _ _ _ _ _ _ _ _ _ MF)|exact (mf_over _ _ _ _ _ _ _ _ _ _ _ _ _ _ MF)|reflexivity].
Qed.
End M.

(** The parser of Prop_TextParser.Example1 ends on every text. *)
Module Example1.
  Import Prop_TextParser.Example1.
  Example loops_ok : readingLoops rs.
  Proof.
    assert (NV : neverEmpty (map Some defs2)). { rewrite <- defs_eq. apply good_ok. }
    constructor; rewrite defs_eq; intros d [<-|[<-|[]]]; try reflexivity; apply (loopsB_ok _ _ NV); reflexivity.
  Qed.
  Example flat_ok : noLeftRecursion rs. Proof. right. apply good_ok. Qed.
  Example adds_ok : addsNothing conf (unreadSize content).
  Proof. constructor; try reflexivity. intros table h n t w [<-|[]] [X|X]; [injection X as <-; reflexivity|]. apply in_map_iff in X as (x & X & _). discriminate. Qed.
  Example ends src w t0 : exists bound x, (forall s, x <> NoFuel s) /\ forall pfuel, (bound <= pfuel)%nat -> parseFrom conf pfuel (src, w) t0 = x.
  Proof.
    apply (made_parser_ends_unambiguous_partial content nameEqb (fun e => e) prefers (trees_ok treeFor) (fun _ => true) (fun _ => true) orders Prop_LangText.Example1.any conf description 100 rs res ls SA made_ok loops_ok src w t0 flat_ok).
    - reflexivity.
    - exact adds_ok.
    - reflexivity.
  Qed.
End Example1.

(** root = opt, {item}; opt = ['a']; item = $t;  the node opt may be empty *)
Module Example2.
  Definition tokens : list gtoken := [mkTok [116] [46] 0 0; mkTok [97] [] 0 LiteralToken].
  Definition names : list name := [[1]; [2]; [3]].
  Definition defs : list (option chunk) := [Some (CGroup false false [CNode 1; CGroup true true [CNode 2]]); Some (CGroup false false [CGroup true false [CTok 1]]); Some (CGroup false false [CTok 0])].
  Definition verdictOf := compileDescription (fun _ _ => true) (fun x => x) 20 [0; 1; 2] [0; 1; 2] [0; 1; 2] tokens [] names defs.
  Definition g : grammar := Eval vm_compute in match verdictOf with Compiled g => g | _ => mkGrammar [] [] [] [] [] [] end.
  Lemma compiled_ok : verdictOf = Compiled g. Proof. vm_compute. reflexivity. Qed.
  Lemma cases i d : LangNodesSpec.defined defs i d -> (i = 0 /\ d = CGroup false false [CNode 1; CGroup true true [CNode 2]]) \/ (i = 1 /\ d = CGroup false false [CGroup true false [CTok 1]]) \/ (i = 2 /\ d = CGroup false false [CTok 0]).
  Proof. unfold LangNodesSpec.defined. intros G. pose proof (zget_Some_inv _ _ _ G) as R. change (0 <= i < 3) in R. assert (C : i = 0 \/ i = 1 \/ i = 2) by lia. destruct C as [->|[->| ->]]; injection G as <-; auto. Qed.
  Lemma down i j : leftCornerOrEmpty defs i j -> i < j.
  Proof.
    intros (d & v & u & w & G & S & _). assert (M : mentions d j) by (eapply (proj1 (Prop_DescTree.derives_node _)); [exact S|apply in_or_app; right; left; reflexivity]).
    assert (X : forall d m, mentions d m -> d = CNode m \/ (exists l e, d = CVar l /\ In e l /\ mentions e m) \/ exists opt rep l e, d = CGroup opt rep l /\ In e l /\ mentions e m) by (intros d0 m M0; inversion M0; subst; eauto 12).
    destruct (cases i d G) as [(-> & ->)|[(-> & ->)|(-> & ->)]];
    repeat match goal with
    | H : mentions (CNode _) _ |- _ => inversion H; subst; clear H; lia
    | H : mentions (CTok _) _ |- _ => inversion H
    | H : mentions (CGroup _ _ _) _ |- _ => apply X in H; destruct H as [H|[(? & ? & H & _)|(? & ? & ? & ? & H & ? & ?)]]; [discriminate H|discriminate H|injection H as <- <- <-]
    | H : In _ (_ :: _) |- _ => destruct H as [<-|H]
    | H : In _ [] |- _ => destruct H
    end.
  Qed.
  Example may_be_empty : produces defs (CNode 1) []. Proof. eapply P_nested; [reflexivity|]. apply P_once. change (@nil Z) with (@nil Z ++ []). constructor; [apply P_never|constructor]. Qed.
  Example no_loop : noIdleLoop g.
  Proof.
    assert (RW : readWell tokens names defs) by (apply readWellb_ok; vm_compute; reflexivity).
    refine (compiled_no_idle_loop_partial (fun _ _ => true) (fun x => x) tokens [] names defs [0; 1; 2] [0; 1; 2] [0; 1; 2] RW (Permutation_refl _) (Permutation_refl _) (Permutation_refl _) _ 20%nat g compiled_ok _ _).
    - intros i d G. destruct (cases i d G) as [(_ & ->)|[(_ & ->)|(_ & ->)]]; split; reflexivity.
    - intros i d G opt l WI P. assert (E : l = [CNode 2]).
      { destruct (cases i d G) as [(_ & ->)|[(_ & ->)|(_ & ->)]];
        repeat match goal with
        | H : within _ (CNode _) |- _ => inversion H
        | H : within _ (CTok _) |- _ => inversion H
        | H : within _ (CGroup _ _ _) |- _ => inversion H; subst; clear H; [reflexivity|]
        | H : within _ (CGroup _ _ _) |- _ => inversion H; subst; clear H
        | H : In _ (_ :: _) |- _ => destruct H as [<-|H]
        | H : In _ [] |- _ => destruct H
        end. }
      subst l. inversion P as [|? ? w v PN PE]; subst. match goal with H : _ ++ _ = [] |- _ => apply app_eq_nil in H as (-> & ->) end. inversion PN as [| |? d0 ? G0 P0| | | |]; subst. destruct (cases _ _ G0) as [(X & _)|[(X & _)|(_ & ->)]]; [discriminate X|discriminate X|].
      inversion P0 as [| | | |? ? ? ? PS| |]; subst. inversion PS as [|? ? w v PT PV]; subst. match goal with H : _ ++ _ = [] |- _ => apply app_eq_nil in H as (-> & ->) end. inversion PT.
    - intros i H. assert (X : forall a b, clos_trans Z (leftCornerOrEmpty defs) a b -> a < b). { induction 1 as [a b H0|a b c0 _ IH1 _ IH2]; [apply down, H0|lia]. } specialize (X i i H). lia.
  Qed.
End Example2.

(** $t = /[a-z]/; root = {['a']}, 'b';  langdef accepts it *)
Module Example3.
  Definition b := bytes.
  Definition description : list Z := Eval vm_compute in b "$t = /[a-z]/; root = {['a']}, 'b';".
  Definition letter : name := Eval vm_compute in b "[a-z]".
  Definition treeFor (re : name) : rx := RClass (fun x => (97 <=? x) && (x <=? 122)).
  Definition prefers (re : name) := treePrefers (treeFor re).
  Definition rs : list record := [RType (b "t") [PRegexp letter]; RNode (b "root") [[VList Curly [[VList Square [[VLiteral (b "a")]]]]]; [VLiteral (b "b")]]].
  Definition res : list (name * name) := [(b "t", letter)].
  Definition orders := Prop_LangText.Example1.orders.
  Definition g : grammar := Eval vm_compute in match parseBytes (fun _ => true) (fullMatch prefers) (fun x => x) 100 orders description with AGrammar g => g | _ => mkGrammar [] [] [] [] [] [] end.
  Definition ls : list plexer := match newParser prefers (fun _ => true) g with NewLexers ls => ls | _ => [] end.
  Lemma made : newParser prefers (fun _ => true) g = NewLexers ls. Proof. reflexivity. Qed.
  Definition content (s : list Z) := s.
  Definition SA : forall pl, In pl ls -> sane content pl := lexers_sane content prefers (fun _ => true) g ls (trees_ok treeFor) made.
  Definition conf : config (token (list Z)) (queueState content) Z (lexError (list Z)) Z Z :=
    mkConfig (@tokType _) (@tokContent _) (fun x => x)
      (mkMethods (fun i n t w => (w, None)) (fun i n x w => (w, None)) (fun i t w => (w, None)) (fun i w => (w, (Some (10 + i), None))))
      g (lexersOf content (fun e => e) ls SA) (fun _ => None) [] [Some (fun node t w => (w, (Some node, None))) :: map (fun _ => None) (gNodes g)] (fun w => (w, None)) true true true (unreadToken content nameEqb).
  Example split_ok : exists input, splits taken description input [] /\ spells input rs.
  Proof. exists (wAll rs). split; [eapply split_computed; [vm_compute; reflexivity|vm_compute; reflexivity]|]. apply written_description; vm_compute; reflexivity. Qed.
  Example valid_ok : valid (fun _ => true) rs res.
  Proof.
    destruct split_ok as (input & SP & SPL). assert (E : parseBytes (fun _ => true) (fullMatch prefers) (fun x => x) 100 orders description = AGrammar g) by (vm_compute; reflexivity).
    destruct (text_accepted_partial (fun _ => true) (fullMatch prefers) (fun x => x) orders Prop_LangText.Example1.any 100 description input [] g SP) as (_ & rs' & S' & X); [apply (records_strings _ string_kind _ _ (proj1 SPL))|apply (records_plain _ string_kind _ _ (proj1 SPL))|exact E|].
    rewrite (description_unique _ _ _ (split_lexed _ _ _ SP) S' SPL) in X. destruct X as (res' & V & _); [apply distinct_ok; vm_compute; reflexivity|apply reserved_ok; vm_compute; reflexivity|].
    assert (res' = res) as <-; [|exact V]. pose proof (vd_regexps _ _ _ V) as R. vm_compute in R. injection R as <-. reflexivity.
  Qed.
  Example made_ok : madeFrom content nameEqb (fun e => e) prefers (fun _ => true) (fun _ => true) orders conf description 100 rs res ls SA.
  Proof.
    constructor.
    - exact split_ok.
    - exact valid_ok.
    - vm_compute. reflexivity.
    - exact made.
    - constructor; reflexivity.
  Qed.
  Example adds_ok : addsNothing conf (unreadSize content).
  Proof. constructor; try reflexivity. intros table h n t w [<-|[]] [X|X]; [injection X as <-; reflexivity|]. apply in_map_iff in X as (x & X & _). discriminate. Qed.
  Lemma queue_ok s q : stringQueue content s = Some q -> LexerProofs.qok content q [(s, 0)].
  Proof. intros E. destruct (string_queue content s) as (q' & E' & Q). congruence. Qed.
  Definition startAt s q (E : stringQueue content s = Some q) : queueState content := exist _ (q, [(s, 0)]) (queue_ok s q E).
  Lemma defs_eq : defsOf rs = [CGroup false false [CGroup true true [CGroup true false [CTok 1]]; CTok 2]]. Proof. vm_compute. reflexivity. Qed.
  Example never_empty : neverEmpty (map Some (defsOf rs)).
  Proof. rewrite defs_eq. apply solid_neverEmpty. intros i d G. unfold LangNodesSpec.defined in G. apply zget_In in G. cbn in G. destruct G as [G|[]]; injection G as <-; reflexivity. Qed.
End Example3.

Section N.
Context {Tok Src W E Inst R : Type}.
Definition seenOf {A} (x : Parser.res Tok Src W E Inst R A) : option (A * (list (nodeRec Tok Inst) * list (option Tok) * list (list Tok) * list rule)) :=
  match x with Done a s => Some (a, (pStack s, pTokens s, pQueues s, pApplied s)) | _ => None end.
Lemma seen_done {A} (x : Parser.res Tok Src W E Inst R A) a v : seenOf x = Some (a, v) -> exists s, x = Done a s /\ (pStack s, pTokens s, pQueues s, pApplied s) = v.
Proof. destruct x as [a' s|e s| |s]; try discriminate. cbn [seenOf]. intros X. injection X as <- <-. eauto. Qed.
End N.
Module Example4.
  Import Example3.
  Definition src := startAt (b "c") _ eq_refl.
  Definition v : nodeRec (token (list Z)) Z := mkNodeRec [Some 0] [] 1 0 0.
  Definition t : token (list Z) := @mkToken (list Z) 0 "t"%string (b "c") (Some (b "c")) 0.
  Lemma begun : seenOf (start conf (src, 0) eoiToken) = Some (tt, ([v], [], [], [])).
  Proof. vm_compute. reflexivity. Qed.
  Lemma token_read f : seenOf (let! (_, s) := start conf (src, 0) eoiToken in let! (_, s) := Parser.checkCtx conf s in Parser.nextToken conf (3 + f) (nTypes v) s) = Some (Some t, ([v], [], [], [])).
  Proof. vm_compute. reflexivity. Qed.
  Definition st0 := Eval vm_compute in match zget (gStates g) 0 with Some s => s | None => mkState 0 0 0 0 0 end.
  Lemma rule_found f w d l lo : seenOf (Parser.nextRule conf f (Some t) st0 (mkP w [] [] [] d [v] l lo)) = Some (Some (mkRule (-1) 0 (-1)), ([v], [], [], [])).
  Proof. vm_compute. reflexivity. Qed.
  Lemma rule_applied w d l lo : seenOf (Parser.applyRule conf (Some t) (mkRule (-1) 0 (-1)) (mkP w [] [] [] d [v] l lo)) = Some (false, ([v], [], [], [])).
  Proof. vm_compute. reflexivity. Qed.
  Lemma loops : forall f s, (pStack s, pTokens s, pQueues s, pApplied s) = ([v], [], [], []) -> exists st, parseLoop conf f false (Some t) s = NoFuel st.
  Proof.
    induction f as [|f IH]; intros s E; [eexists; reflexivity|]. injection E as E1 E2 E3 E4. cbn [parseLoop]. rewrite E1. change (zget (gStates (cGrammar conf)) (nState v)) with (Some st0). cbv iota.
    assert (ES : s = mkP (pWorld s) [] [] [] (pLast s) [v] (pLog s) (pLost s)) by (rewrite <- E1, <- E2 at 1; destruct s; cbn in *; congruence). rewrite ES. clear ES.
    destruct (seen_done _ _ _ (rule_found f (pWorld s) (pLast s) (pLog s) (pLost s))) as (s1 & -> & S1). cbn [Parser.bind]. injection S1 as S1 S2 S3 S4.
    assert (ES : s1 = mkP (pWorld s1) [] [] [] (pLast s1) [v] (pLog s1) (pLost s1)) by (destruct s1; cbn in *; congruence). rewrite ES. clear ES.
    destruct (seen_done _ _ _ (rule_applied (pWorld s1) (pLast s1) (pLog s1) (pLost s1))) as (s2 & -> & S5). cbn [Parser.bind]. apply IH, S5.
  Qed.
  Lemma for_ever pfuel : exists st, parseFrom conf pfuel (src, 0) eoiToken = NoFuel st.
  Proof.
    destruct (seen_done _ _ _ begun) as (s & ES & S0). assert (X : exists st, parseFrom conf (4 + pfuel) (src, 0) eoiToken = NoFuel st).
    { pose proof (token_read pfuel) as E2. unfold parseFrom. rewrite ES in *. cbn [Parser.bind] in *. unfold parse. change (4 + pfuel)%nat with (Datatypes.S (3 + pfuel)). injection S0 as S0 _ _ _.
      remember (3 + pfuel)%nat as f. cbn [parseLoop]. rewrite S0. destruct (Parser.checkCtx conf s) as [[] s1|e s1| |s1]; try discriminate E2. cbn [Parser.bind] in *. destruct (seen_done _ _ _ E2) as (s2 & -> & S2). cbn [Parser.bind].
      destruct (loops f (Parser.log (EvNext (Some t)) s2)) as (st & ->); [destruct s2; exact S2|]. eexists. reflexivity. }
    destruct X as (st & X). destruct (ParserFuel.le_parseFrom conf pfuel (4 + pfuel) (src, 0) eoiToken ltac:(lia)) as [Y|Y]; [exact Y|]. rewrite X in Y. eauto.
  Qed.
End Example4.
(** C67 refuted for repetitions of something that may be empty: langdef accepts such a description, and the parser made from it never finishes on some text. *)
Theorem made_parser_ends_refuted : exists content same wrap prefers orders description (c : config (token (list Z)) (queueState content) Z (lexError (list Z)) Z Z) fuel rs res ls SA s src,
  regexpsOk prefers /\ madeFrom content same wrap prefers (fun _ => true) (fun _ => true) orders c description fuel rs res ls SA /\
  neverEmpty (map Some (defsOf rs)) /\ cTokenHooks c = [] /\ addsNothing c (unreadSize content) /\ gMultiRules (cGrammar c) = [] /\
  stringQueue content s = Some (queueOf content src) /\ forall pfuel, exists st, parseFrom c pfuel (src, 0) eoiToken = NoFuel st.
Proof.
  exists Example3.content, nameEqb, (fun e => e), Example3.prefers, Example3.orders, Example3.description, Example3.conf, 100%nat, Example3.rs, Example3.res, Example3.ls, Example3.SA, (Example3.b "c"), Example4.src.
  split; [exact (trees_ok Example3.treeFor)|]. split; [exact Example3.made_ok|]. split; [exact Example3.never_empty|]. split; [reflexivity|]. split; [exact Example3.adds_ok|]. split; [reflexivity|]. split; [reflexivity|]. exact Example4.for_ever.
Qed.
Print Assumptions compiled_no_idle_loop_partial.
Print Assumptions solid_no_idle_loop_partial.
Print Assumptions texts_finite.
Print Assumptions made_parser_ends_partial.
Print Assumptions made_parser_ends_unambiguous_partial.
Print Assumptions made_parser_ends_refuted.
