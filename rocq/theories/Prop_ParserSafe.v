(** The parser does not panic (C34). *)
From Coq Require Import ZArith List Bool Lia Arith.
From Verif Require Import Base BaseProofs Grammar Rules RulesSpec Prop_Rules Parser ParserSpec ParserFlowSpec ParserDemo TablesCheck ParserSafeSpec ParserSafe SafeCheck.
Import ListNotations.
Open Scope Z_scope.

(** For a well formed grammar and hook tables, known tokens and any source, hooks and
    context: a parse ends with a result or an error, provided the lexers never fail to find a token
    of the wanted types or the grammar has no ambiguous rules (see the refutation below). *)
Theorem parse_never_panics_partial {Tok Src W E Inst R} (c : config Tok Src W E Inst R) fuel w t0 :
  settingOk c -> alwaysToken c \/ gMultiRules (cGrammar c) = [] -> parseFrom c fuel w t0 <> Panic.
Proof. intros. apply safe_parseFrom; auto. Qed.

Module Example1.
  (** All hypotheses hold for the grammar of the examples and tokens of its types (the lexer gives
      an error for others). *)
  Definition kLexer (n : Z) (src : list dTok) (types : Z) : list dTok * (option dTok * option Z) :=
    match src with
    | [] => ([], (Some dEoi, None))
    | t :: r => if (0 <=? fst t) && (fst t <? n) then if Z.testbit types (fst t) then (r, (Some t, None)) else (src, (None, if types =? AllTokenTypes then Some 1 else None)) else (src, (None, Some 1))
    end.
  Definition conf (g : grammar) (hooks : list (list (option tokenHook))) : config dTok (list dTok) Z Z Z Z := let d := demo g hooks true true in
    mkConfig (cType d) (cText d) (cUpper d) (cMethods d) (cGrammar d) [kLexer (zlen (gTokens g))] (cLiterals d)
      (cTokenHooks d) (cNodeHooks d) (cCtx d) (cPassSides d) (cWatchNodes d) (cFullSource d) (cUnread d).
  Lemma conf_ok g hooks : grammarB g = true -> (forall table, In table hooks -> 3 <= zlen table) -> settingOk (conf g hooks).
  Proof.
    intros HG HT. constructor; auto.
    - apply (grammarB_ok g); auto.
    - intros types src src' t. unfold fetchToken. cbn [conf demo cLexers fetchLoop]. unfold kLexer. destruct src as [|t0 r].
      + intros H. injection H as <- <-. unfold knownToken. cbn. pose proof (zlen_nonneg (gTokens g)). change EoiTokenType with (-3). lia.
      + destruct ((0 <=? fst t0) && (fst t0 <? zlen (gTokens g))) eqn:EB; [|discriminate]. apply andb_true_iff in EB as [E1 E2]. apply Z.leb_le in E1. apply Z.ltb_lt in E2.
        destruct (Z.testbit types (fst t0)); [|discriminate]. intros H. injection H as <- <-. unfold knownToken. cbn. change EoiTokenType with (-3). lia.
    - intros src src'. unfold fetchToken. cbn [conf demo cLexers fetchLoop]. unfold kLexer. destruct src as [|t0 r]; [discriminate|].
      destruct ((0 <=? fst t0) && (fst t0 <? zlen (gTokens g))); [|discriminate]. destruct (Z.testbit AllTokenTypes (fst t0)); [discriminate|]. rewrite Z.eqb_refl. discriminate.
    - intros text i H. discriminate.
    - intros table [<-|[]]. unfold zlen. cbn [length conf cGrammar demo]. rewrite map_length. lia.
  Qed.
  Example ok : settingOk (conf dGrammar []) /\ gMultiRules (cGrammar (conf dGrammar [])) = [].
  Proof. split; [|reflexivity]. apply conf_ok; [vm_compute; reflexivity|intros table []]. Qed.
  Example fails : exists e s, parseFrom (conf dGrammar []) 50 ([(0, 1); (3, 2)], 0) (0, 1) = Fail e s.
  Proof. do 2 eexists. vm_compute. reflexivity. Qed.
  (** "a | a, b": state 0: a -> final, a -> 1; 1: b -> final *)
  Definition g1 : grammar := mkGrammar [mkTok [97] [97] 0 0; mkTok [98] [98] 0 0] [] [mkNode [1] 0]
    [mkState 1 0 1 2 2; mkState 2 1 1 2 3] [mkMulti 0 0 2] [mkRule 0 (-1) (-1); mkRule 0 1 (-1); mkRule 1 (-1) (-1)].
  (** "a, $": state 0: a -> 1; 1: end of input -> final *)
  Definition g2 : grammar := mkGrammar [mkTok [97] [97] 0 0] [] [mkNode [1] 0]
    [mkState 1 0 0 0 1; mkState 1 0 0 1 2] [] [mkRule 0 1 (-1); mkRule (-3) (-1) (-1)].
End Example1.

(** C34 refuted.  First, with ambiguous rules: "a a" with the grammar "a | a, b" and the full
    source wanted.  While looking ahead the parser asks for a token "b" only and gets none; this "no
    token" is left in its queue and taken for a token of the rest of the source.  Second, a syntax
    error in a state where only the end of input is expected: "a a" with the grammar "a, $". *)
Theorem parse_never_panics_refuted :
  (settingOk (Example1.conf Example1.g1 []) /\
   parseFrom (Example1.conf Example1.g1 []) 50 ([(0, 1); (0, 2)], 0) (0, 1) = Panic) /\
  (tablesOk Example1.g2 /\
   parseFrom (Example1.conf Example1.g2 []) 50 ([(0, 1); (0, 2)], 0) (0, 1) = Panic /\
   exists r s, parseFrom (Example1.conf Example1.g2 []) 50 ([(0, 1)], 0) (0, 1) = Done r s).
Proof.
  split; [split; [apply Example1.conf_ok; [vm_compute; reflexivity|intros table []]|vm_compute; reflexivity]|].
  split; [apply tablesB_ok; vm_compute; reflexivity|]. split; [vm_compute; reflexivity|]. do 2 eexists. vm_compute. reflexivity.
Qed.
Print Assumptions parse_never_panics_partial.
Print Assumptions parse_never_panics_refuted.
