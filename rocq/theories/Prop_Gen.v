(** Generated Go files hold the grammar they were made of (C46). *)
From Coq Require Import String ZArith List Bool Lia.
From Verif Require Import Base BaseProofs Utf8 Grammar LangTypes LangString LangTextSpec Gen GoSpec GenProofs GenRead.
From Verif Require LangText.
Import ListNotations.
Local Open Scope string_scope.
Local Open Scope list_scope.
Open Scope Z_scope.

(** Grammars of Go: names are strings of bytes, integers have 64 bits; names of nodes are those of descriptions (letters, digits, "_", "-") *)
Definition isInt (z : Z) : Prop := - 2 ^ 63 <= z <= 2 ^ 63 - 1.
Definition isUint (z : Z) : Prop := 0 <= z <= 2 ^ 64 - 1.
Definition isText (s : list Z) : Prop := Forall (fun b => 0 <= b < 256) s.
Record fits (g : grammar) : Prop := {
  ft_tokens : Forall (fun t => isText (gtName t) /\ isText (gtRe t) /\ isInt (gtGroup t) /\ isInt (gtFlags t)) (gTokens g);
  ft_layers : Forall (fun l => isText (glType l) /\ Forall (fun c => isText (gcName c) /\ Forall isText (gcArgs c)) (glCommands l)) (gLayers g);
  ft_nodes : Forall (fun n => aName (gnName n) /\ isInt (gnFirst n)) (gNodes g);
  ft_states : Forall (fun s => isUint (sTypes s) /\ isInt (sLowMulti s) /\ isInt (sHighMulti s) /\ isInt (sLow s) /\ isInt (sHigh s)) (gStates g);
  ft_multis : Forall (fun m => isInt (mToken m) /\ isInt (mLow m) /\ isInt (mHigh m)) (gMultiRules g);
  ft_rules : Forall (fun r => isInt (rToken r) /\ isInt (rState r) /\ isInt (rNode r)) (gRules g)
}.
(** Names that may be those of a package and of its variable: not keywords, not "_" for a package; not a name taken *)
Definition plain (pkg var : name) : Prop :=
  ~ In pkg keywords /\ ~ In var keywords /\ pkg <> bytes "_" /\ var <> bytes "grammar" /\ var <> bytes "init" /\ ~ (var = bytes "main" /\ pkg = bytes "main").

Lemma nameEqb_iff a b : nameEqb a b = true <-> a = b.
Proof. unfold nameEqb. destruct (list_eq_dec Z.eq_dec a b); split; congruence. Qed.
Lemma nameEqb_false a b : a <> b -> nameEqb a b = false.
Proof. intros H. destruct (nameEqb a b) eqn:E; [apply nameEqb_iff in E; contradiction|reflexivity]. Qed.
Lemma isKey_false n : ~ In n keywords -> isKey n = false.
Proof. intros H. destruct (isKey n) eqn:E; [|reflexivity]. unfold isKey in E. apply existsb_exists in E. destruct E as (x & I & X). apply nameEqb_iff in X. congruence. Qed.
Lemma plain_ok pkg var : plain pkg var -> isKey pkg = false /\ isKey var = false /\ negb (nameEqb pkg (bytes "_")) && varOk pkg var = true.
Proof.
  intros (A & B & C & D & E & F). split; [apply isKey_false, A|]. split; [apply isKey_false, B|]. unfold varOk. rewrite (nameEqb_false pkg), (nameEqb_false var (bytes "grammar")), (nameEqb_false var (bytes "init")) by assumption. cbn [negb andb].
  destruct (nameEqb var (bytes "main")) eqn:X; [|reflexivity]. apply nameEqb_iff in X. rewrite (nameEqb_false pkg (bytes "main")); [reflexivity|]. intros Y. apply F. auto.
Qed.

Lemma int_small z : isInt z -> small z.
Proof. unfold isInt, small. change (2 ^ 63) with 9223372036854775808. change (2 ^ 64) with 18446744073709551616. lia. Qed.
Lemma uint_small z : isUint z -> small z.
Proof. unfold isUint, small. change (2 ^ 63) with 9223372036854775808. lia. Qed.
Lemma nameByte_range b : nameByte b -> 45 <= b <= 122.
Proof. unfold nameByte, letter. lia. Qed.
Lemma aName_bytes n : aName n -> Forall (fun b => 45 <= b <= 122) n.
Proof. intros (b & r & -> & L & F). constructor; [apply nameByte_range; left; exact L|]. eapply Forall_impl; [|exact F]. apply nameByte_range. Qed.
Lemma fits_good g : fits g -> goodGrammar g.
Proof.
  intros [A _ B C D E]. unfold goodGrammar. split; [|split; [|split; [|split; [|split]]]].
  - eapply Forall_impl; [|exact A]. intros t (X & Y & Z & W). unfold goodToken; auto 10 using int_small.
  - eapply Forall_impl; [|exact B]. intros n (X & Y). split; [|auto using int_small]. eapply Forall_impl; [|apply aName_bytes, X]. unfold byteZ. cbn beta. lia.
  - eapply Forall_impl; [|exact B]. intros n (X & Y). eapply Forall_impl; [|apply aName_bytes, X]. cbn beta. lia.
  - eapply Forall_impl; [|exact C]. intros s (X & Y & Z & W & V). unfold goodState; auto 10 using int_small, uint_small.
  - eapply Forall_impl; [|exact D]. intros m (X & Y & Z). unfold goodMulti; auto 10 using int_small.
  - eapply Forall_impl; [|exact E]. intros m (X & Y & Z). unfold goodRule; auto 10 using int_small.
Qed.

(** ** Reading *)
Lemma aInt_ok z : isInt z -> aInt (Some (VInt z)) = Some z.
Proof. intros H. unfold aInt, asInt, isInt in *. replace ((- 2 ^ 63 <=? z) && (z <=? 2 ^ 63 - 1)) with true; [reflexivity|]. symmetry. apply andb_true_iff. rewrite !Z.leb_le. exact H. Qed.
Lemma aUint_ok z : isUint z -> aUint64 (Some (VInt z)) = Some z.
Proof. intros H. unfold aUint64, asInt, isUint in *. replace ((0 <=? z) && (z <=? 2 ^ 64 - 1)) with true; [reflexivity|]. symmetry. apply andb_true_iff. rewrite !Z.leb_le. exact H. Qed.
Lemma readToken_ok t : isInt (gtGroup t) -> isInt (gtFlags t) -> readToken (tokenVal t) = Some t.
Proof.
  intros A B. unfold readToken, tokenVal, anElem. assert (S : forall a b c d, aStruct (map bytes ["Name"; "Re"; "Group"; "Flags"]) [(Some (K "Name"), a); (Some (K "Re"), b); (Some (K "Group"), c); (Some (K "Flags"), d)] = Some [Some a; Some b; Some c; Some d]) by (intros; vm_compute; reflexivity).
  rewrite S. cbn [obind aString]. rewrite !aInt_ok by assumption. destruct t. reflexivity.
Qed.
Lemma readNode_ok n : isInt (gnFirst n) -> readNode (nodeVal n) = Some n.
Proof.
  intros A. unfold readNode, nodeVal, anElem. assert (S : forall a b, aStruct (map bytes ["Name"; "FirstState"]) [(Some (K "Name"), a); (Some (K "FirstState"), b)] = Some [Some a; Some b]) by (intros; vm_compute; reflexivity).
  rewrite S. cbn [obind aString]. rewrite !aInt_ok by assumption. destruct n. reflexivity.
Qed.
Lemma readState_ok s : isUint (sTypes s) -> isInt (sLowMulti s) -> isInt (sHighMulti s) -> isInt (sLow s) -> isInt (sHigh s) -> readState (stateVal s) = Some s.
Proof.
  intros A B C D E. unfold readState, stateVal, anElem. assert (S : forall a b c d e : val, aStruct (map bytes ["TokenTypes"; "LowMultiRule"; "HighMultiRule"; "LowRule"; "HighRule"]) [(None, a); (None, b); (None, c); (None, d); (None, e)] = Some [Some a; Some b; Some c; Some d; Some e]) by (intros; vm_compute; reflexivity).
  cbn [map]. cbn [map] in S. rewrite S. cbn [obind]. rewrite aUint_ok, !aInt_ok by assumption. destruct s. reflexivity.
Qed.
Lemma triple_fields n1 n2 n3 a b c : aStruct [n1; n2; n3] [(None, VInt a); (None, VInt b); (None, VInt c)] = Some [Some (VInt a); Some (VInt b); Some (VInt c)].
Proof. reflexivity. Qed.
Definition multiVal (m : multiRule) := tripleVal (mToken m) (mLow m) (mHigh m).
Definition ruleVal (r : rule) := tripleVal (rToken r) (rState r) (rNode r).
Lemma readMulti_ok m : isInt (mToken m) -> isInt (mLow m) -> isInt (mHigh m) -> readMulti (multiVal m) = Some m.
Proof. intros A B C. unfold readMulti, multiVal, tripleVal, anElem. cbn [map] in *. rewrite (triple_fields _ _ _ (mToken m)). cbn [obind]. rewrite !aInt_ok by assumption. destruct m. reflexivity. Qed.
Lemma readRule_ok m : isInt (rToken m) -> isInt (rState m) -> isInt (rNode m) -> readRule (ruleVal m) = Some m.
Proof. intros A B C. unfold readRule, ruleVal, tripleVal, anElem. cbn [map] in *. rewrite (triple_fields _ _ _ (rToken m)). cbn [obind]. rewrite !aInt_ok by assumption. destruct m. reflexivity. Qed.
Lemma typeEqb_refl t : typeEqb t t = true.
Proof.
  induction t as [n|t IH]; [|exact IH]. cbn [typeEqb]. rewrite Nat.eqb_refl. cbn [andb]. induction n as [|x n IH]; [reflexivity|]. cbn. rewrite IH, andb_true_r. apply nameEqb_iff. reflexivity.
Qed.
Lemma slice_ok {A} (v : A -> val) f ty l : (forall x, In x l -> f (v x) = Some x) -> aSlice (gType ty) f (Some (fieldVal v ty l)) = Some l.
Proof.
  intros H. unfold aSlice, fieldVal. rewrite typeEqb_refl. induction l as [|x l IH]; [reflexivity|]. cbn [map mapOption]. rewrite (H x) by (left; reflexivity). cbn [obind]. rewrite IH by (intros; apply H; right; auto). reflexivity.
Qed.
Definition grammarVal (g : grammar) : val := VAddr (VLit (Some (gType "Grammar"))
  [(Some (bytes "Tokens"), fieldVal tokenVal "Token" (gTokens g)); (Some (bytes "Nodes"), fieldVal nodeVal "Node" (gNodes g)); (Some (bytes "States"), fieldVal stateVal "State" (gStates g));
   (Some (bytes "MultiRules"), fieldVal multiVal "MultiRule" (gMultiRules g)); (Some (bytes "Rules"), fieldVal ruleVal "Rule" (gRules g))]).
Lemma readGrammar_ok b g : fits g -> gLayers g = [] -> readGrammar b (grammarVal g) = Some g.
Proof.
  intros [A _ B C D E] L. unfold readGrammar, grammarVal. rewrite typeEqb_refl.
  assert (S : forall a b c d e, aStruct (map bytes ["Tokens"; "Layers"; "Nodes"; "States"; "MultiRules"; "Rules"]) [(Some (bytes "Tokens"), a); (Some (bytes "Nodes"), b); (Some (bytes "States"), c); (Some (bytes "MultiRules"), d); (Some (bytes "Rules"), e)] = Some [Some a; None; Some b; Some c; Some d; Some e]) by (intros; vm_compute; reflexivity).
  rewrite S. cbn [obind]. rewrite Forall_forall in A, B, C, D, E.
  rewrite (slice_ok tokenVal) by (intros x I; destruct (A x I) as (_ & _ & X & Y); apply readToken_ok; auto). cbn [obind]. change (aSlice (gType "Layer") (readLayer b) None) with (Some ([] : list glayer)). cbn [obind].
  rewrite (slice_ok nodeVal) by (intros x I; destruct (B x I) as (_ & X); apply readNode_ok; auto). cbn [obind].
  rewrite (slice_ok stateVal) by (intros x I; destruct (C x I) as (X & Y & Z & W & V); apply readState_ok; auto). cbn [obind].
  rewrite (slice_ok multiVal) by (intros x I; destruct (D x I) as (X & Y & Z); apply readMulti_ok; auto). cbn [obind].
  rewrite (slice_ok ruleVal) by (intros x I; destruct (E x I) as (X & Y & Z); apply readRule_ok; auto). cbn [obind]. destruct g. cbn in *. subst. reflexivity.
Qed.
Lemma open_token t : exists l, tokenToks t = GOp 123 :: l. Proof. eexists. reflexivity. Qed.
Lemma open_node t : exists l, nodeToks t = GOp 123 :: l. Proof. eexists. reflexivity. Qed.
Lemma open_state t : exists l, stateToks t = GOp 123 :: l. Proof. eexists. reflexivity. Qed.
Lemma open_multi t : exists l, multiToks t = GOp 123 :: l. Proof. eexists. reflexivity. Qed.
Lemma open_rule t : exists l, ruleToks t = GOp 123 :: l. Proof. eexists. reflexivity. Qed.
Lemma val_addr f a b ts es r : readElems f ts = Some (es, r) -> readVal (S (S f)) (GOp 38 :: GIdent a :: GOp 46 :: GIdent b :: GOp 123 :: ts) = Some (VAddr (VLit (Some (TName [a; b])) es), r).
Proof.
  intros H. cbn [readVal readType obind fst snd isOp]. change (123 =? 123) with true. cbv iota. cbn [obind]. rewrite H. reflexivity.
Qed.
Lemma val_addr_none f a b ts : readElems f ts = None -> readVal (S (S f)) (GOp 38 :: GIdent a :: GOp 46 :: GIdent b :: GOp 123 :: ts) = None.
Proof. intros H. cbn [readVal readType obind fst snd isOp]. change (123 =? 123) with true. cbv iota. cbn [obind]. rewrite H. reflexivity. Qed.
(** elements right after the end of a list *)
Definition layerToks : list gotok := key "Layers" ++ [GOp 91; GOp 93; GIdent (bytes "grammar"); GOp 46; GIdent (bytes "Layer"); GOp 123; GOp 125; GOp 123; GIdent (bytes "Type"); GOp 58].
Lemma layer_none f tr : readElems (S (S (S f))) (layerToks ++ tr) = None.
Proof.
  unfold layerToks, key. cbn [app]. rewrite (elem_key (S (S f)) _ _ (VLit (Some (TSlice (TName [bytes "grammar"; bytes "Layer"]))) []) (GOp 123 :: GIdent (bytes "Type") :: GOp 58 :: tr)); [reflexivity|]. apply val_slice. reflexivity.
Qed.
Lemma layers_none f l tr : readVal f (openToks ++ fieldToks tokenToks "Tokens" "Token" l ++ layerToks ++ tr) = None.
Proof.
  destruct (readVal f _) as [x|] eqn:X; [exfalso|reflexivity]. apply (readVal_mono _ (S (S (12 + length l + f)))) in X; [|lia]. unfold openToks in X. cbn [app] in X. rewrite val_addr_none in X; [discriminate X|].
  rewrite (read_field tokenToks tokenVal open_token read_token). replace (11 + length l + f)%nat with (S (S (S (8 + length l + f)))) by lia. rewrite layer_none. reflexivity.
Qed.
Lemma read_body g : readVal (length (openToks ++ bodyToks g)) (openToks ++ bodyToks g) = Some (grammarVal g, [GSemi]).
Proof.
  set (n := (length (gTokens g) + length (gNodes g) + length (gStates g) + length (gMultiRules g) + length (gRules g))%nat).
  apply (readVal_mono (S (S (12 + (n + 5))))).
  { unfold openToks, bodyToks, fieldToks, key. repeat rewrite app_length. pose proof (lines_length tokenToks (gTokens g)). pose proof (lines_length nodeToks (gNodes g)). pose proof (lines_length stateToks (gStates g)). pose proof (lines_length multiToks (gMultiRules g)). pose proof (lines_length ruleToks (gRules g)). cbn [length]. unfold n. lia. }
  unfold openToks. cbn [app]. apply val_addr. unfold bodyToks, n.
  replace (12 + (length (gTokens g) + length (gNodes g) + length (gStates g) + length (gMultiRules g) + length (gRules g) + 5))%nat with (12 + length (gTokens g) + (length (gNodes g) + length (gStates g) + length (gMultiRules g) + length (gRules g) + 5))%nat by lia. rewrite (read_field tokenToks tokenVal open_token read_token).
  replace (11 + length (gTokens g) + (length (gNodes g) + length (gStates g) + length (gMultiRules g) + length (gRules g) + 5))%nat with (12 + length (gNodes g) + (length (gTokens g) + length (gStates g) + length (gMultiRules g) + length (gRules g) + 4))%nat by lia. rewrite (read_field nodeToks nodeVal open_node read_node).
  replace (11 + length (gNodes g) + (length (gTokens g) + length (gStates g) + length (gMultiRules g) + length (gRules g) + 4))%nat with (12 + length (gStates g) + (length (gTokens g) + length (gNodes g) + length (gMultiRules g) + length (gRules g) + 3))%nat by lia. rewrite (read_field stateToks stateVal open_state read_state).
  replace (11 + length (gStates g) + (length (gTokens g) + length (gNodes g) + length (gMultiRules g) + length (gRules g) + 3))%nat with (12 + length (gMultiRules g) + (length (gTokens g) + length (gNodes g) + length (gStates g) + length (gRules g) + 2))%nat by lia. rewrite (read_field multiToks multiVal open_multi (fun f m r => read_triple f _ _ _ r)).
  replace (11 + length (gMultiRules g) + (length (gTokens g) + length (gNodes g) + length (gStates g) + length (gRules g) + 2))%nat with (12 + length (gRules g) + (length (gTokens g) + length (gNodes g) + length (gStates g) + length (gMultiRules g) + 1))%nat by lia. rewrite (read_field ruleToks ruleVal open_rule (fun f m r => read_triple f _ _ _ r)).
  reflexivity.
Qed.
Lemma readFile_ok pkg var toks v : readVal (length toks) toks = Some (v, [GSemi]) -> readFile (headToks pkg var ++ toks) =
  if negb (nameEqb pkg (bytes "_")) && varOk pkg var then do g <- readGrammar (nameEqb var (bytes "string")) v ; Some (mkFile pkg var g) else None.
Proof.
  intros H. unfold readFile, headToks. cbn [app]. cbn [keyIs]. assert (R : forall a, nameEqb a a = true) by (intros; apply nameEqb_iff; reflexivity). rewrite !R. cbn [obind ident semi snd fst keyIs]. rewrite !R. cbn [obind str]. rewrite !R. cbn [obind semi keyIs]. rewrite !R. cbn [obind ident fst snd isOp]. change (61 =? 61) with true. cbv iota. cbn [obind]. rewrite H. reflexivity.
Qed.

(** ** Text *)
Ltac text := repeat apply goText_app; try (apply goText_ascii; first [reflexivity | apply ascii_dec]).
Section Text.
Variable isPrint : Z -> bool.
Hypothesis PR : forall r, isPrint r = true -> 32 <= r /\ r <> 65279.
Lemma text_concat {A} (f : A -> list Z) l : (forall x, In x l -> goText (f x)) -> goText (concat (map f l)).
Proof. induction l as [|x l IH]; intros H; [constructor|]. cbn [map concat]. apply goText_app; [apply H; left; reflexivity|apply IH; intros; apply H; right; auto]. Qed.
Lemma text_name n : aName n -> goText n.
Proof. intros H. apply aName_bytes in H. apply goText_ascii. unfold asciiB. apply forallb_forall. rewrite Forall_forall in H. intros b I. specialize (H b I). rewrite andb_true_iff, !Z.ltb_lt. lia. Qed.
Lemma text_ident n : isIdent n = true -> goText n.
Proof.
  intros H. apply goText_ascii. destruct n as [|b n]; [discriminate|]. cbn [isIdent] in H. apply andb_true_iff in H. destruct H as (_ & H). unfold asciiB. rewrite forallb_forall in *. intros x I. specialize (H x I). unfold identByte, between in H. rewrite !orb_true_iff, !andb_true_iff, !Z.leb_le, Z.eqb_eq in H. rewrite andb_true_iff, !Z.ltb_lt. lia.
Qed.
Lemma text_states nodes sts : Forall (fun n => aName (gnName n)) nodes -> forall i next item text, stateLines nodes i sts next item = Some text -> goText text.
Proof.
  intros F. induction sts as [|s sts IH]; intros i next item t H; cbn [stateLines] in H; [apply Some_inj in H; subst t; constructor|]. destruct (i =? next).
  - destruct (zget nodes item) as [n|] eqn:N; cbn [obind] in H; [|discriminate]. destruct (if item + 1 <? zlen nodes then _ else _) as [next'|]; cbn [obind] in H; [|discriminate]. destruct (stateLines nodes (i + 1) sts next' (item + 1)) as [rest|] eqn:R; cbn [obind] in H; [|discriminate]. apply Some_inj in H. subst t.
    text; [|eapply IH; eauto]. apply text_name. rewrite Forall_forall in F. apply F. eapply zget_In; eauto.
  - destruct (stateLines nodes (i + 1) sts next item) as [rest|] eqn:R; cbn [obind] in H; [|discriminate]. apply Some_inj in H. subst t. text. eapply IH; eauto.
Qed.
Lemma text_multis gr ms : forall i ni, goText (multiLines gr i ms ni).
Proof. induction ms as [|m ms IH]; intros i ni; [constructor|]. cbn [multiLines]. unfold triple, mark. destruct (i =? fst ni); text; apply IH. Qed.
Lemma text_rules gr rs : forall i ni t, ruleLines gr i rs ni = Some t -> goText t.
Proof.
  induction rs as [|x rs IH]; intros i ni t H; cbn [ruleLines] in H; [apply Some_inj in H; subst t; constructor|]. destruct (i =? fst ni).
  - destruct (findRuleState gr (snd ni + 1)) as [ni'|]; cbn [obind] in H; [|discriminate]. destruct (ruleLines gr (i + 1) rs ni') as [rest|] eqn:R; cbn [obind] in H; [|discriminate]. apply Some_inj in H. subst t. unfold triple, mark. text. eapply IH; eauto.
  - destruct (ruleLines gr (i + 1) rs ni) as [rest|] eqn:R; cbn [obind] in H; [|discriminate]. apply Some_inj in H. subst t. unfold triple, mark. text. eapply IH; eauto.
Qed.
Lemma text_header pkg var : isIdent pkg = true -> isIdent var = true -> goText (header pkg var).
Proof. intros A B. unfold header. text; apply text_ident; assumption. Qed.
Lemma text_body g t : fits g -> gLayers g = [] -> body isPrint g = Some t -> goText t.
Proof.
  intros [A _ B C D E] L H. unfold body in H. rewrite L in H. destruct (stateLines (gNodes g) 0 (gStates g) 0 0) as [sts|] eqn:S0; cbn [obind] in H; [|discriminate].
  destruct (match gRules g with [] => _ | _ => _ end) as [rs|] eqn:R0; cbn [obind] in H; [|discriminate]. apply Some_inj in H. subst t. rewrite Forall_forall in A, B.
  assert (TR : goText rs). { destruct (gRules g) as [|x l] eqn:EG; [apply Some_inj in R0; subst rs; text|]. destruct (findRuleState g 0) as [ni|]; cbn [obind] in R0; [|discriminate]. destruct (ruleLines g 0 (x :: l) ni) as [t|] eqn:RL; cbn [obind] in R0; [|discriminate]. apply Some_inj in R0. subst rs. text. eapply text_rules; eauto. }
  assert (TM : goText (match gMultiRules g with [] => bytes "}," ++ nl | _ => multiLines g 0 (gMultiRules g) (findMultiRuleState g 0) ++ nl ++ tab ++ bytes "}," ++ nl end)) by (pose proof (text_multis g (gMultiRules g) 0 (findMultiRuleState g 0)) as TX; set (ml := multiLines _ _ _ _) in *; clearbody ml; destruct (gMultiRules g); text; exact TX).
  text; auto.
  - apply text_concat. intros t I. destruct (A t I) as (X & Y & _). unfold tokenLine. text; apply goText_quote; auto.
  - apply text_concat. intros n I. destruct (B n I) as (X & _). unfold nodeLine. text; apply goText_quote; auto. eapply Forall_impl; [|apply aName_bytes, X]. unfold byteZ. cbn beta. lia.
  - eapply text_states; [|exact S0]. apply Forall_forall. intros n I. apply B, I.
  - destruct (gMultiRules g); exact TM.
Qed.

(** The names used *)
Definition packageOf (dir pkg : name) : name := match pkg with [] => dir | _ => pkg end.
Definition variableOf (var : name) (g : grammar) : name := match var with [] => match gNodes g with n :: _ => gnName n | [] => [] end | _ => var end.
Lemma makeGo_cases dir pkg var g t : makeGo isPrint dir pkg var g = Some (inl t) ->
  isIdent (packageOf dir pkg) = true /\ isIdent (variableOf var g) = true /\ exists b, body isPrint g = Some b /\ t = header (packageOf dir pkg) (variableOf var g) ++ b.
Proof.
  unfold makeGo. intros H. assert (V : match var with [] => do n <- zget (gNodes g) 0 ; Some (gnName n) | _ => Some var end = Some (variableOf var g) \/ match var with [] => do n <- zget (gNodes g) 0 ; Some (gnName n) | _ => Some var end = None).
  { unfold variableOf. destruct var as [|x r]; [|left; reflexivity]. destruct (gNodes g) as [|n l]; [right; reflexivity|left; reflexivity]. }
  cbv zeta in H. change (match pkg with [] => dir | _ => pkg end) with (packageOf dir pkg) in H. destruct V as [V|V]; rewrite V in H; cbn [obind] in H; [|discriminate]. destruct (isIdent (packageOf dir pkg)); cbn [negb] in H; [|discriminate]. destruct (isIdent (variableOf var g)); cbn [negb] in H; [|discriminate].
  split; [reflexivity|]. split; [reflexivity|]. destruct (body isPrint g) as [b|]; cbn [obind] in H; [|discriminate]. exists b. split; [reflexivity|]. apply Some_inj in H. congruence.
Qed.

(** The file generated for a grammar without layers holds the same grammar, provided names of the package and of the variable are allowed by Go. *)
Theorem generated_go_partial dir pkg var g text : fits g -> gLayers g = [] -> plain (packageOf dir pkg) (variableOf var g) ->
  makeGo isPrint dir pkg var g = Some (inl text) -> isGoFile text (mkFile (packageOf dir pkg) (variableOf var g) g).
Proof.
  intros F L P H. destruct (makeGo_cases _ _ _ _ _ H) as (I1 & I2 & b & B & ->). destruct (plain_ok _ _ P) as (K1 & K2 & V). split; [apply goText_app; [apply text_header; auto|eapply text_body; eauto]|].
  exists (headToks (packageOf dir pkg) (variableOf var g) ++ openToks ++ bodyToks g). split.
  - unfold scan. rewrite run_header by auto. rewrite (run_body isPrint PR g b) by (auto using fits_good). cbn [pre obind fst snd]. rewrite <- app_assoc. reflexivity.
  - rewrite (readFile_ok _ _ _ _ (read_body g)), V, readGrammar_ok by auto. reflexivity.
Qed.
Lemma layers_text ls : ls <> [] -> exists rest, concat (map (layerLines isPrint) ls) = tab ++ tab ++ bytes "{Type: " ++ rest.
Proof. intros N. destruct ls as [|l ls]; [congruence|]. cbn [map concat]. unfold layerLines at 1. rewrite <- !app_assoc. eexists. reflexivity. Qed.
Definition layersOpen : list Z := tab ++ bytes "Layers: []grammar.Layer{" ++ nl ++ bytes "}" ++ tab ++ tab ++ bytes "{Type: ".
Lemma body_layers g b : gLayers g <> [] -> body isPrint g = Some b -> exists rest, b = tokensText isPrint g ++ layersOpen ++ rest.
Proof.
  intros L B. unfold body in B. destruct (layers_text (gLayers g) L) as (t & T). destruct (gLayers g) as [|l ls]; [congruence|]. rewrite T in B. destruct (stateLines (gNodes g) 0 (gStates g) 0 0) as [sts|]; cbn [obind] in B; [|discriminate]. destruct (match gRules g with [] => _ | _ => _ end) as [rs|]; cbn [obind] in B; [|discriminate]. apply Some_inj in B. subst b.
  eexists. unfold tokensText, layersOpen. repeat rewrite <- app_assoc. reflexivity.
Qed.
Lemma readFile_none pkg var toks : readVal (length toks) toks = None -> readFile (headToks pkg var ++ toks) = None.
Proof.
  intros N. unfold readFile, headToks. cbn [app]. cbn [keyIs]. assert (R : forall a, nameEqb a a = true) by (intros; apply nameEqb_iff; reflexivity). rewrite !R. cbn [obind ident semi snd fst keyIs]. rewrite !R. cbn [obind str]. rewrite !R. cbn [obind semi keyIs]. rewrite !R. cbn [obind ident fst snd isOp]. change (61 =? 61) with true. cbv iota. cbn [obind]. rewrite N. reflexivity.
Qed.
(** What is generated for any grammar with layers is not a Go file. *)
Theorem generated_go_layers_refuted dir pkg var g text : fits g -> gLayers g <> [] -> plain (packageOf dir pkg) (variableOf var g) ->
  makeGo isPrint dir pkg var g = Some (inl text) -> ~ exists f, isGoFile text f.
Proof.
  intros F L P H (f & _ & ts & S & R). destruct (makeGo_cases _ _ _ _ _ H) as (I1 & I2 & b & B & ->). destruct (plain_ok _ _ P) as (K1 & K2 & _). pose proof (fits_good g F) as (GT & _).
  destruct (body_layers g b L B) as (rest & ->). unfold scan in S. rewrite run_header, (run_tokensText isPrint PR) in S by auto.
  rewrite (run_const layersOpen layerToks false false rest) in S by (vm_compute; reflexivity). rewrite !pre_pre in S.
  destruct (run (Idle false) rest) as [(tr, m)|]; cbn [pre obind fst snd] in S; [|discriminate]. destruct m as [[]| | | | | | |]; try discriminate. apply Some_inj in S. rewrite <- !app_assoc in S. subst ts. rewrite readFile_none in R; [discriminate|]. apply layers_none.
Qed.
End Text.

(** Nothing is generated but for errors only if there are no nodes, or states refer to ambiguous rules that are not there. *)
Definition multiOk (g : grammar) : Prop := forall s, In s (gStates g) -> sHighMulti s <> 0 -> 0 <= sLowMulti s < zlen (gMultiRules g).
Lemma zget_ex {A} (l : list A) i : 0 <= i < zlen l -> exists x, zget l i = Some x.
Proof. intros H. destruct l as [|d l]; [unfold zlen in H; cbn in H; lia|]. rewrite (zget_Some _ _ d H). eexists. reflexivity. Qed.
Lemma stateLines_total nodes sts : forall i next item, nodes <> [] -> 0 <= item <= zlen nodes -> (item < zlen nodes \/ next < i) -> exists t, stateLines nodes i sts next item = Some t.
Proof.
  induction sts as [|s sts IH]; intros i next item N R O; cbn [stateLines]; [eexists; reflexivity|]. destruct (Z.eqb_spec i next) as [->|X].
  - destruct (zget_ex nodes item ltac:(lia)) as (n & ->). cbn [obind]. destruct (Z.ltb_spec (item + 1) (zlen nodes)).
    + destruct (zget_ex nodes (item + 1) ltac:(lia)) as (m & ->). cbn [obind]. destruct (IH (next + 1) (gnFirst m) (item + 1) N ltac:(lia) ltac:(lia)) as (t & ->). cbn [obind]. eexists. reflexivity.
    + cbn [obind]. destruct (IH (next + 1) next (item + 1) N ltac:(lia) ltac:(lia)) as (t & ->). cbn [obind]. eexists. reflexivity.
  - destruct (IH (i + 1) next item N R ltac:(lia)) as (t & ->). cbn [obind]. eexists. reflexivity.
Qed.
Lemma findRule_total g sts : multiOk g -> (forall s, In s sts -> In s (gStates g)) -> forall i, exists x, findRule (gMultiRules g) i sts = Some x.
Proof.
  intros M. induction sts as [|s sts IH]; intros I i; cbn [findRule]; [eexists; reflexivity|]. destruct (sHigh s =? 0); cbn [negb]; [apply IH; intros; apply I; right; auto|]. destruct (Z.eqb_spec (sHighMulti s) 0) as [Z|Z]; cbn [negb]; [eexists; reflexivity|].
  destruct (zget_ex (gMultiRules g) (sLowMulti s) (M s (I s (or_introl eq_refl)) Z)) as (m & ->). cbn [obind]. eexists. reflexivity.
Qed.
Lemma findRuleState_total g i : multiOk g -> exists x, findRuleState g i = Some x.
Proof. intros M. apply findRule_total; [exact M|]. intros s I. rewrite <- (firstn_skipn (Z.to_nat i) (gStates g)). apply in_or_app. right. exact I. Qed.
Lemma ruleLines_total g rs : multiOk g -> forall i ni, exists t, ruleLines g i rs ni = Some t.
Proof.
  intros M. induction rs as [|x rs IH]; intros i ni; cbn [ruleLines]; [eexists; reflexivity|]. destruct (i =? fst ni).
  - destruct (findRuleState_total g (snd ni + 1) M) as (ni' & ->). cbn [obind]. destruct (IH (i + 1) ni') as (t & ->). eexists. reflexivity.
  - destruct (IH (i + 1) ni) as (t & ->). eexists. reflexivity.
Qed.
Theorem generator_total isPrint dir pkg var g : gNodes g <> [] -> multiOk g ->
  if isIdent (packageOf dir pkg) then if isIdent (variableOf var g) then exists text, makeGo isPrint dir pkg var g = Some (inl text)
                                      else makeGo isPrint dir pkg var g = Some (inr BadVariable)
  else makeGo isPrint dir pkg var g = Some (inr BadPackage).
Proof.
  intros N M. assert (E : makeGo isPrint dir pkg var g = if negb (isIdent (packageOf dir pkg)) then Some (inr BadPackage) else if negb (isIdent (variableOf var g)) then Some (inr BadVariable) else do b <- body isPrint g ; Some (inl (header (packageOf dir pkg) (variableOf var g) ++ b))).
  { unfold makeGo, variableOf. destruct var; [destruct (gNodes g); [congruence|reflexivity]|reflexivity]. }
  rewrite E. clear E. destruct (isIdent (packageOf dir pkg)); cbn [negb]; [|reflexivity]. destruct (isIdent (variableOf var g)); cbn [negb]; [|reflexivity].
  assert (B : exists b, body isPrint g = Some b); [|destruct B as (b & ->); eexists; reflexivity].
  unfold body. assert (L : 0 < zlen (gNodes g)) by (destruct (gNodes g); [congruence|]; unfold zlen; cbn [length]; lia). destruct (stateLines_total (gNodes g) (gStates g) 0 0 0 N ltac:(lia) ltac:(lia)) as (sts & ->). cbn [obind]. destruct (gRules g) as [|r rs]; [cbn [obind]; eexists; reflexivity|].
  destruct (findRuleState_total g 0 M) as (ni & ->). cbn [obind]. destruct (ruleLines_total g (r :: rs) M 0 ni) as (t & ->). cbn [obind]. eexists. reflexivity.
Qed.

Module Example1.
(** letters and the rest of ASCII, and all the rest but for the byte order mark *)
Definition pr (r : Z) : bool := between 32 126 r || ((160 <? r) && negb (r =? 65279)).
Example pr_ok : forall r, pr r = true -> 32 <= r /\ r <> 65279.
Proof. unfold pr, between. intros r. rewrite orb_true_iff, !andb_true_iff, !Z.leb_le, Z.ltb_lt, negb_true_iff, Z.eqb_neq. lia. Qed.
(** a quote and a backslash in a name; a newline, an invalid byte, a letter of two bytes, the mark and a smile in an expression *)
Definition gr (root : string) (ls : list glayer) := mkGrammar [mkTok (bytes "a""\") [10; 0; 255; 195; 169; 239;187;191; 240;159;152;128] 0 12] ls [mkNode (bytes root) 0; mkNode (bytes "n-1") 1] [mkState 3 0 1 0 2; mkState 0 0 0 1 2] [mkMulti 1 0 2] [mkRule (-1) (-1) 1; mkRule 0 1 (-1)].
Lemma name_ok n : match n with b :: r => letterB b && forallb (fun b => letterB b || between 48 57 b || (b =? 45)) r | [] => false end = true -> aName n.
Proof.
  destruct n as [|b r]; [discriminate|]. assert (LT : forall b, letterB b = true -> letter b) by (intros x; unfold letterB, letter, between; rewrite !orb_true_iff, !andb_true_iff, !Z.leb_le, Z.eqb_eq; lia).
  rewrite andb_true_iff, forallb_forall. intros (A & B). exists b, r. split; [reflexivity|]. split; [apply LT, A|]. apply Forall_forall. intros x I. specialize (B x I). unfold nameByte. rewrite !orb_true_iff, Z.eqb_eq in B. destruct B as [[B|B]|B]; [left; apply LT, B|right; left; unfold between in B; rewrite andb_true_iff, !Z.leb_le in B; exact B|auto].
Qed.
Lemma fits_gr : forall root ls, aName (bytes root) -> ls = [] \/ ls = [mkLayer (bytes "convert") [mkCmd (bytes "convert") [bytes "a"; bytes "b"]]] -> fits (gr root ls).
Proof.
  intros root ls A L. assert (N : aName (bytes "n-1")) by (apply name_ok; reflexivity).
  assert (T : forall (b : list Z), forallb (fun x => (0 <=? x) && (x <? 256)) b = true -> isText b) by (intros b H; apply Forall_forall; intros x I; rewrite forallb_forall in H; specialize (H x I); rewrite andb_true_iff, Z.leb_le, Z.ltb_lt in H; exact H).
  assert (TI : forall z, (- 2 ^ 63 <=? z) && (z <=? 2 ^ 63 - 1) = true -> isInt z) by (intros z H; rewrite andb_true_iff, !Z.leb_le in H; exact H). assert (TU : forall z, (0 <=? z) && (z <=? 2 ^ 64 - 1) = true -> isUint z) by (intros z H; rewrite andb_true_iff, !Z.leb_le in H; exact H).
  constructor; try (destruct L as [-> | ->]); cbn [gr gTokens gLayers gNodes gStates gMultiRules gRules];
    repeat (first [(apply T; vm_compute; reflexivity) | apply Forall_nil | apply Forall_cons | apply conj | assumption | (vm_compute; reflexivity) | (apply TI; vm_compute; reflexivity) | (apply TU; vm_compute; reflexivity) | progress cbn [glCommands gcArgs]]).
Qed.
Example root_name : aName (bytes "root"). Proof. apply name_ok. reflexivity. Qed.
Example grammar_name : aName (bytes "grammar"). Proof. apply name_ok. reflexivity. Qed.
Example type_name : aName (bytes "type"). Proof. apply name_ok. reflexivity. Qed.
Example names_ok : plain (bytes "p") (bytes "root").
Proof. unfold plain. vm_compute. repeat split; try discriminate; intuition discriminate. Qed.
Example file : exists text, makeGo pr (bytes "p") [] [] (gr "root" []) = Some (inl text) /\ isGoFile text (mkFile (bytes "p") (bytes "root") (gr "root" [])).
Proof.
  eexists. split; [vm_compute; reflexivity|]. apply (generated_go_partial pr pr_ok (bytes "p") [] [] (gr "root" [])); [apply fits_gr; [apply root_name|auto]|reflexivity|apply names_ok|vm_compute; reflexivity].
Qed.
Example total_ok : multiOk (gr "root" []).
Proof. intros s [<-|[<-|[]]]; vm_compute; intuition (congruence || discriminate). Qed.
Example with_layers : exists text, makeGo pr (bytes "p") [] [] (gr "root" [mkLayer (bytes "convert") [mkCmd (bytes "convert") [bytes "a"; bytes "b"]]]) = Some (inl text).
Proof. eexists. vm_compute. reflexivity. Qed.
End Example1.

(** The name of the root node is a good name for a variable for the generator, yet not for Go: a keyword, or the name of the package imported. *)
Theorem generated_go_names_refuted : exists pkg g g' text text', let isPrint := Example1.pr in
  fits g /\ gLayers g = [] /\ makeGo isPrint pkg [] [] g = Some (inl text) /\ (~ exists f, isGoFile text f) /\
  fits g' /\ gLayers g' = [] /\ makeGo isPrint pkg [] [] g' = Some (inl text') /\ (~ exists f, isGoFile text' f).
Proof.
  exists (bytes "p"), (Example1.gr "type" []), (Example1.gr "grammar" []). eexists _, _. cbv zeta. split; [apply Example1.fits_gr; [apply Example1.type_name|auto]|]. split; [reflexivity|]. split; [vm_compute; reflexivity|]. split.
  { intros (f & _ & ts & S & R). vm_compute in S. injection S as <-. vm_compute in R. discriminate R. }
  split; [apply Example1.fits_gr; [apply Example1.grammar_name|auto]|]. split; [reflexivity|]. split; [vm_compute; reflexivity|].
  intros (f & _ & ts & S & R). vm_compute in S. injection S as <-. vm_compute in R. discriminate R.
Qed.
Print Assumptions generated_go_partial.
Print Assumptions generated_go_layers_refuted.
Print Assumptions generated_go_names_refuted.
Print Assumptions generator_total.
