(** Tokens and trees by names (DescTreeSpec.v) are those by indices. *)
From Coq Require Import ZArith List Bool Lia.
From Verif Require Import Base BaseProofs Grammar RulesSpec Parser ParserSpec ParserFlowSpec LangBuild LangTypes LangText LangTextTotal LangTreeSpec LangDescSpec LangDescFacts LangDrop LangTypesProofs LangDescNodes PredictTree PredictSpec DescTreeSpec DescTree.
Import ListNotations.
Open Scope Z_scope.

(** ** Trees depend only on what their tokens are *)
Section Mono.
Context {Tok Inst R : Type}.
Variables isType isLiteral isType' isLiteral' : Tok -> name -> Prop.
Variables isEnd side isEnd' side' : Tok -> Prop.
Variable number : name -> Z.
Variable rs : list record.
Variable ok : Tok -> Prop.
Definition tUsed (x : name) : Prop := exists n l, In (RNode n l) rs /\ In x (seqTypes l).
Definition lUsed (x : name) : Prop := exists n l, In (RNode n l) rs /\ In x (seqLiterals l).
Hypothesis H1 : forall t n, ok t -> tUsed n -> isType t n -> isType' t n.
Hypothesis H2 : forall t n, ok t -> lUsed n -> isLiteral t n -> isLiteral' t n.
Hypothesis H3 : forall t, ok t -> isEnd t -> isEnd' t.
Hypothesis H4 : forall t, ok t -> side t -> side' t.
Notation OK ts := (forall t, In t (leavesL ts) -> ok t).
Lemma leavesL_app' (a b : list (tree Tok Inst R)) : leavesL (a ++ b) = leavesL a ++ leavesL b.
Proof. unfold leavesL. rewrite map_app, concat_app. reflexivity. Qed.
Lemma sides_mono (kids kept : list (tree Tok Inst R)) : withSides side kids kept -> OK kids -> withSides side' kids kept /\ OK kept.
Proof.
  induction 1 as [|t l kept S WS IH|T l kept WS IH]; intros O.
  - split; [constructor|exact O].
  - unfold leavesL in O. cbn [map concat leaves app] in O. destruct IH as (A & B); [intros x X; apply O; right; exact X|]. split; [constructor; [apply H4; [apply O; left; reflexivity|exact S]|exact A]|exact B].
  - unfold leavesL in O. cbn [map concat] in O. destruct IH as (A & B); [intros x X; apply O, in_or_app; right; exact X|]. split; [constructor; exact A|]. unfold leavesL. cbn [map concat]. intros x X. apply in_app_iff in X. destruct X as [X|X]; [apply O, in_or_app; left; exact X|apply B, X].
Qed.
Lemma flat_in {A B} (f : A -> list B) l x y : In x l -> In y (f x) -> In y (flat f l).
Proof. intros I0 I1. unfold flat. apply in_concat. exists (f x). split; [apply in_map, I0|exact I1]. Qed.
Lemma nTree_mono : forall n (T : tree Tok Inst R), nTree isType isLiteral isEnd side number rs n T -> (forall t, In t (leaves T) -> ok t) -> nTree isType' isLiteral' isEnd' side' number rs n T.
Proof.
  apply (nTree_mut Tok Inst R isType isLiteral isEnd side number rs
    (fun v ts _ => (forall x, In x (typesUsed v) -> tUsed x) -> (forall x, In x (literalsIn v) -> lUsed x) -> OK ts -> vTree isType' isLiteral' isEnd' side' number rs v ts)
    (fun i ts _ => (forall x, In x (flat typesUsed i) -> tUsed x) -> (forall x, In x (flat literalsIn i) -> lUsed x) -> OK ts -> iTree isType' isLiteral' isEnd' side' number rs i ts)
    (fun l ts _ => (forall x, In x (seqTypes l) -> tUsed x) -> (forall x, In x (seqLiterals l) -> lUsed x) -> OK ts -> sTree isType' isLiteral' isEnd' side' number rs l ts)
    (fun n T _ => (forall t, In t (leaves T) -> ok t) -> nTree isType' isLiteral' isEnd' side' number rs n T)).
  - intros n T _ IH _ _ O. constructor. apply IH. intros t X. apply O. unfold leavesL. cbn. rewrite app_nil_r. exact X.
  - intros n t H U _ O. constructor. apply H1; [apply O; left; reflexivity|apply U; left; reflexivity|exact H].
  - intros t H _ _ O. constructor. apply H3; [apply O; left; reflexivity|exact H].
  - intros n t H _ U O. constructor. apply H2; [apply O; left; reflexivity|apply U; left; reflexivity|exact H].
  - intros l ts _ IH U V O. constructor. apply IH; assumption.
  - intros. constructor.
  - intros l ts _ IH U V O. constructor. apply IH; assumption.
  - intros. apply VT_never.
  - intros l ts us _ IH _ IH' U V O. rewrite leavesL_app' in O. apply VT_again; [apply IH|apply IH']; try assumption; intros t X; apply O, in_or_app; auto.
  - intros i v ts I0 _ IH U V O. econstructor; [exact I0|]. apply IH; [intros x X; apply U; eapply flat_in; eassumption|intros x X; apply V; eapply flat_in; eassumption|exact O].
  - intros. constructor.
  - intros i l ts us _ IH _ IH' U V O. rewrite leavesL_app' in O. unfold seqTypes, seqLiterals, flat in U, V. cbn [map concat] in U, V. constructor; [apply IH|apply IH']; try (intros x X; (apply U || apply V || apply O); apply in_or_app; auto).
  - intros n l t0 hooks results kids kept IN WS _ IH O. rewrite leaves_node in O. destruct (sides_mono _ _ WS O) as (A & B). econstructor; [exact IN|exact A|]. apply IH; [intros x X; exists n, l; auto|intros x X; exists n, l; auto|exact B].
Qed.
End Mono.

(** ** Tokens *)
Lemma res_names compiles : forall rs env res, regexps compiles env rs = Some res -> map fst res = defined rs.
Proof.
  induction rs as [|r rs IH]; intros env res E; cbn [regexps] in E; [injection E as <-; reflexivity|]. unfold defined, flat in *. cbn [map concat]. destruct r as [d args|n ps|n ps|ly|n l]; cbn [app]; try (eapply IH; exact E).
  - destruct (joined env ps) as [re|]; [|discriminate]. cbn [obind] in E. destruct (_ && _); [|discriminate]. eapply IH. exact E.
  - destruct (joined env ps) as [re|]; [|discriminate]. cbn [obind] in E. destruct (compiles re); [|discriminate]. destruct (regexps compiles env rs) as [l|] eqn:X; [|discriminate]. injection E as <-. cbn [map fst]. f_equal. eapply IH. exact X.
Qed.
Lemma typeNames_NoDup rs : NoDup (defined rs) -> NoDup (typeNames rs).
Proof.
  intros D. unfold typeNames. assert (U : NoDup (undefined rs)) by apply filter_NoDup, firsts_NoDup. assert (A : forall x, In x (undefined rs) -> ~ In x (defined rs)). { intros x X. apply filter_In in X. destruct X as (_ & X). apply negb_true_iff, mem_not in X. exact X. }
  revert D A. induction (defined rs) as [|x l IH]; intros D A; [exact U|]. inversion D as [|? ? N D']; subst. cbn [app]. constructor; [|apply IH; [exact D'|intros y Y Z; exact (A y Y (or_intror Z))]]. intros X. apply in_app_iff in X. destruct X as [X|X]; [exact (N X)|exact (A x X (or_introl eq_refl))].
Qed.
Lemma zget_position l i n : NoDup l -> zget l i = Some n -> i = position n l.
Proof.
  intros ND G. revert i G. induction l as [|x l IH]; intros i G; [unfold zget in G; destruct (i <? 0); [discriminate|destruct (Z.to_nat i); discriminate]|]. inversion ND as [|? ? N D']; subst. pose proof (zget_Some_inv _ _ _ G) as RG. destruct (Z.eq_dec i 0) as [->|NZ].
  - cbn in G. injection G as ->. cbn [position]. rewrite nameEqb_refl. reflexivity.
  - assert (G' : zget l (i - 1) = Some n). { revert G. unfold zget. destruct (Z.ltb_spec i 0); [lia|]. destruct (Z.ltb_spec (i - 1) 0); [lia|]. replace (Z.to_nat i) with (S (Z.to_nat (i - 1))) by lia. cbn. auto. }
    cbn [position]. destruct (nameEqb n x) eqn:E; [apply nameEqb_ok in E; subst; destruct N; apply zget_In in G'; exact G'|]. rewrite <- (IH D' _ G'). lia.
Qed.
Section Tokens.
Context {Tok Inst R : Type} (ttype : Tok -> Z) (ttext : Tok -> name) (toUpper : name -> name).
Variable g : grammar.
Variable rs : list record.
Variable res : list (name * name).
Hypothesis GT : gTokens g = tokensNow rs res.
Hypothesis ER : map fst res = defined rs.
Hypothesis ND : NoDup (defined rs).
Notation tokenMatches := (tokenMatches ttype ttext toUpper g).
Notation literalFor := (literalFor ttype ttext toUpper g).
Notation literalOf := (literalOf ttype ttext toUpper rs).
Notation usedAs := (usedAs ttype ttext toUpper rs).
Notation plainToken := (plainToken ttype rs).
Notation K := (zlen (typeNames rs)).
Lemma tokens_split : gTokens g = types rs res ++ map (literalTokenNow rs) (literals rs). Proof. rewrite GT. reflexivity. Qed.
Lemma types_K : zlen (types rs res) = K. Proof. apply types_len, ER. Qed.
Lemma get_type i d : zget (gTokens g) i = Some d -> i < K -> exists n, zget (typeNames rs) i = Some n /\ gtName d = n /\ gtFlags d = flagsOf n rs.
Proof.
  intros G L. pose proof (zget_Some_inv _ _ _ G) as RG. rewrite tokens_split in G. rewrite zget_app_l in G by (rewrite types_K; lia). pose proof (types_names rs res ER) as TN. exists (gtName d). split; [rewrite <- TN, zget_map, G; reflexivity|]. split; [reflexivity|]. unfold types in G. rewrite zget_map in G. destruct (zget _ i) as [x|]; [|discriminate]. injection G as <-. reflexivity.
Qed.
Lemma type_get i n : zget (typeNames rs) i = Some n -> exists d, zget (gTokens g) i = Some d /\ gtName d = n /\ gtFlags d = flagsOf n rs.
Proof.
  intros G. pose proof (zget_Some_inv _ _ _ G) as RG. rewrite <- (types_names rs res ER), zget_map in G. destruct (zget (types rs res) i) as [d|] eqn:X; [|discriminate]. injection G as <-. exists d. rewrite tokens_split, zget_app_l by (rewrite types_K; lia). split; [exact X|]. split; [reflexivity|]. unfold types in X. rewrite zget_map in X. destruct (zget _ i) as [x|]; [|discriminate]. injection X as <-. reflexivity.
Qed.
Lemma flags_literal n : hasFlag (flagsOf n rs) LiteralToken = false.
Proof. unfold flagsOf. destruct (listed DSide n rs), (listed DCaseless n rs), (listed DError n rs), (listed DExtern n rs), (listed DLiteral n rs), (typesIn (dirEqb DLiteral) rs); reflexivity. Qed.
Lemma flags_side n : hasFlag (flagsOf n rs) SideToken = listed DSide n rs.
Proof. unfold flagsOf. destruct (listed DSide n rs), (listed DCaseless n rs), (listed DError n rs), (listed DExtern n rs), (listed DLiteral n rs), (typesIn (dirEqb DLiteral) rs); reflexivity. Qed.
Lemma flags_caseless n : hasFlag (flagsOf n rs) CaselessToken = listed DCaseless n rs.
Proof. unfold flagsOf. destruct (listed DSide n rs), (listed DCaseless n rs), (listed DError n rs), (listed DExtern n rs), (listed DLiteral n rs), (typesIn (dirEqb DLiteral) rs); reflexivity. Qed.
Lemma flags_noLiterals n : hasFlag (flagsOf n rs) NoLiteralsToken = false <-> mayBeLiteral rs n.
Proof. clear - rs n. unfold flagsOf, mayBeLiteral. destruct (listed DSide n rs), (listed DCaseless n rs), (listed DError n rs), (listed DExtern n rs), (listed DLiteral n rs), (typesIn (dirEqb DLiteral) rs); cbn; intuition congruence. Qed.
Lemma literal_get i lt : zget (gTokens g) i = Some lt -> hasFlag (gtFlags lt) LiteralToken = true -> i = K + position (gtName lt) (literals rs) /\ In (gtName lt) (literals rs) /\ (hasFlag (gtFlags lt) ReservedToken = true <-> reservedNow (gtName lt) rs = true).
Proof.
  intros G F. destruct (Z.ltb_spec i K) as [L|L]; [destruct (get_type _ _ G L) as (n & _ & _ & E); rewrite E, flags_literal in F; discriminate|]. rewrite tokens_split in G. rewrite zget_app_r in G by (rewrite types_K; lia). rewrite types_K, zget_map in G. destruct (zget (literals rs) (i - K)) as [s|] eqn:X; [|discriminate]. injection G as <-. cbn [literalTokenNow gtName gtFlags].
  split; [rewrite <- (zget_position (literals rs) _ _ (firsts_NoDup _) X); lia|]. split; [apply zget_In in X; exact X|]. destruct (reservedNow s rs); cbn; split; congruence.
Qed.
Lemma get_literal s : In s (literals rs) -> exists lt, zget (gTokens g) (K + position s (literals rs)) = Some lt /\ gtName lt = s /\ hasFlag (gtFlags lt) LiteralToken = true /\ (hasFlag (gtFlags lt) ReservedToken = true <-> reservedNow s rs = true).
Proof.
  intros I0. pose proof (position_range s _ I0) as PR. exists (literalTokenNow rs s). rewrite tokens_split, zget_app_r by (rewrite types_K; lia). rewrite types_K, zget_map. replace (K + position s (literals rs) - K) with (position s (literals rs)) by lia. rewrite (position_get s (literals rs) I0). split; [reflexivity|]. split; [reflexivity|]. cbn [literalTokenNow gtFlags]. destruct (reservedNow s rs); cbn; split; try reflexivity; split; congruence.
Qed.
Lemma literal_same t i : plainToken t -> literalFor t i <-> exists s, literalOf t s /\ i = K + position s (literals rs).
Proof.
  intros PT. split.
  - intros [d GD NL ((lt & GL & LF & LN) & _)]. destruct (get_type _ _ GD PT) as (n & TN & _ & FL). destruct (literal_get _ _ GL LF) as (EI & IL & _). exists (gtName lt). split; [|exact EI]. exists n. split; [exact TN|]. split; [apply flags_noLiterals; rewrite <- FL; exact NL|]. split; [|exact IL]. rewrite LN. unfold textOf, matchText. rewrite FL, flags_caseless. reflexivity.
  - intros (s & (n & TN & ML & TX & IL) & ->). destruct (type_get _ _ TN) as (d & GD & _ & FL). destruct (get_literal s IL) as (lt & GL & LN & LF & _). econstructor; [exact GD|rewrite FL; apply flags_noLiterals, ML|]. assert (TE : matchText ttext toUpper t d = s) by (rewrite <- TX; unfold textOf, matchText; rewrite FL, flags_caseless; reflexivity). rewrite TE. split.
    + exists lt. auto.
    + intros j (lt' & G' & F' & N'). destruct (literal_get _ _ G' F') as (-> & _). rewrite N'. lia.
Qed.
Lemma literal_one t s s' : literalOf t s -> literalOf t s' -> s = s'.
Proof. intros (n & TN & _ & <- & _) (n' & TN' & _ & <- & _). unfold typeOf in *. rewrite TN in TN'. injection TN' as ->. reflexivity. Qed.
Lemma literal_dec t : (exists s, literalOf t s) \/ forall s, ~ literalOf t s.
Proof.
  destruct (zget (typeNames rs) (ttype t)) as [n|] eqn:TN; [|right; intros s (n & X & _); unfold typeOf in X; congruence]. destruct (hasFlag (flagsOf n rs) NoLiteralsToken) eqn:NL.
  - right. intros s (n' & TN' & ML & _). unfold typeOf in TN'. rewrite TN in TN'. injection TN' as <-. apply flags_noLiterals in ML. congruence.
  - destruct (In_dec_name (textOf ttext toUpper rs t n) (literals rs)) as [I0|I0]; [left; eexists; exists n; split; [exact TN|]; split; [apply flags_noLiterals, NL|]; split; [reflexivity|exact I0]|]. right. intros s (n' & TN' & _ & <- & I1). unfold typeOf in TN'. rewrite TN in TN'. injection TN' as <-. exact (I0 I1).
Qed.
Lemma reserved_flag s : In s (literals rs) -> tokenFlag g (K + position s (literals rs)) ReservedToken <-> reservedNow s rs = true.
Proof. intros I0. destruct (get_literal s I0) as (lt & GL & _ & _ & RS). rewrite <- RS. split; [intros (d & GD & F); rewrite GL in GD; injection GD as <-; exact F|intros F; exists lt; auto]. Qed.
(** what the token matches *)
Lemma matches_what t k : plainToken t -> tokenMatches t k <->
  k = AnyToken \/ (exists s, literalOf t s /\ k = K + position s (literals rs)) \/ (k = ttype t /\ forall s, literalOf t s -> reservedNow s rs = false).
Proof.
  intros PT. split.
  - intros (keys & KO & I0). inversion KO as [|t' N|t' i LI NR|t' i LI RS]; subst; cbn [In] in I0.
    + destruct I0 as [<-|[<-|[]]]; [|auto]. right. right. split; [reflexivity|]. intros s LS. exfalso. apply (N (K + position s (literals rs))). apply literal_same; [exact PT|]. eauto.
    + destruct I0 as [<-|[<-|[<-|[]]]]; [| |auto]; right; [left; apply literal_same; assumption|right]. split; [reflexivity|]. intros s LS. apply not_true_is_false. intros RS. apply NR. apply (literal_same _ _ PT) in LI. destruct LI as (s' & LS' & ->). rewrite (literal_one _ _ _ LS' LS). apply reserved_flag; [destruct LS as (_ & _ & _ & _ & X); exact X|exact RS].
    + destruct I0 as [<-|[<-|[]]]; [|auto]. right. left. apply literal_same; assumption.
  - destruct (literal_dec t) as [(s & LS)|NL].
    + assert (LI : literalFor t (K + position s (literals rs))) by (apply literal_same; [exact PT|eauto]). assert (IL : In s (literals rs)) by (destruct LS as (_ & _ & _ & _ & X); exact X). pose proof (reserved_flag s IL) as RF. destruct (reservedNow s rs) eqn:RS.
      * intros H. exists [K + position s (literals rs); AnyToken]. split; [apply K_reserved; [exact LI|apply RF; reflexivity]|]. destruct H as [->|[(s' & LS' & ->)|(_ & X)]]; [right; left; reflexivity|left; rewrite (literal_one _ _ _ LS LS'); reflexivity|pose proof (X s LS); congruence].
      * intros H. exists [K + position s (literals rs); ttype t; AnyToken]. split; [apply K_literal; [exact LI|rewrite RF; discriminate]|]. destruct H as [->|[(s' & LS' & ->)|(-> & _)]]; [right; right; left; reflexivity|left; rewrite (literal_one _ _ _ LS LS'); reflexivity|right; left; reflexivity].
    + intros H. exists [ttype t; AnyToken]. split; [apply K_type; intros i LI; apply (literal_same _ _ PT) in LI; destruct LI as (s & LS & _); exact (NL s LS)|]. destruct H as [->|[(s' & LS' & ->)|(-> & _)]]; [right; left; reflexivity|destruct (NL _ LS')|left; reflexivity].
Qed.
Lemma type_same t n : plainToken t -> In n (typeNames rs) -> tokenMatches t (position n (typeNames rs)) <-> usedAs t n.
Proof.
  intros PT I0. pose proof (position_range n _ I0) as PR. rewrite (matches_what _ _ PT). split.
  - intros [X|[(s & LS & X)|(X & RS)]]; [unfold AnyToken in X; lia|destruct LS as (_ & _ & _ & _ & IL); pose proof (position_range s _ IL); lia|]. split; [unfold typeOf; rewrite <- X; apply position_get, I0|exact RS].
  - intros (TN & RS). right. right. split; [symmetry; apply zget_position; [apply typeNames_NoDup, ND|exact TN]|exact RS].
Qed.
Lemma lit_same t s : plainToken t -> In s (literals rs) -> tokenMatches t (K + position s (literals rs)) <-> literalOf t s.
Proof.
  intros PT I0. pose proof (position_range s _ I0) as PR. rewrite (matches_what _ _ PT). split.
  - intros [X|[(s' & LS & X)|(X & _)]]; [unfold AnyToken in X; pose proof (zlen_nonneg (typeNames rs)); lia| |unfold DescTreeSpec.plainToken in PT; lia]. assert (IL : In s' (literals rs)) by (destruct LS as (_ & _ & _ & _ & Y); exact Y). assert (E : position s (literals rs) = position s' (literals rs)) by lia.
    pose proof (position_get s _ I0) as A. rewrite E, (position_get s' _ IL) in A. injection A as <-. exact LS.
  - intros LS. right. left. eauto.
Qed.
Lemma end_same t : plainToken t -> tokenMatches t EoiToken <-> endOf ttype t.
Proof.
  intros PT. rewrite (matches_what _ _ PT). unfold endOf. split.
  - intros [X|[(s & LS & X)|(X & _)]]; [discriminate|destruct LS as (_ & _ & _ & _ & IL); pose proof (position_range s _ IL); pose proof (zlen_nonneg (typeNames rs)); unfold EoiToken in X; lia|congruence].
  - intros E. right. right. split; [congruence|]. intros s (n & TN & _). unfold typeOf in TN. apply zget_Some_inv in TN. rewrite E in TN. unfold EoiToken in TN. lia.
Qed.
Lemma side_same t : plainToken t -> isSide ttype g (Some t) <-> sideOf ttype rs t.
Proof.
  intros PT. split.
  - intros (t' & E & d & GD & F). injection E as <-. destruct (get_type _ _ GD PT) as (n & TN & _ & FL). exists n. split; [exact TN|]. rewrite <- flags_side, <- FL. exact F.
  - intros (n & TN & L). destruct (type_get _ _ TN) as (d & GD & _ & FL). exists t. split; [reflexivity|]. exists d. split; [exact GD|]. rewrite FL, flags_side. exact L.
Qed.
Hypothesis used : forall n l x, In (RNode n l) rs -> In x (seqTypes l) -> In x (typeNames rs).
Lemma lUsed_in s : lUsed rs s -> In s (literals rs).
Proof. intros (n & l & IN & IS). apply firsts_In, in_or_app. right. unfold usedLiterals. eapply flat_in; [exact IN|exact IS]. Qed.
Notation nT := (nTree (Inst:=Inst) (R:=R) (fun t n => tokenMatches t (position n (typeNames rs))) (fun t s => tokenMatches t (K + position s (literals rs))) (fun t => tokenMatches t EoiToken) (fun t => isSide ttype g (Some t)) (fun n => position n (nodeNames rs)) rs).
Lemma treeOf_same n (T : tree Tok Inst R) : (forall t, In t (leaves T) -> plainToken t) -> nT n T <-> treeOf ttype ttext toUpper rs n T.
Proof.
  intros O. split; intros H; (eapply nTree_mono; [| | | |exact H|exact O]); cbv beta; intros t.
  - intros x PT (m & l & IN & IS) X. apply type_same; [exact PT|eapply used; eassumption|exact X].
  - intros x PT U X. apply lit_same; [exact PT|apply lUsed_in, U|exact X].
  - intros PT X. apply end_same; assumption.
  - intros PT X. apply side_same; assumption.
  - intros x PT (m & l & IN & IS) X. apply type_same; [exact PT|eapply used; eassumption|exact X].
  - intros x PT U X. apply lit_same; [exact PT|apply lUsed_in, U|exact X].
  - intros PT X. apply end_same; assumption.
  - intros PT X. apply side_same; assumption.
Qed.
End Tokens.
