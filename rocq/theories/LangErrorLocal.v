(** Reading of descriptions (LangText.v) looks at tokens one by one: a run that ends before some token does not depend on it. *)
From Coq Require Import ZArith List Bool Lia.
From Verif Require Import Base BaseProofs Grammar LangBuild LangString LangText LangDescSpec LangDescParse.
Import ListNotations.
Open Scope Z_scope.

Definition moved (c c' : ctx) : Prop := (exists p, cInput c = p ++ cInput c') /\ (cTail c' = cTail c \/ cTail c' = TEoi).
Definition other (p : list tok) (c : ctx) : ctx := setInput p TEnd (cSaved c) c.
(** what has not been read is replaced *)
Record local {A} (m : M A) : Prop := mkLocal {
  lc_moves : forall c, match m c with ROk _ c' | RFail _ c' => moved c c' | _ => True end;
  lc_same : forall c p r p' r', cInput c = p ++ r -> match m c with
    | ROk x c' => cTail c' = TEnd -> cInput c' = p' ++ r -> m (other (p ++ r') c) = ROk x (other (p' ++ r') c')
    | RFail e c' => cTail c' = TEnd -> cInput c' = p' ++ r -> m (other (p ++ r') c) = RFail e (other (p' ++ r') c')
    | _ => True
    end
}.
Lemma moved_refl c : moved c c.
Proof. split; [exists []; reflexivity|left; reflexivity]. Qed.
Lemma moved_trans a b c : moved a b -> moved b c -> moved a c.
Proof.
  intros ((p & P) & T) ((q & Q) & U). split; [exists (p ++ q); rewrite P, Q, app_assoc; reflexivity|]. destruct U as [U|U]; [|right; exact U]. destruct T as [T|T]; [left|right]; congruence.
Qed.
Lemma l_pure {A} (m : M A) : pure m -> local m.
Proof.
  intros P. assert (E : forall c, m c = lift (setInput (cInput c) (cTail c) (cSaved c)) (m (core c))) by (intros c; rewrite <- P; f_equal; apply ctx_eta). split.
  - intros c. rewrite E. destruct (m (core c)) as [x c'|e c'| |]; cbn; try exact I; (split; cbn; [exists []; reflexivity|left; reflexivity]).
  - intros c p r p' r' IN. rewrite (E (other _ _)). rewrite E. change (core (other (p ++ r') c)) with (core c). destruct (m (core c)) as [x c'|e c'| |]; cbn; try exact I; intros T J; rewrite IN in J; apply app_inv_tail in J; subst p'; unfold other; reflexivity.
Qed.
Lemma l_bind {A B} (m : M A) (f : A -> M B) : local m -> (forall x, local (f x)) -> local (bind m f).
Proof.
  intros [M1 M2] F. split.
  - intros c. specialize (M1 c). unfold bind. destruct (m c) as [x c1|e c1| |]; try exact M1. destruct (F x) as [F1 _]. specialize (F1 c1). destruct (f x c1) as [y c2|e c2| |]; try exact F1; eapply moved_trans; eassumption.
  - intros c p r p' r' IN. unfold bind. destruct (m c) as [x c1|e c1| |] eqn:E; [|pose proof (M2 c p r p' r' IN) as X; rewrite E in X; intros T J; rewrite (X T J); reflexivity|exact I|exact I].
    destruct (F x) as [F1 F2]. specialize (F1 c1). destruct (f x c1) as [y c2|e c2| |] eqn:E2; try exact I; intros T J; destruct F1 as ((q & Q) & TL).
    + rewrite J, app_assoc in Q. pose proof (M2 c p r (q ++ p') r' IN) as X. rewrite E in X. rewrite (X ltac:(destruct TL; congruence) Q). pose proof (F2 c1 (q ++ p') r p' r' Q) as Y. rewrite E2 in Y. apply Y; assumption.
    + rewrite J, app_assoc in Q. pose proof (M2 c p r (q ++ p') r' IN) as X. rewrite E in X. rewrite (X ltac:(destruct TL; congruence) Q). pose proof (F2 c1 (q ++ p') r p' r' Q) as Y. rewrite E2 in Y. apply Y; assumption.
Qed.
Lemma l_hang {A} : local (@hang A).
Proof. split; intros; exact I. Qed.
Lemma l_ignore {A} (m : M (option A)) : local m -> local (ignoreError m).
Proof.
  intros [M1 M2]. split.
  - intros c. specialize (M1 c). unfold ignoreError. destruct (m c); exact M1.
  - intros c p r p' r' IN. specialize (M2 c p r p' r' IN). unfold ignoreError. destruct (m c) as [x c1|e c1| |]; try exact I; intros T J; rewrite (M2 T J); reflexivity.
Qed.
Lemma l_next : local nextToken.
Proof.
  split.
  - intros c. unfold nextToken. destruct (cInput c) as [|t r] eqn:IN.
    + destruct (cTail c) eqn:TL; (split; cbn; rewrite ?IN, ?TL; [exists []; reflexivity|auto]).
    + split; cbn; [exists [t]; exact IN|auto].
  - intros c p r p' r' IN. unfold nextToken. destruct (cInput c) as [|t l] eqn:E.
    + destruct (cTail c) eqn:TL; cbn; intros T; congruence.
    + cbn. intros T J. assert (p = t :: p') as -> by (rewrite J in IN; change (t :: p' ++ r) with ((t :: p') ++ r) in IN; apply app_inv_tail in IN; congruence). reflexivity.
Qed.
Lemma p_process t : pure (processToken t).
Proof. unfold processToken. destruct (tKind t); try apply p_ret. destruct (processString (tText t)); try (apply p_ret || apply p_fail || apply p_orCrash). intros c v tl s. reflexivity. Qed.
Lemma l_take : local takeToken.
Proof.
  assert (L : local (let* t := nextToken in processToken t)) by (apply l_bind; [exact l_next|]; intros t; apply l_pure, p_process). destruct L as [L1 L2]. split.
  - intros c. unfold takeToken. destruct (cSaved c); [|apply L1]. split; cbn; [exists []; reflexivity|left; reflexivity].
  - intros c p r p' r' IN. unfold takeToken. cbn [cSaved other setInput]. destruct (cSaved c) eqn:S.
    + cbn. intros T J. rewrite IN in J. apply app_inv_tail in J. subst p'. reflexivity.
    + apply L2. exact IN.
Qed.
Lemma l_put t : local (modify (fun c => setInput (cInput c) (cTail c) (Some t) c)).
Proof.
  split; [intros c; split; cbn; [exists []; reflexivity|left; reflexivity]|]. intros c p r p' r' IN. cbn. intros T J. rewrite IN in J. apply app_inv_tail in J. subst p'. unfold other. cbn. reflexivity.
Qed.
Create HintDb localdb.
#[export] Hint Resolve l_take l_put l_hang : localdb.
Ltac locals := repeat first [solve [auto with localdb] | solve [apply l_pure; pures] | apply l_bind | apply l_ignore | match goal with |- forall _, _ => intros ? end | match goal with |- local (match ?x with _ => _ end) => destruct x end].
Lemma l_fetch types b : local (fetch types b). Proof. unfold fetch. locals. Qed.
#[export] Hint Resolve l_fetch : localdb.
Lemma l_strict types : local (fetchStrict types). Proof. unfold fetchStrict. locals. Qed.
Lemma l_skip typ : local (skipOne typ). Proof. unfold skipOne. locals. Qed.
#[export] Hint Resolve l_strict l_skip : localdb.
Lemma l_fetchAll types f : local (fetchAll f types). Proof. induction f as [|f IH]; cbn [fetchAll]; locals. Qed.
#[export] Hint Resolve l_fetchAll : localdb.
Lemma l_args f : local (parseArgs f). Proof. induction f as [|f IH]; cbn [parseArgs]; locals. Qed.
#[export] Hint Resolve l_args : localdb.
Lemma l_commands f : local (parseCommands f). Proof. induction f as [|f IH]; cbn [parseCommands]; locals. Qed.
#[export] Hint Resolve l_commands : localdb.
Lemma l_layer f t : local (parseLayerDef f t). Proof. unfold parseLayerDef. locals. Qed.
Lemma l_dir f t : local (parseDir f t).
Proof. unfold parseDir, parseTokenFlagDir, parseGroupDir, parseReservedDir, parseLiteralDir. locals. Qed.
#[export] Hint Resolve l_layer l_dir : localdb.
Lemma l_chunks f : local (parseGroup f) /\ local (parseVariants f) /\ local (parseMore f) /\ local (parseVariant f).
Proof.
  induction f as [|f (I1 & I2 & I3 & I4)]; [repeat split; intros; exact I|]. split; [|split; [|split]]; cbn [parseGroup parseVariants parseMore parseVariant]; locals.
Qed.
Lemma l_group f : local (parseGroup f). Proof. apply l_chunks. Qed.
#[export] Hint Resolve l_group : localdb.
Section R.
Variable compiles : name -> bool.
Lemma l_regexp f : local (fetchRegexp compiles f). Proof. unfold fetchRegexp. locals. Qed.
Hint Resolve l_regexp : localdb.
Lemma l_head f : local (readHead compiles f).
Proof. induction f as [|f IH]; cbn [readHead]; unfold parseTemplateDef, parseTokenDef; locals. Qed.
Lemma l_nodes f : forall t, local (readNodes f t).
Proof. induction f as [|f IH]; intros t; cbn [readNodes]; unfold parseNodeDef; locals. Qed.
Hint Resolve l_head l_nodes : localdb.
Lemma l_finish : local finishTokens. Proof. apply l_pure, p_finish. Qed.
Hint Resolve l_finish : localdb.
Lemma l_description f : local (readDescription compiles f).
Proof. unfold readDescription. locals. Qed.
(** An error at a token comes whatever follows that token. *)
Lemma same_error f pre t rest rest' e c : readDescription compiles f (newContext (pre ++ t :: rest) TEnd) = RFail e c -> cInput c = rest -> cTail c = TEnd ->
  exists c', readDescription compiles f (newContext (pre ++ t :: rest') TEnd) = RFail e c'.
Proof.
  intros E IN TL. destruct (l_description f) as [_ L]. specialize (L (newContext (pre ++ t :: rest) TEnd) (pre ++ [t]) rest [] rest'). rewrite E in L. cbn [newContext cInput cSaved] in L. rewrite <- app_assoc in L. specialize (L eq_refl TL IN). unfold other in L. cbn in L. rewrite <- app_assoc in L. eexists. exact L.
Qed.
End R.
