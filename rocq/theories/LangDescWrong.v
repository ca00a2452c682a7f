(** A description with a piece of text that is not a token is not accepted. *)
From Coq Require Import ZArith List Bool Lia.
From Verif Require Import Base BaseProofs Grammar LangBuild LangSpec LangString LangStringSpec Prop_LangString LangTypes LangText LangTextSpec LangTextFuel LangTextTotal LangDescSpec LangDescParse.
Import ListNotations.
Open Scope Z_scope.

Definition W (c : ctx) : Prop := cTail c = TWrong /\ Forall (fun t => isEof t = false) (cInput c) /\ forall t, cSaved c = Some t -> isEof t = false.
Definition keeps {A} (m : M A) : Prop := forall c, W c -> match m c with ROk _ c' | RFail _ c' => W c' | _ => True end.
Lemma k_pure {A} (m : M A) : pure m -> keeps m.
Proof.
  intros P c H. rewrite (ctx_eta c), P. destruct (m (core c)) as [x c1|e c1| |]; cbn; auto; exact H.
Qed.
Lemma k_bind {A B} (m : M A) (f : A -> M B) : keeps m -> (forall x, keeps (f x)) -> keeps (bind m f).
Proof. intros K F c H. unfold bind. specialize (K c H). destruct (m c); auto. apply F, K. Qed.
Lemma k_hang {A} : keeps (@hang A). Proof. intros c _. exact I. Qed.
Lemma process_eof t c t' c' : processToken t c = ROk t' c' -> isEof t = false -> isEof t' = false /\ c' = c.
Proof. unfold processToken, ret. intros H E. unfold isEof in *. destruct (tKind t) eqn:K; try (injection H as <- <-; rewrite K; auto; fail). destruct (processString (tText t)); try discriminate H. injection H as <- <-. auto. Qed.
Lemma process_fail t c e c' : processToken t c = RFail e c' -> c' = c.
Proof. unfold processToken. destruct (tKind t); try discriminate. destruct (processString (tText t)); try discriminate; intros H; injection H as _ <-; reflexivity. Qed.
Lemma take_W c : W c -> match takeToken c with ROk t c' => W c' /\ isEof t = false | RFail _ c' => W c' | _ => True end.
Proof.
  intros (T & F & S). unfold takeToken. destruct (cSaved c) as [t|] eqn:SV.
  - split; [|apply S; reflexivity]. split; [exact T|]. split; [exact F|]. discriminate.
  - unfold bind, nextToken. destruct (cInput c) as [|t r] eqn:I0.
    + rewrite T. split; [exact T|]. rewrite I0, SV. split; [constructor|discriminate].
    + inversion F as [|? ? F1 F2]; subst. destruct (processToken t _) as [t' c'|e c'| |] eqn:P; auto.
      * destruct (process_eof _ _ _ _ P F1) as (E & ->). split; [|exact E]. split; [exact T|]. split; [exact F2|]. cbn. rewrite SV. discriminate.
      * apply process_fail in P. subst c'. split; [exact T|]. split; [exact F2|]. cbn. rewrite SV. discriminate.
Qed.
Lemma fetch_W ty s c : W c -> match fetch ty s c with ROk o c' => W c' /\ (forall t, o = Some t -> isEof t = false) | RFail _ c' => W c' | _ => True end.
Proof.
  intros H. pose proof (take_W c H) as T. unfold fetch, bind at 1. destruct (takeToken c) as [t c1|e c1| |]; auto. destruct T as (W1 & E). destruct (matches ty t); [cbn; split; [exact W1|intros x X; injection X as <-; exact E]|]. rewrite E. destruct s; [exact W1|]. cbn. split; [|discriminate]. destruct W1 as (A & B & _). split; [exact A|]. split; [exact B|]. cbn. intros x X. injection X as <-. exact E.
Qed.
Lemma k_fetch ty s : keeps (fetch ty s).
Proof. intros c H. pose proof (fetch_W ty s c H) as F. destruct (fetch ty s c); tauto. Qed.
Lemma k_strict ty : keeps (fetchStrict ty).
Proof. apply k_bind; [apply k_fetch|]. intros o. apply k_pure, p_orCrash. Qed.
Lemma strict_eof ty c t c' : W c -> fetchStrict ty c = ROk t c' -> isEof t = false /\ W c'.
Proof.
  intros H E. unfold fetchStrict, bind in E. pose proof (fetch_W ty true c H) as F. destruct (fetch ty true c) as [o c1|e c1| |]; try discriminate. destruct o as [t'|]; [|discriminate]. injection E as <- <-. destruct F as (A & B). split; [apply B; reflexivity|exact A].
Qed.
Lemma k_skip ty : keeps (skipOne ty).
Proof. apply k_bind; [apply k_fetch|]. intros o. apply k_pure, p_ret. Qed.
Lemma k_fetchAll ty : forall f, keeps (fetchAll f ty).
Proof. induction f as [|f IH]; [apply k_hang|]. cbn [fetchAll]. apply k_bind; [apply k_fetch|]. intros [t|]; [apply k_bind; [exact IH|intros; apply k_pure, p_ret]|apply k_pure, p_ret]. Qed.
Lemma k_each {A} (f : A -> M unit) l : (forall x, keeps (f x)) -> keeps (each f l).
Proof. intros H. induction l as [|x l IH]; cbn [each]; [apply k_pure, p_ret|apply k_bind; auto]. Qed.
Lemma k_ignore {A} (m : M (option A)) : keeps m -> keeps (ignoreError m).
Proof. intros K c H. unfold ignoreError. specialize (K c H). destruct (m c); auto. Qed.
Create HintDb keepdb.
#[local] Hint Resolve k_fetch k_strict k_skip k_fetchAll k_hang : keepdb.
Ltac keep := repeat first [solve [auto with keepdb] | solve [apply k_pure; pures] | apply k_ignore | apply k_bind | apply k_each | match goal with |- forall _, _ => intros ? end | match goal with |- keeps (match ?x with _ => _ end) => destruct x end].
Lemma k_dir f t : keeps (parseDir f t).
Proof. unfold parseDir, parseTokenFlagDir, parseGroupDir, parseReservedDir, parseLiteralDir. keep. Qed.
Lemma k_args : forall f, keeps (parseArgs f).
Proof. induction f as [|f IH]; [apply k_hang|]. cbn [parseArgs]. keep. Qed.
#[local] Hint Resolve k_dir k_args : keepdb.
Lemma k_commands : forall f, keeps (parseCommands f).
Proof. induction f as [|f IH]; [apply k_hang|]. cbn [parseCommands]. keep. Qed.
#[local] Hint Resolve k_commands : keepdb.
Lemma k_layer f t : keeps (parseLayerDef f t).
Proof. unfold parseLayerDef. keep. Qed.
#[local] Hint Resolve k_layer : keepdb.
Lemma k_seq : forall f, keeps (parseGroup f) /\ keeps (parseVariants f) /\ keeps (parseMore f) /\ keeps (parseVariant f).
Proof.
  induction f as [|f (A & B & C & D)]; [repeat split; apply k_hang|]. repeat split; cbn [parseGroup parseVariants parseMore parseVariant]; keep.
Qed.
Lemma k_nodeDef f n : keeps (parseNodeDef f n).
Proof. unfold parseNodeDef. destruct (k_seq f) as (A & _). keep. Qed.
#[local] Hint Resolve k_nodeDef : keepdb.
Section R.
Variable compiles : name -> bool.
Lemma k_regexp f : keeps (fetchRegexp compiles f).
Proof. unfold fetchRegexp. keep. Qed.
#[local] Hint Resolve k_regexp : keepdb.
Lemma k_head : forall f, keeps (readHead compiles f).
Proof. induction f as [|f IH]; [apply k_hang|]. cbn [readHead]. unfold parseTemplateDef, parseTokenDef. keep. Qed.
Definition good (m : M tok) : Prop := forall c, W c -> match m c with ROk t c' => W c' /\ isEof t = false | RFail _ c' => W c' | _ => True end.
Lemma g_bind {A} (m : M A) (f : A -> M tok) : keeps m -> (forall x, good (f x)) -> good (bind m f).
Proof. intros K F c H. unfold bind. specialize (K c H). destruct (m c); auto. apply F, K. Qed.
Lemma g_fail e : good (fail e). Proof. intros c H. exact H. Qed.
Lemma good_head : forall f, good (readHead compiles f).
Proof.
  induction f as [|f IH]; [intros c _; exact I|]. cbn [readHead]. intros c H. unfold bind at 1. pose proof (k_strict [nameTok; dirTok; opTok; templateNameTok; tokenNameTok] c H) as K. destruct (fetchStrict _ c) as [t c1|e c1| |] eqn:E; auto. destruct (strict_eof _ _ _ _ H E) as (N & _). clear E H.
  destruct (tKind t); try (apply IH; exact K); try (split; assumption); revert c1 K.
  - apply g_bind; [auto with keepdb|intros _; exact IH].
  - apply g_bind; [unfold textFrom; keep|]. intros n. apply g_bind; [keep|]. intros ts. destruct (nget n ts); [apply g_fail|]. apply g_bind; [unfold parseTemplateDef; keep|intros _; exact IH].
  - apply g_bind; [unfold textFrom; keep|]. intros n. apply g_bind; [keep|]. intros ix. apply g_bind; [keep|]. intros has. destruct (_ || _); [apply g_fail|]. apply g_bind; [unfold parseTokenDef; keep|intros _; exact IH].
  - apply g_bind; [auto with keepdb|intros _; exact IH].
Qed.
Lemma head_eof f c t c' : W c -> readHead compiles f c = ROk t c' -> isEof t = false /\ W c'.
Proof. intros H E. pose proof (good_head f c H) as G. rewrite E in G. tauto. Qed.
Lemma nodes_eof : forall f t c c' u, W c -> isEof t = false -> readNodes f t c <> ROk u c'.
Proof.
  induction f as [|f IH]; intros t c c' u H N E; [discriminate|]. cbn [readNodes] in E. rewrite N in E. apply bind_inv in E. destruct E as (x & c1 & E1 & E). assert (W1 : W c1).
  { match type of E1 with ?m c = _ => assert (K : keeps m) by keep end. specialize (K c H). rewrite E1 in K. exact K. }
  apply bind_inv in E. destruct E as (t2 & c2 & E2 & E). destruct (strict_eof _ _ _ _ W1 E2) as (N2 & W2). exact (IH _ _ _ _ W2 N2 E).
Qed.
Lemma wrong_never f input u c' : Forall lexed input -> readDescription compiles f (newContext input TWrong) <> ROk u c'.
Proof.
  intros L E. assert (H : W (newContext input TWrong)) by (split; [reflexivity|]; split; [cbn; eapply Forall_impl; [|exact L]; apply lexed_kind|discriminate]). unfold readDescription in E. apply bind_inv in E. destruct E as (t & c1 & E1 & E). destruct (head_eof _ _ _ _ H E1) as (N & W1). apply bind_inv in E. destruct E as (x & c2 & E2 & E). assert (W2 : W c2) by (pose proof (k_pure _ p_finish c1 W1) as K; rewrite E2 in K; exact K). exact (nodes_eof _ _ _ _ _ W2 N E).
Qed.
End R.
