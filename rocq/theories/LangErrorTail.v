(** Reading of descriptions (LangText.v) that goes on up to a place that cannot be split into tokens. *)
From Coq Require Import ZArith List Bool Lia.
From Verif Require Import Base BaseProofs Grammar LangBuild LangTypes LangString LangText LangDescSpec LangDescParse LangErrorLocal.
Import ListNotations.
Open Scope Z_scope.

(** the same tokens, and then the end of the text *)
Definition cut (c : ctx) : ctx := setInput (cInput c) TEnd (cSaved c) c.
(** the wrong place is not reached: the run is the same as if the text had ended there *)
Definition lexes {A} (m : M A) : Prop := forall c, cTail c = TWrong -> match m c with
  | ROk x c' => cTail c' = TWrong /\ m (cut c) = ROk x (cut c')
  | RFail e c' => cTail c' = TWrong /\ (e <> RE_lexer -> m (cut c) = RFail e (cut c'))
  | _ => True
  end.
Lemma x_pure {A} (m : M A) : pure m -> lexes m.
Proof.
  intros P c T. assert (E : forall c, m c = lift (setInput (cInput c) (cTail c) (cSaved c)) (m (core c))) by (intros k; rewrite <- P; f_equal; apply ctx_eta).
  rewrite (E (cut c)), E. change (core (cut c)) with (core c). destruct (m (core c)) as [x c'|e c'| |]; cbn; try exact I; (split; [exact T|]); [reflexivity|intros _; reflexivity].
Qed.
Lemma x_bind {A B} (m : M A) (f : A -> M B) : lexes m -> (forall x, lexes (f x)) -> lexes (bind m f).
Proof.
  intros L F c T. specialize (L c T). unfold bind. destruct (m c) as [x c1|e c1| |]; try exact I.
  - destruct L as (T1 & ->). exact (F x c1 T1).
  - destruct L as (T1 & L). split; [exact T1|]. intros N. rewrite (L N). reflexivity.
Qed.
Lemma x_hang {A} : lexes (@hang A). Proof. intros c T. exact I. Qed.
Lemma x_next : lexes nextToken.
Proof.
  intros c T. unfold nextToken, cut. cbn. rewrite T. destruct (cInput c) as [|t r]; cbn; [split; [exact T|]; intros N; contradiction|]. split; [reflexivity|reflexivity].
Qed.
Lemma x_take : lexes takeToken.
Proof.
  assert (L : lexes (let* t := nextToken in processToken t)) by (apply x_bind; [exact x_next|]; intros t; apply x_pure, p_process).
  intros c T. unfold takeToken. change (cSaved (cut c)) with (cSaved c). destruct (cSaved c); [|exact (L c T)]. cbn. split; [exact T|reflexivity].
Qed.
Lemma x_put t : lexes (modify (fun c => setInput (cInput c) (cTail c) (Some t) c)).
Proof. intros c T. cbn. split; [exact T|reflexivity]. Qed.
Create HintDb lexesdb.
#[export] Hint Resolve x_take x_put x_hang : lexesdb.
Ltac lexess := repeat first [solve [auto with lexesdb] | solve [apply x_pure; pures] | apply x_bind | match goal with |- forall _, _ => intros ? end | match goal with |- lexes (match ?x with _ => _ end) => destruct x end].
Lemma x_fetch types b : lexes (fetch types b). Proof. unfold fetch. lexess. Qed.
#[export] Hint Resolve x_fetch : lexesdb.
Lemma x_strict types : lexes (fetchStrict types). Proof. unfold fetchStrict. lexess. Qed.
Lemma x_skip typ : lexes (skipOne typ). Proof. unfold skipOne. lexess. Qed.
#[export] Hint Resolve x_strict x_skip : lexesdb.
Lemma x_fetchAll types f : lexes (fetchAll f types). Proof. induction f as [|f IH]; cbn [fetchAll]; lexess. Qed.
#[export] Hint Resolve x_fetchAll : lexesdb.
Lemma x_args f : lexes (parseArgs f). Proof. induction f as [|f IH]; cbn [parseArgs]; lexess. Qed.
#[export] Hint Resolve x_args : lexesdb.
(** parser.go:635: the error is dropped, the next token is asked for again *)
Lemma lexer_again types b c c' : fetch types b c = RFail RE_lexer c' -> takeToken c' = RFail RE_lexer c'.
Proof.
  unfold fetch, bind. destruct (takeToken c) as [t k|e k| |] eqn:E; try discriminate.
  - destruct (matches types t); [discriminate|]. destruct (isEof t); [destruct b; discriminate|]. destruct b; discriminate.
  - intros H. injection H as -> ->. unfold takeToken in E. destruct (cSaved c) eqn:S; [discriminate|]. unfold bind, nextToken in E. destruct (cInput c) as [|t r] eqn:IN.
    + destruct (cTail c) eqn:TL; [discriminate|discriminate|]. injection E as <-. unfold takeToken. rewrite S. unfold bind, nextToken. rewrite IN, TL. reflexivity.
    + unfold processToken in E. destruct (tKind t); try discriminate. destruct (processString (tText t)); discriminate.
Qed.
Lemma x_firstArg f : lexes (let* o := ignoreError (fetch [rBraceTok] false) in match o with Some _ => ret [] | None => parseArgs f end).
Proof.
  intros c T. pose proof (x_fetch [rBraceTok] false c T) as L. unfold bind, ignoreError. destruct (fetch [rBraceTok] false c) as [o c1|e c1| |] eqn:E; try exact I.
  - destruct L as (T1 & ->). destruct o; [split; [exact T1|reflexivity]|exact (x_args f c1 T1)].
  - destruct L as (T1 & L). assert (D : e = RE_lexer \/ e <> RE_lexer) by (destruct e; (left; reflexivity) || (right; discriminate)). destruct D as [-> |N].
    + destruct f as [|f]; [exact I|]. apply lexer_again in E. cbn [parseArgs]. unfold fetchStrict, fetch, bind. rewrite E. split; [exact T1|]. intros N. contradiction.
    + rewrite (L N). exact (x_args f c1 T1).
Qed.
Lemma bind_bind {A B C} (m : M A) (f : A -> M B) (g : B -> M C) c : bind (bind m f) g c = bind m (fun x => bind (f x) g) c.
Proof. unfold bind. destruct (m c); reflexivity. Qed.
Lemma x_ext {A} (m m' : M A) : (forall c, m c = m' c) -> lexes m -> lexes m'.
Proof. intros E L c T. specialize (L c T). rewrite <- !E. exact L. Qed.
Lemma x_commands f : lexes (parseCommands f).
Proof.
  induction f as [|f IH]; cbn [parseCommands]; [lexess|]. apply x_bind; [lexess|]. intros t. destruct (nameEqb _ _); [lexess|]. apply x_bind; [lexess|]. intros _.
  eapply x_ext; [intros c; apply bind_bind|]. apply x_bind; [apply x_firstArg|]. intros args. lexess.
Qed.
#[export] Hint Resolve x_commands : lexesdb.
Lemma x_layer f t : lexes (parseLayerDef f t). Proof. unfold parseLayerDef. lexess. Qed.
Lemma x_dir f t : lexes (parseDir f t).
Proof. unfold parseDir, parseTokenFlagDir, parseGroupDir, parseReservedDir, parseLiteralDir. lexess. Qed.
#[export] Hint Resolve x_layer x_dir : lexesdb.
Lemma x_chunks f : lexes (parseGroup f) /\ lexes (parseVariants f) /\ lexes (parseMore f) /\ lexes (parseVariant f).
Proof.
  induction f as [|f (I1 & I2 & I3 & I4)]; [repeat split; intros c T; exact I|]. split; [|split; [|split]]; cbn [parseGroup parseVariants parseMore parseVariant]; lexess.
Qed.
Lemma x_group f : lexes (parseGroup f). Proof. apply x_chunks. Qed.
#[export] Hint Resolve x_group : lexesdb.
Section R.
Variable compiles : name -> bool.
Lemma x_regexp f : lexes (fetchRegexp compiles f). Proof. unfold fetchRegexp. lexess. Qed.
Hint Resolve x_regexp : lexesdb.
Lemma x_head f : lexes (readHead compiles f).
Proof. induction f as [|f IH]; cbn [readHead]; unfold parseTemplateDef, parseTokenDef; lexess. Qed.
Lemma x_nodes f : forall t, lexes (readNodes f t).
Proof. induction f as [|f IH]; intros t; cbn [readNodes]; unfold parseNodeDef; lexess. Qed.
Hint Resolve x_head x_nodes : lexesdb.
Lemma x_finish : lexes finishTokens. Proof. apply x_pure, p_finish. Qed.
Hint Resolve x_finish : lexesdb.
Lemma x_description f : lexes (readDescription compiles f).
Proof. unfold readDescription. lexess. Qed.
(** An error other than the one of the wrong place comes as if the text had ended there. *)
Lemma cut_error f input e c : readDescription compiles f (newContext input TWrong) = RFail e c -> e <> RE_lexer ->
  readDescription compiles f (newContext input TEnd) = RFail e (cut c).
Proof. intros E N. pose proof (x_description f (newContext input TWrong) eq_refl) as L. rewrite E in L. destruct L as (_ & L). exact (L N). Qed.
End R.
