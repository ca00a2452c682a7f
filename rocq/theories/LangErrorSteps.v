(** Reading of descriptions (LangText.v): where it stops on a syntax error, step by step. *)
From Coq Require Import ZArith List Bool Lia.
From Verif Require Import Base BaseProofs Grammar LangBuild LangString LangText LangTextSpec LangTextFuel LangTextTotal LangDescSpec LangDescParse LangErrorLocal.
Import ListNotations.
Open Scope Z_scope.

(** ** The end of the text is read once all tokens have been *)
Definition ended (c : ctx) : Prop := cTail c = TEoi -> cInput c = [] /\ cSaved c = None.
Definition keeps {A} (m : M A) : Prop := forall c, ended c -> match m c with ROk _ c' | RFail _ c' => ended c' | _ => True end.
Lemma k_bind {A B} (m : M A) (f : A -> M B) : keeps m -> (forall x, keeps (f x)) -> keeps (bind m f).
Proof. intros K F c E. specialize (K c E). unfold bind. destruct (m c) as [x c1|e c1| |]; try exact K. exact (F x c1 K). Qed.
Lemma k_pure {A} (m : M A) : pure m -> keeps m.
Proof.
  intros P c E. rewrite (ctx_eta c), P. destruct (m (core c)) as [x c1|e c1| |]; cbn; try exact I; exact E.
Qed.
Lemma k_hang {A} : keeps (@hang A). Proof. intros c E. exact I. Qed.
Lemma k_ignore {A} (m : M (option A)) : keeps m -> keeps (ignoreError m).
Proof. intros K c E. specialize (K c E). unfold ignoreError. destruct (m c); exact K. Qed.
Lemma k_fetch types b : keeps (fetch types b).
Proof.
  intros c E. unfold fetch, takeToken, nextToken, bind. destruct (cSaved c) as [t|] eqn:S.
  - assert (N : cTail c <> TEoi) by (intros X; destruct (E X); congruence). assert (X : forall s, ended (setInput (cInput c) (cTail c) s c)) by (intros s Y; cbn in Y; contradiction).
    destruct (matches types t); cbn; [apply X|]. destruct (isEof t); [destruct b; cbn; apply X|]. destruct b; cbn; apply X.
  - destruct (cInput c) as [|t r] eqn:IN.
    + destruct (cTail c) eqn:TL; [| |cbn; intros Y; congruence].
      * assert (X : ended (setInput [] TEoi None c)) by (intros Y; cbn; auto). cbn. destruct (matches types _); cbn; [exact X|]. destruct b; exact X.
      * cbn. destruct (matches types _); cbn; [exact E|]. destruct b; exact E.
    + assert (N : cTail c <> TEoi) by (intros X; destruct (E X); congruence). assert (X : forall s s', ended (setInput r (cTail c) s (setInput r (cTail c) s' c))) by (intros s s' Y; cbn in Y; contradiction). assert (X' : forall s, ended (setInput r (cTail c) s c)) by (intros s Y; cbn in Y; contradiction).
      unfold processToken. destruct (tKind t); try (cbn; destruct (matches types _); cbn; [apply X'|]; destruct (isEof t); [destruct b; cbn; apply X'|]; destruct b; cbn; [apply X'|apply X]).
      destruct (processString (tText t)); cbn; try exact I; try apply X'. destruct (matches types _); cbn; [apply X'|]. destruct b; cbn; [apply X'|apply X].
Qed.
Create HintDb keepdb.
#[export] Hint Resolve k_fetch k_hang : keepdb.
Ltac keepss := repeat first [solve [auto with keepdb] | solve [apply k_pure; pures] | apply k_bind | apply k_ignore | match goal with |- forall _, _ => intros ? end | match goal with |- keeps (match ?x with _ => _ end) => destruct x end].
Lemma k_strict types : keeps (fetchStrict types). Proof. unfold fetchStrict. keepss. Qed.
Lemma k_skip typ : keeps (skipOne typ). Proof. unfold skipOne. keepss. Qed.
#[export] Hint Resolve k_strict k_skip : keepdb.
Lemma k_fetchAll types f : keeps (fetchAll f types). Proof. induction f as [|f IH]; cbn [fetchAll]; keepss. Qed.
#[export] Hint Resolve k_fetchAll : keepdb.
Lemma k_args f : keeps (parseArgs f). Proof. induction f as [|f IH]; cbn [parseArgs]; keepss. Qed.
#[export] Hint Resolve k_args : keepdb.
Lemma k_commands f : keeps (parseCommands f). Proof. induction f as [|f IH]; cbn [parseCommands]; keepss. Qed.
#[export] Hint Resolve k_commands : keepdb.
Lemma k_layer f t : keeps (parseLayerDef f t). Proof. unfold parseLayerDef. keepss. Qed.
Lemma k_dir f t : keeps (parseDir f t).
Proof. unfold parseDir, parseTokenFlagDir, parseGroupDir, parseReservedDir, parseLiteralDir. keepss. Qed.
#[export] Hint Resolve k_layer k_dir : keepdb.
Lemma k_chunks f : keeps (parseGroup f) /\ keeps (parseVariants f) /\ keeps (parseMore f) /\ keeps (parseVariant f).
Proof.
  induction f as [|f (I1 & I2 & I3 & I4)]; [repeat split; intros c E; exact I|]. split; [|split; [|split]]; cbn [parseGroup parseVariants parseMore parseVariant]; keepss.
Qed.
Lemma k_group f : keeps (parseGroup f). Proof. apply k_chunks. Qed.
#[export] Hint Resolve k_group : keepdb.
Section R.
Variable compiles : name -> bool.
Lemma k_regexp f : keeps (fetchRegexp compiles f). Proof. unfold fetchRegexp. keepss. Qed.
Hint Resolve k_regexp : keepdb.
Lemma k_regexpDef f : keeps (regexpDef compiles f). Proof. unfold regexpDef. keepss. Qed.
Lemma k_headRecord f t : keeps (headRecord compiles f t).
Proof. unfold headRecord, typeDefined, parseTemplateDef, parseTokenDef. keepss. Qed.
Lemma k_nodeRecord f t : keeps (nodeRecord f t).
Proof. unfold nodeRecord, readNode, nodeFree, parseNodeDef. keepss. Qed.
End R.

(** ** Steps *)
Definition ready (ts : list tok) (c : ctx) : Prop := at_ ts (core c) c /\ ended c.
(** the last token taken has not been put back *)
Definition fresh (c : ctx) : Prop := cSaved c = None /\ cTail c = TEnd.
Lemma ready_tail t ts c : ready (t :: ts) c -> cTail c = TEnd.
Proof.
  intros ([A B C D E] & F). destruct (cTail c) eqn:T; [reflexivity| |contradiction]. exfalso. destruct (F T) as (X & Y). unfold stream in B. rewrite X, Y in B. discriminate.
Qed.
Lemma at_ready ts c0 c : at_ ts c0 c -> ended c -> ready ts c.
Proof. intros A E. split; [|exact E]. rewrite (at_core _ _ _ A). exact A. Qed.
Lemma k_ok {A} (m : M A) c x c' : keeps m -> ended c -> m c = ROk x c' -> ended c'.
Proof. intros K E H. specialize (K c E). rewrite H in K. exact K. Qed.
Lemma ready_ended ts c : ready ts c -> ended c. Proof. intros (_ & E). exact E. Qed.
Lemma ready_ok {A} (m : M A) ts ts' c0 c x c' : keeps m -> ready ts c -> m c = ROk x c' -> at_ ts' c0 c' -> ready ts' c'.
Proof. intros K (_ & E) H AT. apply (at_ready _ c0); [exact AT|]. exact (k_ok _ _ _ _ K E H). Qed.
Lemma take_fresh t ts c c' : ready (t :: ts) c -> takeToken c = ROk t c' -> fresh c'.
Proof.
  intros R H. pose proof (ready_tail _ _ _ R) as TL. destruct R as (A & _). destruct (take_hit _ _ _ _ A) as (c1 & H1 & A1 & S). rewrite H1 in H. injection H as ->. split; [exact S|].
  destruct l_take as [LM _]. pose proof (LM c) as X. rewrite H1 in X. destruct X as (_ & [X|X]); [congruence|]. exfalso.
  unfold takeToken in H1. destruct (cSaved c) eqn:SV; [injection H1 as _ <-; cbn in X; congruence|]. unfold bind, nextToken in H1. destruct (cInput c) as [|u r] eqn:IN.
  - pose proof (at_stream _ _ _ A) as B. unfold stream in B. rewrite SV, IN in B. discriminate.
  - unfold processToken in H1. destruct (tKind u); try (injection H1 as _ <-; cbn in X; congruence). destruct (processString (tText u)); try discriminate. injection H1 as _ <-; cbn in X; congruence.
Qed.

(** ** Errors *)
(** the ones reported at a token, and the one reported at the end of the text *)
Definition wrongAt (e : readError) (t : tok) : Prop := e = RE_unexpected t \/ e = RE_unknownDirective t.
Definition syntax (e : readError) : Prop := e = RE_eof \/ exists t, wrongAt e t.
(** tokens [p] are read, then comes the wrong one, the last one taken *)
Definition stops (e : readError) (ts p : list tok) (c' : ctx) : Prop :=
  e = RE_eof /\ p = ts /\ cTail c' = TEoi \/ exists t ts', wrongAt e t /\ ts = p ++ t :: ts' /\ map dec (cInput c') = ts' /\ fresh c'.
Lemma stops_app a e ts p c' : stops e ts p c' -> stops e (a ++ ts) (a ++ p) c'.
Proof. intros [(-> & -> & TE)|(t & ts' & W & -> & M & F)]; [left; auto|]. right. exists t, ts'. rewrite <- app_assoc. auto. Qed.
Lemma stops_cons a e ts p c' : stops e ts p c' -> stops e (a :: ts) (a :: p) c'.
Proof. apply (stops_app [a]). Qed.
Lemma stops_nil e p c' : stops e [] p c' -> p = [] /\ e = RE_eof /\ cTail c' = TEoi.
Proof. intros [(-> & -> & TE)|(t & ts' & _ & E & _)]; [auto|]. destruct p; discriminate. Qed.
Definition calm {A} (m : M A) : Prop := forall c e c', m c = RFail e c' -> ~ syntax e.
Ltac nosyntax := let H := fresh in intros [H|(? & [H|H])]; discriminate H.
Lemma c_bind {A B} (m : M A) (f : A -> M B) : calm m -> (forall x, calm (f x)) -> calm (bind m f).
Proof. intros C F c e c'. unfold bind. destruct (m c) as [x c1|e1 c1| |] eqn:E; try discriminate; [apply F|]. intros H. injection H as -> ->. exact (C _ _ _ E). Qed.
Lemma c_ret {A} (x : A) : calm (ret x). Proof. intros c e c' H. discriminate. Qed.
Lemma c_get {A} (f : ctx -> A) : calm (get f). Proof. intros c e c' H. discriminate. Qed.
Lemma c_modify f : calm (modify f). Proof. intros c e c' H. discriminate. Qed.
Lemma c_orCrash {A} (o : option A) : calm (orCrash o). Proof. intros c e c' H. destruct o; discriminate. Qed.
Lemma c_fail {A} e : ~ syntax e -> calm (@fail A e). Proof. intros N c e' c' H. injection H as <- _. exact N. Qed.
Lemma c_each {A} (f : A -> M unit) l : (forall x, calm (f x)) -> calm (each f l).
Proof. intros F. induction l as [|x l IH]; cbn [each]; [apply c_ret|]. apply c_bind; auto. Qed.
Lemma c_changeToken i f : calm (changeToken i f). Proof. intros c e c' H. unfold changeToken in H. destruct (zget _ _); discriminate. Qed.
Lemma c_changeExtra i f : calm (changeExtra i f). Proof. intros c e c' H. unfold changeExtra in H. destruct (zget _ _); discriminate. Qed.
Ltac calms := repeat first [apply c_ret | apply c_get | apply c_modify | apply c_orCrash | apply c_changeToken | apply c_changeExtra | (apply c_fail; nosyntax) | apply c_bind | apply c_each | match goal with |- forall _, _ => intros ? end | match goal with |- calm (match ?x with _ => _ end) => destruct x end].
Lemma c_textFrom n t : calm (textFrom n t). Proof. apply c_orCrash. Qed.
Lemma c_unquoted t : calm (unquoted t). Proof. apply c_orCrash. Qed.
Lemma c_addNode n d : calm (addNode n d). Proof. unfold addNode. calms. Qed.
Lemma c_useLiteral n fl : calm (useLiteralToken n fl). Proof. unfold useLiteralToken. calms. Qed.
Lemma c_addToken n re fl : calm (addToken n re fl). Proof. unfold addToken. calms. Qed.
Lemma c_typeRef n : calm (typeRef n). Proof. unfold typeRef. calms. Qed.
Lemma c_literalRef n : calm (literalRef n). Proof. unfold literalRef, useLiteralToken. calms. Qed.
Lemma c_join l : calm (joinRegexp l). Proof. induction l as [|t l IH]; cbn [joinRegexp]; [apply c_ret|]. apply c_bind; [destruct (tKind t); try apply c_ret; [calms|apply c_unquoted]|]. intros s. apply c_bind; [exact IH|]. intros; apply c_ret. Qed.
Lemma c_addExtra n : calm (addExtraToken n). Proof. unfold addExtraToken. calms. Qed.
Lemma c_addFlag n fl : calm (addTokenFlag n fl). Proof. unfold addTokenFlag, addExtraToken. calms. Qed.
Lemma c_groupToken n : calm (groupToken n). Proof. unfold groupToken, addExtraToken. calms. Qed.
Lemma c_addLiteral n fl : calm (addLiteralToken n fl). Proof. apply c_modify. Qed.
Lemma c_dirActs n tokens : calm (dirActs n tokens).
Proof. unfold dirActs, textFrom, unquoted, addTokenFlag, groupToken, addExtraToken, addLiteralToken. calms. Qed.
Lemma c_typeDefined n : calm (typeDefined n). Proof. unfold typeDefined. calms. Qed.
Lemma c_nodeFree n : calm (nodeFree n). Proof. unfold nodeFree. calms. Qed.
Lemma c_finish : calm finishTokens. Proof. unfold finishTokens, addExterns, addToken, useLiteralToken. calms. Qed.

(** ** Fetching *)
Lemma take_tail c0 c t c' : at_ [] c0 c -> takeToken c = ROk t c' -> cTail c' = TEoi.
Proof.
  intros [A B C D E]. unfold takeToken. unfold stream in B. destruct (cSaved c) as [u|] eqn:SV; [discriminate|]. destruct (cInput c) as [|u r] eqn:IN; [|discriminate]. unfold bind, nextToken. rewrite IN. destruct (cTail c) eqn:TL; [| |congruence]; intros H; injection H as _ <-; [reflexivity|exact TL].
Qed.
Lemma fetch_err types ts c e c' : ready ts c -> fetch types true c = RFail e c' -> stops e ts [] c'.
Proof.
  intros R H. pose proof R as (A & E). destruct ts as [|t ts].
  - destruct (take_end _ _ A) as (t & c1 & T & A1 & EO & TX). unfold fetch, bind in H. rewrite T, EO in H. destruct (matches types t); [discriminate|]. injection H as <- <-. left. split; [reflexivity|]. split; [reflexivity|]. exact (take_tail _ _ _ _ A T).
  - assert (TT : taken t) by (pose proof (at_taken _ _ _ A) as X; inversion X; assumption). destruct (take_hit _ _ _ _ A) as (c1 & T & A1 & S). pose proof (take_fresh _ _ _ _ R T) as F. unfold fetch, bind in H. rewrite T, (taken_kind t TT) in H. destruct (matches types t); [discriminate|].
    injection H as <- <-. right. exists t, ts. split; [left; reflexivity|]. split; [reflexivity|]. split; [|exact F]. rewrite <- (at_stream _ _ _ A1). unfold stream. rewrite S. reflexivity.
Qed.
Lemma fetch_calm types ts c e c' : ready ts c -> fetch types false c <> RFail e c'.
Proof.
  intros (A & E) H. destruct ts as [|t ts].
  - destruct (take_end _ _ A) as (t & c1 & T & A1 & EO & TX). unfold fetch, bind in H. rewrite T, EO in H. destruct (matches types t); discriminate.
  - assert (TT : taken t) by (pose proof (at_taken _ _ _ A) as X; inversion X; assumption). destruct (take_hit _ _ _ _ A) as (c1 & T & A1 & S). unfold fetch, bind in H. rewrite T, (taken_kind t TT) in H. destruct (matches types t); discriminate.
Qed.
Lemma bind_fail {A B} (m : M A) (f : A -> M B) c e c' : bind m f c = RFail e c' -> m c = RFail e c' \/ exists x c1, m c = ROk x c1 /\ f x c1 = RFail e c'.
Proof. unfold bind. destruct (m c) as [x c1|e1 c1| |]; try discriminate; eauto. intros H. injection H as -> ->. auto. Qed.
Lemma strict_err types ts c e c' : ready ts c -> fetchStrict types c = RFail e c' -> stops e ts [] c'.
Proof.
  intros R H. unfold fetchStrict in H. apply bind_fail in H. destruct H as [H|(o & c1 & H & H')]; [exact (fetch_err _ _ _ _ _ R H)|]. destruct o; discriminate.
Qed.
Lemma skip_err typ ts c e c' : ready ts c -> skipOne typ c = RFail e c' -> stops e ts [] c'.
Proof.
  intros R H. unfold skipOne in H. apply bind_fail in H. destruct H as [H|(o & c1 & H & H')]; [exact (fetch_err _ _ _ _ _ R H)|]. discriminate.
Qed.
Lemma fetchAll_calm types : forall f ts c e c', ready ts c -> fetchAll f types c <> RFail e c'.
Proof.
  induction f as [|f IH]; intros ts c e c' R H; [discriminate|]. cbn [fetchAll] in H. apply bind_fail in H. destruct H as [H|(o & c1 & H & H')]; [exact (fetch_calm _ _ _ _ _ R H)|].
  destruct o as [t|]; [|discriminate]. apply bind_fail in H'. destruct H' as [H'|(l & c2 & _ & H')]; [|discriminate]. pose proof (fetch_inv _ _ _ _ _ _ _ (proj1 R) H) as F.
  inversion F as [b u ts2 c3 E T MT A2 B1 B2 B3|b u c3 E EO MT TX A2 B1 B2 B3|]; subst; (eapply IH; [|exact H']; eapply ready_ok; [apply k_fetch|exact R|exact H|exact A2]).
Qed.
(** a token fetched *)
Lemma strict_ok types ts c t c' : noEof types -> ready ts c -> fetchStrict types c = ROk t c' -> exists ts', ts = t :: ts' /\ taken t /\ matches types t = true /\ ready ts' c' /\ fresh c'.
Proof.
  intros NE R H. destruct (strict_inv _ _ _ _ _ _ NE (proj1 R) H) as (ts' & -> & T & MT & A). exists ts'. split; [reflexivity|]. split; [exact T|]. split; [exact MT|]. split; [eapply ready_ok; [apply k_strict|exact R|exact H|exact A]|].
  destruct (take_hit _ _ _ _ (proj1 R)) as (c1 & T1 & _ & _). pose proof (take_fresh _ _ _ _ R T1) as F. unfold fetchStrict, fetch, bind in H. rewrite T1, MT in H. cbn in H. injection H as <-. exact F.
Qed.
Lemma skip_ok b ts c u c' : opByte b -> ready ts c -> skipOne [b] c = ROk u c' -> exists ts', ts = op b :: ts' /\ ready ts' c'.
Proof.
  intros O R H. destruct (skip_inv _ _ _ _ _ _ (noEof_op b O) (proj1 R) H) as (t & ts' & -> & T & MT & A). apply match_op in MT; [|exact O|exact T]. subst t. exists ts'. split; [reflexivity|]. eapply ready_ok; [apply k_skip|exact R|exact H|exact A].
Qed.
Lemma pure_ok {A} (m : M A) ts c x c' : pure m -> ready ts c -> m c = ROk x c' -> ready ts c'.
Proof. intros P R H. destruct (pure_inv _ _ _ _ _ _ P (proj1 R) H) as (_ & AT). eapply ready_ok; [apply k_pure, P|exact R|exact H|exact AT]. Qed.
Lemma ready_start input : Forall decodes input -> ready (map dec input) (newContext input TEnd).
Proof. intros D. split; [apply (at_start input TEnd D); discriminate|]. intros E. discriminate. Qed.
