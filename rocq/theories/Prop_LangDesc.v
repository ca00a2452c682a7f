(** Descriptions mean what the documentation says: what is accepted is written and correct (C52), what is written and correct is
    accepted (C53). *)
From Coq Require Import String ZArith Bool Lia Permutation List.
From Verif Require Import Base BaseProofs Grammar LangBuild LangSpec LangNodes LangTypes LangCompile LangString LangStringSpec Prop_LangString LangText LangTextSpec LangTextFuel LangTextTotal
  Prop_LangCompile Prop_LangText LangDescSpec LangDescParse LangDescHead LangDescNodes LangDescAll LangDescUnique LangDescWrong.
Import ListNotations.
Open Scope Z_scope.

(** ** Tokens of records *)
Section Written.
Variable Q : tok -> name -> Prop.
Hypothesis QK : forall t s, Q t s -> tKind t = KString.
Definition inner (t : tok) : Prop := tKind t <> KDir /\ (tKind t = KString -> exists s, Q t s).
Lemma inner_other k s : k <> KDir -> k <> KString -> inner (mkT k s).
Proof. intros A B. split; [exact A|]. intros E. contradiction. Qed.
Lemma inner_string t s : Q t s -> inner t.
Proof. intros H. split; [rewrite (QK _ _ H); discriminate|]. intros _. eauto. Qed.
Lemma inner_op b : inner (op b). Proof. apply inner_other; discriminate. Qed.
Lemma inner_seqs : (forall ts l, spSeq Q ts l -> Forall inner ts) /\ (forall ts l, spItem Q ts l -> Forall inner ts) /\ (forall ts v, spVar Q ts v -> Forall inner ts).
Proof.
  apply sp_ind.
  - auto.
  - intros. apply Forall_app. split; [assumption|]. constructor; [apply inner_op|assumption].
  - auto.
  - intros. apply Forall_app. split; [assumption|]. constructor; [apply inner_op|assumption].
  - intros. constructor; [apply inner_other; discriminate|constructor].
  - intros. constructor; [apply inner_other; discriminate|constructor].
  - intros. constructor; [apply inner_other; discriminate|constructor].
  - intros. constructor; [eapply inner_string; eassumption|constructor].
  - intros b ts l _ IH. constructor; [apply inner_op|]. apply Forall_app. split; [exact IH|]. constructor; [apply inner_op|constructor].
Qed.
Lemma inner_record ts r : spRecord Q ts r -> exists t0 l, ts = t0 :: l /\ tKind t0 <> KString /\ Forall inner l /\ (tKind t0 = KDir -> exists m, l = m ++ [op 59] /\ Forall (fun t => ~ typeWord t /\ t <> op 59) m).
Proof.
  assert (ARGS : forall ts l, spArgs Q ts l -> Forall inner ts).
  { assert (A1 : forall t a, spLArg Q t a -> inner t) by (intros t a H; destruct H; [apply inner_other; discriminate|eapply inner_string; eassumption]). induction 1; [constructor; [eauto|constructor]|]. constructor; [eauto|]. constructor; [apply inner_op|assumption]. }
  assert (CMD : forall ts x, spCommand Q ts x -> Forall inner ts).
  { intros ts0 x H. destruct H; [repeat (constructor; [apply inner_other; discriminate|]); constructor|]. constructor; [apply inner_other; discriminate|]. constructor; [apply inner_op|]. apply Forall_app. split; [eapply ARGS; eassumption|]. constructor; [apply inner_op|constructor]. }
  assert (CMDS : forall ts x, spCommands Q ts x -> Forall inner ts). { induction 1; [constructor|]. apply Forall_app. split; [eapply CMD; eassumption|assumption]. }
  assert (PT : forall ts ps, Forall2 spPart ts ps -> Forall inner ts). { induction 1 as [|t p ts0 ps H _ IH]; [constructor|]. constructor; [destruct H; apply inner_other; discriminate|exact IH]. }
  assert (SEMI : Forall inner [op 59]) by (constructor; [apply inner_op|constructor]).
  intros H. destruct H as [d ts args F|n ts ps NE F|n ts ps NN NE F|n ts l F|n ts l F]; (eexists _, _; split; [reflexivity|]; split; [discriminate|]).
  - split.
    + apply Forall_app. split; [|exact SEMI]. induction F as [|t a ts0 l A _ IH]; [constructor|]. constructor; [|exact IH]. destruct A; [apply inner_other; discriminate|eapply inner_string; eassumption].
    + intros _. exists ts. split; [reflexivity|]. clear SEMI. induction F as [|t a ts0 l A _ IH]; [constructor|]. constructor; [|exact IH]. destruct A as [d n ND|d t s DD QS]; [split; [intros (X & _); discriminate X|discriminate]|]. split; [intros (X & _)|intros ->]; apply QK in QS; [rewrite QS in X; discriminate X|discriminate QS].
  - split; [|discriminate]. constructor; [apply inner_op|]. apply Forall_app. split; [eapply PT; eassumption|exact SEMI].
  - split; [|discriminate]. constructor; [apply inner_op|]. apply Forall_app. split; [eapply PT; eassumption|exact SEMI].
  - split; [|discriminate]. constructor; [apply inner_other; discriminate|]. apply Forall_app. split; [eapply CMDS; eassumption|exact SEMI].
  - split; [|discriminate]. constructor; [apply inner_op|]. apply Forall_app. split; [apply (proj1 inner_seqs _ _ F)|exact SEMI].
Qed.
Lemma records_strings ts rs : spRecords Q ts rs -> forall t, In t ts -> tKind t = KString -> exists s, Q t s.
Proof.
  induction 1 as [|ts r ts' l SR _ IH]; intros t I0 K; [destruct I0|]. apply in_app_iff in I0. destruct I0 as [I0|I0]; [|apply IH; assumption]. destruct (inner_record _ _ SR) as (t0 & m & -> & N & F & _). destruct I0 as [<-|I0]; [contradiction|]. rewrite Forall_forall in F. apply (F t I0), K.
Qed.
Lemma prefix_in {A} (m : list A) s : forall b t r l, b ++ t :: r = m ++ s :: l -> ~ In s b -> In t (m ++ [s]).
Proof.
  induction m as [|x m IH]; intros [|y b] t r l E N; cbn [app] in E.
  - injection E as -> _. left. reflexivity.
  - injection E as -> _. destruct N. left. reflexivity.
  - injection E as -> _. left. reflexivity.
  - injection E as _ E. right. eapply IH; [exact E|]. intros X. apply N. right. exact X.
Qed.
Lemma records_plain ts rs : spRecords Q ts rs -> plainArguments ts.
Proof.
  induction 1 as [|ts r ts' l SR _ IH]; intros a d b t u E K N.
  - destruct a; discriminate.
  - destruct (inner_record _ _ SR) as (t0 & m & -> & NS & F & D). cbn [app] in E. destruct a as [|x a]; cbn [app] in E.
    + injection E as -> E. destruct (D K) as (m' & -> & FM). rewrite <- app_assoc in E. cbn [app] in E. symmetry in E. pose proof (prefix_in _ _ _ _ _ _ E N) as I0. apply in_app_iff in I0. destruct I0 as [I0|[<-|[]]]; [rewrite Forall_forall in FM; apply (FM t I0)|intros (X & _); discriminate X].
    + injection E as -> E. assert (X : exists a', a = m ++ a' /\ ts' = a' ++ d :: b ++ t :: u).
      { clear - E K F. revert a E. induction F as [|y m (Y & _) F IH]; intros a E; cbn [app] in E; [exists a; auto|]. destruct a as [|z a]; cbn [app] in E; injection E as -> E; [contradiction|]. destruct (IH _ E) as (a' & -> & ->). exists a'. auto. }
      destruct X as (a' & -> & E'). exact (IH _ _ _ _ _ E' K N).
Qed.
End Written.
Lemma string_kind t s : stringOf t s -> tKind t = KString.
Proof. intros H. destruct H; reflexivity. Qed.
Lemma readable_decodes input : readable input -> Forall decodes input.
Proof.
  intros (L & S). apply Forall_forall. intros t I0. rewrite Forall_forall in L. split; [apply L, I0|]. intros K. destruct (S t I0 K) as (s & H). specialize (L t I0). destruct H as [s u DN|s NI]; cbn [tText].
  - inversion L as [b' B E| | | | | | | |]; subst. apply app_inj_tail in E. destruct E as (-> & _). destruct (string_decoding_partial s B) as (A & _). exists (34 :: u ++ [34]). apply A. eauto.
  - rewrite single_quoted_verbatim. eauto.
Qed.
Lemma dec_plain input : plainArguments input -> plainArguments (map dec input).
Proof.
  intros P a d b t r E K N (T1 & T2). apply map_eq_app in E. destruct E as (a' & x & -> & <- & E). destruct x as [|d' x]; [discriminate|]. cbn [map] in E. injection E as <- E. apply map_eq_app in E. destruct E as (b' & y & -> & <- & E). destruct y as [|t' r']; [discriminate|]. cbn [map] in E. injection E as <- <-.
  rewrite dec_kind in K. rewrite dec_kind in T1. rewrite (dec_other t') in T2 by congruence. apply (P a' d' b' t' r' eq_refl K); [|split; assumption]. intros I0. apply N. change (op 59) with (dec (op 59)). apply in_map, I0.
Qed.

(** ** The theorems *)
(** A description, written down, is a description in one way only. *)
Theorem description_unique input rs rs' : Forall lexed input -> spells input rs -> spells input rs' -> rs = rs'.
Proof.
  intros L (A & _) (B & _). assert (D : Forall decodes input) by (apply readable_decodes; split; [exact L|]; apply (records_strings _ string_kind _ _ A)).
  apply (records_dec _ _ D) in A. apply (records_dec _ _ D) in B. exact (records_unique _ quoted_kind quoted_unique _ _ A _ B).
Qed.

Section Text.
Variable compiles : name -> bool.
Variable fullMatch : name -> name -> bool.
Variable toUpper : name -> name.
Variable orders : nat -> list Z * list Z * list Z.
Notation parse fuel input end_ := (parseText compiles fullMatch toUpper fuel orders input end_).
Notation compile fuel rs res := (let '(o1, o2, o3) := orders (length (nodeNames rs)) in
  compileDescription fullMatch toUpper fuel o1 o2 o3 (tokensOf rs res) (layersOf rs) (nodeNames rs) (map (definition rs) (nodeNames rs))).

Lemma read_says fuel input end_ c : readable input -> plainArguments input -> readDescription compiles fuel (newContext input end_) = ROk tt c ->
  end_ <> TWrong /\ exists rs, spells input rs /\ groupsKept rs /\ exists res, valid compiles rs res /\ collected rs res c.
Proof.
  intros RD P E. assert (NW : end_ <> TWrong) by (intros ->; exact (wrong_never compiles _ _ _ _ (proj1 RD) E)). split; [exact NW|].
  pose proof (readable_decodes _ RD) as D. destruct (description_sound compiles _ _ _ _ D NW (dec_plain _ P) E) as (hd & nodes & SR & NH & NN & LN & ID). apply (records_dec _ _ D) in SR. exists (hd ++ nodes). split.
  - split; [exact SR|]. apply ordered_split. exists hd, nodes. auto.
  - pose proof (description_run compiles hd nodes (fits_app _ _ (records_fit _ _ _ (proj1 RD) SR)) NH LN) as X. rewrite ID in X. exact X.
Qed.
Lemma says_read input end_ rs : Forall lexed input -> end_ <> TWrong -> spells input rs ->
  (groupsKept rs /\ (exists res, valid compiles rs res) -> exists fuel c res, readDescription compiles fuel (newContext input end_) = ROk tt c /\ valid compiles rs res /\ collected rs res c) /\
  ((exists fuel c, readDescription compiles fuel (newContext input end_) = ROk tt c) -> groupsKept rs /\ exists res, valid compiles rs res).
Proof.
  intros L NW SP. pose proof (proj1 SP) as SR. assert (RD : readable input) by (split; [exact L|]; apply (records_strings _ string_kind _ _ SR)). split.
  - intros (KP & res & V). pose proof (readable_decodes _ RD) as D. destruct (proj1 (ordered_split rs) (proj2 SP)) as (hd & nodes & -> & NH & NN & LN).
    pose proof (description_run compiles hd nodes (fits_app _ _ (records_fit _ _ _ L SR)) NH LN) as X. destruct (iDescription compiles hd nodes start) as [[] c|e c| |] eqn:ID; try contradiction; [|destruct (X res KP V)].
    destruct X as (_ & res' & V' & C'). apply (records_dec _ _ D) in SR. destruct (description_complete compiles input end_ hd nodes c D NW SR NH NN LN ID) as (f & c' & R & CO). exists f, c', res'. split; [exact R|]. split; [exact V'|]. destruct C' as (C1 & C2 & C3 & C4). subst c. exact (conj C1 (conj C2 (conj C3 C4))).
  - intros (fuel & c & E). destruct (read_says _ _ _ _ RD (records_plain _ string_kind _ _ SR) E) as (_ & rs' & SP' & KP & res & V & _). rewrite (description_unique _ _ _ L SP SP') in *. eauto.
Qed.
Lemma valid_unique rs res res' : valid compiles rs res -> valid compiles rs res' -> res = res'.
Proof. intros [A _ _ _ _ _ _] [B _ _ _ _ _ _]. congruence. Qed.

(** Go iterates over all the items of a map, in any order *)
Hypothesis anyOrders : forall n, let '(o1, o2, o3) := orders n in Permutation o1 (indexes n) /\ Permutation o2 (indexes n) /\ Permutation o3 (indexes n).
Definition answerOf (v : verdict) : answer :=
  match v with
  | Compiled g => AGrammar g
  | BadLiteral n => ALiteralError n
  | BadNodes e => ANodesError e
  | Endless => ANever
  | Panic => APanic
  end.
Notation compileNow fuel rs res := (let '(o1, o2, o3) := orders (length (nodeNames rs)) in
  compileDescription fullMatch toUpper fuel o1 o2 o3 (tokensNow rs res) (layersOf rs) (nodeNames rs) (map (definition rs) (nodeNames rs))).
Lemma parse_collected fuel input end_ c rs res : readDescription compiles fuel (newContext input end_) = ROk tt c -> collected rs res c -> parse fuel input end_ = answerOf (compileNow fuel rs res).
Proof.
  intros E (C1 & C2 & C3 & C4). unfold parseText. rewrite E. rewrite C4, map_length. destruct (orders (length (nodeNames rs))) as ((o1, o2), o3). rewrite C1, C2, C3. reflexivity.
Qed.
Lemma records_end ts rs : spRecords stringOf ts rs -> rs <> [] -> exists l, ts = l ++ [op 59].
Proof.
  intros H. induction H as [|ts r ts' l SR SS IH]; intros N; [contradiction|]. assert (E : exists l0, ts = l0 ++ [op 59]) by (inversion SR; subst; [exists (mkT KDir (dirName d) :: ts0)|exists (mkT KTemplate (36 :: 36 :: n) :: op 61 :: ts0)|exists (mkT KToken (36 :: n) :: op 61 :: ts0)|exists (op 64 :: mkT KName n :: ts0)|exists (mkT KName n :: op 61 :: ts0)]; reflexivity).
  destruct l as [|r' l]; [inversion SS; subst; rewrite app_nil_r; exact E|]. destruct (IH ltac:(discriminate)) as (l0 & ->). exists (ts ++ l0). rewrite <- app_assoc. reflexivity.
Qed.
Lemma spelled_ends input rs : spells input rs -> endsWell input TEnd.
Proof.
  intros (SR & (hd & root & rest & -> & _)). right. right. destruct (records_end _ _ SR) as (l & ->); [destruct hd; discriminate|]. exists l, (op 59). split; [reflexivity|]. split; [reflexivity|]. discriminate.
Qed.
Lemma grammar_fields fuel o1 o2 o3 tokens layers names defs g : compileDescription fullMatch toUpper fuel o1 o2 o3 tokens layers names defs = Compiled g -> gLayers g = layers.
Proof.
  unfold compileDescription. destruct (tokenTypes fullMatch toUpper tokens) as [[tt0|n]|]; try discriminate. destruct (checkNodes fuel o1 o2 o3 defs) as [((firsts, fs), p)|e| |]; try discriminate. destruct (obind _ _) as [g0|] eqn:B; [|discriminate]. intros E. injection E as ->.
  destruct (stateTypes _ _ _ _) as [es|]; [|discriminate]. cbn [obind] in B. unfold buildGrammar in B. destruct (dropUnusedStates fs es) as [(fs', es')|]; [|discriminate]. cbn [obind] in B. destruct (writeStates _ _ _) as [((sts, rules), multi)|]; [|discriminate]. injection B as <-. reflexivity.
Qed.

(** *** C52 *)
(** Full statement: if a description is accepted, then its text is written by the rules of the documentation and is correct, and the
    grammar has the tokens, layers, nodes and definitions the text says.  Holds when strings are well-formed, words "token-name" and
    "string" are not arguments of directives, no type is listed in !group twice and no reserved word is listed in !literal before. *)
(** With no conditions on the order of directives: the last group of a type and the first mention of a word count. *)
Theorem accepted_any_order_partial fuel input end_ g : readable input -> plainArguments input -> parse fuel input end_ = AGrammar g ->
  end_ <> TWrong /\ exists rs res, spells input rs /\ groupsKept rs /\ valid compiles rs res /\
     gTokens g = tokensNow rs res /\ gLayers g = layersOf rs /\ map gnName (gNodes g) = nodeNames rs /\ compileNow fuel rs res = Compiled g.
Proof.
  intros RD P E. pose proof E as E0. unfold parseText in E. destruct (readDescription compiles fuel (newContext input end_)) as [[] c|e c| |] eqn:R; try discriminate. destruct (read_says _ _ _ _ RD P R) as (NW & rs & SP & KP & res & V & C). split; [exact NW|]. exists rs, res. split; [exact SP|]. split; [exact KP|].
  split; [exact V|]. rewrite (parse_collected _ _ _ _ _ _ R C) in E0.
  assert (RW : readWell (tokensNow rs res) (nodeNames rs) (map (definition rs) (nodeNames rs))).
  { destruct C as (C1 & _ & C3 & C4). rewrite <- C1, <- C4, <- C3. eapply read_descriptions_well; [exact (proj1 RD)| |exact R]. destruct end_; [apply (spelled_ends _ _ SP)| |contradiction]. destruct (spelled_ends _ _ SP) as [Y|Y]; [discriminate|]. right. exact Y. }
  specialize (anyOrders (length (nodeNames rs))). destruct (orders (length (nodeNames rs))) as ((o1, o2), o3). destruct anyOrders as (P1 & P2 & P3). destruct (compileDescription fullMatch toUpper fuel o1 o2 o3 _ _ _ _) as [g'| | | |] eqn:CD; try discriminate. injection E0 as ->.
  rewrite <- (map_length (definition rs)) in P1, P2, P3. destruct (compilation_ends fullMatch toUpper (tokensNow rs res) (layersOf rs) (nodeNames rs) _ o1 o2 o3 RW P1 P2 P3) as (n & H). specialize (H (n + fuel)%nat ltac:(lia)).
  destruct (LangFuel.le_compile fullMatch toUpper fuel (n + fuel) o1 o2 o3 (tokensNow rs res) (layersOf rs) (nodeNames rs) (map (definition rs) (nodeNames rs)) ltac:(lia)) as [Y|Y]; [congruence|]. rewrite Y, CD in H. destruct H as (_ & T & N). split; [exact T|]. split; [apply (grammar_fields _ _ _ _ _ _ _ _ _ CD)|]. split; [exact N|reflexivity].
Qed.
Lemma spelled_fit input rs : Forall lexed input -> spells input rs -> Forall fitRecord rs.
Proof. intros L (SR & _). apply (records_fit _ _ _ L SR). Qed.
Theorem accepted_description_partial fuel input end_ g : readable input -> plainArguments input -> parse fuel input end_ = AGrammar g ->
  end_ <> TWrong /\ exists rs, spells input rs /\
  (groupsApart rs -> reservedFirst rs -> exists res, valid compiles rs res /\
     gTokens g = tokensOf rs res /\ gLayers g = layersOf rs /\ map gnName (gNodes g) = nodeNames rs /\ compile fuel rs res = Compiled g).
Proof.
  intros RD P E. destruct (accepted_any_order_partial _ _ _ _ RD P E) as (NW & rs & res & SP & _ & V & X). split; [exact NW|]. exists rs. split; [exact SP|]. intros G1 G2. exists res. split; [exact V|]. rewrite <- (tokens_tidy rs res (spelled_fit _ _ (proj1 RD) SP) (conj G1 G2)). exact X.
Qed.

(** *** C53 *)
(** A description written by the rules is accepted if it is correct and groups of its types do not change after the types are defined
    (and compilation of what it says succeeds), otherwise there is an error. *)
Theorem correct_any_order input rs : Forall lexed input -> spells input rs ->
  (forall res, valid compiles rs res -> groupsKept rs -> exists n, forall fuel, (n <= fuel)%nat -> parse fuel input TEnd = answerOf (compileNow fuel rs res)) /\
  (~ (groupsKept rs /\ exists res, valid compiles rs res) -> exists n, forall fuel, (n <= fuel)%nat -> exists e, parse fuel input TEnd = AReadError e).
Proof.
  intros L SP. destruct (says_read input TEnd rs L ltac:(discriminate) SP) as (A & B). split.
  - intros res V KP. destruct (A (conj KP (ex_intro _ res V))) as (f & c & res' & R & V' & C). rewrite (valid_unique _ _ _ V V'). exists f. intros fuel F. apply (parse_collected _ _ _ c); [|exact C]. destruct (lem_description compiles f fuel F (newContext input TEnd)) as [H|H]; rewrite R in H; [discriminate|exact H].
  - intros NV. pose proof (t_description compiles (4 * length input + 5) (length input) (Nat.le_refl _) _ (HD_new _ _ L (spelled_ends _ _ SP))) as X. destruct (readDescription compiles (4 * length input + 5) (newContext input TEnd)) as [[] c|e c| |] eqn:R; try contradiction.
    + exfalso. apply NV, B. eauto.
    + exists (4 * length input + 5)%nat. intros fuel F. exists e. unfold parseText. destruct (lem_description compiles _ fuel F (newContext input TEnd)) as [H|H]; rewrite R in H; [discriminate|]. rewrite H. reflexivity.
Qed.
Theorem correct_description_partial input rs : Forall lexed input -> spells input rs -> groupsApart rs -> reservedFirst rs ->
  (forall res, valid compiles rs res -> exists n, forall fuel, (n <= fuel)%nat -> parse fuel input TEnd = answerOf (compile fuel rs res)) /\
  ((forall res, ~ valid compiles rs res) -> exists n, forall fuel, (n <= fuel)%nat -> exists e, parse fuel input TEnd = AReadError e).
Proof.
  intros L SP G1 G2. destruct (correct_any_order input rs L SP) as (A & B). split.
  - intros res V. destruct (A res V (LangDescFacts.kept_apart _ G1)) as (n & H). exists n. intros fuel F. rewrite <- (tokens_tidy rs res (spelled_fit _ _ L SP) (conj G1 G2)). exact (H fuel F).
  - intros NV. apply B. intros (_ & res & V). exact (NV res V).
Qed.
End Text.

(** ** Writing descriptions down *)
(** Any list of records can be written; strings in single quotes. *)
Definition quote (s : name) : tok := mkT KString (39 :: s ++ [39]).
Section Sep.
Context {A : Type} (w : A -> list tok) (sep : tok).
Fixpoint sepBy (l : list A) : list tok :=
  match l with
  | [] => []
  | [x] => w x
  | x :: r => w x ++ sep :: sepBy r
  end.
End Sep.
Fixpoint wVar (v : variant) : list tok :=
  match v with
  | VNode n => [mkT KName n]
  | VType n => [mkT KToken (36 :: n)]
  | VEnd => [mkT KToken [36]]
  | VLiteral s => [quote s]
  | VList b l => opening b :: sepBy (sepBy wVar (op 124)) (op 44) l ++ [closingOf b]
  end.
Definition wSeq (l : sequence) : list tok := sepBy (sepBy wVar (op 124)) (op 44) l.
Definition wPart (p : part) : tok := match p with PRegexp re => mkT KRegexp (47 :: re ++ [47]) | PTemplate n => mkT KName n end.
Definition wArg (a : arg) : tok := match a with AType n => mkT KToken (36 :: n) | AString s => quote s end.
Definition wCommand (c : gcommand) : list tok := mkT KName (gcName c) :: op 40 :: sepBy (fun s => [quote s]) (op 44) (gcArgs c) ++ [op 41].
Definition wRecord (r : record) : list tok :=
  match r with
  | RDirective d args => mkT KDir (dirName d) :: map wArg args ++ [op 59]
  | RTemplate n ps => mkT KTemplate (36 :: 36 :: n) :: op 61 :: map wPart ps ++ [op 59]
  | RType n ps => mkT KToken (36 :: n) :: op 61 :: map wPart ps ++ [op 59]
  | RLayer l => op 64 :: mkT KName (glType l) :: concat (map wCommand (glCommands l)) ++ [op 59]
  | RNode n l => mkT KName n :: op 61 :: wSeq l ++ [op 59]
  end.
Definition wAll (rs : list record) : list tok := concat (map wRecord rs).
(** what can be written so *)
Definition isEmpty {A} (l : list A) : bool := match l with [] => true | _ => false end.
Definition noQuote (s : name) : bool := negb (existsb (Z.eqb 39) s).
Fixpoint varOk (v : variant) : bool :=
  match v with
  | VType n => negb (isEmpty n)
  | VLiteral s => noQuote s
  | VList _ l => negb (isEmpty l) && forallb (fun i => negb (isEmpty i) && forallb varOk i) l
  | _ => true
  end.
Definition seqOk (l : sequence) : bool := negb (isEmpty l) && forallb (fun i => negb (isEmpty i) && forallb varOk i) l.
Definition argOk (d : directive) (a : arg) : bool :=
  match a, d with
  | AType _, DReserved => false
  | AType _, _ => true
  | AString s, (DReserved | DLiteral) => noQuote s
  | _, _ => false
  end.
Definition recordOk (r : record) : bool :=
  match r with
  | RDirective d args => forallb (argOk d) args
  | RTemplate n ps => negb (isEmpty ps)
  | RType n ps => negb (isEmpty n) && negb (isEmpty ps)
  | RLayer l => forallb (fun c => forallb noQuote (gcArgs c)) (glCommands l)
  | RNode n l => seqOk l
  end.
Lemma empty_ok {A} (l : list A) : negb (isEmpty l) = true -> l <> []. Proof. destruct l; discriminate. Qed.
Lemma quote_ok s : noQuote s = true -> stringOf (quote s) s.
Proof. intros H. apply SO_single. intros I0. unfold noQuote in H. rewrite negb_true_iff in H. assert (X : existsb (Z.eqb 39) s = true) by (apply existsb_exists; exists 39; auto). congruence. Qed.
Lemma sepItem (l : list variant) : l <> [] -> Forall (fun v => spVar stringOf (wVar v) v) l -> spItem stringOf (sepBy wVar (op 124) l) l.
Proof. intros N F. induction F as [|x [|y l] H F IH]; [contradiction|apply IT_one, H|]. apply (IT_more stringOf _ _ _ _ H), IH. discriminate. Qed.
Lemma sepSeq (l : sequence) : l <> [] -> Forall (fun i => i <> [] /\ Forall (fun v => spVar stringOf (wVar v) v) i) l -> spSeq stringOf (wSeq l) l.
Proof.
  unfold wSeq. intros N F. induction F as [|x [|y l] (H1 & H2) F IH]; [contradiction|apply SQ_one, sepItem; assumption|]. apply (SQ_more stringOf (sepBy wVar (op 124) x) x); [apply sepItem; assumption|]. apply IH. discriminate.
Qed.
Lemma seq_all (l : sequence) (P : variant -> Prop) : (forall i v, In i l -> In v i -> varOk v = true -> P v) -> forallb (fun i => negb (isEmpty i) && forallb varOk i) l = true -> Forall (fun i => i <> [] /\ Forall P i) l.
Proof.
  intros H E. rewrite forallb_forall in E. apply Forall_forall. intros i I0. specialize (E i I0). apply andb_true_iff in E. destruct E as (E1 & E2). split; [apply empty_ok, E1|]. rewrite forallb_forall in E2. apply Forall_forall. intros v I1. apply (H i v I0 I1), E2, I1.
Qed.
Fixpoint size (v : variant) : nat := match v with VList _ l => S (list_sum (map (fun i => S (list_sum (map size i))) l)) | _ => O end.
Lemma sum_in {A} (f : A -> nat) l x : In x l -> (f x <= list_sum (map f l))%nat.
Proof. induction l as [|y l IH]; [intros []|]. intros [->|I0]; cbn [map list_sum fold_right]; [lia|]. specialize (IH I0). unfold list_sum in *. cbn [fold_right]. lia. Qed.
Lemma wVar_ok : forall n v, (size v < n)%nat -> varOk v = true -> spVar stringOf (wVar v) v.
Proof.
  induction n as [|n IH]; intros v L O; [lia|]. destruct v as [m|m| |s|b l].
  - apply VR_node.
  - apply VR_type, empty_ok, O.
  - apply VR_end.
  - apply VR_literal, quote_ok, O.
  - cbn [varOk] in O. apply andb_true_iff in O. destruct O as (O1 & O2). apply (VR_list stringOf b (wSeq l) l). apply sepSeq; [apply empty_ok, O1|]. refine (seq_all l _ _ O2). intros i v I0 I1 V. apply IH; [|exact V]. cbn [size] in L. pose proof (sum_in (fun i => S (list_sum (map size i))) l i I0). cbn beta in *. pose proof (sum_in size i v I1). lia.
Qed.
Lemma wSeq_ok l : seqOk l = true -> spSeq stringOf (wSeq l) l.
Proof. intros O. apply andb_true_iff in O. destruct O as (O1 & O2). apply sepSeq; [apply empty_ok, O1|]. refine (seq_all l _ _ O2). intros i v _ _ V. apply (wVar_ok _ v (Nat.lt_succ_diag_r _) V). Qed.
Lemma map_F2 {A B} (R : B -> A -> Prop) f (l : list A) : Forall (fun x => R (f x) x) l -> Forall2 R (map f l) l.
Proof. induction 1; constructor; assumption. Qed.
Lemma parts_ok ps : Forall2 spPart (map wPart ps) ps.
Proof. apply map_F2, Forall_forall. intros [re|n] _; constructor. Qed.
Lemma wArgs_ok l : l <> [] -> forallb noQuote l = true -> spArgs stringOf (sepBy (fun s => [quote s]) (op 44) l) l.
Proof.
  intros N. induction l as [|x [|y l] IH]; intros O; [contradiction| |]; cbn [forallb] in O; apply andb_true_iff in O; destruct O as (O1 & O2).
  - apply LS_one, LA_string, quote_ok, O1.
  - apply (LS_more stringOf); [apply LA_string, quote_ok, O1|]. apply IH; [discriminate|exact O2].
Qed.
Lemma wRecord_ok r : recordOk r = true -> spRecord stringOf (wRecord r) r.
Proof.
  destruct r as [d args|n ps|n ps|[n cs]|n l]; cbn [recordOk wRecord]; intros O.
  - apply RC_directive, map_F2, Forall_forall. intros a I0. rewrite forallb_forall in O. specialize (O a I0). destruct a as [n|s]; cbn [wArg]; [apply AR_type; destruct d; discriminate|]. apply AR_string; [destruct d; try discriminate O; auto|apply quote_ok; destruct d; try discriminate O; exact O].
  - apply RC_template; [apply empty_ok, O|apply parts_ok].
  - apply andb_true_iff in O. destruct O as (O1 & O2). apply RC_type; [apply empty_ok, O1|apply empty_ok, O2|apply parts_ok].
  - cbn [glCommands glType] in *. apply RC_layer. induction cs as [|[m l] cs IH]; [constructor|]. cbn [forallb map concat gcArgs] in *. apply andb_true_iff in O. destruct O as (O1 & O2). apply (CS_more stringOf); [|apply IH, O2]. unfold wCommand. cbn [gcName gcArgs]. destruct l as [|s l]; [apply CM_none|]. apply (CM_args stringOf m), wArgs_ok; [discriminate|exact O1].
  - apply RC_node, wSeq_ok, O.
Qed.
Lemma wAll_ok rs : forallb recordOk rs = true -> spRecords stringOf (wAll rs) rs.
Proof. induction rs as [|r rs IH]; intros O; [constructor|]. cbn [forallb] in O. apply andb_true_iff in O. destruct O as (O1 & O2). apply SR_more; [apply wRecord_ok, O1|apply IH, O2]. Qed.
(** ordered, computably *)
Definition isNodeB (r : record) : bool := match r with RNode _ _ => true | _ => false end.
Fixpoint orderedB (rs : list record) : bool :=
  match rs with
  | [] => false
  | RNode _ _ :: r => forallb (fun r => match r with RNode _ _ | RLayer _ => true | _ => false end) r
  | _ :: r => orderedB r
  end.
Lemma ordered_ok rs : orderedB rs = true -> ordered rs.
Proof.
  induction rs as [|r rs IH]; [discriminate|]. intros O. assert (C : isNode r \/ ~ isNode r) by (destruct r; cbn; auto). destruct C as [C|C].
  - exists [], r, rs. split; [reflexivity|]. split; [constructor|]. split; [exact C|]. destruct r; try destruct C. cbn [orderedB] in O. rewrite forallb_forall in O. apply Forall_forall. intros x I0. specialize (O x I0). destruct x; try discriminate; cbn; auto.
  - assert (O' : orderedB rs = true) by (destruct r; try exact O; destruct C; exact I). destruct (IH O') as (hd & root & rest & -> & A & B & D). exists (r :: hd), root, rest. split; [reflexivity|]. split; [constructor; assumption|]. auto.
Qed.
(** A description that is written down so is spelled so. *)
Theorem written_description rs : forallb recordOk rs = true -> orderedB rs = true -> spells (wAll rs) rs.
Proof. intros A B. split; [apply wAll_ok, A|apply ordered_ok, B]. Qed.

(** ** Conditions of the theorems, computably *)
Fixpoint distinct (l : list name) : bool := match l with [] => true | x :: r => negb (mem x r) && distinct r end.
Lemma mem_in n l : In n l -> mem n l = true.
Proof. intros I0. apply existsb_exists. exists n. split; [exact I0|]. apply nameEqb_ok. reflexivity. Qed.
Lemma distinct_ok l : distinct l = true -> NoDup l.
Proof. induction l as [|x l IH]; intros E; [constructor|]. cbn [distinct] in E. apply andb_true_iff in E. destruct E as (E1 & E2). constructor; [|apply IH, E2]. intros I0. rewrite (mem_in _ _ I0) in E1. discriminate. Qed.
Fixpoint reservedB (seen : list name) (rs : list record) : bool :=
  match rs with
  | [] => true
  | r :: rest =>
      (match r with RDirective DReserved args => forallb (fun a => match a with AString s => negb (mem s seen) | _ => true end) args | _ => true end) &&
      reservedB (seen ++ stringsIn (dirEqb DLiteral) [r]) rest
  end.
Lemma reserved_ok rs : reservedB [] rs = true -> reservedFirst rs.
Proof.
  assert (G : forall rs seen a args b s, reservedB seen rs = true -> rs = a ++ RDirective DReserved args :: b -> In (AString s) args -> ~ In s (seen ++ stringsIn (dirEqb DLiteral) a)).
  { clear. induction rs as [|r rs IH]; intros seen a args b s E EQ I0; [destruct a; discriminate|]. cbn [reservedB] in E. apply andb_true_iff in E. destruct E as (E1 & E2). destruct a as [|x a]; cbn [app] in EQ; injection EQ as -> EQ.
    - rewrite forallb_forall in E1. specialize (E1 _ I0). cbn in E1. change (stringsIn (dirEqb DLiteral) []) with (@nil name). rewrite app_nil_r. intros X. rewrite (mem_in _ _ X) in E1. discriminate.
    - specialize (IH _ a args b s E2 EQ I0). rewrite <- app_assoc in IH. replace (stringsIn (dirEqb DLiteral) (x :: a)) with (stringsIn (dirEqb DLiteral) [x] ++ stringsIn (dirEqb DLiteral) a); [exact IH|]. unfold stringsIn, flat. cbn [map concat]. rewrite app_nil_r. reflexivity. }
  intros H a args b E s I0. exact (G rs [] a args b s H E I0).
Qed.

(** !side $space; !extern $indent; !reserved 'if'; !literal 'if' '+' 'then';
    $$letter = /[a-z]/; $space = / +/; $name = letter /+/; !caseless $name; $op = /[+-]/;
    !group $name $op;
    @cmd one('a', 'b') two();
    root = statement, {$indent, statement}, [$];
    statement = ('if', value, 'then', value) | value;
    value = $name, ['+', $name];
    @other; *)
Module Example2.
  Definition b := bytes.
  Definition rs : list record :=
    [RDirective DSide [AType (b "space")]; RDirective DExtern [AType (b "indent")]; RDirective DReserved [AString (b "if")]; RDirective DLiteral [AString (b "if"); AString (b "+"); AString (b "then")];
     RTemplate (b "letter") [PRegexp (b "[a-z]")]; RType (b "space") [PRegexp (b " +")]; RType (b "name") [PTemplate (b "letter"); PRegexp (b "+")]; RDirective DCaseless [AType (b "name")]; RType (b "op") [PRegexp (b "[+-]")];
     RDirective DGroup [AType (b "name"); AType (b "op")];
     RLayer (mkLayer (b "cmd") [mkCmd (b "one") [b "a"; b "b"]; mkCmd (b "two") []]);
     RNode (b "root") [[VNode (b "statement")]; [VList Curly [[VType (b "indent")]; [VNode (b "statement")]]]; [VList Square [[VEnd]]]];
     RNode (b "statement") [[VList Round [[VLiteral (b "if")]; [VNode (b "value")]; [VLiteral (b "then")]; [VNode (b "value")]]; VNode (b "value")]];
     RNode (b "value") [[VType (b "name")]; [VList Square [[VLiteral (b "+")]; [VType (b "name")]]]];
     RLayer (mkLayer (b "other") [])].
  Definition text := wAll rs.
  Example spelled : spells text rs. Proof. apply written_description; vm_compute; reflexivity. Qed.
  Example lexed_text : Forall lexed text. Proof. apply lexedb_ok. vm_compute. reflexivity. Qed.
  Example readable_text : readable text. Proof. split; [exact lexed_text|]. apply (records_strings _ string_kind _ _ (proj1 spelled)). Qed.
  Example plain : plainArguments text. Proof. apply (records_plain _ string_kind _ _ (proj1 spelled)). Qed.
  Example apart : groupsApart rs. Proof. apply distinct_ok. vm_compute. reflexivity. Qed.
  Example first : reservedFirst rs. Proof. apply reserved_ok. vm_compute. reflexivity. Qed.
  Definition orders := Prop_LangText.Example1.orders.
  Definition any := Prop_LangText.Example1.any.
  Notation parse := (parseText (fun _ => true) (fun _ _ => true) (fun t => t) 400 orders).
  Example accepted : match parse text TEnd with
    | AGrammar g => map gtName (gTokens g) = [b "space"; b "name"; b "op"; b "indent"; b "if"; b "+"; b "then"] /\ map gtRe (gTokens g) = [b " +"; b "[a-z]+"; b "[+-]"; []; []; []; []] /\
        map gtGroup (gTokens g) = [0; 1; 1; 0; 0; 0; 0] /\ map gtFlags (gTokens g) = [SideToken; CaselessToken; 0; ExternalToken; Z.lor ReservedToken LiteralToken; LiteralToken; LiteralToken] /\
        map gnName (gNodes g) = [b "root"; b "statement"; b "value"]
    | _ => False
    end.
  Proof. vm_compute. repeat split; reflexivity. Qed.
  Example is_valid : exists res, valid (fun _ => true) rs res.
  Proof.
    destruct (parse text TEnd) as [g| | | | |] eqn:E; try (exfalso; vm_compute in E; discriminate E). destruct (accepted_description_partial (fun _ => true) (fun _ _ => true) (fun t => t) orders any _ _ _ _ readable_text plain E) as (_ & rs' & S' & X). rewrite (description_unique _ _ _ lexed_text S' spelled) in X. destruct (X apart first) as (res & V & _). eauto.
  Qed.
  (** a type that is used and is not known *)
  Definition bad := rs ++ [RNode (b "more") [[VType (b "unknown")]]].
  Example bad_spelled : spells (wAll bad) bad /\ Forall lexed (wAll bad) /\ groupsApart bad /\ reservedFirst bad.
  Proof. split; [apply written_description; vm_compute; reflexivity|]. split; [apply lexedb_ok; vm_compute; reflexivity|]. split; [apply distinct_ok|apply reserved_ok]; vm_compute; reflexivity. Qed.
  Example bad_invalid res : ~ valid (fun _ => true) bad res.
  Proof.
    intros V. destruct (vd_used _ _ _ V (b "more") [[VType (b "unknown")]] (b "unknown")) as (X & _); [unfold bad; rewrite in_app_iff; right; left; reflexivity|left; reflexivity|].
    apply mem_in in X. vm_compute in X. discriminate X.
  Qed.
End Example2.

(** ** What is accepted and is not correct, what is correct and is not accepted *)
Module Refuted.
  Definition b := bytes.
  Definition orders := Prop_LangText.Example1.orders.
  Notation parse := (parseText (fun _ => true) (fun _ _ => true) (fun t => t) 400 orders).
  Definition a : name := b "a".
  Definition defA : record := RType a [PRegexp (b "a")].
  Definition root : record := RNode (b "r") [[VType a]].
  (** $a=/a/; @l c("\q" 'a'); r = $a; *)
  Definition escape : list tok := wRecord defA ++ [op 64; mkT KName (b "l"); mkT KName (b "c"); op 40; mkT KString [34; 92; 113; 34]; quote (b "a"); op 41; op 59] ++ wRecord root.
  (** $a=/a/; !reserved string; r = $a; *)
  Definition word : list tok := wRecord defA ++ [mkT KDir reservedDir; mkT KName stringTok; op 59] ++ wRecord root.
  (** $a=/a/; !literal 'a'; !reserved 'a'; r = 'a'; *)
  Definition late : list record := [defA; RDirective DLiteral [AString a]; RDirective DReserved [AString a]; RNode (b "r") [[VLiteral a]]].
  (** !group $a; !group $a; $a = /a/; r = $a; *)
  Definition twice : list record := [RDirective DGroup [AType a]; RDirective DGroup [AType a]; defA; root].
  (** !side $sA...; (32 types), their definitions; $a=/a/; r = $a; and the same with !side after the definitions *)
  Definition many : list name := map (fun n => [115; Z.of_nat n + 65]) (seq 0 26) ++ map (fun n => [116; Z.of_nat n + 65]) (seq 0 6).
  Definition sides : record := RDirective DSide (map AType many).
  Definition defs : list record := map (fun n => RType n [PRegexp (b "s")]) many.
  Definition before : list record := [sides] ++ defs ++ [defA; root].
  Definition after : list record := defs ++ [sides] ++ [defA; root].
  Lemma bad_escape u : ~ denotes utf8 [92; 113] u.
  Proof. assert (B : body [92; 113]) by (constructor; constructor). apply (proj2 (string_decoding_partial _ B)). left. eexists. vm_compute. reflexivity. Qed.
  Example late_valid : valid (fun _ => true) late [(a, b "a")].
  Proof.
    constructor.
    - vm_compute. reflexivity.
    - apply distinct_ok. vm_compute. reflexivity.
    - intros n I0. vm_compute in I0. destruct I0.
    - vm_compute. reflexivity.
    - apply distinct_ok. vm_compute. reflexivity.
    - intros n l x [E|[E|[E|[E|[]]]]] X; try discriminate E. injection E as <- <-. vm_compute in X. destruct X.
    - intros _ s [<-|[]]. vm_compute. auto.
  Qed.
  Ltac spelt := apply written_description; vm_compute; reflexivity.
  Ltac lexes := apply lexedb_ok; vm_compute; reflexivity.
End Refuted.
Notation parse1 input := (parseText (fun _ => true) (fun _ _ => true) (fun t => t) 400 Prop_LangText.Example1.orders input TEnd).
(** A wrong string is dropped; a word is taken for an argument; a reserved word is not reserved; a type is listed in two groups *)
Theorem accepted_description_refuted :
  (exists input g, Forall lexed input /\ parse1 input = AGrammar g /\ forall rs, ~ spells input rs) /\
  (exists input g, readable input /\ parse1 input = AGrammar g /\ forall rs, ~ spells input rs) /\
  (exists input g rs res, readable input /\ parse1 input = AGrammar g /\ spells input rs /\ valid (fun _ => true) rs res /\ groupsApart rs /\ gTokens g <> tokensOf rs res) /\
  (exists input g rs, readable input /\ parse1 input = AGrammar g /\ spells input rs /\ reservedFirst rs /\ ~ groupsApart rs).
Proof.
  assert (R : forall rs, forallb recordOk rs = true -> forallb lexed1 (wAll rs) = true -> readable (wAll rs)) by (intros rs A B; split; [apply lexedb_ok, B|apply (records_strings _ string_kind _ _ (wAll_ok _ A))]).
  split; [|split; [|split]].
  - exists Refuted.escape. eexists. split; [|split; [vm_compute; reflexivity|]].
    + unfold Refuted.escape. apply Forall_app. split; [Refuted.lexes|]. apply Forall_app. split; [|Refuted.lexes]. do 4 (constructor; [apply lexed1_ok; reflexivity|]). constructor; [apply (LX_double [92; 113]); constructor; constructor|]. Refuted.lexes.
    + intros rs (S & _). destruct (records_strings _ string_kind _ _ S (mkT KString [34; 92; 113; 34])) as (s & X); [unfold Refuted.escape; rewrite !in_app_iff; right; left; cbn; tauto|reflexivity|].
      inversion X as [s' u D E|s' N E]; subst. change [92; 113; 34] with ([92; 113] ++ [34]) in E. apply app_inj_tail in E. destruct E as (-> & _). exact (Refuted.bad_escape _ D).
  - exists Refuted.word. eexists. split; [split; [Refuted.lexes|]|split; [vm_compute; reflexivity|]].
    + intros t I0 K. exfalso. assert (F : Forall (fun t => tKind t <> KString) Refuted.word) by (repeat (constructor; [discriminate|]); constructor). rewrite Forall_forall in F. exact (F t I0 K).
    + intros rs (S & _). apply (records_plain _ string_kind) in S. refine (S (wRecord Refuted.defA) (mkT KDir reservedDir) [] (mkT KName stringTok) (op 59 :: wRecord Refuted.root) eq_refl eq_refl _ _); [intros []|]. split; [reflexivity|]. right. reflexivity.
  - exists (wAll Refuted.late). eexists. exists Refuted.late, [(Refuted.a, Refuted.b "a")]. split; [apply R; vm_compute; reflexivity|]. split; [vm_compute; reflexivity|]. split; [Refuted.spelt|]. split; [exact Refuted.late_valid|]. split; [apply distinct_ok; vm_compute; reflexivity|]. vm_compute. discriminate.
  - exists (wAll Refuted.twice). eexists. exists Refuted.twice. split; [apply R; vm_compute; reflexivity|]. split; [vm_compute; reflexivity|]. split; [Refuted.spelt|]. split; [apply reserved_ok; vm_compute; reflexivity|]. intros N. vm_compute in N. inversion N as [|? ? X _]; subst. apply X. left. reflexivity.
Qed.
(** A description with a few types is refused because there are too many, the same description with records in another order is accepted. *)
Theorem correct_description_refuted : exists rs rs' g, Permutation rs rs' /\ Forall lexed (wAll rs) /\ spells (wAll rs) rs /\ spells (wAll rs') rs' /\ groupsApart rs /\ reservedFirst rs /\
  zlen (typeNames rs) = 33 /\ parse1 (wAll rs') = AGrammar g /\ parse1 (wAll rs) = AReadError RE_tokenNumber.
Proof.
  exists Refuted.before, Refuted.after. eexists. split; [exact (Permutation_middle Refuted.defs [Refuted.defA; Refuted.root] Refuted.sides)|]. split; [Refuted.lexes|]. split; [Refuted.spelt|]. split; [Refuted.spelt|]. split; [apply distinct_ok; vm_compute; reflexivity|]. split; [apply reserved_ok; vm_compute; reflexivity|]. split; [vm_compute; reflexivity|]. split; vm_compute; reflexivity.
Qed.

Print Assumptions accepted_any_order_partial.
Print Assumptions accepted_description_partial.
Print Assumptions accepted_description_refuted.
Print Assumptions correct_any_order.
Print Assumptions correct_description_partial.
Print Assumptions correct_description_refuted.
Print Assumptions description_unique.
Print Assumptions written_description.
