(** Reading of descriptions (LangText.v): a description is read exactly as it is written (LangDescSpec.v), record by record. *)
From Coq Require Import ZArith List Bool Lia.
From Verif Require Import Base BaseProofs Grammar LangBuild LangSpec LangString LangStringSpec Prop_LangString LangTypes LangText LangTextSpec LangTextFuel LangTextTotal LangDescSpec.
Import ListNotations.
Open Scope Z_scope.

(** ** Tokens to come *)
Definition dec (t : tok) : tok :=
  match tKind t with
  | KString => match processString (tText t) with SOk x => mkT KString x | _ => t end
  | _ => t
  end.
Definition decodes (t : tok) : Prop := lexed t /\ (tKind t = KString -> exists x, processString (tText t) = SOk x).
Definition core (c : ctx) : ctx := setInput [] TEnd None c.
Definition stream (c : ctx) : list tok := match cSaved c with Some t => t :: map dec (cInput c) | None => map dec (cInput c) end.
Record at_ (ts : list tok) (c0 : ctx) (c : ctx) : Prop := mkAt {
  at_ok : Forall decodes (cInput c);
  at_stream : stream c = ts;
  at_core : core c = c0;
  at_tail : cTail c <> TWrong;
  at_taken : Forall taken ts
}.
Lemma dec_taken t : decodes t -> taken (dec t).
Proof.
  intros (L & D). unfold dec. pose proof (process_ok t (newContext [] TEnd) L) as P. unfold processToken in P. destruct (tKind t) eqn:K; try (apply TK_other; congruence). destruct (D eq_refl) as (x & X). rewrite X in *. cbn in P. tauto.
Qed.
Lemma take_hit t ts c0 c : at_ (t :: ts) c0 c -> exists c', takeToken c = ROk t c' /\ at_ ts c0 c' /\ cSaved c' = None.
Proof.
  intros [A B C D E]. unfold takeToken. inversion E as [|? ? E1 E2]; subst. unfold stream in B. destruct (cSaved c) as [u|] eqn:SV.
  - injection B as -> B. eexists. split; [reflexivity|]. split; [|reflexivity]. constructor; cbn; auto.
  - destruct (cInput c) as [|u r] eqn:IN; [discriminate|]. cbn [map] in B. injection B as B1 B2. inversion A as [|? ? (L & A1) A2]; subst. unfold bind, nextToken. rewrite IN. unfold dec, processToken in *. destruct (tKind u) eqn:K; try (eexists; split; [reflexivity|]; split; [constructor; cbn; rewrite ?SV; auto; unfold stream; cbn; rewrite ?SV; reflexivity|first [exact SV|reflexivity]]).
    destruct (A1 eq_refl) as (x & X). rewrite X in *. eexists. split; [reflexivity|]. split; [constructor; cbn; rewrite ?SV; auto; unfold stream; cbn; rewrite ?SV; reflexivity|first [exact SV|reflexivity]].
Qed.
Lemma take_end c0 c : at_ [] c0 c -> exists t c', takeToken c = ROk t c' /\ at_ [] c0 c' /\ isEof t = true /\ tText t = [].
Proof.
  intros [A B C D E]. unfold takeToken. unfold stream in B. destruct (cSaved c) as [u|] eqn:SV; [discriminate|]. destruct (cInput c) as [|u r] eqn:IN; [|discriminate]. unfold bind, nextToken. rewrite IN. destruct (cTail c) eqn:TL; [| |congruence].
  - eexists _, _. split; [reflexivity|]. split; [|split; reflexivity]. constructor; cbn; rewrite ?SV; auto; try discriminate; unfold stream; cbn; rewrite SV; reflexivity.
  - eexists _, _. split; [reflexivity|]. split; [|split; reflexivity]. constructor; cbn; rewrite ?SV, ?IN, ?TL; auto; try discriminate; unfold stream; rewrite SV, IN; reflexivity.
Qed.
Lemma at_put t ts c0 c : at_ ts c0 c -> cSaved c = None -> taken t -> at_ (t :: ts) c0 (setInput (cInput c) (cTail c) (Some t) c).
Proof. intros [A B C D E] SV T. constructor; cbn; auto. unfold stream in *. cbn. rewrite SV in B. congruence. Qed.

Lemma fetch_hit types b t ts c0 c : at_ (t :: ts) c0 c -> matches types t = true -> exists c', fetch types b c = ROk (Some t) c' /\ at_ ts c0 c'.
Proof. intros A MT. destruct (take_hit _ _ _ _ A) as (c' & T & A' & _). exists c'. unfold fetch, bind. rewrite T, MT. auto. Qed.
Lemma fetch_miss types t ts c0 c : at_ (t :: ts) c0 c -> matches types t = false -> exists c', fetch types false c = ROk None c' /\ at_ (t :: ts) c0 c'.
Proof.
  intros A MT. destruct (take_hit _ _ _ _ A) as (c' & T & A' & SV). assert (TT : taken t) by (pose proof (at_taken _ _ _ A) as X; inversion X; assumption). exists (setInput (cInput c') (cTail c') (Some t) c'). unfold fetch, bind. rewrite T, MT, (taken_kind t TT). split; [reflexivity|apply at_put; assumption].
Qed.
(** what has been fetched *)
Inductive fetched (types : list name) (ts : list tok) (c0 : ctx) : bool -> option tok -> ctx -> Prop :=
| FT_hit b t ts' c : ts = t :: ts' -> taken t -> matches types t = true -> at_ ts' c0 c -> fetched types ts c0 b (Some t) c
| FT_end b t c : ts = [] -> isEof t = true -> (b = true -> matches types t = true) -> tText t = [] -> at_ [] c0 c -> fetched types ts c0 b (Some t) c
| FT_miss t ts' c : ts = t :: ts' -> taken t -> matches types t = false -> at_ ts c0 c -> fetched types ts c0 false None c.
Lemma fetch_inv types b ts c0 c o c' : at_ ts c0 c -> fetch types b c = ROk o c' -> fetched types ts c0 b o c'.
Proof.
  intros A F. destruct ts as [|t ts].
  - destruct (take_end _ _ A) as (t & c1 & T & A1 & E & TX). unfold fetch, bind in F. rewrite T, E in F. destruct (matches types t) eqn:MT.
    + injection F as <- <-. apply FT_end; auto.
    + destruct b; [discriminate|]. injection F as <- <-. apply FT_end; auto; discriminate.
  - assert (TT : taken t) by (pose proof (at_taken _ _ _ A) as X; inversion X; assumption). destruct (matches types t) eqn:MT.
    + destruct (fetch_hit types b _ _ _ _ A MT) as (c1 & F1 & A1). rewrite F1 in F. injection F as <- <-. apply (FT_hit _ _ _ _ t ts); auto.
    + destruct b.
      * exfalso. destruct (take_hit _ _ _ _ A) as (c1 & T & _ & _). unfold fetch, bind in F. rewrite T, MT, (taken_kind t TT) in F. discriminate.
      * destruct (fetch_miss types _ _ _ _ A MT) as (c1 & F1 & A1). rewrite F1 in F. injection F as <- <-. apply (FT_miss _ _ _ t ts); auto.
Qed.
Lemma strict_hit types t ts c0 c : at_ (t :: ts) c0 c -> matches types t = true -> exists c', fetchStrict types c = ROk t c' /\ at_ ts c0 c'.
Proof. intros A MT. destruct (fetch_hit types true _ _ _ _ A MT) as (c' & F & A'). exists c'. unfold fetchStrict, bind. rewrite F. auto. Qed.
Lemma strict_inv types ts c0 c t c' : noEof types -> at_ ts c0 c -> fetchStrict types c = ROk t c' -> exists ts', ts = t :: ts' /\ taken t /\ matches types t = true /\ at_ ts' c0 c'.
Proof.
  intros NE A F. unfold fetchStrict, bind in F. destruct (fetch types true c) as [o c1|e c1| |] eqn:FE; try discriminate. destruct o as [u|]; [|discriminate]. injection F as -> ->. pose proof (fetch_inv _ _ _ _ _ _ _ A FE) as X. inversion X; subst; [eauto|]. rewrite (NE t) in *; auto. assert (false = true) by auto. discriminate.
Qed.
Lemma skip_hit typ t ts c0 c : at_ (t :: ts) c0 c -> matches [typ] t = true -> exists c', skipOne typ c = ROk tt c' /\ at_ ts c0 c'.
Proof. intros A MT. destruct (fetch_hit [typ] true _ _ _ _ A MT) as (c' & F & A'). exists c'. unfold skipOne, bind. rewrite F. auto. Qed.
Lemma skip_inv typ ts c0 c u c' : noEof [typ] -> at_ ts c0 c -> skipOne typ c = ROk u c' -> exists t ts', ts = t :: ts' /\ taken t /\ matches [typ] t = true /\ at_ ts' c0 c'.
Proof.
  intros NE A F. unfold skipOne, bind in F. destruct (fetch [typ] true c) as [o c1|e c1| |] eqn:FE; try discriminate. injection F as <-. pose proof (fetch_inv _ _ _ _ _ _ _ A FE) as X. inversion X; subst; [eexists _, _; eauto|]. rewrite (NE t) in *; auto. assert (false = true) by auto. discriminate.
Qed.
Lemma bind_inv {A B} (m : M A) (f : A -> M B) c y c' : bind m f c = ROk y c' -> exists x c1, m c = ROk x c1 /\ f x c1 = ROk y c'.
Proof. unfold bind. destruct (m c) as [x c1|e c1| |]; try discriminate. eauto. Qed.
Lemma bind_ok {A B} (m : M A) (f : A -> M B) c x c1 : m c = ROk x c1 -> bind m f c = f x c1.
Proof. unfold bind. intros ->. reflexivity. Qed.

(** ** Operations that neither see nor touch the input *)
Definition lift {A} (f : ctx -> ctx) (r : res A) : res A := match r with ROk x c => ROk x (f c) | RFail e c => RFail e (f c) | RHang => RHang | RCrash => RCrash end.
Definition pure {A} (m : M A) : Prop := forall c v t s, m (setInput v t s c) = lift (setInput v t s) (m c).
Lemma ctx_eta c : c = setInput (cInput c) (cTail c) (cSaved c) (core c).
Proof. destruct c. reflexivity. Qed.
Lemma core_set v t s c : core (setInput v t s c) = core c.
Proof. reflexivity. Qed.
Lemma p_bind {A B} (m : M A) (f : A -> M B) : pure m -> (forall x, pure (f x)) -> pure (bind m f).
Proof. intros P Q c v t s. unfold bind. rewrite P. destruct (m c); cbn; auto. apply Q. Qed.
Lemma p_ret {A} (x : A) : pure (ret x). Proof. intros c v t s. reflexivity. Qed.
Lemma p_fail {A} e : pure (@fail A e). Proof. intros c v t s. reflexivity. Qed.
Lemma p_orCrash {A} (o : option A) : pure (orCrash o). Proof. intros c v t s. destruct o; reflexivity. Qed.
Lemma p_get {A} (f : ctx -> A) : (forall c v t s, f (setInput v t s c) = f c) -> pure (get f).
Proof. intros H c v t s. unfold get. cbn. rewrite H. reflexivity. Qed.
Lemma p_modify f : (forall c v t s, f (setInput v t s c) = setInput v t s (f c)) -> pure (modify f).
Proof. intros H c v t s. unfold modify. cbn. rewrite H. reflexivity. Qed.
Lemma p_each {A} (f : A -> M unit) l : (forall x, pure (f x)) -> pure (each f l).
Proof. intros H. induction l as [|x l IH]; cbn [each]; [apply p_ret|]. apply p_bind; auto. Qed.
Create HintDb puredb.
Ltac pures := repeat first [apply p_ret | apply p_fail | apply p_orCrash | (apply p_get; intros; reflexivity) | (apply p_modify; intros; reflexivity) | (apply p_modify; intros; cbn; match goal with |- context [if ?b then _ else _] => destruct b end; reflexivity) | solve [auto with puredb] | apply p_bind | apply p_each | match goal with |- forall _, _ => intros ? end | match goal with |- pure (match ?x with _ => _ end) => destruct x end].
Lemma p_changeToken i f : pure (changeToken i f).
Proof. intros c v t s. unfold changeToken. cbn. destruct (zget (cTokens c) i); reflexivity. Qed.
Lemma p_changeExtra i f : pure (changeExtra i f).
Proof. intros c v t s. unfold changeExtra. cbn. destruct (zget (cExtra c) i); reflexivity. Qed.
#[export] Hint Resolve p_changeToken p_changeExtra : puredb.
Lemma p_addToken n re fl : pure (addToken n re fl). Proof. unfold addToken. pures. Qed.
Lemma p_addLiteral n fl : pure (addLiteralToken n fl).
Proof. apply p_modify. intros c v t s. cbn. destruct (nget n (cLiteralIndex c)); reflexivity. Qed.
Lemma p_useLiteral n fl : pure (useLiteralToken n fl). Proof. unfold useLiteralToken. pures. Qed.
Lemma p_addExtra n : pure (addExtraToken n). Proof. unfold addExtraToken. pures. Qed.
#[export] Hint Resolve p_addToken p_addLiteral p_useLiteral p_addExtra : puredb.
Lemma p_addFlag n fl : pure (addTokenFlag n fl). Proof. unfold addTokenFlag. pures. Qed.
Lemma p_group n : pure (groupToken n). Proof. unfold groupToken. pures. Qed.
Lemma p_addNode n d : pure (addNode n d). Proof. unfold addNode. pures. Qed.
Lemma p_join l : pure (joinRegexp l).
Proof. induction l as [|t l IH]; cbn [joinRegexp]; pures. Qed.
#[export] Hint Resolve p_addFlag p_group p_addNode p_join : puredb.
Lemma p_finish : pure finishTokens.
Proof. unfold finishTokens, addExterns. pures. Qed.
Lemma pure_inv {A} (m : M A) ts c0 c x c' : pure m -> at_ ts c0 c -> m c = ROk x c' -> m c0 = ROk x (core c') /\ at_ ts (core c') c'.
Proof.
  intros P [A1 A2 A3 A4 A5] E. subst c0. rewrite (ctx_eta c) in E. rewrite P in E. destruct (m (core c)) as [y c1|e c1| |] eqn:M0; try discriminate. cbn in E. injection E as -> <-. assert (K : core c1 = c1).
  { pose proof (P (core c) [] TEnd None) as Q. change (setInput [] TEnd None (core c)) with (core c) in Q. rewrite M0 in Q. cbn in Q. injection Q as Q. symmetry. exact Q. }
  change (core (setInput (cInput c) (cTail c) (cSaved c) c1)) with (core c1). rewrite K. split; [reflexivity|]. constructor; cbn; auto.
Qed.
Lemma pure_run {A} (m : M A) ts c0 c x c1 : pure m -> at_ ts c0 c -> m c0 = ROk x c1 -> exists c', m c = ROk x c' /\ at_ ts c1 c'.
Proof.
  intros P AT E. destruct AT as [A1 A2 A3 A4 A5] eqn:AT'. subst c0. exists (setInput (cInput c) (cTail c) (cSaved c) c1). assert (H : m c = ROk x (setInput (cInput c) (cTail c) (cSaved c) c1)). { rewrite (ctx_eta c) at 1. rewrite P, E. reflexivity. }
  split; [exact H|]. destruct (pure_inv m ts (core c) c x _ P AT H) as (B1 & B2). rewrite E in B1. injection B1 as ->. exact B2.
Qed.

(** ** What tokens are fetched *)
Definition quotedOf (t : tok) (s : name) : Prop := exists q, (q = 34 \/ q = 39) /\ t = mkT KString (q :: s ++ [q]).
Definition opByte (b : Z) : Prop := In b [40; 41; 123; 125; 91; 93; 61; 124; 44; 59; 64].
Lemma op_only b t : opByte b -> taken t -> tText t = [b] -> t = op b.
Proof.
  intros O T E. inversion T as [q s Q|u K L]; subst.
  - cbn in E. destruct s; discriminate.
  - inversion L; subst; cbn in *; try congruence; try match goal with H : aName _ |- _ => destruct H as (x & r & -> & X & R) end; try discriminate.
    + injection E as -> ->. exfalso. unfold letter in X. cbn in O. lia.
    + injection E as <-. exfalso. cbn in O. lia.
    + destruct s; discriminate.
    + injection E as ->. reflexivity.
Qed.
Lemma name_only n t : aName n -> taken t -> tText t = n -> tKind t = KName.
Proof.
  intros (x & r & -> & X & R) T E. unfold letter in X. inversion T as [q s Q|u K L]; subst.
  - cbn in E. injection E as -> _. exfalso. lia.
  - inversion L as [| | | | | | | |b B]; subst; cbn in *; try congruence; injection E as <- E; try (exfalso; lia).
Qed.
Lemma match_op b t : opByte b -> taken t -> matches [[b]] t = true -> t = op b.
Proof.
  intros O T E. apply matches_one in E. destruct E as [E|E]; [|apply op_only; assumption]. destruct (tKind t); discriminate E.
Qed.
Lemma match_op2 b b' t : opByte b -> opByte b' -> taken t -> matches [[b]; [b']] t = true -> t = op b \/ t = op b'.
Proof.
  intros O O' T E. apply matches_cons in E. destruct E as [E|E]; [|right; apply match_op; assumption]. left. destruct E as [E|E]; [destruct (tKind t); discriminate E|apply op_only; assumption].
Qed.
Lemma taken_string t : taken t -> tKind t = KString -> exists s, quotedOf t s.
Proof. intros T K. inversion T as [q s Q|u N L]; subst; [exists s, q; auto|contradiction]. Qed.
Lemma tok_eta t : t = mkT (tKind t) (tText t). Proof. destruct t. reflexivity. Qed.
Lemma taken_token t : taken t -> tKind t = KToken -> exists n, t = mkT KToken (36 :: n).
Proof. intros T K. inversion T as [q s Q|u N L]; subst; [discriminate|]. inversion L; subst; try discriminate; eauto. Qed.
Lemma taken_template t : taken t -> tKind t = KTemplate -> exists n, t = mkT KTemplate (36 :: 36 :: n).
Proof. intros T K. inversion T as [q s Q|u N L]; subst; [discriminate|]. inversion L; subst; try discriminate; eauto. Qed.
Lemma taken_regexp t : taken t -> tKind t = KRegexp -> exists n, t = mkT KRegexp (47 :: n ++ [47]).
Proof. intros T K. inversion T as [q s Q|u N L]; subst; [discriminate|]. inversion L; subst; try discriminate; eauto. Qed.
Lemma taken_dir t : taken t -> tKind t = KDir -> exists n, t = mkT KDir (33 :: n).
Proof. intros T K. inversion T as [q s Q|u N L]; subst; [discriminate|]. inversion L; subst; try discriminate; eauto. Qed.
Lemma taken_op t : taken t -> tKind t = KOp -> exists b, opByte b /\ t = op b.
Proof. intros T K. inversion T as [q s Q|u N L]; subst; [discriminate|]. inversion L; subst; try discriminate; eauto. Qed.
Lemma textFrom_1 x n c : textFrom 1 (x :: n) c = ROk n c.
Proof.
  unfold textFrom, orCrash. replace (zslice (x :: n) 1 (zlen (x :: n))) with (Some n); [reflexivity|]. unfold zslice, zlen. cbn [length]. rewrite Nat2Z.inj_succ. destruct ((0 <=? 1) && (1 <=? Z.succ (Z.of_nat (length n))) && (Z.succ (Z.of_nat (length n)) <=? Z.succ (Z.of_nat (length n)))) eqn:E; [|rewrite !andb_false_iff, !Z.leb_gt in E; lia].
  f_equal. rewrite Z2Nat.inj_sub by lia. change (Z.to_nat 1) with 1%nat. cbn [skipn]. rewrite Z2Nat.inj_succ, Nat2Z.id by lia. cbn. rewrite Nat.sub_0_r, firstn_all. reflexivity.
Qed.
Lemma unquoted_q q s q' c : unquoted (q :: s ++ [q']) c = ROk s c.
Proof. unfold unquoted. rewrite quoted_slice. reflexivity. Qed.

(** ** Lists of definitions *)
Section MapM.
Context {A B : Type} (f : A -> M B).
Fixpoint mapM (l : list A) : M (list B) :=
  match l with
  | [] => ret []
  | x :: r => let* y := f x in let* ys := mapM r in ret (y :: ys)
  end.
End MapM.
Definition typeRef (n : name) : M chunk :=
  let* index := get cTokenIndex in
  match nget n index with
  | None => fail (RE_token (mkT KToken (36 :: n)))
  | Some i =>
      let* ts := get cTokens in let* gt := orCrash (zget ts i) in
      if hasFlag (gtFlags gt) unusedToken then fail (RE_wrongToken (mkT KToken (36 :: n))) else ret (CTok i)
  end.
Definition literalRef (n : name) : M chunk :=
  let* index := get cLiteralIndex in
  match nget n index with
  | Some i => ret (CTok i)
  | None =>
      let* r := get cRestrictLiterals in
      if r then fail (RE_unknownLiteral n) else let* i := useLiteralToken n 0 in ret (CTok i)
  end.
Fixpoint iVar (v : variant) : M chunk :=
  match v with
  | VNode n => let* i := addNode n false in ret (CNode i)
  | VType n => typeRef n
  | VEnd => ret CEoi
  | VLiteral s => literalRef s
  | VList b l => let* cs := mapM (fun vs => let* xs := mapM iVar vs in ret (oneOf xs)) l in
                 ret (CGroup (match b with Round => false | _ => true end) (match b with Curly => true | _ => false end) cs)
  end.
Definition iItem (vs : list variant) : M chunk := let* xs := mapM iVar vs in ret (oneOf xs).
Definition iSeq (l : sequence) : M (list chunk) := mapM iItem l.
Lemma p_mapM {A B} (f : A -> M B) l : (forall x, pure (f x)) -> pure (mapM f l).
Proof. intros H. induction l as [|x l IH]; cbn [mapM]; pures. Qed.
Lemma p_typeRef n : pure (typeRef n). Proof. unfold typeRef. pures. Qed.
Lemma p_literalRef n : pure (literalRef n). Proof. unfold literalRef. pures. Qed.
#[export] Hint Resolve p_typeRef p_literalRef : puredb.

Notation spSeqQ := (spSeq quotedOf). Notation spItemQ := (spItem quotedOf). Notation spVarQ := (spVar quotedOf).
Lemma mapM_cons {A B} (f : A -> M B) x l c y c1 ys c2 : f x c = ROk y c1 -> mapM f l c1 = ROk ys c2 -> mapM f (x :: l) c = ROk (y :: ys) c2.
Proof. intros H1 H2. cbn [mapM]. rewrite (bind_ok _ _ _ _ _ H1), (bind_ok _ _ _ _ _ H2). reflexivity. Qed.
Lemma mapM_one {A B} (f : A -> M B) x c y c1 : f x c = ROk y c1 -> mapM f [x] c = ROk [y] c1.
Proof. intros H1. apply (mapM_cons _ _ _ _ _ c1); auto. Qed.
Lemma noEof_op b : opByte b -> noEof [[b]].
Proof. intros O t E T. apply not_true_iff_false. intros X. apply matches_one in X. rewrite T in X. destruct X as [X|X]; [|discriminate]. unfold isEof in E. destruct (tKind t); discriminate. Qed.
Definition heads := [nameTok; tokenNameTok; stringTok; lBraceTok; lSquareTok; lCurlyTok].
Lemma noEof_heads : noEof heads.
Proof. intros t E T. unfold matches, heads. cbn [existsb]. rewrite T. unfold isEof in E. destruct (tKind t); try discriminate E; reflexivity. Qed.
Ltac aname := match goal with |- aName (?b :: ?r) => exists b, r; split; [reflexivity|]; split; [unfold letter; lia|]; repeat (apply Forall_cons; [unfold nameByte, letter; lia|]); apply Forall_nil end.
Lemma nameTok_name : aName nameTok. Proof. unfold nameTok. aname. Qed.
Lemma tokenNameTok_name : aName tokenNameTok. Proof. unfold tokenNameTok. aname. Qed.
Lemma stringTok_name : aName stringTok. Proof. unfold stringTok. aname. Qed.
Lemma regexpTok_name : aName regexpTok. Proof. unfold regexpTok. aname. Qed.
Lemma heads_inv t : taken t -> matches heads t = true -> tKind t = KName \/ tKind t = KToken \/ tKind t = KString \/ exists b, t = opening b.
Proof.
  intros T E. unfold heads in E. rewrite !matches_cons, matches_nil in E.
  destruct E as [[E|E]|[[E|E]|[[E|E]|[[E|E]|[[E|E]|[[E|E]|[]]]]]]]; try (destruct (tKind t) eqn:K; try discriminate E; auto; fail).
  - left. apply (name_only _ _ nameTok_name T E).
  - left. apply (name_only _ _ tokenNameTok_name T E).
  - left. apply (name_only _ _ stringTok_name T E).
  - right. right. right. exists Round. apply op_only; auto. cbn. auto.
  - right. right. right. exists Square. apply op_only; auto. cbn. tauto.
  - right. right. right. exists Curly. apply op_only; auto. cbn. tauto.
Qed.
Lemma sp_nonempty : forall ts l, spSeqQ ts l -> ts <> [].
Proof.
  assert (V : forall ts v, spVarQ ts v -> ts <> []) by (intros ts v H; destruct H; discriminate).
  assert (I : forall ts v, spItemQ ts v -> ts <> []) by (intros ts v H; destruct H as [ts v H|ts v ts' l H1 H2]; [eapply V; eassumption|destruct ts; discriminate]).
  intros ts l H. destruct H as [ts v H|ts v ts' l H1 H2]; [eapply I; eassumption|destruct ts; discriminate].
Qed.
Lemma spItem_nonempty ts l : spItemQ ts l -> ts <> [] /\ l <> [].
Proof.
  assert (V : forall ts v, spVarQ ts v -> ts <> []) by (intros ts' v H; destruct H; discriminate).
  intros H; destruct H as [ts v H|ts v ts' l H1 H2]; (split; [|discriminate]); [eapply V; eassumption|destruct ts; discriminate].
Qed.
Lemma app_nil_both {A} (a b : list A) : [] = a ++ b -> a = [].
Proof. destruct a; [reflexivity|discriminate]. Qed.
Definition goSeq f := forall ts c0 c l c', at_ ts c0 c -> parseGroup f c = ROk l c' -> exists x ts1 ts', ts = ts1 ++ ts' /\ spSeqQ ts1 x /\ iSeq x c0 = ROk l (core c') /\ at_ ts' (core c') c'.
Definition goItem f := forall ts c0 c l c', at_ ts c0 c -> parseVariants f c = ROk l c' -> exists x ts1 ts', ts = ts1 ++ ts' /\ spItemQ ts1 x /\ iItem x c0 = ROk l (core c') /\ at_ ts' (core c') c'.
Definition goMore f := forall ts c0 c l c', at_ ts c0 c -> parseMore f c = ROk l c' -> exists x ts1 ts', ts = ts1 ++ ts' /\ spItemQ ts1 x /\ mapM iVar x c0 = ROk l (core c') /\ l <> [] /\ at_ ts' (core c') c'.
Definition goVar f := forall ts c0 c l c', at_ ts c0 c -> parseVariant f c = ROk l c' -> exists x ts1 ts', ts = ts1 ++ ts' /\ spVarQ ts1 x /\ iVar x c0 = ROk l (core c') /\ at_ ts' (core c') c'.
Lemma commaTok_op : commaTok = [44]. Proof. reflexivity. Qed.
Lemma seq_sound : forall f, goSeq f /\ goItem f /\ goMore f /\ goVar f.
Proof.
  induction f as [|f (IS & II & IM & IV)]; [repeat split; intros ts c0 c l c' A H; discriminate H|]. repeat split; intros ts c0 c l c' A H.
  - cbn [parseGroup] in H. apply bind_inv in H. destruct H as (item & c1 & H1 & H). apply bind_inv in H. destruct H as (o & c2 & H2 & H). destruct (II _ _ _ _ _ A H1) as (x & ts1 & ts' & -> & SP & IX & A1).
    pose proof (fetch_inv _ _ _ _ _ _ _ A1 H2) as F. inversion F as [b t ts2 c3 E T MT A2 B1 B2 B3|b t c3 E EO MT TX A2 B1 B2 B3|t ts2 c3 E T MT A2 B1 B2 B3]; subst.
    + apply match_op in MT; [|cbn; tauto|exact T]. subst t. apply bind_inv in H. destruct H as (l' & c4 & H4 & H). injection H as <- <-. destruct (IS _ _ _ _ _ A2 H4) as (y & ts3 & ts4 & -> & SP' & IY & A3).
      exists (x :: y), (ts1 ++ op 44 :: ts3), ts4. rewrite <- app_assoc. split; [reflexivity|]. split; [constructor; assumption|]. split; [eapply mapM_cons; eassumption|exact A3].
    + exfalso. apply bind_inv in H. destruct H as (l' & c4 & H4 & H). destruct (IS _ _ _ _ _ A2 H4) as (y & ts3 & ts4 & E & SP' & _). apply app_nil_both in E. subst. apply (sp_nonempty _ _ SP'). reflexivity.
    + injection H as <- <-. exists [x], ts1, (t :: ts2). split; [reflexivity|]. split; [constructor; assumption|]. rewrite (at_core _ _ _ A2). split; [apply mapM_one; assumption|exact A2].
  - cbn [parseVariants] in H. apply bind_inv in H. destruct H as (item & c1 & H1 & H). apply bind_inv in H. destruct H as (o & c2 & H2 & H). destruct (IV _ _ _ _ _ A H1) as (x & ts1 & ts' & -> & SP & IX & A1).
    pose proof (fetch_inv _ _ _ _ _ _ _ A1 H2) as F. inversion F as [b t ts2 c3 E T MT A2 B1 B2 B3|b t c3 E EO MT TX A2 B1 B2 B3|t ts2 c3 E T MT A2 B1 B2 B3]; subst.
    + apply match_op in MT; [|cbn; tauto|exact T]. subst t. apply bind_inv in H. destruct H as (l' & c4 & H4 & H). injection H as <- <-. destruct (IM _ _ _ _ _ A2 H4) as (y & ts3 & ts4 & -> & SP' & IY & NE & A3).
      exists (x :: y), (ts1 ++ op 124 :: ts3), ts4. rewrite <- app_assoc. split; [reflexivity|]. split; [constructor; assumption|]. split; [|exact A3]. unfold iItem. rewrite (bind_ok _ _ _ _ _ (mapM_cons _ _ _ _ _ _ _ _ IX IY)). destruct l'; [contradiction|reflexivity].
    + exfalso. apply bind_inv in H. destruct H as (l' & c4 & H4 & H). destruct (IM _ _ _ _ _ A2 H4) as (y & ts3 & ts4 & E & SP' & _). apply app_nil_both in E. subst. destruct (spItem_nonempty _ _ SP') as (X & _). apply X. reflexivity.
    + injection H as <- <-. exists [x], ts1, (t :: ts2). split; [reflexivity|]. split; [constructor; assumption|]. rewrite (at_core _ _ _ A2). split; [|exact A2]. unfold iItem. rewrite (bind_ok _ _ _ _ _ (mapM_one _ _ _ _ _ IX)). reflexivity.
  - cbn [parseMore] in H. apply bind_inv in H. destruct H as (item & c1 & H1 & H). apply bind_inv in H. destruct H as (o & c2 & H2 & H). destruct (IV _ _ _ _ _ A H1) as (x & ts1 & ts' & -> & SP & IX & A1).
    pose proof (fetch_inv _ _ _ _ _ _ _ A1 H2) as F. inversion F as [b t ts2 c3 E T MT A2 B1 B2 B3|b t c3 E EO MT TX A2 B1 B2 B3|t ts2 c3 E T MT A2 B1 B2 B3]; subst.
    + apply match_op in MT; [|cbn; tauto|exact T]. subst t. apply bind_inv in H. destruct H as (l' & c4 & H4 & H). injection H as <- <-. destruct (IM _ _ _ _ _ A2 H4) as (y & ts3 & ts4 & -> & SP' & IY & NE & A3).
      exists (x :: y), (ts1 ++ op 124 :: ts3), ts4. rewrite <- app_assoc. split; [reflexivity|]. split; [constructor; assumption|]. split; [eapply mapM_cons; eassumption|]. split; [discriminate|exact A3].
    + exfalso. apply bind_inv in H. destruct H as (l' & c4 & H4 & H). destruct (IM _ _ _ _ _ A2 H4) as (y & ts3 & ts4 & E & SP' & _). apply app_nil_both in E. subst. destruct (spItem_nonempty _ _ SP') as (X & _). apply X. reflexivity.
    + injection H as <- <-. exists [x], ts1, (t :: ts2). split; [reflexivity|]. split; [constructor; assumption|]. rewrite (at_core _ _ _ A2). split; [apply mapM_one; assumption|]. split; [discriminate|exact A2].
  - cbn [parseVariant] in H. apply bind_inv in H. destruct H as (t & c1 & H1 & H). destruct (strict_inv _ _ _ _ _ _ noEof_heads A H1) as (ts' & -> & T & MT & A1). destruct (heads_inv t T MT) as [K|[K|[K|(b & ->)]]].
    + rewrite K in H. exists (VNode (tText t)), [t], ts'. split; [reflexivity|]. split; [rewrite (tok_eta t), K; constructor|]. apply (pure_inv (iVar (VNode (tText t)))) with (c := c1); [cbn [iVar]; pures|exact A1|exact H].
    + destruct (taken_token t T K) as (n & ->). cbn [tKind tText] in H. rewrite (bind_ok _ _ _ _ _ (textFrom_1 36 n c1)) in H. destruct n as [|x n].
      * injection H as <- <-. exists VEnd, [mkT KToken [36]], ts'. rewrite (at_core _ _ _ A1). split; [reflexivity|]. split; [constructor|]. split; [reflexivity|exact A1].
      * exists (VType (x :: n)), [mkT KToken (36 :: x :: n)], ts'. split; [reflexivity|]. split; [constructor; discriminate|]. apply (pure_inv (iVar (VType (x :: n)))) with (c := c1); [cbn [iVar]; pures|exact A1|exact H].
    + destruct (taken_string t T K) as (s & q & Q & ->). cbn [tKind tText] in H. rewrite (bind_ok _ _ _ _ _ (unquoted_q q s q c1)) in H. exists (VLiteral s), [mkT KString (q :: s ++ [q])], ts'. split; [reflexivity|]. split; [constructor; exists q; auto|].
      apply (pure_inv (iVar (VLiteral s))) with (c := c1); [cbn [iVar]; pures|exact A1|exact H].
    + assert (G : exists o r last, parseGroup f c1 = ROk o r /\ skipOne [last] r = ROk tt c' /\ closingOf b = op last /\ opByte last /\ l = CGroup (match b with Round => false | _ => true end) (match b with Curly => true | _ => false end) o).
      { destruct b; cbn [opening op tKind tText] in H; apply bind_inv in H; destruct H as (l' & c2 & H2 & H); apply bind_inv in H; destruct H as (u & c3 & H3 & H); injection H as <- <-; destruct u; exists l', c2; eexists; (split; [exact H2|]); (split; [exact H3|]); (split; [reflexivity|]); (split; [cbn; tauto|reflexivity]). }
      destruct G as (o & r & last & H2 & H3 & CL & OB & ->). destruct (IS _ _ _ _ _ A1 H2) as (y & ts3 & ts4 & -> & SP' & IY & A3). destruct (skip_inv _ _ _ _ _ _ (noEof_op last OB) A3 H3) as (t & ts5 & -> & T' & MT' & A4). apply match_op in MT'; [|exact OB|exact T']. subst t.
      exists (VList b y), (opening b :: ts3 ++ [op last]), ts5. split; [cbn [app]; rewrite <- app_assoc; reflexivity|]. split; [rewrite <- CL; constructor; exact SP'|]. rewrite (at_core _ _ _ A4). split; [|exact A4]. cbn [iVar].
      change (mapM (fun vs : list variant => let* xs := mapM iVar vs in ret (oneOf xs)) y) with (iSeq y). rewrite (bind_ok _ _ _ _ _ IY). reflexivity.
Qed.

(** *** and the other way *)
Scheme spSeq_mut := Induction for spSeq Sort Prop with spItem_mut := Induction for spItem Sort Prop with spVar_mut := Induction for spVar Sort Prop.
Combined Scheme sp_ind from spSeq_mut, spItem_mut, spVar_mut.
Definition noHead (types : list name) (ts : list tok) : Prop := exists t ts', ts = t :: ts' /\ matches types t = false.
Lemma more_fuel {A} (m : nat -> M A) f f' c x c' : (forall f f', (f <= f')%nat -> lem (m f) (m f')) -> (f <= f')%nat -> m f c = ROk x c' -> m f' c = ROk x c'.
Proof. intros L LE E. destruct (L f f' LE c) as [H|H]; congruence. Qed.
Lemma more_seq f f' c x c' : (f <= f')%nat -> parseGroup f c = ROk x c' -> parseGroup f' c = ROk x c'.
Proof. apply more_fuel. intros a b L. apply (lem_chunks a b L). Qed.
Lemma more_item f f' c x c' : (f <= f')%nat -> parseVariants f c = ROk x c' -> parseVariants f' c = ROk x c'.
Proof. apply more_fuel. intros a b L. apply (lem_chunks a b L). Qed.
Lemma more_more f f' c x c' : (f <= f')%nat -> parseMore f c = ROk x c' -> parseMore f' c = ROk x c'.
Proof. apply more_fuel. intros a b L. apply (lem_chunks a b L). Qed.
Lemma more_var f f' c x c' : (f <= f')%nat -> parseVariant f c = ROk x c' -> parseVariant f' c = ROk x c'.
Proof. apply more_fuel. intros a b L. apply (lem_chunks a b L). Qed.
Lemma mapM_inv {A B} (f : A -> M B) x l c zs c2 : mapM f (x :: l) c = ROk zs c2 -> exists y c1 ys, zs = y :: ys /\ f x c = ROk y c1 /\ mapM f l c1 = ROk ys c2.
Proof. cbn [mapM]. intros H. apply bind_inv in H. destruct H as (y & c1 & H1 & H). apply bind_inv in H. destruct H as (ys & c3 & H2 & H). injection H as <- <-. eauto 8. Qed.
Lemma mapM_nonempty {A B} (f : A -> M B) l c zs c2 : l <> [] -> mapM f l c = ROk zs c2 -> zs <> [].
Proof. destruct l; [congruence|]. intros _ H. apply mapM_inv in H. destruct H as (y & c1 & ys & -> & _). discriminate. Qed.
Lemma seq_complete :
  (forall ts1 x, spSeqQ ts1 x -> forall ts' c0 c l c1, at_ (ts1 ++ ts') c0 c -> noHead [commaTok; pipeTok] ts' -> iSeq x c0 = ROk l c1 -> exists f c', parseGroup f c = ROk l c' /\ at_ ts' c1 c') /\
  (forall ts1 x, spItemQ ts1 x -> forall ts' c0 c l c1, at_ (ts1 ++ ts') c0 c -> noHead [pipeTok] ts' -> mapM iVar x c0 = ROk l c1 -> exists f c', parseMore f c = ROk l c' /\ parseVariants f c = ROk (oneOf l) c' /\ at_ ts' c1 c') /\
  (forall ts1 x, spVarQ ts1 x -> forall ts' c0 c l c1, at_ (ts1 ++ ts') c0 c -> iVar x c0 = ROk l c1 -> exists f c', parseVariant f c = ROk l c' /\ at_ ts' c1 c').
Proof.
  assert (NC : forall t, matches [commaTok; pipeTok] t = false -> matches [commaTok] t = false /\ matches [pipeTok] t = false).
  { intros t. unfold matches. cbn [existsb]. rewrite !orb_false_iff. tauto. }
  apply sp_ind.
  - intros ts i SP IH ts' c0 c l c1 A (t & ts2 & -> & MT) H. apply NC in MT. destruct MT as (M1 & M2). apply mapM_inv in H. destruct H as (y & c2 & ys & -> & H & H'). injection H' as <- <-. unfold iItem in H. apply bind_inv in H. destruct H as (xs & c3 & H & H'). injection H' as <- <-.
    destruct (IH _ _ _ _ _ A (ex_intro _ t (ex_intro _ ts2 (conj eq_refl M2))) H) as (f & c' & _ & P & A'). destruct (fetch_miss [commaTok] _ _ _ _ A' M1) as (c4 & F & A4). exists (S f), c4. split; [|exact A4]. cbn [parseGroup]. rewrite (bind_ok _ _ _ _ _ P), (bind_ok _ _ _ _ _ F). reflexivity.
  - intros ts i ts1 x SP IH SP' IH' ts' c0 c l c1 A NH H. apply mapM_inv in H. destruct H as (y & c2 & ys & -> & H & H'). unfold iItem in H. apply bind_inv in H. destruct H as (xs & c3 & H & E). injection E as <- <-.
    rewrite <- app_assoc in A. cbn [app] in A. destruct (IH _ _ _ _ _ A (ex_intro _ (op 44) (ex_intro _ (ts1 ++ ts') (conj eq_refl eq_refl))) H) as (f & c' & _ & P & A'). destruct (fetch_hit [commaTok] false _ _ _ _ A' eq_refl) as (c4 & F & A4). destruct (IH' _ _ _ _ _ A4 NH H') as (f' & c5 & P' & A5).
    exists (S (max f f')), c5. split; [|exact A5]. cbn [parseGroup]. rewrite (bind_ok _ _ _ _ _ (more_item f (max f f') _ _ _ ltac:(lia) P)), (bind_ok _ _ _ _ _ F), (bind_ok _ _ _ _ _ (more_seq f' (max f f') _ _ _ ltac:(lia) P')). reflexivity.
  - intros ts v SP IH ts' c0 c l c1 A (t & ts2 & -> & MT) H. apply mapM_inv in H. destruct H as (y & c2 & ys & -> & H & H'). injection H' as <- <-. destruct (IH _ _ _ _ _ A H) as (f & c' & P & A'). destruct (fetch_miss [pipeTok] _ _ _ _ A' MT) as (c4 & F & A4).
    exists (S f), c4. cbn [parseMore parseVariants]. rewrite !(bind_ok _ _ _ _ _ P), !(bind_ok _ _ _ _ _ F). auto.
  - intros ts v ts1 x SP IH SP' IH' ts' c0 c l c1 A NH H. apply mapM_inv in H. destruct H as (y & c2 & ys & -> & H & H'). rewrite <- app_assoc in A. cbn [app] in A. destruct (IH _ _ _ _ _ A H) as (f & c' & P & A'). destruct (fetch_hit [pipeTok] false _ _ _ _ A' eq_refl) as (c4 & F & A4). destruct (IH' _ _ _ _ _ A4 NH H') as (f' & c5 & P' & _ & A5).
    assert (NE : ys <> []) by (eapply mapM_nonempty; [apply (spItem_nonempty _ _ SP')|exact H']).
    exists (S (max f f')), c5. cbn [parseMore parseVariants]. rewrite !(bind_ok _ _ _ _ _ (more_var f (max f f') _ _ _ ltac:(lia) P)), !(bind_ok _ _ _ _ _ F), !(bind_ok _ _ _ _ _ (more_more f' (max f f') _ _ _ ltac:(lia) P')). destruct ys; [contradiction|]. auto.
  - intros n ts' c0 c l c1 A H. destruct (strict_hit heads _ _ _ _ A eq_refl) as (c2 & F & A2). destruct (pure_run (iVar (VNode n)) _ _ _ _ _ ltac:(cbn [iVar]; pures) A2 H) as (c3 & P & A3). exists 1%nat, c3. split; [|exact A3]. cbn [parseVariant]. fold heads. rewrite (bind_ok _ _ _ _ _ F). exact P.
  - intros n NE ts' c0 c l c1 A H. assert (MT : matches heads (mkT KToken (36 :: n)) = true) by reflexivity. destruct (strict_hit heads _ _ _ _ A MT) as (c2 & F & A2). destruct (pure_run (iVar (VType n)) _ _ _ _ _ ltac:(cbn [iVar]; pures) A2 H) as (c3 & P & A3). exists 1%nat, c3. split; [|exact A3].
    cbn [parseVariant]. fold heads. rewrite (bind_ok _ _ _ _ _ F). cbn [tKind tText]. rewrite (bind_ok _ _ _ _ _ (textFrom_1 36 n c2)). destruct n; [contradiction|]. exact P.
  - intros ts' c0 c l c1 A H. injection H as <- <-. destruct (strict_hit heads _ _ _ _ A eq_refl) as (c2 & F & A2). exists 1%nat, c2. split; [|exact A2]. cbn [parseVariant]. fold heads. rewrite (bind_ok _ _ _ _ _ F). cbn [tKind tText]. rewrite (bind_ok _ _ _ _ _ (textFrom_1 36 [] c2)). reflexivity.
  - intros t s (q & Q & ->) ts' c0 c l c1 A H. assert (MT : matches heads (mkT KString (q :: s ++ [q])) = true) by (destruct Q as [-> | ->]; reflexivity). destruct (strict_hit heads _ _ _ _ A MT) as (c2 & F & A2). destruct (pure_run (iVar (VLiteral s)) _ _ _ _ _ ltac:(cbn [iVar]; pures) A2 H) as (c3 & P & A3). exists 1%nat, c3. split; [|exact A3].
    cbn [parseVariant]. fold heads. rewrite (bind_ok _ _ _ _ _ F). cbn [tKind tText]. rewrite (bind_ok _ _ _ _ _ (unquoted_q q s q c2)). exact P.
  - intros b ts x SP IH ts' c0 c l c1 A H. assert (MT : matches heads (opening b) = true) by (destruct b; reflexivity). cbn [app] in A. rewrite <- app_assoc in A. cbn [app] in A. destruct (strict_hit heads _ _ _ _ A MT) as (c2 & F & A2). cbn [iVar] in H. change (mapM (fun vs : list variant => let* xs := mapM iVar vs in ret (oneOf xs)) x) with (iSeq x) in H. apply bind_inv in H. destruct H as (cs & c3 & H & E). injection E as <- <-.
    assert (NH : noHead [commaTok; pipeTok] (closingOf b :: ts')) by (exists (closingOf b), ts'; split; [reflexivity|destruct b; reflexivity]). destruct (IH _ _ _ _ _ A2 NH H) as (f & c4 & P & A4).
    assert (SK : exists last c5, closingOf b = op last /\ skipOne [last] c4 = ROk tt c5 /\ at_ ts' c3 c5) by (destruct b; [exists 41; destruct (skip_hit [41] _ _ _ _ A4 eq_refl) as (c5 & K & A5)|exists 93; destruct (skip_hit [93] _ _ _ _ A4 eq_refl) as (c5 & K & A5)|exists 125; destruct (skip_hit [125] _ _ _ _ A4 eq_refl) as (c5 & K & A5)]; exists c5; split; try reflexivity; split; assumption).
    destruct SK as (last & c5 & CL & K & A5). exists (S f), c5. split; [|exact A5]. cbn [parseVariant]. fold heads. rewrite (bind_ok _ _ _ _ _ F). destruct b; injection CL as <-; cbn [opening op tKind tText]; rewrite (bind_ok _ _ _ _ _ P); change rBraceTok with [41]; change rSquareTok with [93]; change rCurlyTok with [125]; cbn -[skipOne]; rewrite (bind_ok _ _ _ _ _ K); reflexivity.
Qed.

(** ** Lists of arguments *)
Lemma fetchAll_end types c0 : forall f c, at_ [] c0 c -> forall l c', fetchAll f types c <> ROk l c'.
Proof.
  induction f as [|f IH]; intros c A l c' H; [discriminate|]. cbn [fetchAll] in H. apply bind_inv in H. destruct H as (o & c1 & H1 & H). pose proof (fetch_inv _ _ _ _ _ _ _ A H1) as F. inversion F as [b t ts2 c3 E T MT A2 B1 B2 B3|b t c3 E EO MT TX A2 B1 B2 B3|t ts2 c3 E T MT A2 B1 B2 B3]; subst; try discriminate.
  apply bind_inv in H. destruct H as (l' & c2 & H2 & H). eapply IH; [exact A2|exact H2].
Qed.
Lemma fetchAll_inv types c0 : forall f ts c l c', at_ ts c0 c -> fetchAll f types c = ROk l c' -> exists ts', ts = l ++ ts' /\ Forall (fun t => taken t /\ matches types t = true) l /\ noHead types ts' /\ at_ ts' c0 c'.
Proof.
  induction f as [|f IH]; intros ts c l c' A H; [discriminate|]. cbn [fetchAll] in H. apply bind_inv in H. destruct H as (o & c1 & H1 & H). pose proof (fetch_inv _ _ _ _ _ _ _ A H1) as F. inversion F as [b t ts2 c3 E T MT A2 B1 B2 B3|b t c3 E EO MT TX A2 B1 B2 B3|t ts2 c3 E T MT A2 B1 B2 B3]; subst.
  - apply bind_inv in H. destruct H as (l' & c2 & H2 & H). injection H as <- <-. destruct (IH _ _ _ _ A2 H2) as (ts' & -> & FA & NH & A3). exists ts'. split; [reflexivity|]. split; [constructor; auto|]. auto.
  - exfalso. apply bind_inv in H. destruct H as (l' & c2 & H2 & H). eapply fetchAll_end; eassumption.
  - injection H as <- <-. exists (t :: ts2). split; [reflexivity|]. split; [constructor|]. split; [exists t, ts2; auto|exact A2].
Qed.
Lemma fetchAll_run types c0 : forall l ts' c, at_ (l ++ ts') c0 c -> Forall (fun t => matches types t = true) l -> noHead types ts' -> exists f c', fetchAll f types c = ROk l c' /\ at_ ts' c0 c'.
Proof.
  induction l as [|t l IH]; intros ts' c A FA NH.
  - destruct NH as (t & ts2 & -> & MT). destruct (fetch_miss types _ _ _ _ A MT) as (c1 & F & A1). exists 1%nat, c1. split; [|exact A1]. cbn [fetchAll]. rewrite (bind_ok _ _ _ _ _ F). reflexivity.
  - inversion FA as [|? ? M1 M2]; subst. destruct (fetch_hit types false _ _ _ _ A M1) as (c1 & F & A1). destruct (IH _ _ A1 M2 NH) as (f & c2 & P & A2). exists (S f), c2. split; [|exact A2]. cbn [fetchAll]. rewrite (bind_ok _ _ _ _ _ F), (bind_ok _ _ _ _ _ P). reflexivity.
Qed.
Lemma each_eq {A B} (f : A -> M unit) (g : B -> M unit) l l' : Forall2 (fun a b => forall c, f a c = g b c) l l' -> forall c, each f l c = each g l' c.
Proof. induction 1 as [|a b l l' H F IH]; intros c; [reflexivity|]. cbn [each]. unfold bind. rewrite H. destruct (g b c); auto. Qed.
Lemma Forall_to2 {A B} (P : A -> B -> Prop) l : Forall (fun a => exists b, P a b) l -> exists l', Forall2 P l l'.
Proof. induction 1 as [|a l (b & H) F (l' & IH)]; [exists []; constructor|exists (b :: l'); constructor; assumption]. Qed.

Lemma F2_impl {A B} (P Q : A -> B -> Prop) l l' : (forall a b, P a b -> Q a b) -> Forall2 P l l' -> Forall2 Q l l'.
Proof. intros H. induction 1; constructor; auto. Qed.

(** ** Directives *)
Definition dirFlag (d : directive) : Z := match d with DSide => SideToken | DCaseless => CaselessToken | DExtern => ExternalToken | DError => ErrorToken | _ => 0 end.
Definition iDirective (d : directive) (args : list arg) : M unit :=
  match d with
  | DGroup => modify (fun c => setGroup (cGroup c + 1) c) ;;; each (fun a => match a with AType n => groupToken n | _ => ret tt end) args
  | DReserved => each (fun a => match a with AString s => addLiteralToken s ReservedToken | _ => ret tt end) args
  | DLiteral => each (fun a => match a with
                               | AType n => modify (fun c => setRestrict true (cRestrictLiterals c) c) ;;; addTokenFlag n NoLiteralsToken
                               | AString s => modify (fun c => setRestrict (cRestrictTypes c) true c) ;;; addLiteralToken s 0
                               end) args
  | _ => each (fun a => match a with AType n => addTokenFlag n (dirFlag d) | _ => ret tt end) args
  end.
Lemma p_directive d args : pure (iDirective d args).
Proof. destruct d; cbn [iDirective]; pures. Qed.
#[export] Hint Resolve p_directive : puredb.
Definition argTypes (d : directive) : list name := match d with DReserved => [stringTok] | DLiteral => [stringTok; tokenNameTok] | _ => [tokenNameTok] end.
Notation spArgQ := (spArg quotedOf).
Lemma plain_app a ts : plainArguments (a ++ ts) -> plainArguments ts.
Proof. intros P x d b t r -> K. apply (P (a ++ x) d b t r); [rewrite <- app_assoc; reflexivity|exact K]. Qed.
Lemma arg_inv d t : taken t -> matches (argTypes d) t = true -> ~ typeWord t -> exists a, spArgQ d t a.
Proof.
  intros T E U.
  assert (W : (In tokenNameTok (argTypes d) /\ tKind t = KToken) \/ (In stringTok (argTypes d) /\ tKind t = KString)).
  { destruct d; unfold argTypes in *; rewrite ?matches_cons, matches_nil in E; destruct E as [[E|E]|E]; try (exfalso; exact E); try destruct E as [[E|E]|E]; try (exfalso; exact E);
      try (exfalso; apply U; split; [first [apply (name_only _ _ tokenNameTok_name T E)|apply (name_only _ _ stringTok_name T E)]|auto]; fail);
      destruct (tKind t); try discriminate E; first [left; split; [cbn; tauto|reflexivity]|right; split; [cbn; tauto|reflexivity]]. }
  destruct W as [(I & K)|(I & K)].
  - destruct (taken_token t T K) as (n & ->). exists (AType n). constructor. intros ->. destruct I as [I|[]]; discriminate I.
  - destruct (taken_string t T K) as (s & Q). exists (AString s). constructor; [|exact Q]. destruct d; cbn in I; destruct I as [I|I]; try discriminate I; try contradiction; auto.
Qed.
Lemma arg_match d t a : spArgQ d t a -> matches (argTypes d) t = true.
Proof.
  intros H. destruct H as [d n N|d t s O (q & Q & ->)].
  - destruct d; try contradiction; reflexivity.
  - destruct O as [-> | ->]; destruct Q as [-> | ->]; reflexivity.
Qed.
Lemma matches_semi d : matches (argTypes d) (op 59) = false. Proof. destruct d; reflexivity. Qed.
(** the directive with its arguments read *)
Definition dirActs (n : name) (tokens : list tok) : M unit :=
  if nameEqb n sideDir || nameEqb n caselessDir || nameEqb n externDir || nameEqb n errorDir then
    (let flag := if nameEqb n sideDir then SideToken else if nameEqb n caselessDir then CaselessToken else if nameEqb n externDir then ExternalToken
               else if nameEqb n errorDir then ErrorToken else 0 in
     each (fun t => let* n := textFrom 1 (tText t) in addTokenFlag n flag) tokens)
  else if nameEqb n groupDir then modify (fun c => setGroup (cGroup c + 1) c) ;;; each (fun t => let* n := textFrom 1 (tText t) in groupToken n) tokens
  else if nameEqb n reservedDir then each (fun t => let* n := unquoted (tText t) in addLiteralToken n ReservedToken) tokens
  else each (fun t =>
    if nameEqb (typeName (tKind t)) tokenNameTok then
      modify (fun c => setRestrict true (cRestrictLiterals c) c) ;;;
      let* n := textFrom 1 (tText t) in addTokenFlag n NoLiteralsToken
    else
      modify (fun c => setRestrict (cRestrictTypes c) true c) ;;;
      let* n := unquoted (tText t) in addLiteralToken n 0) tokens.
Lemma parseDir_is f d c : parseDir f (mkT KDir (dirName d)) c = (let* tokens := fetchAll f (argTypes d) in skipOne semicolonTok ;;; dirActs (dirName d) tokens) c.
Proof. destruct d; reflexivity. Qed.
Lemma dirActs_is d tokens args : Forall2 (spArgQ d) tokens args -> forall c, dirActs (dirName d) tokens c = iDirective d args c.
Proof.
  intros F. assert (E : forall (f : tok -> M unit) (g : arg -> M unit), (forall t a, spArgQ d t a -> forall c, f t c = g a c) -> forall c, each f tokens c = each g args c).
  { intros f g H. apply each_eq. eapply F2_impl; [|exact F]. intros t a S. apply H, S. }
  assert (TF : forall x n (k : name -> M unit) c, (let* y := textFrom 1 (x :: n) in k y) c = k n c) by (intros x n k c; unfold bind; rewrite textFrom_1; reflexivity).
  assert (UQ : forall q s (k : name -> M unit) c, (let* y := unquoted (q :: s ++ [q]) in k y) c = k s c) by (intros x n k c; unfold bind; rewrite unquoted_q; reflexivity).
  destruct d.
  1-4: intros c; unfold dirActs; change (dirName _) with sideDir || change (dirName _) with caselessDir || change (dirName _) with errorDir || change (dirName _) with externDir; cbn [iDirective dirFlag]; apply E; intros t a S c'; inversion S as [? n N|? t' s O Q]; subst; [apply TF|destruct O; discriminate].
  - intros c. change (dirActs (dirName DGroup) tokens) with (modify (fun c => setGroup (cGroup c + 1) c) ;;; each (fun t => let* n := textFrom 1 (tText t) in groupToken n) tokens). cbn [iDirective]. unfold bind at 1 3. unfold modify. apply E. intros t a S c'. inversion S as [? n N|? t' s O Q]; subst; [apply TF|destruct O; discriminate].
  - intros c. change (dirActs (dirName DLiteral) tokens) with (each (fun t =>
    if nameEqb (typeName (tKind t)) tokenNameTok then
      modify (fun c => setRestrict true (cRestrictLiterals c) c) ;;;
      let* n := textFrom 1 (tText t) in addTokenFlag n NoLiteralsToken
    else
      modify (fun c => setRestrict (cRestrictTypes c) true c) ;;;
      let* n := unquoted (tText t) in addLiteralToken n 0) tokens). cbn [iDirective]. apply E. intros t a S c'. inversion S as [? n N|? t' s O (q & Q & ->)]; subst.
    + change (nameEqb (typeName (tKind (mkT KToken (36 :: n)))) tokenNameTok) with true. cbn iota. unfold bind at 1 3. unfold modify. apply TF.
    + change (nameEqb (typeName (tKind (mkT KString (q :: s ++ [q])))) tokenNameTok) with false. cbn iota. unfold bind at 1 3. unfold modify. apply UQ.
  - intros c. change (dirActs (dirName DReserved) tokens) with (each (fun t => let* n := unquoted (tText t) in addLiteralToken n ReservedToken) tokens). cbn [iDirective]. apply E. intros t a S c'. inversion S as [? n N|? t' s O (q & Q & ->)]; subst; [congruence|apply UQ].
Qed.
Lemma directive_sound f n ts c0 c u c' : at_ ts c0 c -> plainArguments (mkT KDir n :: ts) -> parseDir f (mkT KDir n) c = ROk u c' ->
  exists d args l ts', n = dirName d /\ ts = l ++ op 59 :: ts' /\ Forall2 (spArgQ d) l args /\ iDirective d args c0 = ROk u (core c') /\ at_ ts' (core c') c'.
Proof.
  intros A U H. assert (D : exists d, n = dirName d).
  { unfold parseDir in H. cbn [tText] in H. destruct (nameEqb n sideDir) eqn:E1; [apply nameEqb_ok in E1; exists DSide; exact E1|]. destruct (nameEqb n caselessDir) eqn:E2; [apply nameEqb_ok in E2; exists DCaseless; exact E2|]. destruct (nameEqb n externDir) eqn:E3; [apply nameEqb_ok in E3; exists DExtern; exact E3|]. destruct (nameEqb n errorDir) eqn:E4; [apply nameEqb_ok in E4; exists DError; exact E4|].
    cbn [orb] in H. destruct (nameEqb n groupDir) eqn:E5; [apply nameEqb_ok in E5; exists DGroup; exact E5|]. destruct (nameEqb n reservedDir) eqn:E6; [apply nameEqb_ok in E6; exists DReserved; exact E6|]. destruct (nameEqb n literalDir) eqn:E7; [apply nameEqb_ok in E7; exists DLiteral; exact E7|]. discriminate H. }
  destruct D as (d & ->). rewrite parseDir_is in H. apply bind_inv in H. destruct H as (l & c1 & H1 & H). destruct (fetchAll_inv _ _ _ _ _ _ _ A H1) as (ts1 & -> & FA & _ & A1). apply bind_inv in H. destruct H as (u' & c2 & H2 & H). destruct (skip_inv semicolonTok _ _ _ _ _ (noEof_op 59 ltac:(cbn; tauto)) A1 H2) as (t & ts2 & -> & T & MT & A2).
  apply (match_op 59) in MT; [|cbn; tauto|exact T]. subst t.
  assert (FB : Forall (fun t => exists a, spArgQ d t a) l). { rewrite Forall_forall in *. intros t I. apply arg_inv; [apply FA, I|apply FA, I|]. apply in_split in I. destruct I as (b & r & ->). apply (U [] (mkT KDir (dirName d)) b t (r ++ op 59 :: ts2)); [cbn [app]; rewrite <- app_assoc; reflexivity|reflexivity|].
    intros X. destruct (FA (op 59)) as (_ & X'); [apply in_or_app; left; exact X|]. rewrite matches_semi in X'. discriminate. }
  destruct (Forall_to2 _ _ FB) as (args & F2). rewrite (dirActs_is d l args F2) in H. exists d, args, l, ts2. split; [reflexivity|]. split; [reflexivity|]. split; [exact F2|]. eapply pure_inv; [apply p_directive|exact A2|exact H].
Qed.
Lemma directive_complete d l args ts' c0 c u c1 : Forall2 (spArgQ d) l args -> at_ (l ++ op 59 :: ts') c0 c -> iDirective d args c0 = ROk u c1 -> exists f c', parseDir f (mkT KDir (dirName d)) c = ROk u c' /\ at_ ts' c1 c'.
Proof.
  intros F2 A H. assert (FA : Forall (fun t => matches (argTypes d) t = true) l) by (clear A H; induction F2; [apply Forall_nil|apply Forall_cons; [eapply arg_match; eassumption|assumption]]).
  destruct (fetchAll_run (argTypes d) c0 l _ _ A FA) as (f & c2 & P & A2); [exists (op 59), ts'; split; [reflexivity|apply matches_semi]|]. destruct (skip_hit semicolonTok _ _ _ _ A2 eq_refl) as (c3 & K & A3). destruct (pure_run _ _ _ _ _ _ (p_directive d args) A3 H) as (c4 & R & A4).
  exists f, c4. split; [|exact A4]. rewrite parseDir_is, (bind_ok _ _ _ _ _ P), (bind_ok _ _ _ _ _ K), (dirActs_is d l args F2). exact R.
Qed.

(** ** Regular expressions *)
Section R.
Variable compiles : name -> bool.
Fixpoint iJoin (ps : list part) : M name :=
  match ps with
  | [] => ret []
  | p :: r =>
      let* s := match p with
           | PRegexp re => ret re
           | PTemplate n => let* ts := get cTemplates in match nget n ts with Some s => ret s | None => fail (RE_unknownTemplate n) end
           end in
      let* rest := iJoin r in ret (s ++ rest)
  end.
Definition iRegexp (ps : list part) : M name := let* re := iJoin ps in if compiles re then ret re else fail (RE_eof).
Lemma p_iJoin ps : pure (iJoin ps). Proof. induction ps as [|p ps IH]; cbn [iJoin]; pures. Qed.
Hint Resolve p_iJoin : puredb.
Lemma p_iRegexp ps : pure (iRegexp ps). Proof. unfold iRegexp. pures. Qed.
Hint Resolve p_iRegexp : puredb.
Lemma join_is l ps : Forall2 spPart l ps -> forall c, joinRegexp l c = iJoin ps c.
Proof.
  induction 1 as [|t p l ps H F IH]; intros c; [reflexivity|]. cbn [joinRegexp iJoin]. destruct H as [re|n]; cbn [tKind tText].
  - unfold bind. rewrite unquoted_q. cbn. rewrite IH. reflexivity.
  - unfold bind. cbn. destruct (nget n (cTemplates c)); cbn; [|reflexivity]. rewrite IH. reflexivity.
Qed.
Lemma part_inv t : taken t -> matches [regexpTok; nameTok] t = true -> exists p, spPart t p.
Proof.
  intros T E. assert (K : tKind t = KRegexp \/ tKind t = KName).
  { rewrite !matches_cons, matches_nil in E. destruct E as [[E|E]|[[E|E]|[]]]; try (destruct (tKind t); try discriminate E; auto; fail); right; [apply (name_only _ _ regexpTok_name T E)|apply (name_only _ _ nameTok_name T E)]. }
  destruct K as [K|K].
  - destruct (taken_regexp t T K) as (n & ->). exists (PRegexp n). constructor.
  - exists (PTemplate (tText t)). rewrite (tok_eta t), K. constructor.
Qed.
Lemma part_match t p : spPart t p -> matches [regexpTok; nameTok] t = true.
Proof. intros [re|n]; [reflexivity|]. apply matches_cons. right. apply matches_cons. left. left. reflexivity. Qed.
(** "=", the expression, ";" *)
Definition regexpDef (f : nat) : M name := skipOne equTok ;;; let* re := fetchRegexp compiles f in skipOne semicolonTok ;;; ret re.
Lemma regexp_sound f ts c0 c re c' : at_ ts c0 c -> regexpDef f c = ROk re c' ->
  exists ps l ts', ts = op 61 :: l ++ op 59 :: ts' /\ ps <> [] /\ Forall2 spPart l ps /\ iRegexp ps c0 = ROk re (core c') /\ at_ ts' (core c') c'.
Proof.
  intros A H. unfold regexpDef in H. apply bind_inv in H. destruct H as (u & c1 & H1 & H). destruct (skip_inv equTok _ _ _ _ _ (noEof_op 61 ltac:(cbn; tauto)) A H1) as (t & ts1 & -> & T & MT & A1). apply (match_op 61) in MT; [|cbn; tauto|exact T]. subst t.
  apply bind_inv in H. destruct H as (re' & c2 & H2 & H). apply bind_inv in H. destruct H as (u' & c3 & H3 & H). injection H as -> ->. unfold fetchRegexp in H2. apply bind_inv in H2. destruct H2 as (l & c4 & H4 & H2). destruct (fetchAll_inv _ _ _ _ _ _ _ A1 H4) as (ts2 & -> & FA & NH & A2).
  destruct l as [|t0 l].
  { exfalso. apply bind_inv in H2. destruct H2 as (o & c5 & H5 & H2). pose proof (fetch_inv _ _ _ _ _ _ _ A2 H5) as F. destruct NH as (t & ts3 & -> & MT). inversion F as [b t' ts4 c6 E T' MT' A6 B1 B2 B3|b t' c6 E EO MT' TX A6 B1 B2 B3|]; subst; [|discriminate]. injection E as <- <-. congruence. }
  assert (FB : Forall (fun t => exists p, spPart t p) (t0 :: l)) by (rewrite Forall_forall in *; intros t I; apply part_inv; apply FA, I). destruct (Forall_to2 _ _ FB) as (ps & F2).
  assert (J : iRegexp ps c4 = ROk re c2). { unfold iRegexp. apply bind_inv in H2. destruct H2 as (r & c5 & H5 & H2). rewrite (join_is _ _ F2) in H5. rewrite (bind_ok _ _ _ _ _ H5). destruct (compiles r); [exact H2|discriminate]. }
  destruct (pure_inv _ _ _ _ _ _ (p_iRegexp ps) A2 J) as (J' & A3). destruct (skip_inv semicolonTok _ _ _ _ _ (noEof_op 59 ltac:(cbn; tauto)) A3 H3) as (t & ts3 & -> & T' & MT & A4). apply (match_op 59) in MT; [|cbn; tauto|exact T']. subst t.
  exists ps, (t0 :: l), ts3. split; [reflexivity|]. split; [intros ->; inversion F2|]. split; [exact F2|]. rewrite (at_core _ _ _ A4). auto.
Qed.
Lemma regexp_complete ps l ts' c0 c re c1 : ps <> [] -> Forall2 spPart l ps -> at_ (op 61 :: l ++ op 59 :: ts') c0 c -> iRegexp ps c0 = ROk re c1 -> exists f c', regexpDef f c = ROk re c' /\ at_ ts' c1 c'.
Proof.
  intros NE F2 A H. destruct (skip_hit equTok _ _ _ _ A eq_refl) as (c2 & K & A2).
  assert (FA : Forall (fun t => matches [regexpTok; nameTok] t = true) l) by (clear - F2; induction F2; [apply Forall_nil|apply Forall_cons; [eapply part_match; eassumption|assumption]]).
  destruct (fetchAll_run [regexpTok; nameTok] c0 l _ _ A2 FA) as (f & c3 & P & A3); [exists (op 59), ts'; split; reflexivity|]. destruct (pure_run _ _ _ _ _ _ (p_iRegexp ps) A3 H) as (c4 & R & A4). destruct (skip_hit semicolonTok _ _ _ _ A4 eq_refl) as (c5 & K' & A5).
  exists f, c5. split; [|exact A5]. unfold regexpDef. rewrite (bind_ok _ _ _ _ _ K). assert (FR : fetchRegexp compiles f c2 = ROk re c4).
  { unfold fetchRegexp. rewrite (bind_ok _ _ _ _ _ P). destruct l as [|t l]; [inversion F2; subst; contradiction|]. unfold iRegexp in R. apply bind_inv in R. destruct R as (r & c6 & R & R'). rewrite <- (join_is _ _ F2) in R. rewrite (bind_ok _ _ _ _ _ R). destruct (compiles r); [exact R'|discriminate]. }
  rewrite (bind_ok _ _ _ _ _ FR), (bind_ok _ _ _ _ _ K'). reflexivity.
Qed.

(** ** Layers *)
Notation spLArgQ := (spLArg quotedOf). Notation spArgsQ := (spArgs quotedOf). Notation spCommandQ := (spCommand quotedOf). Notation spCommandsQ := (spCommands quotedOf).
Definition argText (t : tok) : M name := if nameEqb (typeName (tKind t)) stringTok then unquoted (tText t) else ret (tText t).
Lemma larg_inv t c : taken t -> matches [stringTok; nameTok] t = true -> exists a, spLArgQ t a /\ argText t c = ROk a c.
Proof.
  intros T E. assert (K : tKind t = KString \/ tKind t = KName).
  { rewrite !matches_cons, matches_nil in E. destruct E as [[E|E]|[[E|E]|[]]]; try (destruct (tKind t); try discriminate E; auto; fail); right; [apply (name_only _ _ stringTok_name T E)|apply (name_only _ _ nameTok_name T E)]. }
  unfold argText. destruct K as [K|K].
  - destruct (taken_string t T K) as (s & q & Q & ->). exists s. split; [apply LA_string; exists q; auto|]. apply unquoted_q.
  - exists (tText t). rewrite K. split; [rewrite (tok_eta t), K; constructor|reflexivity].
Qed.
Lemma larg_match t a c : spLArgQ t a -> matches [stringTok; nameTok] t = true /\ argText t c = ROk a c.
Proof. intros [n|t' s (q & Q & ->)]; [split; [apply matches_cons; right; apply matches_cons; left; left; reflexivity|reflexivity]|]. split; [destruct Q as [-> | ->]; reflexivity|]. apply unquoted_q. Qed.
Lemma args_sound : forall f ts c0 c l c', at_ ts c0 c -> parseArgs f c = ROk l c' -> exists ts1 ts', ts = ts1 ++ op 41 :: ts' /\ spArgsQ ts1 l /\ at_ ts' c0 c'.
Proof.
  induction f as [|f IH]; intros ts c0 c l c' A H; [discriminate|]. cbn [parseArgs] in H. apply bind_inv in H. destruct H as (t & c1 & H1 & H). destruct (strict_inv _ _ _ _ _ _ noEof_1 A H1) as (ts1 & -> & T & MT & A1). fold (argText t) in H. destruct (larg_inv t c1 T MT) as (a & SA & AT). rewrite (bind_ok _ _ _ _ _ AT) in H.
  apply bind_inv in H. destruct H as (t' & c2 & H2 & H). destruct (strict_inv _ _ _ _ _ _ noEof_2 A1 H2) as (ts2 & -> & T' & MT' & A2). apply (match_op2 44 41) in MT'; [|cbn; tauto|cbn; tauto|exact T']. destruct MT' as [-> | ->].
  - change (nameEqb (tText (op 44)) rBraceTok) with false in H. cbn iota in H. apply bind_inv in H. destruct H as (l' & c3 & H3 & H). injection H as <- <-. destruct (IH _ _ _ _ _ A2 H3) as (ts3 & ts4 & -> & SP & A3). exists (t :: op 44 :: ts3), ts4. split; [reflexivity|]. split; [constructor; assumption|exact A3].
  - change (nameEqb (tText (op 41)) rBraceTok) with true in H. cbn iota in H. injection H as <- <-. exists [t], ts2. split; [reflexivity|]. split; [constructor; assumption|exact A2].
Qed.
Lemma args_complete ts1 l : spArgsQ ts1 l -> forall ts' c0 c, at_ (ts1 ++ op 41 :: ts') c0 c -> exists f c', parseArgs f c = ROk l c' /\ at_ ts' c0 c'.
Proof.
  induction 1 as [t a SA|t a ts l SA SP IH]; intros ts' c0 c A; cbn [app] in A.
  - destruct (larg_match t a c SA) as (MT & _). destruct (strict_hit _ _ _ _ _ A MT) as (c1 & F & A1). destruct (larg_match t a c1 SA) as (_ & AT). destruct (strict_hit [commaTok; rBraceTok] _ _ _ _ A1 eq_refl) as (c2 & F2 & A2). exists 1%nat, c2. split; [|exact A2]. cbn [parseArgs]. rewrite (bind_ok _ _ _ _ _ F). fold (argText t). rewrite (bind_ok _ _ _ _ _ AT), (bind_ok _ _ _ _ _ F2). reflexivity.
  - destruct (larg_match t a c SA) as (MT & _). destruct (strict_hit _ _ _ _ _ A MT) as (c1 & F & A1). destruct (larg_match t a c1 SA) as (_ & AT). destruct (strict_hit [commaTok; rBraceTok] _ _ _ _ A1 eq_refl) as (c2 & F2 & A2). destruct (IH _ _ _ A2) as (f & c3 & P & A3). exists (S f), c3. split; [|exact A3].
    cbn [parseArgs]. rewrite (bind_ok _ _ _ _ _ F). fold (argText t). rewrite (bind_ok _ _ _ _ _ AT), (bind_ok _ _ _ _ _ F2). change (nameEqb (tText (op 44)) rBraceTok) with false. cbn iota. rewrite (bind_ok _ _ _ _ _ P). reflexivity.
Qed.
Lemma larg_head t a : spLArgQ t a -> taken t -> matches [rBraceTok] t = false.
Proof.
  intros H T. apply not_true_iff_false. intros E. apply (match_op 41) in E; [|cbn; tauto|exact T]. subst t. inversion H as [|t s (q & Q & E)]; subst. discriminate E.
Qed.
Lemma command_sound f t ts c0 c args c' : at_ ts c0 c -> (let* o := ignoreError (fetch [rBraceTok] false) in match o with Some _ => ret [] | None => parseArgs f end) c = ROk args c' -> 
  (ts = [] /\ at_ [] c0 c') \/ exists ts1 ts', ts = ts1 ++ op 41 :: ts' /\ spCommandQ (mkT KName t :: op 40 :: ts1 ++ [op 41]) (mkCmd t args) /\ at_ ts' c0 c'.
Proof.
  intros A H. apply bind_inv in H. destruct H as (o & c1 & H1 & H). unfold ignoreError in H1. destruct ts as [|t0 ts].
  - left. destruct (take_end _ _ A) as (t' & c2 & TK & A2 & EO & TX). unfold fetch, bind in H1. rewrite TK in H1. rewrite EO in H1. assert (o = Some t' /\ c2 = c1) as (-> & ->) by (destruct (matches [rBraceTok] t'); injection H1 as <- <-; auto). injection H as <- <-. auto.
  - right. assert (T : taken t0) by (pose proof (at_taken _ _ _ A) as X; inversion X; assumption). destruct (matches [rBraceTok] t0) eqn:MT.
    + destruct (fetch_hit _ false _ _ _ _ A MT) as (c2 & F & A2). rewrite F in H1. injection H1 as <- <-. injection H as <- <-. apply (match_op 41) in MT; [|cbn; tauto|exact T]. subst t0. exists [], ts. split; [reflexivity|]. split; [constructor|exact A2].
    + destruct (fetch_miss _ _ _ _ _ A MT) as (c2 & F & A2). rewrite F in H1. injection H1 as <- <-. destruct (args_sound _ _ _ _ _ _ A2 H) as (ts1 & ts' & E & SP & A3). exists ts1, ts'. split; [exact E|]. split; [constructor; exact SP|exact A3].
Qed.
Lemma commands_sound : forall f ts c0 c l c', at_ ts c0 c -> parseCommands f c = ROk l c' -> exists ts1 ts', ts = ts1 ++ op 59 :: ts' /\ spCommandsQ ts1 l /\ at_ ts' c0 c'.
Proof.
  induction f as [|f IH]; intros ts c0 c l c' A H; [discriminate|]. cbn [parseCommands] in H. apply bind_inv in H. destruct H as (t & c1 & H1 & H). destruct (strict_inv _ _ _ _ _ _ noEof_3 A H1) as (ts1 & -> & T & MT & A1).
  destruct (nameEqb (typeName (tKind t)) opTok) eqn:K.
  - injection H as <- <-. exists [], ts1. assert (t = op 59) as ->. { rewrite matches_cons in MT. destruct MT as [[E|E]|E]; [|pose proof (name_only _ _ nameTok_name T E) as X; rewrite X in K; discriminate|apply (match_op 59); [cbn; tauto|exact T|exact E]]. rewrite E in K. discriminate. }
    split; [reflexivity|]. split; [constructor|exact A1].
  - assert (KN : tKind t = KName). { rewrite matches_cons in MT. destruct MT as [[E|E]|E]; [destruct (tKind t); try discriminate E; reflexivity|apply (name_only _ _ nameTok_name T E)|]. apply (match_op 59) in E; [|cbn; tauto|exact T]. subst t. discriminate. }
    apply bind_inv in H. destruct H as (u & c2 & H2 & H). destruct (skip_inv lBraceTok _ _ _ _ _ (noEof_op 40 ltac:(cbn; tauto)) A1 H2) as (t' & ts2 & -> & T' & MT' & A2). apply (match_op 40) in MT'; [|cbn; tauto|exact T']. subst t'.
    assert (H' : (let* args := (let* o := ignoreError (fetch [rBraceTok] false) in match o with Some _ => ret [] | None => parseArgs f end) in let* l := parseCommands f in ret (mkCmd (tText t) args :: l)) c2 = ROk l c') by (rewrite bind_assoc; exact H).
    apply bind_inv in H'. destruct H' as (args & c3 & H3 & H'). apply bind_inv in H'. destruct H' as (l' & c4 & H4 & H'). injection H' as <- <-. destruct (command_sound f (tText t) _ _ _ _ _ A2 H3) as [(-> & A3)|(ts3 & ts4 & -> & SP & A3)].
    + exfalso. destruct (IH _ _ _ _ _ A3 H4) as (ts3 & ts4 & E & _). destruct ts3; discriminate.
    + destruct (IH _ _ _ _ _ A3 H4) as (ts5 & ts6 & -> & SP' & A5). exists ((t :: op 40 :: ts3 ++ [op 41]) ++ ts5), ts6. split; [cbn [app]; rewrite <- !app_assoc; reflexivity|]. split; [|exact A5]. constructor; [|exact SP']. rewrite (tok_eta t), KN. exact SP.
Qed.
Lemma more_args f f' c x c' : (f <= f')%nat -> parseArgs f c = ROk x c' -> parseArgs f' c = ROk x c'.
Proof. apply more_fuel. apply lem_args. Qed.
Lemma more_commands f f' c x c' : (f <= f')%nat -> parseCommands f c = ROk x c' -> parseCommands f' c = ROk x c'.
Proof. apply more_fuel. apply lem_commands. Qed.
Lemma commands_complete ts1 l : spCommandsQ ts1 l -> forall ts' c0 c, at_ (ts1 ++ op 59 :: ts') c0 c -> exists f c', parseCommands f c = ROk l c' /\ at_ ts' c0 c'.
Proof.
  induction 1 as [|ts x ts2 l SC SP IH]; intros ts' c0 c A.
  - cbn [app] in A. destruct (strict_hit [nameTok; semicolonTok] _ _ _ _ A eq_refl) as (c1 & F & A1). exists 1%nat, c1. split; [|exact A1]. cbn [parseCommands]. rewrite (bind_ok _ _ _ _ _ F). reflexivity.
  - rewrite <- app_assoc in A. assert (G : exists n ts3, ts = mkT KName n :: op 40 :: ts3 /\ gcName x = n /\ forall c2, at_ (ts3 ++ ts2 ++ op 59 :: ts') c0 c2 -> exists f c3, (let* o := ignoreError (fetch [rBraceTok] false) in match o with Some _ => ret [] | None => parseArgs f end) c2 = ROk (gcArgs x) c3 /\ at_ (ts2 ++ op 59 :: ts') c0 c3).
    { destruct SC as [n|n ts l' SA].
      - exists n, [op 41]. split; [reflexivity|]. split; [reflexivity|]. intros c2 A2. destruct (fetch_hit [rBraceTok] false _ _ _ _ A2 eq_refl) as (c3 & F & A3). exists O, c3. split; [|exact A3]. unfold bind, ignoreError. rewrite F. reflexivity.
      - exists n, (ts ++ [op 41]). split; [reflexivity|]. split; [reflexivity|]. intros c2 A2. rewrite <- app_assoc in A2. cbn [app] in A2. assert (HD : exists t ts3, ts = t :: ts3 /\ matches [rBraceTok] t = false).
        { pose proof (at_taken _ _ _ A2) as FT. destruct SA as [t a SA|t a ts l' SA _]; inversion FT; subst; eexists _, _; (split; [reflexivity|eapply larg_head; eassumption]). }
        destruct HD as (t & ts3 & E & MT). subst ts. destruct (fetch_miss [rBraceTok] _ _ _ _ A2 MT) as (c3 & F & A3). destruct (args_complete _ _ SA _ _ _ A3) as (f & c4 & P & A4). exists f, c4. split; [|exact A4]. unfold bind, ignoreError. rewrite F. exact P. }
    destruct G as (n & ts3 & -> & GN & G). cbn [app] in A. assert (MT : matches [nameTok; semicolonTok] (mkT KName n) = true) by (apply matches_cons; left; left; reflexivity). destruct (strict_hit _ _ _ _ _ A MT) as (c1 & F & A1). destruct (skip_hit lBraceTok _ _ _ _ A1 eq_refl) as (c2 & K & A2). destruct (G c2 A2) as (f & c3 & P & A3). destruct (IH _ _ _ A3) as (f' & c4 & P' & A4).
    exists (S (max f f')), c4. split; [|exact A4]. cbn [parseCommands]. rewrite (bind_ok _ _ _ _ _ F). change (nameEqb (typeName (tKind (mkT KName n))) opTok) with false. cbn iota. rewrite (bind_ok _ _ _ _ _ K).
    rewrite <- (bind_assoc (ignoreError (fetch [rBraceTok] false)) (fun o => match o with Some _ => ret [] | None => parseArgs (max f f') end)).
    assert (P2 : (let* o := ignoreError (fetch [rBraceTok] false) in match o with Some _ => ret [] | None => parseArgs (max f f') end) c2 = ROk (gcArgs x) c3).
    { apply bind_inv in P. destruct P as (o & c5 & P1 & P). rewrite (bind_ok _ _ _ _ _ P1). destruct o; [exact P|]. eapply more_args; [|exact P]. lia. }
    rewrite (bind_ok _ _ _ _ _ P2), (bind_ok _ _ _ _ _ (more_commands f' (max f f') _ _ _ ltac:(lia) P')). subst n. destruct x. reflexivity.
Qed.

(** ** Records *)
Notation spRecordQ := (spRecord quotedOf). Notation spRecordsQ := (spRecords quotedOf).
Definition typeDefined (n : name) : M bool :=
  let* index := get cTokenIndex in
  match nget n index with
  | Some i => let* ts := get cTokens in let* gt := orCrash (zget ts i) in ret (negb (nameEqb (gtRe gt) []))
  | None => ret false
  end.
Definition nodeFree (n : name) : M unit :=
  let* names := get cNames in
  match nodeIndex 0 n names with
  | Some i => let* defs := get cDefs in let* d := orCrash (zget defs i) in match d with Some _ => fail (RE_nodeDefined (mkT KName n)) | None => ret tt end
  | None => ret tt
  end.
Definition iRecord (r : record) : M unit :=
  match r with
  | RDirective d args => iDirective d args
  | RTemplate n ps =>
      let* ts := get cTemplates in
      match nget n ts with
      | Some _ => fail (RE_templateDefined n)
      | None => let* re := iRegexp ps in modify (fun c => setTemplates (nput n re (cTemplates c)) c)
      end
  | RType n ps => let* has := typeDefined n in if has || nameEqb n [] then fail (RE_tokenDefined (mkT KToken (36 :: n))) else let* re := iRegexp ps in addToken n re 0
  | RLayer l => modify (fun c => setLayers (cLayers c ++ [l]) c)
  | RNode n l =>
      nodeFree n ;;;
      let* i := addNode n true in
      let* cs := iSeq l in
      modify (fun c => setNodes (cNames c) (upd (cDefs c) (Z.to_nat i) (Some (CGroup false false cs))) c)
  end.
Lemma variant_nested (P : variant -> Prop) : (forall n, P (VNode n)) -> (forall n, P (VType n)) -> P VEnd -> (forall s, P (VLiteral s)) -> (forall b l, Forall (Forall P) l -> P (VList b l)) -> forall v, P v.
Proof.
  intros H1 H2 H3 H4 H5. fix IH 1. intros [n|n| |s|b l]; [apply H1|apply H2|apply H3|apply H4|]. apply H5. induction l as [|i l IHl]; constructor; [|exact IHl]. clear IHl. induction i as [|v i IHi]; constructor; [apply IH|exact IHi].
Qed.
Lemma p_mapM_in {A B} (f : A -> M B) l : Forall (fun x => pure (f x)) l -> pure (mapM f l).
Proof. induction 1 as [|x l H F IH]; cbn [mapM]; pures. Qed.
Lemma p_iVar : forall v, pure (iVar v).
Proof.
  apply variant_nested; intros; cbn [iVar]; pures. apply p_mapM_in. eapply Forall_impl; [|eassumption]. intros vs F. apply p_bind; [apply p_mapM_in; exact F|]. intros; apply p_ret.
Qed.
Lemma p_iSeq l : pure (iSeq l).
Proof. apply p_mapM. intros vs. apply p_bind; [apply p_mapM, p_iVar|]. intros; apply p_ret. Qed.
Hint Resolve p_iSeq : puredb.
Lemma p_typeDefined n : pure (typeDefined n). Proof. unfold typeDefined. pures. Qed.
Lemma p_nodeFree n : pure (nodeFree n). Proof. unfold nodeFree. pures. Qed.
Hint Resolve p_typeDefined p_nodeFree : puredb.
Lemma p_iRecord r : pure (iRecord r).
Proof. destruct r; cbn [iRecord]; pures. Qed.
Definition iRecords (rs : list record) : M unit := each iRecord rs.

(** *** Layers and nodes *)
Lemma layer_sound f t ts c0 c u c' : taken t -> tKind t = KOp -> at_ ts c0 c -> parseLayerDef f t c = ROk u c' -> exists r ts1 ts', t :: ts = ts1 ++ ts' /\ spRecordQ ts1 r /\ isLayer r /\ iRecord r c0 = ROk u (core c') /\ at_ ts' (core c') c'.
Proof.
  intros T K A H. unfold parseLayerDef in H. destruct (nameEqb (tText t) atTok) eqn:E; [|discriminate]. apply nameEqb_ok in E. assert (t = op 64) as -> by (rewrite (tok_eta t), K, E; reflexivity). cbn [negb] in H.
  apply bind_inv in H. destruct H as (n & c1 & H1 & H). destruct (strict_inv _ _ _ _ _ _ noEof_5 A H1) as (ts1 & -> & T' & MT & A1). assert (KN : tKind n = KName).
  { apply matches_one in MT. destruct MT as [E'|E']; [destruct (tKind n); try discriminate E'; reflexivity|apply (name_only _ _ nameTok_name T' E')]. }
  apply bind_inv in H. destruct H as (l & c2 & H2 & H). destruct (commands_sound _ _ _ _ _ _ A1 H2) as (ts2 & ts3 & -> & SP & A2). exists (RLayer (mkLayer (tText n) l)), (op 64 :: n :: ts2 ++ [op 59]), ts3. split; [cbn [app]; rewrite <- app_assoc; reflexivity|]. split; [rewrite (tok_eta n), KN; constructor; exact SP|]. split; [exact I|].
  apply (pure_inv (iRecord (RLayer (mkLayer (tText n) l)))) with (c := c2); [apply p_iRecord|exact A2|exact H].
Qed.
Lemma layer_complete ts1 r ts' c0 u c1 : spRecordQ ts1 r -> isLayer r -> iRecord r c0 = ROk u c1 -> exists ts2, ts1 = op 64 :: ts2 /\ forall c2, at_ (ts2 ++ ts') c0 c2 -> exists f c', parseLayerDef f (op 64) c2 = ROk u c' /\ at_ ts' c1 c'.
Proof.
  intros SP L H. destruct SP as [| | |n ts l SC|]; try contradiction. eexists. split; [reflexivity|]. intros c2 A. cbn [app] in A. rewrite <- app_assoc in A. cbn [app] in A. assert (MT : matches [nameTok] (mkT KName n) = true) by (apply matches_one; left; reflexivity).
  destruct (strict_hit _ _ _ _ _ A MT) as (c3 & F & A3). destruct (commands_complete _ _ SC _ _ _ A3) as (f & c4 & P & A4). destruct (pure_run _ _ _ _ _ _ (p_iRecord (RLayer (mkLayer n l))) A4 H) as (c5 & R & A5). exists f, c5. split; [|exact A5].
  unfold parseLayerDef. change (negb (nameEqb (tText (op 64)) atTok)) with false. cbn iota. rewrite (bind_ok _ _ _ _ _ F), (bind_ok _ _ _ _ _ P). exact R.
Qed.
Definition readNode (f : nat) (n : name) : M unit := nodeFree n ;;; parseNodeDef f n.
Lemma node_sound f n ts c0 c u c' : at_ ts c0 c -> readNode f n c = ROk u c' -> exists r ts1 ts', mkT KName n :: ts = ts1 ++ ts' /\ spRecordQ ts1 r /\ isNode r /\ iRecord r c0 = ROk u (core c') /\ at_ ts' (core c') c'.
Proof.
  intros A H. unfold readNode, parseNodeDef in H. apply bind_inv in H. destruct H as (u1 & c1 & H1 & H). destruct (pure_inv _ _ _ _ _ _ (p_nodeFree n) A H1) as (P1 & A1). apply bind_inv in H. destruct H as (i & c2 & H2 & H). destruct (pure_inv _ _ _ _ _ _ (p_addNode n true) A1 H2) as (P2 & A2).
  apply bind_inv in H. destruct H as (u3 & c3 & H3 & H). destruct (skip_inv equTok _ _ _ _ _ (noEof_op 61 ltac:(cbn; tauto)) A2 H3) as (t & ts1 & -> & T & MT & A3). apply (match_op 61) in MT; [|cbn; tauto|exact T]. subst t.
  apply bind_inv in H. destruct H as (cs & c4 & H4 & H). destruct (seq_sound f) as (SS & _). destruct (SS _ _ _ _ _ A3 H4) as (l & ts2 & ts3 & -> & SP & IS & A4). apply bind_inv in H. destruct H as (u5 & c5 & H5 & H). destruct (skip_inv semicolonTok _ _ _ _ _ (noEof_op 59 ltac:(cbn; tauto)) A4 H5) as (t & ts4 & -> & T' & MT & A5). apply (match_op 59) in MT; [|cbn; tauto|exact T']. subst t.
  exists (RNode n l), (mkT KName n :: op 61 :: ts2 ++ [op 59]), ts4. split; [cbn [app]; rewrite <- app_assoc; reflexivity|]. split; [constructor; exact SP|]. split; [exact I|].
  destruct (pure_inv (modify (fun c => setNodes (cNames c) (upd (cDefs c) (Z.to_nat i) (Some (CGroup false false cs))) c)) _ _ _ _ _ ltac:(pures) A5 H) as (P6 & A6). split; [|exact A6]. cbn [iRecord]. rewrite (bind_ok _ _ _ _ _ P1), (bind_ok _ _ _ _ _ P2), (bind_ok _ _ _ _ _ IS). exact P6.
Qed.
Lemma node_complete ts1 r ts' c0 u c1 : spRecordQ ts1 r -> isNode r -> iRecord r c0 = ROk u c1 -> exists n ts2, ts1 = mkT KName n :: ts2 /\ forall c2, at_ (ts2 ++ ts') c0 c2 -> exists f c', readNode f n c2 = ROk u c' /\ at_ ts' c1 c'.
Proof.
  intros SP L H. destruct SP as [| | | |n ts l SC]; try contradiction. eexists _, _. split; [reflexivity|]. intros c2 A. cbn [app] in A. rewrite <- app_assoc in A. cbn [app] in A. cbn [iRecord] in H. apply bind_inv in H. destruct H as (u1 & d1 & H1 & H). apply bind_inv in H. destruct H as (i & d2 & H2 & H). apply bind_inv in H. destruct H as (cs & d3 & H3 & H).
  destruct (pure_run _ _ _ _ _ _ (p_nodeFree n) A H1) as (c3 & R1 & A3). destruct (pure_run _ _ _ _ _ _ (p_addNode n true) A3 H2) as (c4 & R2 & A4). destruct (skip_hit equTok _ _ _ _ A4 eq_refl) as (c5 & K5 & A5). destruct seq_complete as (SS & _). assert (NH : noHead [commaTok; pipeTok] (op 59 :: ts')) by (exists (op 59), ts'; split; reflexivity). destruct (SS _ _ SC _ _ _ _ _ A5 NH H3) as (f & c6 & P6 & A6).
  destruct (skip_hit semicolonTok _ _ _ _ A6 eq_refl) as (c7 & K7 & A7). destruct (pure_run (modify (fun c => setNodes (cNames c) (upd (cDefs c) (Z.to_nat i) (Some (CGroup false false cs))) c)) _ _ _ _ _ ltac:(pures) A7 H) as (c8 & R8 & A8).
  exists f, c8. split; [|exact A8]. unfold readNode, parseNodeDef. rewrite (bind_ok _ _ _ _ _ R1), (bind_ok _ _ _ _ _ R2), (bind_ok _ _ _ _ _ K5), (bind_ok _ _ _ _ _ P6), (bind_ok _ _ _ _ _ K7). exact R8.
Qed.

(** ** The part of a description before the first node *)
Definition starts := [nameTok; dirTok; opTok; templateNameTok; tokenNameTok].
Definition headRecord (f : nat) (t : tok) : M unit :=
  match tKind t with
  | KDir => parseDir f t
  | KOp => parseLayerDef f t
  | KTemplate =>
      let* n := textFrom 2 (tText t) in
      let* ts := get cTemplates in
      match nget n ts with Some _ => fail (RE_templateDefined n) | None => parseTemplateDef compiles f n end
  | KToken =>
      let* n := textFrom 1 (tText t) in
      let* has := typeDefined n in
      if has || nameEqb n [] then fail (RE_tokenDefined t) else parseTokenDef compiles f n
  | _ => ret tt
  end.
Lemma bind_ext {A B} (m : M A) (f g : A -> M B) c : (forall x c1, f x c1 = g x c1) -> bind m f c = bind m g c.
Proof. intros E. unfold bind. destruct (m c); auto. Qed.
Lemma readHead_is f c : readHead compiles (S f) c = (let* t := fetchStrict starts in match tKind t with KName => ret t | _ => headRecord f t ;;; readHead compiles f end) c.
Proof.
  cbn [readHead]. unfold starts. apply bind_ext. intros t c1. unfold headRecord, typeDefined. destruct (tKind t); try reflexivity.
  - unfold bind. destruct (textFrom 2 (tText t) c1) as [n c2|e c2| |]; try reflexivity. cbn. destruct (nget n (cTemplates c2)); reflexivity.
  - unfold bind. destruct (textFrom 1 (tText t) c1) as [n c2|e c2| |]; try reflexivity. cbn. destruct (nget n (cTokenIndex c2)) as [i|]; cbn.
    + destruct (zget (cTokens c2) i) as [gt|]; cbn; [|reflexivity]. destruct (negb (nameEqb (gtRe gt) []) || nameEqb n []); reflexivity.
    + destruct (nameEqb n []); reflexivity.
Qed.
Lemma dirTok_name : aName dirTok. Proof. unfold dirTok. aname. Qed.
Lemma opTok_name : aName opTok. Proof. unfold opTok. aname. Qed.
Lemma templateNameTok_name : aName templateNameTok. Proof. unfold templateNameTok. aname. Qed.
Lemma starts_inv t : taken t -> matches starts t = true -> tKind t = KName \/ tKind t = KDir \/ tKind t = KOp \/ tKind t = KTemplate \/ tKind t = KToken.
Proof.
  intros T MT. unfold starts in MT. repeat (apply matches_cons in MT; destruct MT as [[E|E]|MT]; [destruct (tKind t); try discriminate E; tauto|left; eapply name_only; [|exact T|exact E]; auto using nameTok_name, dirTok_name, opTok_name, templateNameTok_name, tokenNameTok_name|]). discriminate.
Qed.
Lemma noEof_starts : noEof starts.
Proof. intros t E TX. unfold isEof in E. destruct t as [k x]. cbn in *. subst x. destruct k; try discriminate; reflexivity. Qed.
Lemma textFrom_2 x y n c : textFrom 2 (x :: y :: n) c = ROk n c.
Proof.
  unfold textFrom, orCrash. replace (zslice (x :: y :: n) 2 (zlen (x :: y :: n))) with (Some n); [reflexivity|]. unfold zslice, zlen. cbn [length]. destruct ((0 <=? 2) && (2 <=? Z.of_nat (S (S (length n)))) && (Z.of_nat (S (S (length n))) <=? Z.of_nat (S (S (length n))))) eqn:E; [|rewrite !andb_false_iff, !Z.leb_gt in E; lia].
  f_equal. replace (Z.to_nat (Z.of_nat (S (S (length n))) - 2)) with (length n) by lia. change (Z.to_nat 2) with 2%nat. cbn [skipn]. rewrite firstn_all. reflexivity.
Qed.
Lemma template_is f n c : parseTemplateDef compiles f n c = (let* re := regexpDef f in modify (fun c => setTemplates (nput n re (cTemplates c)) c)) c.
Proof. unfold parseTemplateDef, regexpDef, bind. destruct (skipOne equTok c) as [u c1|e c1| |]; try reflexivity. destruct (fetchRegexp compiles f c1) as [re c2|e c2| |]; try reflexivity. destruct (skipOne semicolonTok c2) as [u' c3|e c3| |]; reflexivity. Qed.
Lemma tokenDef_is f n c : parseTokenDef compiles f n c = (let* re := regexpDef f in addToken n re 0) c.
Proof. unfold parseTokenDef, regexpDef, bind. destruct (skipOne equTok c) as [u c1|e c1| |]; try reflexivity. destruct (fetchRegexp compiles f c1) as [re c2|e c2| |]; try reflexivity. destruct (skipOne semicolonTok c2) as [u' c3|e c3| |]; reflexivity. Qed.
Lemma headRecord_sound f t ts c0 c u c' : taken t -> matches starts t = true -> tKind t <> KName -> at_ ts c0 c -> plainArguments (t :: ts) -> headRecord f t c = ROk u c' ->
  exists r ts1 ts', t :: ts = ts1 ++ ts' /\ ts1 <> [] /\ spRecordQ ts1 r /\ ~ isNode r /\ iRecord r c0 = ROk u (core c') /\ at_ ts' (core c') c'.
Proof.
  intros T MT NK A U H. unfold headRecord in H. destruct (starts_inv t T MT) as [K|[K|[K|[K|K]]]]; [contradiction| | | |]; rewrite K in H.
  - destruct (taken_dir t T K) as (n & ->). destruct (directive_sound _ _ _ _ _ _ _ A U H) as (d & args & l & ts' & E & -> & F & I & A'). rewrite E. exists (RDirective d args), (mkT KDir (dirName d) :: l ++ [op 59]), ts'. split; [cbn [app]; rewrite <- app_assoc; reflexivity|]. split; [discriminate|]. split; [constructor; exact F|]. split; [intros []|]. auto.
  - destruct (layer_sound _ _ _ _ _ _ _ T K A H) as (r & ts1 & ts' & E & S1 & L & I & A'). exists r, ts1, ts'. split; [exact E|]. split; [intros ->; inversion S1|]. split; [exact S1|]. split; [intros N; destruct r; contradiction|]. auto.
  - destruct (taken_template t T K) as (n & ->). cbn [tText] in H. rewrite (bind_ok _ _ _ _ _ (textFrom_2 _ _ _ c)) in H. unfold get at 1 in H. unfold bind at 1 in H. destruct (nget n (cTemplates c)) eqn:TP; [discriminate|]. rewrite template_is in H. apply bind_inv in H. destruct H as (re & c2 & H2 & H).
    destruct (regexp_sound _ _ _ _ _ _ A H2) as (ps & l & ts' & -> & NE & F & J & A2). destruct (pure_inv (modify (fun c => setTemplates (nput n re (cTemplates c)) c)) _ _ _ _ _ ltac:(pures) A2 H) as (H' & A3).
    exists (RTemplate n ps), (mkT KTemplate (36 :: 36 :: n) :: op 61 :: l ++ [op 59]), ts'. split; [cbn [app]; rewrite <- app_assoc; reflexivity|]. split; [discriminate|]. split; [constructor; assumption|]. split; [intros []|]. split; [|exact A3].
    cbn [iRecord]. assert (TP' : nget n (cTemplates c0) = None) by (rewrite <- (at_core _ _ _ A); exact TP). unfold get at 1. unfold bind at 1. rewrite TP'. rewrite (bind_ok _ _ _ _ _ J). exact H'.
  - destruct (taken_token t T K) as (n & ->). cbn [tText] in H. rewrite (bind_ok _ _ _ _ _ (textFrom_1 _ _ c)) in H. apply bind_inv in H. destruct H as (has & c1 & H1 & H). destruct (pure_inv _ _ _ _ _ _ (p_typeDefined n) A H1) as (P1 & A1). destruct (has || nameEqb n []) eqn:HN; [discriminate|]. rewrite tokenDef_is in H. apply bind_inv in H. destruct H as (re & c2 & H2 & H).
    destruct (regexp_sound _ _ _ _ _ _ A1 H2) as (ps & l & ts' & -> & NE & F & J & A2). destruct (pure_inv (addToken n re 0) _ _ _ _ _ ltac:(pures) A2 H) as (H' & A3). assert (NN : n <> []) by (intros ->; rewrite orb_true_r in HN; discriminate).
    exists (RType n ps), (mkT KToken (36 :: n) :: op 61 :: l ++ [op 59]), ts'. split; [cbn [app]; rewrite <- app_assoc; reflexivity|]. split; [discriminate|]. split; [constructor; assumption|]. split; [intros []|]. split; [|exact A3].
    cbn [iRecord]. rewrite (bind_ok _ _ _ _ _ P1), HN, (bind_ok _ _ _ _ _ J). exact H'.
Qed.
Lemma more_layer f f' t c x c' : (f <= f')%nat -> parseLayerDef f t c = ROk x c' -> parseLayerDef f' t c = ROk x c'.
Proof. apply (more_fuel (fun f => parseLayerDef f t)). intros. apply lem_layer. assumption. Qed.
Lemma spRecord_head ts r : spRecordQ ts r -> exists t ts', ts = t :: ts'.
Proof. destruct 1; eauto. Qed.
Lemma headRecord_complete ts1 r ts' c0 u c1 : spRecordQ ts1 r -> ~ isNode r -> iRecord r c0 = ROk u c1 ->
  exists t ts2, ts1 = t :: ts2 /\ matches starts t = true /\ tKind t <> KName /\ forall c, at_ (ts2 ++ ts') c0 c -> exists f c', headRecord f t c = ROk u c' /\ at_ ts' c1 c'.
Proof.
  intros SP NN H. destruct SP as [d ts args F|n ts ps NE F|n ts ps N0 NE F|n ts l SC|n ts l SC]; [| | | |exfalso; apply NN; exact I]; eexists _, _; (split; [reflexivity|]).
  - split; [apply matches_cons; right; apply matches_cons; left; left; reflexivity|]. split; [discriminate|]. intros c A. rewrite <- app_assoc in A. cbn [app] in A. exact (directive_complete _ _ _ _ _ _ _ _ F A H).
  - split; [reflexivity|]. split; [discriminate|]. intros c A. cbn [app] in A. rewrite <- app_assoc in A. cbn [app] in A. cbn [iRecord] in H. apply bind_inv in H. destruct H as (tp & c2 & H2 & H). injection H2 as <- <-. destruct (nget n (cTemplates c0)) eqn:TP; [discriminate|]. apply bind_inv in H. destruct H as (re & c3 & H3 & H).
    destruct (regexp_complete _ _ _ _ _ _ _ NE F A H3) as (f & c4 & P & A4). destruct (pure_run (modify (fun c => setTemplates (nput n re (cTemplates c)) c)) _ _ _ _ _ ltac:(pures) A4 H) as (c5 & R & A5). exists f, c5. split; [|exact A5]. unfold headRecord. cbn [tKind tText]. rewrite (bind_ok _ _ _ _ _ (textFrom_2 _ _ _ c)). unfold get at 1. unfold bind at 1.
    rewrite <- (at_core _ _ _ A) in TP. change (cTemplates (core c)) with (cTemplates c) in TP. rewrite TP, template_is, (bind_ok _ _ _ _ _ P). exact R.
  - split; [reflexivity|]. split; [discriminate|]. intros c A. cbn [app] in A. rewrite <- app_assoc in A. cbn [app] in A. cbn [iRecord] in H. apply bind_inv in H. destruct H as (has & c2 & H2 & H). destruct (has || nameEqb n []) eqn:HN; [discriminate|]. apply bind_inv in H. destruct H as (re & c3 & H3 & H).
    destruct (pure_run _ _ _ _ _ _ (p_typeDefined n) A H2) as (c4 & R4 & A4). destruct (regexp_complete _ _ _ _ _ _ _ NE F A4 H3) as (f & c5 & P & A5). destruct (pure_run (addToken n re 0) _ _ _ _ _ ltac:(pures) A5 H) as (c6 & R & A6). exists f, c6. split; [|exact A6]. unfold headRecord. cbn [tKind tText]. rewrite (bind_ok _ _ _ _ _ (textFrom_1 _ _ c)), (bind_ok _ _ _ _ _ R4), HN, tokenDef_is, (bind_ok _ _ _ _ _ P). exact R.
  - split; [reflexivity|]. split; [discriminate|]. intros c A. destruct (layer_complete (op 64 :: mkT KName n :: ts ++ [op 59]) (RLayer (mkLayer n l)) ts' c0 u c1) as (ts2 & E & LC); [constructor; exact SC|exact I|exact H|]. injection E as <-. exact (LC c A).
Qed.
Lemma lem_headRecord f f' t : (f <= f')%nat -> lem (headRecord f t) (headRecord f' t).
Proof.
  intros L. unfold headRecord. destruct (tKind t); try apply lem_refl; [apply lem_dir; exact L| | |apply lem_layer; exact L].
  - apply lem_bind; [apply lem_refl|]. intros n. apply lem_bind; [apply lem_refl|]. intros ts. destruct (nget n ts); [apply lem_refl|apply lem_templateDef; exact L].
  - apply lem_bind; [apply lem_refl|]. intros n. apply lem_bind; [apply lem_refl|]. intros has. destruct (has || nameEqb n []); [apply lem_refl|apply lem_tokenDef; exact L].
Qed.
Lemma more_headRecord f f' t c x c' : (f <= f')%nat -> headRecord f t c = ROk x c' -> headRecord f' t c = ROk x c'.
Proof. apply (more_fuel (fun f => headRecord f t)). intros. apply lem_headRecord. assumption. Qed.
Lemma more_head f f' c x c' : (f <= f')%nat -> readHead compiles f c = ROk x c' -> readHead compiles f' c = ROk x c'.
Proof. apply (more_fuel (readHead compiles)). intros. apply lem_head. assumption. Qed.
Lemma iRecords_cons r rs c u c1 : iRecord r c = ROk u c1 -> iRecords (r :: rs) c = iRecords rs c1.
Proof. intros H. unfold iRecords. cbn [each]. rewrite (bind_ok _ _ _ _ _ H). reflexivity. Qed.
Lemma iRecords_inv r rs c u c' : iRecords (r :: rs) c = ROk u c' -> exists v c1, iRecord r c = ROk v c1 /\ iRecords rs c1 = ROk u c'.
Proof. intros H. unfold iRecords in H. cbn [each] in H. apply bind_inv in H. exact H. Qed.
Lemma readHead_sound : forall f ts c0 c t c', at_ ts c0 c -> plainArguments ts -> readHead compiles f c = ROk t c' ->
  exists rs ts1 ts', ts = ts1 ++ t :: ts' /\ spRecordsQ ts1 rs /\ Forall (fun r => ~ isNode r) rs /\ tKind t = KName /\ iRecords rs c0 = ROk tt (core c') /\ at_ ts' (core c') c'.
Proof.
  induction f as [|f IH]; intros ts c0 c t c' A U H; [discriminate|]. rewrite readHead_is in H. apply bind_inv in H. destruct H as (t1 & c1 & H1 & H). destruct (strict_inv _ _ _ _ _ _ noEof_starts A H1) as (ts1 & -> & T & MT & A1).
  assert (D : tKind t1 = KName \/ tKind t1 <> KName) by (destruct (tKind t1); (left; reflexivity) || (right; discriminate)). destruct D as [K|K].
  - rewrite K in H. injection H as -> ->. exists [], [], ts1. split; [reflexivity|]. split; [constructor|]. split; [constructor|]. split; [exact K|]. rewrite (at_core _ _ _ A1). split; [reflexivity|exact A1].
  - assert (H' : (headRecord f t1 ;;; readHead compiles f) c1 = ROk t c') by (destruct (tKind t1); try contradiction; exact H). clear H. apply bind_inv in H'. destruct H' as (u & c2 & H2 & H). destruct (headRecord_sound _ _ _ _ _ _ _ T MT K A1 U H2) as (r & tsa & tsb & E & NE & SP & NN & I & A2).
    assert (U2 : plainArguments tsb) by (rewrite E in U; apply plain_app in U; exact U).
    destruct (IH _ _ _ _ _ A2 U2 H) as (rs & tsc & ts' & -> & SR & NR & KN & IR & A3). exists (r :: rs), (tsa ++ tsc), ts'. split; [rewrite E, app_assoc; reflexivity|]. split; [constructor; assumption|]. split; [constructor; assumption|]. split; [exact KN|]. split; [|exact A3]. rewrite (iRecords_cons _ _ _ _ _ I). exact IR.
Qed.
Lemma readHead_complete ts1 rs : spRecordsQ ts1 rs -> Forall (fun r => ~ isNode r) rs -> forall n ts' c0 c u c1, at_ (ts1 ++ mkT KName n :: ts') c0 c -> iRecords rs c0 = ROk u c1 -> exists f c', readHead compiles f c = ROk (mkT KName n) c' /\ at_ ts' c1 c'.
Proof.
  induction 1 as [|ts r ts2 rs SP SR IH]; intros NR n ts' c0 c u c1 A H.
  - injection H as <- <-. cbn [app] in A. assert (MT : matches starts (mkT KName n) = true) by (apply matches_cons; left; left; reflexivity). destruct (strict_hit _ _ _ _ _ A MT) as (c2 & F & A2). exists 1%nat, c2. split; [|exact A2]. rewrite readHead_is, (bind_ok _ _ _ _ _ F). reflexivity.
  - inversion NR as [|? ? NN NR']; subst. apply iRecords_inv in H. destruct H as (v & c2 & H2 & H). rewrite <- app_assoc in A. destruct (headRecord_complete _ _ (ts2 ++ mkT KName n :: ts') _ _ _ SP NN H2) as (t & ts3 & -> & MT & K & HC). cbn [app] in A. destruct (strict_hit _ _ _ _ _ A MT) as (c3 & F & A3). destruct (HC _ A3) as (f1 & c4 & P1 & A4). destruct (IH NR' n ts' _ _ _ _ A4 H) as (f2 & c5 & P2 & A5).
    exists (S (Nat.max f1 f2)), c5. split; [|exact A5]. rewrite readHead_is, (bind_ok _ _ _ _ _ F). assert (E : (headRecord (Nat.max f1 f2) t ;;; readHead compiles (Nat.max f1 f2)) c3 = ROk (mkT KName n) c5).
    { rewrite (bind_ok _ _ _ _ _ (more_headRecord f1 (Nat.max f1 f2) _ _ _ _ ltac:(lia) P1)). apply (more_head f2); [lia|exact P2]. }
    destruct (tKind t); try contradiction; exact E.
Qed.

(** ** The rest of a description *)
Definition nodeStarts := [nameTok; opTok; eofTok; eoiTok].
Lemma nodeStarts_inv t : taken t -> matches nodeStarts t = true -> tKind t = KName \/ tKind t = KOp.
Proof.
  intros T MT. unfold nodeStarts in MT. apply matches_cons in MT; destruct MT as [[E|E]|MT]; [destruct (tKind t); try discriminate E; tauto|left; eapply name_only; [|exact T|exact E]; apply nameTok_name|].
  apply matches_cons in MT; destruct MT as [[E|E]|MT]; [destruct (tKind t); try discriminate E; tauto|left; eapply name_only; [|exact T|exact E]; apply opTok_name|].
  exfalso. assert (NT : forall n, tText t = 45 :: n -> False).
  { intros n E. inversion T as [q s Q|u K L]; subst; [cbn in E; injection E as -> _; lia|]. inversion L as [| |x X| | | | | |b B]; subst; cbn in E; try discriminate; [destruct X as (y & r & -> & Y & _); injection E as -> _; unfold letter in Y; lia|injection E as -> _; cbn in B; lia]. }
  apply taken_kind in T. unfold isEof in T. apply matches_cons in MT. destruct MT as [[E|E]|MT]; [destruct (tKind t); try discriminate E; discriminate|eapply NT; exact E|]. apply matches_one in MT. destruct MT as [E|E]; [destruct (tKind t); try discriminate E; discriminate|eapply NT; exact E].
Qed.
Definition nodeRecord (f : nat) (t : tok) : M unit := if nameEqb (typeName (tKind t)) opTok then parseLayerDef f t else readNode f (tText t).
Lemma readNodes_is f t c : tKind t = KName \/ tKind t = KOp -> forall u c', readNodes (S f) t c = ROk u c' <-> (nodeRecord f t ;;; let* t := fetchStrict nodeStarts in readNodes f t) c = ROk u c'.
Proof.
  intros K u c'. cbn [readNodes]. assert (isEof t = false) as -> by (unfold isEof; destruct K as [-> | ->]; reflexivity). unfold nodeRecord, readNode, nodeFree, nodeStarts. destruct K as [K|K]; rewrite K; cbn [typeName]; [change (nameEqb nameTok opTok) with false|change (nameEqb opTok opTok) with true]; cbn iota; [|reflexivity].
  unfold bind. cbn. destruct (nodeIndex 0 (tText t) (cNames c)) as [i|]; [|reflexivity]. cbn. destruct (zget (cDefs c) i) as [d|]; cbn; [|reflexivity]. destruct d; cbn; [|reflexivity]. split; discriminate.
Qed.
Lemma readNodes_end f t c : isEof t = true -> readNodes (S f) t c = ROk tt c.
Proof. intros E. cbn [readNodes]. rewrite E. reflexivity. Qed.
Definition laterRecord (r : record) : Prop := isNode r \/ isLayer r.
Lemma nodeRecord_sound f t ts c0 c u c' : taken t -> tKind t = KName \/ tKind t = KOp -> at_ ts c0 c -> nodeRecord f t c = ROk u c' ->
  exists r ts1 ts', t :: ts = ts1 ++ ts' /\ spRecordQ ts1 r /\ (tKind t = KName -> isNode r) /\ laterRecord r /\ iRecord r c0 = ROk u (core c') /\ at_ ts' (core c') c'.
Proof.
  intros T K A H. unfold nodeRecord in H. destruct K as [K|K]; rewrite K in H; cbn [typeName] in H; [change (nameEqb nameTok opTok) with false in H|change (nameEqb opTok opTok) with true in H]; cbn iota in H.
  - destruct (node_sound _ _ _ _ _ _ _ A H) as (r & ts1 & ts' & E & SP & N & I & A'). exists r, ts1, ts'. split; [rewrite <- E; rewrite (tok_eta t) at 1; rewrite K; reflexivity|]. unfold laterRecord. tauto.
  - destruct (layer_sound _ _ _ _ _ _ _ T K A H) as (r & ts1 & ts' & E & SP & N & I & A'). exists r, ts1, ts'. rewrite K. unfold laterRecord. split; [exact E|]. split; [exact SP|]. split; [discriminate|]. tauto.
Qed.
Lemma nodeRecord_complete ts1 r ts' c0 u c1 : spRecordQ ts1 r -> laterRecord r -> iRecord r c0 = ROk u c1 ->
  exists t ts2, ts1 = t :: ts2 /\ matches nodeStarts t = true /\ (tKind t = KName \/ tKind t = KOp) /\ (isNode r -> tKind t = KName) /\ forall c, at_ (ts2 ++ ts') c0 c -> exists f c', nodeRecord f t c = ROk u c' /\ at_ ts' c1 c'.
Proof.
  intros SP [N|L] H.
  - destruct (node_complete _ _ ts' _ _ _ SP N H) as (n & ts2 & -> & C). exists (mkT KName n), ts2. split; [reflexivity|]. split; [apply matches_cons; left; left; reflexivity|]. split; [left; reflexivity|]. split; [reflexivity|]. exact C.
  - destruct (layer_complete _ _ ts' _ _ _ SP L H) as (ts2 & -> & C). exists (op 64), ts2. split; [reflexivity|]. split; [reflexivity|]. split; [right; reflexivity|]. split; [destruct r; contradiction|]. exact C.
Qed.
Lemma lem_nodeRecord f f' t : (f <= f')%nat -> lem (nodeRecord f t) (nodeRecord f' t).
Proof. intros L. unfold nodeRecord. destruct (nameEqb _ _); [apply lem_layer; exact L|]. unfold readNode. apply lem_bind; [apply lem_refl|]. intros _. apply lem_nodeDef; exact L. Qed.
Lemma more_nodeRecord f f' t c x c' : (f <= f')%nat -> nodeRecord f t c = ROk x c' -> nodeRecord f' t c = ROk x c'.
Proof. apply (more_fuel (fun f => nodeRecord f t)). intros. apply lem_nodeRecord. assumption. Qed.
Lemma more_nodes f f' t c x c' : (f <= f')%nat -> readNodes f t c = ROk x c' -> readNodes f' t c = ROk x c'.
Proof. apply (more_fuel (fun f => readNodes f t)). intros. apply lem_nodes. assumption. Qed.
Lemma readNodes_sound : forall f t ts c0 c u c', taken t -> tKind t = KName \/ tKind t = KOp -> at_ ts c0 c -> readNodes f t c = ROk u c' ->
  exists r rs, spRecordsQ (t :: ts) (r :: rs) /\ Forall laterRecord (r :: rs) /\ (tKind t = KName -> isNode r) /\ iRecords (r :: rs) c0 = ROk u (core c').
Proof.
  induction f as [|f IH]; intros t ts c0 c u c' T K A H; [discriminate|]. apply readNodes_is in H; [|exact K]. apply bind_inv in H. destruct H as (v & c1 & H1 & H). destruct (nodeRecord_sound _ _ _ _ _ _ _ T K A H1) as (r & ts1 & ts2 & E & SP & N & LR & I & A1). apply bind_inv in H. destruct H as (t' & c2 & H2 & H).
  unfold fetchStrict in H2. apply bind_inv in H2. destruct H2 as (o & c3 & H2 & H3). pose proof (fetch_inv _ _ _ _ _ _ _ A1 H2) as F. inversion F as [b t1 ts4 c6 E1 T' MT' A6 B1 B2 B3|b t1 c6 E1 EO MT' TX A6 B1 B2 B3|]; subst; injection H3 as -> ->.
  - destruct (IH _ _ _ _ _ _ T' (nodeStarts_inv _ T' MT') A6 H) as (r' & rs & SR & LS & _ & IR). exists r, (r' :: rs). split; [rewrite E; constructor; assumption|]. split; [constructor; assumption|]. split; [exact N|]. rewrite (iRecords_cons _ _ _ _ _ I). exact IR.
  - destruct f as [|f]; [discriminate|]. rewrite readNodes_end in H by exact EO. injection H as <- <-. exists r, []. split; [rewrite E; constructor; [exact SP|constructor]|]. split; [constructor; [exact LR|constructor]|]. split; [exact N|]. rewrite (iRecords_cons _ _ _ _ _ I). rewrite (at_core _ _ _ A6). reflexivity.
Qed.
Lemma at_nil_eof c0 c : at_ [] c0 c -> exists t c', fetchStrict nodeStarts c = ROk t c' /\ isEof t = true /\ at_ [] c0 c'.
Proof.
  intros A. destruct (take_end _ _ A) as (t & c' & T & A' & E & TX). exists t, c'. split; [|auto]. unfold fetchStrict, fetch. unfold bind. rewrite T. replace (matches nodeStarts t) with true; [reflexivity|]. symmetry. unfold isEof in E. destruct t as [k x]. cbn in *. destruct k; try discriminate; subst x; reflexivity.
Qed.
Lemma readNodes_complete ts1 rs : spRecordsQ ts1 rs -> Forall laterRecord rs -> forall c0 c u c1, at_ ts1 c0 c -> iRecords rs c0 = ROk u c1 ->
  exists f c', (let* t := fetchStrict nodeStarts in readNodes f t) c = ROk u c' /\ at_ [] c1 c'.
Proof.
  induction 1 as [|ts r ts2 rs SP SR IH]; intros LS c0 c u c1 A H.
  - injection H as <- <-. destruct (at_nil_eof _ _ A) as (t & c' & F & E & A'). exists 1%nat, c'. split; [|exact A']. rewrite (bind_ok _ _ _ _ _ F). apply readNodes_end, E.
  - inversion LS as [|? ? LR LS']; subst. apply iRecords_inv in H. destruct H as (v & c2 & H2 & H). destruct (nodeRecord_complete _ _ ts2 _ _ _ SP LR H2) as (t & ts3 & -> & MT & K & _ & NC). cbn [app] in A. destruct (strict_hit _ _ _ _ _ A MT) as (c3 & F & A3). destruct (NC _ A3) as (f1 & c4 & P1 & A4). destruct (IH LS' _ _ _ _ A4 H) as (f2 & c5 & P2 & A5).
    exists (S (Nat.max f1 f2)), c5. split; [|exact A5]. rewrite (bind_ok _ _ _ _ _ F). apply readNodes_is; [exact K|]. rewrite (bind_ok _ _ _ _ _ (more_nodeRecord f1 (Nat.max f1 f2) _ _ _ _ ltac:(lia) P1)).
    apply bind_inv in P2. destruct P2 as (t' & c6 & Q1 & Q2). rewrite (bind_ok _ _ _ _ _ Q1). apply (more_nodes f2); [lia|exact Q2].
Qed.

(** ** Whole descriptions *)
Definition iDescription (head nodes : list record) : M unit := iRecords head ;;; finishTokens ;;; iRecords nodes.
Definition start : ctx := newContext [] TEnd.
Definition rightEnd (e : tail) : Prop := e <> TWrong.
Lemma at_start input e : Forall decodes input -> e <> TWrong -> at_ (map dec input) start (newContext input e).
Proof. intros D E. constructor; cbn; auto. clear E. induction D; constructor; [apply dec_taken; assumption|assumption]. Qed.
Lemma description_sound f input e c' : Forall decodes input -> e <> TWrong -> plainArguments (map dec input) -> readDescription compiles f (newContext input e) = ROk tt c' ->
  exists head nodes, spRecordsQ (map dec input) (head ++ nodes) /\ Forall (fun r => ~ isNode r) head /\ (exists r rs, nodes = r :: rs /\ isNode r) /\ Forall laterRecord nodes /\ iDescription head nodes start = ROk tt (core c').
Proof.
  intros D E U H. unfold readDescription in H. apply bind_inv in H. destruct H as (t & c1 & H1 & H). destruct (readHead_sound _ _ _ _ _ _ (at_start _ _ D E) U H1) as (rs & ts1 & ts' & EQ & SR & NR & K & IR & A1). apply bind_inv in H. destruct H as (u & c2 & H2 & H). destruct (pure_inv _ _ _ _ _ _ p_finish A1 H2) as (H2' & A2).
  assert (T : taken t). { pose proof (at_taken _ _ _ (at_start _ _ D E)) as X. rewrite EQ, Forall_app in X. destruct X as (_ & X). inversion X; assumption. }
  destruct (readNodes_sound _ _ _ _ _ _ _ T (or_introl K) A2 H) as (r & nodes & SN & LN & N & IN). exists rs, (r :: nodes). split; [|split; [exact NR|split; [exists r, nodes; auto|split; [exact LN|]]]].
  - rewrite EQ. clear - SR SN. induction SR; cbn [app]; [exact SN|rewrite <- app_assoc; constructor; assumption].
  - unfold iDescription. rewrite (bind_ok _ _ _ _ _ IR), (bind_ok _ _ _ _ _ H2'). exact IN.
Qed.
Lemma spRecords_app ts a b : spRecordsQ ts (a ++ b) -> exists ts1 ts2, ts = ts1 ++ ts2 /\ spRecordsQ ts1 a /\ spRecordsQ ts2 b.
Proof.
  revert ts. induction a as [|r a IH]; cbn [app]; intros ts H; [exists [], ts; repeat split; [constructor|exact H]|]. inversion H as [|ts1 ? ts2 ? SP SR]; subst. destruct (IH _ SR) as (t1 & t2 & -> & S1 & S2). exists (ts1 ++ t1), t2. split; [rewrite app_assoc; reflexivity|]. split; [constructor; assumption|exact S2].
Qed.
Lemma description_complete input e head nodes c1 : Forall decodes input -> e <> TWrong -> spRecordsQ (map dec input) (head ++ nodes) -> Forall (fun r => ~ isNode r) head -> (exists r rs, nodes = r :: rs /\ isNode r) -> Forall laterRecord nodes -> iDescription head nodes start = ROk tt c1 ->
  exists f c', readDescription compiles f (newContext input e) = ROk tt c' /\ core c' = c1.
Proof.
  intros D E SR NR (r & rs & -> & N) LN H. unfold iDescription in H. apply bind_inv in H. destruct H as ([] & c2 & H1 & H). apply bind_inv in H. destruct H as ([] & c3 & H2 & H). destruct (spRecords_app _ _ _ SR) as (ts1 & ts2 & EQ & S1 & S2). inversion S2 as [|tsa ? tsb ? SP SQ]; subst. inversion LN as [|? ? LR LS]; subst.
  apply iRecords_inv in H. destruct H as ([] & c4 & H4 & H). destruct (nodeRecord_complete _ _ tsb _ _ _ SP LR H4) as (t & ts3 & -> & MT & _ & KN & NC). specialize (KN N). destruct t as [k n]. cbn [tKind] in KN. subst k. pose proof (at_start _ _ D E) as A. rewrite EQ in A. cbn [app] in A.
  destruct (readHead_complete _ _ S1 NR _ _ _ _ _ _ A H1) as (f1 & c5 & P1 & A1). destruct (pure_run _ _ _ _ _ _ p_finish A1 H2) as (c6 & P2 & A2). destruct (NC _ A2) as (f2 & c7 & P3 & A3). destruct (readNodes_complete _ _ SQ LS _ _ _ _ A3 H) as (f3 & c8 & P4 & A4). set (F := Nat.max f1 (Nat.max f2 f3)).
  exists (S F), c8. split; [|exact (at_core _ _ _ A4)]. unfold readDescription. rewrite (bind_ok _ _ _ _ _ (more_head f1 (S F) _ _ _ ltac:(lia) P1)), (bind_ok _ _ _ _ _ P2). apply readNodes_is; [left; reflexivity|]. rewrite (bind_ok _ _ _ _ _ (more_nodeRecord f2 F _ _ _ _ ltac:(lia) P3)).
  apply bind_inv in P4. destruct P4 as (t' & c9 & Q1 & Q2). rewrite (bind_ok _ _ _ _ _ Q1). apply (more_nodes f3); [lia|exact Q2].
Qed.
End R.

(** ** Strings as they are written *)
Section Rel.
Variables (R : tok -> tok -> Prop) (P Q : tok -> name -> Prop).
Hypothesis same : forall t t', R t t' -> tKind t <> KString -> t' = t.
Hypothesis strs : forall t t' s, R t t' -> P t s -> Q t' s.
Lemma rel_one t l : Forall2 R [t] l -> exists t', l = [t'] /\ R t t'.
Proof. intros H. inversion H as [|? t' ? ? H1 H2]; subst. inversion H2; subst. eauto. Qed.
Lemma rel_cons t ts l : Forall2 R (t :: ts) l -> exists t' l', l = t' :: l' /\ R t t' /\ Forall2 R ts l'.
Proof. intros H. inversion H; subst. eauto. Qed.
Lemma rel_fix t ts l : tKind t <> KString -> Forall2 R (t :: ts) l -> exists l', l = t :: l' /\ Forall2 R ts l'.
Proof. intros K H. destruct (rel_cons _ _ _ H) as (t' & l' & -> & H1 & H2). rewrite (same _ _ H1 K). eauto. Qed.
Ltac fixed H l' := let E := fresh in apply rel_fix in H; [|discriminate]; destruct H as (l' & -> & H).
Lemma rel_seqs :
  (forall ts l, spSeq P ts l -> forall ts', Forall2 R ts ts' -> spSeq Q ts' l) /\
  (forall ts l, spItem P ts l -> forall ts', Forall2 R ts ts' -> spItem Q ts' l) /\
  (forall ts v, spVar P ts v -> forall ts', Forall2 R ts ts' -> spVar Q ts' v).
Proof.
  assert (H : forall ts l (s : spSeq P ts l), forall ts', Forall2 R ts ts' -> spSeq Q ts' l); [|split; [exact H|]].
  2: assert (H' : forall ts l (s : spItem P ts l), forall ts', Forall2 R ts ts' -> spItem Q ts' l); [|split; [exact H'|]].
  all: first [apply (spSeq_mut P (fun ts l _ => forall ts', Forall2 R ts ts' -> spSeq Q ts' l) (fun ts l _ => forall ts', Forall2 R ts ts' -> spItem Q ts' l) (fun ts v _ => forall ts', Forall2 R ts ts' -> spVar Q ts' v))
   | apply (spItem_mut P (fun ts l _ => forall ts', Forall2 R ts ts' -> spSeq Q ts' l) (fun ts l _ => forall ts', Forall2 R ts ts' -> spItem Q ts' l) (fun ts v _ => forall ts', Forall2 R ts ts' -> spVar Q ts' v))
   | apply (spVar_mut P (fun ts l _ => forall ts', Forall2 R ts ts' -> spSeq Q ts' l) (fun ts l _ => forall ts', Forall2 R ts ts' -> spItem Q ts' l) (fun ts v _ => forall ts', Forall2 R ts ts' -> spVar Q ts' v))].
  all: intros; repeat match goal with
    | H : Forall2 R (_ ++ _) _ |- _ => apply Forall2_app_inv_l in H; destruct H as (? & ? & ? & H & ->)
    | H : Forall2 R (opening _ :: _) _ |- _ => fixed H l'
    | H : Forall2 R (closingOf _ :: _) _ |- _ => fixed H l'
    | H : Forall2 R (mkT KName _ :: _) _ |- _ => fixed H l'
    | H : Forall2 R (mkT KToken _ :: _) _ |- _ => fixed H l'
    | H : Forall2 R (op _ :: _) _ |- _ => fixed H l'
    | H : Forall2 R [] _ |- _ => inversion H; clear H; subst
    | H : Forall2 R [_] _ |- _ => apply rel_one in H; destruct H as (? & -> & H)
    end; try (constructor; eauto).
Qed.
Lemma rel_F2 {B} (P1 Q1 : tok -> B -> Prop) : (forall t t' b, R t t' -> P1 t b -> Q1 t' b) -> forall ts l, Forall2 P1 ts l -> forall ts', Forall2 R ts ts' -> Forall2 Q1 ts' l.
Proof. intros H ts l F. induction F as [|t b ts l H1 H2 IH]; intros ts' F'; inversion F'; subst; constructor; eauto. Qed.
Lemma rel_record ts r : spRecord P ts r -> forall ts', Forall2 R ts ts' -> spRecord Q ts' r.
Proof.
  assert (ARG : forall d t t' b, R t t' -> spArg P d t b -> spArg Q d t' b). { intros d t t' b H1 H2. inversion H2; subst; [rewrite (same _ _ H1) by discriminate; constructor; assumption|constructor; eauto]. }
  assert (PT : forall t t' b, R t t' -> spPart t b -> spPart t' b). { intros t t' b H1 H2. inversion H2; subst; rewrite (same _ _ H1) by discriminate; constructor. }
  assert (LA : forall t t' b, R t t' -> spLArg P t b -> spLArg Q t' b). { intros t t' b H1 H2. inversion H2; subst; [rewrite (same _ _ H1) by discriminate; constructor|constructor; eauto]. }
  assert (AS : forall ts l, spArgs P ts l -> forall ts', Forall2 R ts ts' -> spArgs Q ts' l). { induction 1; intros ts' F; [apply rel_one in F; destruct F as (? & -> & F); constructor; eauto|]. destruct (rel_cons _ _ _ F) as (t' & l' & -> & F1 & F2). fixed F2 l''. constructor; eauto. }
  assert (CM : forall ts x, spCommand P ts x -> forall ts', Forall2 R ts ts' -> spCommand Q ts' x). { intros ts0 x S0 ts' F. inversion S0; subst; fixed F l1; fixed F l2; [fixed F l3; inversion F; constructor|]. apply Forall2_app_inv_l in F. destruct F as (a & b & F1 & F2 & ->). fixed F2 l3. inversion F2; subst. constructor; eauto. }
  assert (CS : forall ts x, spCommands P ts x -> forall ts', Forall2 R ts ts' -> spCommands Q ts' x). { induction 1; intros ts'' F; [inversion F; constructor|]. apply Forall2_app_inv_l in F. destruct F as (a & b & F1 & F2 & ->). constructor; eauto. }
  destruct rel_seqs as (SQ & _ & _). intros SP ts' F. inversion SP; subst.
  - fixed F l1. apply Forall2_app_inv_l in F. destruct F as (a & b & F1 & F2 & ->). fixed F2 l2. inversion F2; subst. constructor. eapply rel_F2; [|eassumption|exact F1]. eauto.
  - fixed F l1. fixed F l3. apply Forall2_app_inv_l in F. destruct F as (a & b & F1 & F2 & ->). fixed F2 l2. inversion F2; subst. constructor; [assumption|]. eapply rel_F2; [|eassumption|exact F1]. eauto.
  - fixed F l1. fixed F l3. apply Forall2_app_inv_l in F. destruct F as (a & b & F1 & F2 & ->). fixed F2 l2. inversion F2; subst. constructor; [assumption|assumption|]. eapply rel_F2; [|eassumption|exact F1]. eauto.
  - fixed F l1. fixed F l3. apply Forall2_app_inv_l in F. destruct F as (a & b & F1 & F2 & ->). fixed F2 l2. inversion F2; subst. constructor; eauto.
  - fixed F l1. fixed F l3. apply Forall2_app_inv_l in F. destruct F as (a & b & F1 & F2 & ->). fixed F2 l2. inversion F2; subst. constructor; eauto.
Qed.
Lemma rel_records ts rs : spRecords P ts rs -> forall ts', Forall2 R ts ts' -> spRecords Q ts' rs.
Proof. induction 1; intros ts'' F; [inversion F; constructor|]. apply Forall2_app_inv_l in F. destruct F as (a & b & F1 & F2 & ->). constructor; eauto using rel_record. Qed.
End Rel.
Lemma dec_kind t : tKind (dec t) = tKind t.
Proof. unfold dec. destruct (tKind t) eqn:K; try exact K. destruct (processString (tText t)); try exact K. reflexivity. Qed.
Lemma dec_other t : tKind t <> KString -> dec t = t.
Proof. unfold dec. destruct (tKind t); congruence. Qed.
Lemma body_of (x : Z) s y : x :: s ++ [x] = x :: y ++ [x] -> s = y.
Proof. intros E. injection E as E. apply app_inj_tail in E. tauto. Qed.
Lemma dec_string t s : decodes t -> (stringOf t s <-> quotedOf (dec t) s).
Proof.
  intros (L & D). split.
  - intros S. inversion S as [b u DN|b NI]; subst.
    + inversion L as [b' B E| | | | | | | |]; subst. apply app_inj_tail in E. destruct E as (-> & _). destruct (string_decoding_partial b B) as (A & _). destruct (A (34 :: s ++ [34])) as (_ & A2). exists 34. split; [left; reflexivity|]. unfold dec. cbn [tKind tText]. rewrite A2; [reflexivity|eauto].
    + exists 39. split; [right; reflexivity|]. unfold dec. cbn [tKind tText]. rewrite single_quoted_verbatim. reflexivity.
  - intros (q & Q & E). assert (K : tKind t = KString) by (rewrite <- dec_kind, E; reflexivity). inversion L as [b B|b B| | | | | | |]; subst; try discriminate K.
    + destruct (D eq_refl) as (x & X). unfold dec in E. cbn [tKind] in E. rewrite X in E. cbn [tText] in X. injection E as ->. destruct (string_decoding_partial b B) as (A & _). destruct (A (q :: s ++ [q])) as (A1 & _). destruct (A1 X) as (u & U & EQ). injection EQ as -> EQ. apply app_inj_tail in EQ. destruct EQ as (-> & _). constructor. exact U.
    + unfold dec in E. cbn [tKind tText] in E. rewrite single_quoted_verbatim in E. injection E as <- E. apply app_inj_tail in E. destruct E as (-> & _). constructor. exact B.
Qed.
Lemma records_dec input rs : Forall decodes input -> (spRecords stringOf input rs <-> spRecords quotedOf (map dec input) rs).
Proof.
  intros D. split.
  - intros S. eapply (rel_records (fun t t' => decodes t /\ t' = dec t)); [| |exact S|].
    + intros t t' (_ & ->) K. apply dec_other, K.
    + intros t t' s (Dt & ->) H. apply dec_string; assumption.
    + clear S. induction D; constructor; auto.
  - intros S. eapply (rel_records (fun t t' => decodes t' /\ t = dec t')); [| |exact S|].
    + intros t t' (_ & ->) K. rewrite dec_kind in K. symmetry. apply dec_other, K.
    + intros t t' s (Dt & ->) H. apply dec_string; assumption.
    + clear S. induction D; constructor; auto.
Qed.
