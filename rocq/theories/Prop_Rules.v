(** C24: the rule lookup. *)
From Coq Require Import ZArith List Bool Lia Sorted.
From Verif Require Import Base BaseProofs Grammar Rules RulesSpec.
Import ListNotations.
Open Scope Z_scope.

(** ** sort.Search *)
Lemma searchLoop_spec f : forall fuel i j,
  0 <= i <= j -> j - i <= Z.of_nat fuel ->
  (forall a b, i <= a -> a <= b -> b < j -> f a = true -> f b = true) ->
  let r := searchLoop fuel f i j in
  i <= r <= j /\ (forall k, i <= k < r -> f k = false) /\ (forall k, r <= k < j -> f k = true).
Proof.
  induction fuel as [|fu IH]; intros i j HI HF M; cbn [searchLoop].
  - repeat split; intros; lia.
  - destruct (i <? j) eqn:EI; [|apply Z.ltb_ge in EI; repeat split; intros; lia]. apply Z.ltb_lt in EI.
    set (h := (i + j) / 2).
    assert (HH : i <= h < j) by (unfold h; split; [apply Z.div_le_lower_bound|apply Z.div_lt_upper_bound]; lia).
    destruct (f h) eqn:FH; cbn [negb].
    + destruct (IH i h) as (A & B & C); [lia|lia|intros a b ? ? ? ?; apply (M a b); auto; lia|].
      cbn zeta. split; [lia|]. split; [intros; apply B; lia|].
      intros k HK. destruct (Z.lt_ge_cases k h); [apply C; lia|]. apply (M h); auto; lia.
    + destruct (IH (h + 1) j) as (A & B & C); [lia|lia|intros a b ? ? ? ?; apply (M a b); auto; lia|].
      cbn zeta. split; [lia|]. split; [|intros; apply C; lia].
      intros k HK. destruct (Z.lt_ge_cases h k); [apply B; lia|].
      destruct (f k) eqn:FK; auto. assert (f h = true) by (apply (M k h); auto; lia). congruence.
Qed.

Lemma zget_In {A} (l : list A) i x : zget l i = Some x -> In x l.
Proof. unfold zget. destruct (i <? 0); [discriminate|]. apply nth_error_In. Qed.
Lemma In_zget {A} (l : list A) x : In x l -> exists i, zget l i = Some x.
Proof.
  intros H. apply In_nth_error in H as (n & H). exists (Z.of_nat n). unfold zget.
  destruct (Z.ltb_spec (Z.of_nat n) 0); [lia|]. rewrite Nat2Z.id. auto.
Qed.

Lemma sorted_zget {A} (key : A -> Z) l : StronglySorted Z.lt (map key l) ->
  forall i j x y, i < j -> zget l i = Some x -> zget l j = Some y -> key x < key y.
Proof.
  unfold zget. intros SO i j x y HL Hi Hj.
  destruct (Z.ltb_spec i 0); [discriminate|]. destruct (Z.ltb_spec j 0); [discriminate|].
  assert (HN : (Z.to_nat i < Z.to_nat j)%nat) by lia.
  revert Hi Hj HN. generalize (Z.to_nat i) (Z.to_nat j). clear HL H H0 i j.
  induction l as [|a l IH]; intros n m Hi Hj HN; [destruct n; discriminate|].
  cbn [map] in SO. apply StronglySorted_inv in SO as [SO HA].
  destruct m as [|m]; [lia|]. cbn in Hj. destruct n as [|n].
  - cbn in Hi. injection Hi as ->. apply nth_error_In in Hj. rewrite Forall_forall in HA. apply HA. apply in_map. auto.
  - cbn in Hi. eapply IH; eauto. lia.
Qed.
Lemma sorted_inj {A} (key : A -> Z) l : StronglySorted Z.lt (map key l) ->
  forall x y, In x l -> In y l -> key x = key y -> x = y.
Proof.
  intros SO x y HX HY E. apply In_zget in HX as (i & HX). apply In_zget in HY as (j & HY).
  destruct (Z.lt_trichotomy i j) as [H|[H|H]].
  - pose proof (sorted_zget _ _ SO _ _ _ _ H HX HY). lia.
  - congruence.
  - pose proof (sorted_zget _ _ SO _ _ _ _ H HY HX). lia.
Qed.

(** Binary search in a sorted list finds the element having the key, if any. *)
Lemma search_sorted {A} (key : A -> Z) l k : StronglySorted Z.lt (map key l) ->
  let i := sortSearch (zlen l) (fun i => match zget l i with Some m => k <=? key m | None => true end) in
  (forall x, In x l -> key x = k -> zget l i = Some x).
Proof.
  intros SO i x HX HK.
  destruct (searchLoop_spec (fun i => match zget l i with Some m => k <=? key m | None => true end) (Z.to_nat (zlen l)) 0 (zlen l)) as (A1 & B1 & C1).
  - pose proof (zlen_nonneg l). lia.
  - pose proof (zlen_nonneg l). lia.
  - intros a b HA HAB HB. destruct (zget l a) as [xa|] eqn:GA; [|rewrite (zget_Some l a x) in GA; [discriminate|lia]].
    destruct (zget l b) as [xb|] eqn:GB; auto. intros HL. apply Z.leb_le in HL. apply Z.leb_le.
    destruct (Z.eq_dec a b) as [->|]; [congruence|].
    pose proof (sorted_zget key l SO a b xa xb ltac:(lia) GA GB). lia.
  - fold (sortSearch (zlen l) (fun i => match zget l i with Some m => k <=? key m | None => true end)) in A1, B1, C1. fold i in A1, B1, C1.
    apply In_zget in HX as (j & HX). pose proof (zget_Some_inv _ _ _ HX) as HJ.
    destruct (Z.lt_trichotomy i j) as [H|[H|H]]; [|congruence|].
    + assert (F : match zget l i with Some m => k <=? key m | None => true end = true) by (apply C1; lia).
      destruct (zget l i) as [m|] eqn:GI; [|rewrite (zget_Some l i x) in GI; [discriminate|lia]].
      apply Z.leb_le in F. pose proof (sorted_zget key l SO i j m x H GI HX). lia.
    + assert (F : match zget l j with Some m => k <=? key m | None => true end = false) by (apply B1; lia).
      rewrite HX in F. apply Z.leb_gt in F. lia.
Qed.

Section P.
Context {Tok : Type} (ttype : Tok -> Z) (ttext : Tok -> list Z) (toUpper : list Z -> list Z).
Variable g : grammar.

Lemma findMulti_spec multi key :
  StronglySorted Z.lt (map mToken multi) ->
  (forall m, In m multi -> exists rs, zslice (gRules g) (mLow m) (mHigh m) = Some rs /\ rs <> []) ->
  (exists m rs, In m multi /\ mToken m = key /\ zslice (gRules g) (mLow m) (mHigh m) = Some rs /\ findMulti g multi key = Some (Some rs))
  \/ (forall m, In m multi -> mToken m <> key) /\ findMulti g multi key = Some None.
Proof.
  intros SO R. unfold findMulti. pose proof (search_sorted mToken multi key SO) as HS. cbn zeta in HS.
  set (i := sortSearch _ _) in *. destruct (zget multi i) as [m|] eqn:G.
  - destruct (Z.eqb_spec (mToken m) key) as [E|N].
    + left. pose proof (zget_In _ _ _ G) as HI. destruct (R m HI) as (rs & E1 & _). exists m, rs. rewrite E1. auto.
    + right. split; auto. intros m' HI E. specialize (HS m' HI E). congruence.
  - right. split; auto. intros m' HI E. specialize (HS m' HI E). congruence.
Qed.

Lemma findKey_spec s rules multi key : stateOk g s rules multi ->
  (exists rs, hasRules g rules multi key rs /\ findKey g rules multi key = Some (Some rs))
  \/ (forall rs, ~ hasRules g rules multi key rs) /\ findKey g rules multi key = Some None.
Proof.
  intros O. unfold findKey. destruct O as [E1 E2 SO MO R EX].
  destruct (match rules with r0 :: _ => (key =? AnyToken) && (rToken r0 =? key) | [] => false end) eqn:C.
  - destruct rules as [|r0 rl]; [discriminate|]. apply andb_true_iff in C as [C1 C2].
    apply Z.eqb_eq in C2. left. exists [r0]. split; [apply HR_one; [left|]; auto|reflexivity].
  - clear C. pose proof (search_sorted rToken rules key SO) as HS. cbn zeta in HS. set (i := sortSearch _ _) in *.
    assert (F : forall r, In r rules -> rToken r = key -> zget rules i = Some r) by auto.
    assert (D : (exists r, zget rules i = Some r /\ rToken r = key) \/ (forall r, In r rules -> rToken r <> key) /\
       match zget rules i with
       | Some r => if rToken r =? key then Some (Some [r]) else findMulti g multi key
       | None => findMulti g multi key
       end = findMulti g multi key).
    { destruct (zget rules i) as [r|] eqn:G.
      - destruct (Z.eqb_spec (rToken r) key); [left; eauto|right]. split; auto. intros r' HI E. specialize (F r' HI E). congruence.
      - right. split; auto. intros r' HI E. specialize (F r' HI E). congruence. }
    destruct D as [(r & G & E)|[N EQ]].
    + left. exists [r]. rewrite G, E, Z.eqb_refl. split; auto. apply HR_one; auto. eapply zget_In; eauto.
    + rewrite EQ. destruct (findMulti_spec multi key MO R) as [(m & rs & HI & EM & ES & EF)|[NM EF]].
      * left. exists rs. split; auto. eapply HR_many; eauto.
      * right. split; auto. intros rs [r HI E | m rs' HI E _]; [eapply N|eapply NM]; eauto.
Qed.

Lemma findByKeys_spec s rules multi : stateOk g s rules multi -> forall keys,
  exists rs, findByKeys g rules multi keys = Some rs /\ selected g rules multi keys rs.
Proof.
  intros O. induction keys as [|k ks IH]; cbn [findByKeys]; [exists []; split; auto; constructor|].
  destruct (findKey_spec s rules multi k O) as [(rs & H & E)|[N E]]; rewrite E; cbn [obind].
  - exists rs. split; auto. apply S_here. auto.
  - destruct IH as (rs & E2 & H). exists rs. split; auto. apply S_later; auto.
Qed.

(** The result is determined by the specification. *)
Lemma hasRules_fun s rules multi key a b : stateOk g s rules multi ->
  hasRules g rules multi key a -> hasRules g rules multi key b -> a = b.
Proof.
  intros [E1 E2 SO MO R EX] [r HI E | m rs HI E S1] [r' HI' E' | m' rs' HI' E' S2].
  - f_equal. eapply sorted_inj; eauto. congruence.
  - exfalso. eapply EX; eauto. congruence.
  - exfalso. eapply (EX r' m); eauto. congruence.
  - assert (m = m') by (eapply sorted_inj; eauto; congruence). subst. congruence.
Qed.

(** ** Keys *)
Lemma nameEqb_spec a : forall b, nameEqb a b = true <-> a = b.
Proof.
  induction a as [|x a IH]; intros [|y b]; cbn [nameEqb]; split; try discriminate; auto.
  - intros H. apply andb_true_iff in H as [H1 H2]. apply Z.eqb_eq in H1. apply IH in H2. congruence.
  - intros H. injection H as -> ->. rewrite Z.eqb_refl. cbn. apply IH. auto.
Qed.

Lemma literalsFrom_spec text : forall ts i found,
  match literalsFrom i ts text found with
  | Some k =>
      (found = Some k /\ forall j d, nth_error ts j = Some d -> hasFlag (gtFlags d) LiteralToken = true -> gtName d <> text) \/
      (exists j d, k = i + Z.of_nat j /\ nth_error ts j = Some d /\ hasFlag (gtFlags d) LiteralToken = true /\ gtName d = text /\
         forall j' d', nth_error ts j' = Some d' -> hasFlag (gtFlags d') LiteralToken = true -> gtName d' = text -> (j' <= j)%nat)
  | None => found = None /\ forall j d, nth_error ts j = Some d -> hasFlag (gtFlags d) LiteralToken = true -> gtName d <> text
  end.
Proof.
  induction ts as [|t ts IH]; intros i found; cbn [literalsFrom].
  - destruct found; [left|]; split; auto; intros [|j] d; discriminate.
  - set (c := hasFlag (gtFlags t) LiteralToken && nameEqb (gtName t) text).
    assert (NC : c = false -> forall ts', (forall j d, nth_error ts' j = Some d -> hasFlag (gtFlags d) LiteralToken = true -> gtName d <> text) ->
       forall j d, nth_error (t :: ts') j = Some d -> hasFlag (gtFlags d) LiteralToken = true -> gtName d <> text).
    { intros C ts' H [|j] d; cbn [nth_error]; [|apply H]. intros E F G. injection E as <-. unfold c in C.
      rewrite F in C. cbn in C. apply nameEqb_spec in G. congruence. }
    specialize (IH (i + 1) (if c then Some i else found)).
    destruct (literalsFrom (i + 1) ts text (if c then Some i else found)) as [k|].
    + destruct IH as [[E H]|(j & d & -> & E & F & G & H)].
      * destruct c eqn:C.
        -- right. exists 0%nat, t. injection E as <-. apply andb_true_iff in C as [C1 C2]. apply nameEqb_spec in C2.
           repeat split; auto; [lia|]. intros [|j'] d' E' F' G'; [lia|]. cbn in E'. exfalso. eapply H; eauto.
        -- left. split; [exact E|exact (NC eq_refl ts H)].
      * right. exists (S j), d. repeat split; auto; [lia|]. intros [|j'] d' E' F' G'; [lia|]. cbn in E'. specialize (H j' d' E' F' G'). lia.
    + destruct IH as [E H]. destruct c eqn:C; [discriminate|]. split; [exact E|exact (NC eq_refl ts H)].
Qed.

Lemma literals_spec text :
  match literals g text with
  | Some i => literalOf g text i
  | None => forall i, ~ literalOf g text i
  end.
Proof.
  unfold literals. pose proof (literalsFrom_spec text (gTokens g) 0 None) as H.
  destruct (literalsFrom 0 (gTokens g) text None) as [k|].
  - destruct H as [[H _]|(j & d & -> & E & F & G & H)]; [discriminate|]. split.
    + exists d. unfold zget. destruct (Z.ltb_spec (0 + Z.of_nat j) 0); [lia|]. rewrite Z.add_0_l, Nat2Z.id. auto.
    + intros k (d' & E' & F' & G'). unfold zget in E'. destruct (Z.ltb_spec k 0); [discriminate|].
      specialize (H _ _ E' F' G'). lia.
  - destruct H as [_ H]. intros i [(d & E & F & G) _]. unfold zget in E. destruct (i <? 0); [discriminate|]. eapply H; eauto.
Qed.

Lemma isSideType_spec i : isSideType g i = true <-> tokenFlag g i SideToken.
Proof.
  unfold isSideType, tokenFlag. split.
  - intros H. apply andb_true_iff in H as [_ H]. destruct (zget (gTokens g) i) as [d|]; [eauto|discriminate].
  - intros (d & E & F). rewrite E, F. pose proof (zget_Some_inv _ _ _ E). rewrite !andb_true_iff, Z.leb_le, Z.ltb_lt. lia.
Qed.

Lemma hasFlag_dec d f : hasFlag d f = true \/ hasFlag d f = false.
Proof. destruct (hasFlag d f); auto. Qed.

Lemma keys_spec t : (forall tok, t = Some tok -> ttype tok < 0 \/ exists d, zget (gTokens g) (ttype tok) = Some d) ->
  exists keys, possibleRuleKeys ttype ttext toUpper g t = Some keys /\ keysOf ttype ttext toUpper g t keys.
Proof.
  intros HT. destruct t as [t|]; [|exists [AnyToken]; split; [reflexivity|constructor]].
  unfold possibleRuleKeys. destruct (Z.leb_spec 0 (ttype t)) as [H0|H0].
  - destruct (HT t eq_refl) as [H|(d & E)]; [lia|]. rewrite E. cbn [obind].
    destruct (hasFlag (gtFlags d) NoLiteralsToken) eqn:NL.
    { cbn [obind app]. eexists. split; [reflexivity|]. apply K_type. intros i [d' E' NL' _]. congruence. }
    fold (matchText ttext toUpper t d).
    pose proof (literals_spec (matchText ttext toUpper t d)) as HL.
    destruct (literals g (matchText ttext toUpper t d)) as [i|].
    + destruct HL as [HL1 HL2]. pose proof HL1 as (di & Ei & Fi & Gi). rewrite Ei. cbn [obind].
      assert (LI : literalFor ttype ttext toUpper g t i) by (econstructor; eauto; split; auto).
      destruct (hasFlag (gtFlags di) ReservedToken) eqn:RF; cbn [negb app].
      * eexists. split; [reflexivity|]. apply K_reserved; auto. exists di. auto.
      * eexists. split; [reflexivity|]. apply K_literal; auto. intros (d2 & E2 & F2). congruence.
    + cbn [obind app]. eexists. split; [reflexivity|]. apply K_type. intros i [d' E' NL' L']. rewrite E in E'. injection E' as <-. eapply HL; eauto.
  - cbn. eexists. split; [reflexivity|]. apply K_type. intros i [d' E' _ _]. pose proof (zget_Some_inv _ _ _ E'). lia.
Qed.

Lemma literalFor_fun t i j : literalFor ttype ttext toUpper g t i -> literalFor ttype ttext toUpper g t j -> i = j.
Proof.
  intros [d E NL [L1 L2]] [d' E' NL' [L1' L2']]. rewrite E in E'. injection E' as <-.
  specialize (L2 _ L1'). specialize (L2' _ L1). lia.
Qed.
Lemma keysOf_fun t a b : keysOf ttype ttext toUpper g t a -> keysOf ttype ttext toUpper g t b -> a = b.
Proof.
  intros HA HB.
  destruct HA as [|t N|t i L R|t i L R]; inversion HB as [|t' N'|t' j L' R'|t' j L' R']; subst; auto;
    try (exfalso; eapply N; eauto; fail); try (exfalso; eapply N'; eauto; fail);
    pose proof (literalFor_fun _ _ _ L L'); subst; auto; contradiction.
Qed.

(** The rules found for a token are those of the first of its keys for which the state has
    rules; no rules are found iff there are none for any key. *)
Theorem rule_lookup_priority : forall s rules multi t keys,
  stateOk g s rules multi ->
  ~ isSide ttype g t ->
  (forall tok, t = Some tok -> ttype tok < zlen (gTokens g)) ->
  keysOf ttype ttext toUpper g t keys ->
  exists rs, findRules ttype ttext toUpper g t s = Some rs /\ selected g rules multi keys rs.
Proof.
  intros s rules multi t keys O NS HT K. unfold findRules.
  destruct (isSideToken ttype g t) eqn:ES.
  { destruct t as [t|]; [|discriminate]. exfalso. apply NS. exists t. split; auto. apply isSideType_spec. exact ES. }
  destruct (keys_spec t) as (keys' & E & K').
  { intros tok ->. specialize (HT tok eq_refl). destruct (Z.lt_ge_cases (ttype tok) 0); [auto|right].
    destruct (zget (gTokens g) (ttype tok)) eqn:G; eauto.
    destruct (gTokens g) as [|d0 l] eqn:TT; [unfold zlen in HT; cbn in HT; lia|]. rewrite (zget_Some _ _ d0) in G; [discriminate|lia]. }
  rewrite E. cbn [obind]. pose proof (keysOf_fun _ _ _ K K'). subst keys'.
  rewrite (so_rules _ _ _ _ O). cbn [obind]. rewrite (so_multi _ _ _ _ O). cbn [obind].
  apply (findByKeys_spec s rules multi O).
Qed.

(** A token has exactly one list of keys, a state has at most one list of rules for a key, so the
    selection above is unique; it is empty only if no key has rules. *)
Theorem rule_lookup_unique : forall s rules multi t keys keys' rs rs',
  stateOk g s rules multi ->
  keysOf ttype ttext toUpper g t keys -> keysOf ttype ttext toUpper g t keys' ->
  selected g rules multi keys rs -> selected g rules multi keys' rs' ->
  keys = keys' /\ rs = rs' /\ (rs = [] <-> forall k rs'', In k keys -> ~ hasRules g rules multi k rs'').
Proof.
  intros s rules multi t keys keys' rs rs' O K K' S1 S2.
  pose proof (keysOf_fun _ _ _ K K'). subst keys'. split; auto. clear K K'.
  assert (NE : forall key a, hasRules g rules multi key a -> a <> []).
  { intros key a [r _ _ | m a' HI _ ES]; [discriminate|]. destruct (so_range _ _ _ _ O m HI) as (x & EX & NX). congruence. }
  assert (ALL : rs = [] <-> (forall k rs'', In k keys -> ~ hasRules g rules multi k rs'')).
  { clear S2. induction S1 as [|k ks a H|k ks a N S IH].
    - split; auto; intros _ k r [].
    - split; intros H2; [exfalso; eapply NE; eauto|]. exfalso. eapply H2; eauto. left; auto.
    - rewrite IH. split; intros H2 k' r'; [intros [<-|HI]; auto|]. intros HI. apply H2. right. auto. }
  split; auto. clear ALL. revert rs' S2.
  induction S1 as [|k ks a H|k ks a N S IH]; intros b S2; inversion S2 as [|k' ks' a' H'|k' ks' a' N' S']; subst.
  - auto.
  - exact (hasRules_fun s rules multi k a b O H H').
  - exfalso. exact (N' _ H).
  - exfalso. exact (N _ H').
  - auto.
Qed.
(** Side tokens are accepted in every state, which does not change. *)
Theorem side_token_rule : forall s t,
  isSide ttype g (Some t) ->
  findRules ttype ttext toUpper g (Some t) s = Some [mkRule (ttype t) repeatState SameNode].
Proof.
  intros s t (t' & E & F). injection E as <-. apply isSideType_spec in F. unfold findRules. cbn [isSideToken]. rewrite F. reflexivity.
Qed.
End P.
Print Assumptions rule_lookup_priority.
Print Assumptions rule_lookup_unique.
Print Assumptions side_token_rule.

(** A state with rules for a literal, a type and any token, and a conflict: all hypotheses hold and
    each key is found. *)
Module Example1.
  Definition g : grammar := mkGrammar
    [mkTok [1] [7] 0 0; mkTok [2] [8] 0 SideToken; mkTok [9] [] 0 LiteralToken; mkTok [5] [] 0 (LiteralToken + ReservedToken)]
    [] [mkNode [1] 0] [mkState 1 0 1 0 3]
    [mkMulti 2 3 5]
    [mkRule (-1) 1 (-1); mkRule 0 2 (-1); mkRule 3 3 (-1); mkRule 2 4 (-1); mkRule 2 5 (-1)].
  Definition rules := firstn 3 (gRules g).
  Definition multi := gMultiRules g.
  Definition find := @findRules (Z * list Z) fst snd (fun x => x) g.
  Lemma ok : stateOk g (mkState 1 0 1 0 3) rules multi.
  Proof.
    constructor; try reflexivity.
    - repeat constructor.
    - repeat constructor.
    - intros m [<-|[]]. eexists. split; [reflexivity|discriminate].
    - intros r m H [<-|[]]. cbn in H. intuition subst; discriminate.
  Qed.
  Example by_literal : find (Some (0, [9])) (mkState 1 0 1 0 3) = Some [mkRule 2 4 (-1); mkRule 2 5 (-1)]. Proof. reflexivity. Qed.
  Example by_type : find (Some (0, [1])) (mkState 1 0 1 0 3) = Some [mkRule 0 2 (-1)]. Proof. reflexivity. Qed.
  Example by_reserved : find (Some (0, [5])) (mkState 1 0 1 0 3) = Some [mkRule 3 3 (-1)]. Proof. reflexivity. Qed.
  Example by_any : find None (mkState 1 0 1 0 3) = Some [mkRule (-1) 1 (-1)]. Proof. reflexivity. Qed.
  Example keys_of : keysOf fst snd (fun x => x) g (Some (0, [9])) [2; 0; -1].
  Proof.
    apply (K_literal (Tok := Z * list Z) fst snd (fun x => x) g (0, [9]) 2).
    - econstructor; [reflexivity|reflexivity|]. split; [eexists; repeat split; reflexivity|].
      intros j (d & E & F & G). pose proof (zget_Some_inv _ _ _ E) as HJ. cbn in HJ.
      assert (j = 0 \/ j = 1 \/ j = 2 \/ j = 3) as [->|[->|[->| ->]]] by (unfold zlen in HJ; cbn in HJ; lia);
        cbn in E; injection E as <-; try lia; discriminate.
    - intros (d & E & F). cbn in E. injection E as <-. discriminate.
  Qed.
End Example1.
