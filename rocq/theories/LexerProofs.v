From Coq Require Import String ZArith List Lia Bool.
From Verif Require Import Base BaseProofs Utf8 Queue QueueProofs SourceQueue SourceQueueSpec Prop_SourceQueue
  Lexer LexerSpec.
Import ListNotations.
Open Scope Z_scope.

(** ** New *)

Definition clampType (x : Z * string) : Z * string :=
  if (0 <=? fst x) && (fst x <? 64) then x else (ErrorTokenType, snd x).

Lemma newLoop_types types : forall ts tm, ltypes (newLoop types ts tm) = rev ts ++ map clampType types.
Proof.
  induction types as [|[t n] r IH]; intros ts tm; cbn [newLoop map].
  - rewrite app_nil_r. reflexivity.
  - unfold clampType at 1. cbn [fst snd]. destruct (_ && _); rewrite IH; cbn [rev]; rewrite <- app_assoc; reflexivity.
Qed.

Lemma newLoop_mask types : forall ts tm j, 0 <= j -> 
  Z.testbit (ltypeMask (newLoop types ts tm)) j =
  Z.testbit tm j || existsb (fun x => (fst x =? j) && (0 <=? fst x) && (fst x <? 64)) types.
Proof.
  induction types as [|[t n] r IH]; intros ts tm j Hj; cbn [newLoop existsb fst].
  - rewrite orb_false_r. reflexivity.
  - destruct (Z.leb_spec 0 t), (Z.ltb_spec t 64); cbn [andb]; rewrite IH by auto;
      rewrite ?andb_false_r; cbn [andb orb]; auto.
    rewrite Z.lor_spec, Z.shiftl_spec by lia. rewrite !andb_true_r.
    rewrite <- orb_assoc. f_equal. f_equal.
    destruct (Z.eqb_spec t j).
    + subst. rewrite Z.sub_diag. reflexivity.
    + destruct (Z.ltb_spec j t); [apply Z.testbit_neg_r; lia|].
      replace (j - t) with (Z.succ (j - t - 1)) by lia. rewrite Z.bit0_odd || idtac.
      change 1 with (2 * 0 + 1). rewrite Z.testbit_odd_succ by lia. apply Z.bits_0.
Qed.

Lemma types_new types : ltypes (newLexer types) = map clampType types.
Proof. unfold newLexer. rewrite newLoop_types. reflexivity. Qed.

Lemma mask_new types j : 0 <= j ->
  (Z.testbit (ltypeMask (newLexer types)) j = true <->
   exists k n, group_type types k = Some (j, n)).
Proof.
  intros Hj. unfold newLexer. rewrite newLoop_mask by auto. rewrite Z.bits_0. cbn [orb].
  rewrite existsb_exists. split.
  - intros ([t n] & Hi & Ht). cbn [fst] in Ht. apply In_nth_error in Hi as (k & Hk).
    exists k, n. unfold group_type. rewrite Hk.
    apply andb_prop in Ht as [Ht H2]. apply andb_prop in Ht as [H0 H1].
    apply Z.eqb_eq in H0. apply Z.leb_le in H1. apply Z.ltb_lt in H2. subst.
    destruct (Z.leb_spec 0 j); [|lia]. destruct (Z.leb_spec j 63); [|lia]. reflexivity.
  - intros (k & n & H). unfold group_type in H. destruct (nth_error types k) as [[t n']|] eqn:E; [|discriminate].
    apply nth_error_In in E. exists (t, n'). split; auto. cbn [fst].
    destruct (Z.leb_spec 0 t); [|discriminate]. destruct (Z.leb_spec t 63); [|discriminate].
    cbn [andb] in H. injection H as -> ->. rewrite Z.eqb_refl. destruct (Z.ltb_spec j 64); [reflexivity|lia].
Qed.

Lemma group_lookup types k :
  match group_type types k with
  | Some (t, n) => Z.of_nat k + 1 <= zlen types /\ nth_error (map clampType types) k = Some (t, n) /\ 0 <= t <= 63
  | None => (Z.of_nat k + 1 <= zlen types /\ nth_error (map clampType types) k = Some (ErrorTokenType, error_name types k))
            \/ (zlen types < Z.of_nat k + 1 /\ error_name types k = ErrorTokenName)
  end.
Proof.
  unfold group_type, error_name. destruct (nth_error types k) as [[t n]|] eqn:E.
  - pose proof (map_nth_error clampType _ _ E) as M.
    assert (k < length types)%nat by (apply nth_error_Some; congruence).
    unfold clampType in M. cbn [fst snd] in M.
    destruct (Z.leb_spec 0 t), (Z.leb_spec t 63), (Z.ltb_spec t 64); cbn [andb] in *; try lia;
      unfold zlen; (try left); repeat split; auto; try lia.
  - apply nth_error_None in E. right. unfold zlen. split; [lia|reflexivity].
Qed.

Section P.
Context {S : Type} (content : S -> list Z) (re : list Z -> list Z) (types : list (Z * string)).
Hypothesis HRE : re_contract re.
Notation L := (newLexer types).
Notation sl := (slen content).

Lemma sl_nonneg s : 0 <= sl s.
Proof. apply zlen_nonneg. Qed.

Definition gok (n : Z) (g : Z * Z) : Prop := g = (-1, -1) \/ (0 <= fst g <= snd g /\ snd g <= n).

Definition someCaptured (gs : list (Z * Z)) : bool := existsb captured gs.

Lemma zget_nat {A} (l : list A) k x : nth_error l k = Some x -> zget l (Z.of_nat k) = Some x.
Proof. intros. unfold zget. destruct (Z.ltb_spec (Z.of_nat k) 0); [lia|]. rewrite Nat2Z.id. auto. Qed.

Definition tokenOf (src : S) (c : list Z) (pos : Z) (k : nat) (a b : Z) : token S :=
  match group_type types k with
  | Some (t, n) => mkToken t n (sub c a (b - a)) (Some src) (pos + a)
  | None => mkToken ErrorTokenType (error_name types k) (sub c a (b - a)) (Some src) (pos + a)
  end.

Lemma groupLoop_spec src c pos tts m1 : m1 <= zlen c -> forall gs k matched, Forall (gok m1) gs ->
  exists r, groupLoop L src c pos tts m1 (2 * Z.of_nat k + 2) (flat gs) matched = Some r /\
  fst r =
  match pick types tts k gs with
  | None => (None, if matched || someCaptured gs then 0 else m1, None)
  | Some (k', (a, b)) =>
      match group_type types k' with
      | Some _ => (Some (tokenOf src c pos k' a b), m1, None)
      | None => (None, 0, Some (BadToken (tokenOf src c pos k' a b)))
      end
  end.
Proof.
  intros Hm. induction gs as [|[a b] gs IH]; intros k mt HF; cbn [flat groupLoop pick someCaptured existsb].
  - eexists; split; [reflexivity|]. rewrite orb_false_r. reflexivity.
  - inversion HF as [|? ? Hg HF']; subst. specialize (IH (Datatypes.S k)).
    replace (2 * Z.of_nat k + 2 + 2) with (2 * Z.of_nat (Datatypes.S k) + 2) by lia.
    assert (SH : Z.shiftr (2 * Z.of_nat k + 2) 1 = Z.of_nat k + 1).
    { rewrite Z.shiftr_div_pow2 by lia. change (2 ^ 1) with 2.
      replace (2 * Z.of_nat k + 2) with ((Z.of_nat k + 1) * 2) by lia. apply Z.div_mul. lia. }
    rewrite SH, types_new.
    assert (ZM : zlen (map clampType types) = zlen types) by (unfold zlen; rewrite map_length; auto).
    rewrite ZM. change (captured (a, b)) with (0 <=? a).
    destruct Hg as [Hg|Hg].
    + injection Hg as -> ->. cbn [Z.leb andb orb Z.compare CompOpp].
      destruct (IH mt HF') as (r & E & Hr). exists r. split; [exact E|exact Hr].
    + cbn [fst snd] in Hg. destruct (Z.leb_spec 0 a); [|lia]. destruct (Z.leb_spec 0 b); [|lia]. cbn [andb orb].
      rewrite ?orb_true_r.
      pose proof (group_lookup types k) as GL.
      assert (SL : zslice c a b = Some (sub c a (b - a))) by (rewrite zslice_Some by lia; reflexivity).
      destruct (group_type types k) as [[t n]|] eqn:GT.
      * destruct GL as (G1 & G2 & G3). destruct (Z.leb_spec (Z.of_nat k + 1) (zlen types)); [|lia].
        replace (Z.of_nat k + 1 - 1) with (Z.of_nat k) by lia. rewrite (zget_nat _ _ _ G2). cbn [obind andb].
        destruct (Z.leb_spec 0 t); [|lia]. cbn [andb].
        destruct (Z.testbit tts t); cbn [negb].
        -- rewrite SL. cbn [obind]. unfold ErrorTokenType, LowestTokenType in *.
           destruct (Z.eqb_spec t (-3 - 1)); [lia|]. eexists; split; [reflexivity|].
           rewrite GT. unfold tokenOf. rewrite GT. reflexivity.
        -- destruct (IH true HF') as (r & E & Hr). exists r. split; [exact E|]. rewrite Hr.
           destruct (pick types tts (Datatypes.S k) gs) as [[k' [a' b']]|]; reflexivity.
      * destruct GL as [(G1 & G2)|(G1 & G2)].
        -- destruct (Z.leb_spec (Z.of_nat k + 1) (zlen types)); [|lia].
           replace (Z.of_nat k + 1 - 1) with (Z.of_nat k) by lia. rewrite (zget_nat _ _ _ G2). cbn [obind andb].
           change (0 <=? ErrorTokenType) with false. cbn [andb]. rewrite SL. cbn [obind].
           rewrite Z.eqb_refl. eexists; split; [reflexivity|]. rewrite GT. unfold tokenOf. rewrite GT. reflexivity.
        -- destruct (Z.leb_spec (Z.of_nat k + 1) (zlen types)); [lia|]. cbn [obind andb]. rewrite SL. cbn [obind].
           rewrite Z.eqb_refl. eexists; split; [reflexivity|]. rewrite GT. unfold tokenOf. rewrite GT, G2. reflexivity.
Qed.

(** The five ways a match can go. *)
Inductive outc := OWrong | OSkip (n : Z) | ONothing | OBad (n : Z) (k : nat) (a b : Z) | OTok (n : Z) (k : nat) (a b : Z).

Definition outcOK (s : S) (tts p : Z) (o : outc) : Prop :=
  match o with
  | OWrong => no_match content re s p
  | OSkip n => insignificant content re s p n /\ p + n <= sl s
  | ONothing => unwanted content re types s tts p
  | OBad n k a b => matched content re types s tts p n k a b /\ group_type types k = None /\
      0 <= a <= b /\ b <= n /\ p + n <= sl s
  | OTok n k a b => matched content re types s tts p n k a b /\ group_type types k <> None /\
      0 <= a <= b /\ b <= n /\ p + n <= sl s
  end.

Definition outcRes (s : S) (p : Z) (o : outc) : mres :=
  let c := skipn (Z.to_nat p) (content s) in
  match o with
  | OWrong => (None, 0, Some (WrongChar s p (fst (decodeRune c))))
  | OSkip n => (None, n, None)
  | ONothing => (None, 0, None)
  | OBad n k a b => (None, 0, Some (BadToken (tokenOf s c p k a b)))
  | OTok n k a b => (Some (tokenOf s c p k a b), n, None)
  end.

Lemma pick_group tts gs : forall k k' g, pick types tts k gs = Some (k', g) -> In g gs /\ captured g = true.
Proof.
  induction gs as [|g0 gs IH]; intros k k' g H; cbn [pick] in H; [discriminate|].
  destruct (captured g0) eqn:C; cbn [andb] in H.
  - match type of H with (if ?X then _ else _) = _ => destruct X end.
    + injection H as <- <-. split; [left|]; auto.
    + apply IH in H. split; [right|]; tauto.
  - apply IH in H. split; [right|]; tauto.
Qed.

Lemma matchToken_spec s tts p : 0 <= p < sl s ->
  exists o, matchToken re L s (content s) p tts = Some (outcRes s p o) /\ outcOK s tts p o.
Proof.
  intros Hp. unfold slen in Hp. unfold matchToken. rewrite zslice_Some by lia. cbn [obind].
  rewrite firstn_all2 by (rewrite skipn_length; unfold zlen in *; lia).
  set (c := skipn (Z.to_nat p) (content s)).
  assert (Lc : zlen c = sl s - p) by (unfold c, slen, zlen in *; rewrite skipn_length; lia).
  destruct (HRE c) as [E|(m0 & m1 & gs & E & H0 & H1 & HG)].
  - rewrite E. exists OWrong. split; [reflexivity|]. unfold outcOK, no_match. fold c. rewrite E. auto.
  - rewrite E. destruct (Z.eqb_spec m0 0); cbn [negb orb].
    + subst m0. destruct (Z.leb_spec m1 0).
      * exists OWrong. split; [reflexivity|]. unfold outcOK, no_match. fold c. rewrite E. right. lia.
      * destruct (groupLoop_spec s c p tts m1 H1 gs 0 false HG) as (r & ER & Hr).
        change (2 * Z.of_nat 0 + 2) with 2 in ER. rewrite ER. cbn [obind]. destruct r as [r rb]. cbn [fst] in Hr.
        cbn [orb] in Hr. destruct (pick types tts 0 gs) as [[k [a b]]|] eqn:PK.
        -- destruct (pick_group _ _ _ _ _ PK) as [GI GC].
           assert (GB : 0 <= a <= b /\ b <= m1).
           { rewrite Forall_forall in HG. destruct (HG _ GI) as [X|X]; [|cbn [fst snd] in X; lia].
             injection X as -> ->. discriminate. }
           destruct (group_type types k) as [tn|] eqn:GT.
           ++ exists (OTok m1 k a b). rewrite Hr. split; [reflexivity|]. cbn [outcOK]. 
              split; [exists gs; fold c; auto|]. split; [congruence|]. lia.
           ++ exists (OBad m1 k a b). rewrite Hr. split; [reflexivity|]. cbn [outcOK].
              split; [exists gs; fold c; auto|]. split; [auto|]. lia.
        -- destruct (someCaptured gs) eqn:SC.
           ++ exists ONothing. rewrite Hr. split; [reflexivity|]. exists m1, gs. fold c. repeat split; auto; try lia.
              unfold someCaptured in SC. apply existsb_exists in SC. destruct SC as (g & G1 & G2). eauto.
           ++ exists (OSkip m1). rewrite Hr. split; [reflexivity|]. split; [|lia]. exists gs. fold c.
              repeat split; auto. intros g Hg. destruct (captured g) eqn:Cg; auto.
              unfold someCaptured in SC. assert (existsb captured gs = true) by (apply existsb_exists; eauto). congruence.
    + exists OWrong. split; [reflexivity|]. unfold outcOK, no_match. fold c. rewrite E. auto.
Qed.

(** ** fetch *)

Definition qok (q : squeue) (l : aq S) : Prop := absq q l /\ aOK sl l /\ zlen l < 2 ^ 31.

Lemma fetch_eoi q tts : qok q [] -> fetch content re L q tts = Some (q, (Some (@eoiToken S), false, None)).
Proof. intros ((A1 & A2 & A3) & _). unfold fetch. rewrite A1. reflexivity. Qed.

Lemma next_ok q s p r : qok q ((s, p) :: r) ->
  exists q', sqNextSource q = Some (q', match r with [] => false | _ => true end) /\ qok q' r.
Proof.
  intros ((A1 & A2 & A3) & HO & HB). unfold sqNextSource.
  destruct (first_inv qitem0 (sq q) _ A3) as (i & -> & HI).
  { unfold zlen in *. rewrite map_length. cbn [length] in HB. lia. }
  pose proof (tl_OK sl _ HO) as HO'. cbn [tl] in HO'.
  assert (HB' : zlen r < 2 ^ 31) by (unfold zlen in *; cbn [length] in HB; lia).
  cbn [obind]. destruct r as [|(c2, p2) r]; cbn [map hd_error tl] in *.
  - eexists; split; [reflexivity|]. split; [|split; auto]. repeat split; auto.
  - eexists; split; [reflexivity|]. split; [|split; auto]. repeat split; auto.
Qed.

Lemma skip_ok q s p r n : qok q ((s, p) :: r) -> 0 <= n -> p + n <= sl s ->
  qok (sqSkip sl q n) ((s, p + n) :: r).
Proof.
  intros ((A1 & A2 & A3) & HO & HB) Hn Hl.
  pose proof (move_OK sl sl_nonneg _ (fun x => x + n) HO) as HM. cbn [a_move] in HM.
  assert (0 <= p <= sl s) by (destruct HO as [HF _]; inversion HF; auto).
  replace (Z.max 0 (Z.min (sl s) (p + n))) with (p + n) in HM by lia.
  unfold sqSkip. rewrite A1. destruct (Z.leb_spec n 0).
  - assert (n = 0) by lia. subst n. rewrite Z.add_0_r in *. split; [|split; auto]. repeat split; auto.
  - split; [|split; auto]. cbn. repeat split; auto. rewrite A2. destruct (Z.leb_spec (sl s) (p + n)); lia.
Qed.

Lemma fetch_spec q s p r tts : qok q ((s, p) :: r) ->
  0 <= p <= sl s /\
  ((p = sl s /\ exists q', fetch content re L q tts = Some (q', (Some (eofToken content s), false, None)) /\
      sqNextSource q = Some (q', match r with [] => false | _ => true end) /\ qok q' r) \/
   (p < sl s /\ exists o, outcOK s tts p o /\ let '(t, n, e) := outcRes s p o in
      fetch content re L q tts = Some (sqSkip sl q n, (t, 0 <? n, e)))).
Proof.
  intros HQ. pose proof HQ as ((A1 & A2 & A3) & HO & HB).
  assert (HP : 0 <= p <= sl s) by (destruct HO as [HF _]; inversion HF; auto).
  split; auto. unfold fetch. rewrite A1, A2. fold (sl s).
  change (zlen (content s)) with (sl s). destruct (Z.leb_spec (sl s - p) 0) as [HE|HE].
  - left. split; [lia|]. destruct (next_ok q s p r HQ) as (q' & -> & HQ'). cbn [obind]. exists q'.
    split; [reflexivity|split; [reflexivity|exact HQ']].
  - right. split; [lia|]. destruct (matchToken_spec s tts p ltac:(lia)) as (o & EM & HOK).
    rewrite EM. cbn [obind]. exists o. split; auto.
    destruct (outcRes s p o) as [[t n] e]. reflexivity.
Qed.

(** ** Next and NextOf *)

Definition finalRes (s : S) (p : Z) (f : final S) : @lexResult S :=
  match f with
  | FEof => (Some (eofToken content s), None)
  | FWrong r => (None, Some (WrongChar s p r))
  | FBad t => (None, Some (BadToken t))
  | FNothing => (None, None)
  | FToken t _ => (Some t, None)
  end.

Lemma skipn_skipn' {A} (l : list A) : forall a b, skipn a (skipn b l) = skipn (b + a) l.
Proof.
  intros a b. revert l. induction b; intros l; [reflexivity|]. destruct l; cbn [skipn Nat.add]; auto.
  destruct a; reflexivity.
Qed.

Lemma sub_skipn c p a n : 0 <= p -> 0 <= a -> sub (skipn (Z.to_nat p) c) a n = sub c (p + a) n.
Proof.
  intros. unfold sub. rewrite skipn_skipn'. f_equal. f_equal. lia.
Qed.

Definition afterQ (s : S) (p : Z) (r : aq S) (f : final S) : aq S :=
  match f with FEof => r | _ => (s, p) :: r end.

Lemma nextOfLoop_spec tts : forall fuel q s p r, qok q ((s, p) :: r) -> sl s - p < Z.of_nat fuel ->
  exists q' sk p' f, nextOfLoop content re fuel L q tts = Some (q', finalRes s p' f) /\
    scan content re types s tts p sk p' f /\ qok q' (afterQ s p' r f) /\ p <= p' <= sl s.
Proof.
  induction fuel as [|fuel IH]; intros q s p r HQ HF.
  { destruct (fetch_spec q s p r tts HQ) as [HP _]. lia. }
  cbn [nextOfLoop]. destruct (fetch_spec q s p r tts HQ) as (HP & [(HE & q' & -> & _ & HQ')|(HE & o & HOK & EF)]).
  - cbn [obind]. exists q', [], p, FEof. split; [reflexivity|]. split; [|split; auto; lia].
    apply scan_eof. unfold slen in *. lia.
  - unfold slen in HE. destruct o as [|n| |n k a b|n k a b]; cbn [outcRes outcOK] in *; rewrite EF; cbn [obind].
    + exists (sqSkip sl q 0), [], p, (FWrong (fst (decodeRune (skipn (Z.to_nat p) (content s))))).
      split; [reflexivity|]. split; [constructor; auto|]. split; [|lia].
      pose proof (skip_ok q s p r 0 HQ) as K. rewrite Z.add_0_r in K. apply K; lia.
    + destruct HOK as (HI & HL). assert (0 < n) by (destruct HI as (gs & _ & ? & _); auto).
      destruct (Z.ltb_spec 0 n); [|lia].
      pose proof (skip_ok q s p r n HQ ltac:(lia) HL) as HQ1.
      destruct (IH _ s (p + n) r HQ1 ltac:(lia)) as (q' & sk & p' & f & E & SC & HQ' & HP').
      exists q', (sub (content s) p n :: sk), p', f. split; [exact E|].
      split; [apply scan_skip; auto|]. split; auto. lia.
    + exists (sqSkip sl q 0), [], p, FNothing. split; [reflexivity|]. split; [constructor; auto|]. split; [|lia].
      pose proof (skip_ok q s p r 0 HQ) as K. rewrite Z.add_0_r in K. apply K; lia.
    + destruct HOK as (HM & HG & HA & HB & HL).
      eexists (sqSkip sl q 0), [], p, (FBad _). split; [reflexivity|].
      split; [|split; [pose proof (skip_ok q s p r 0 HQ) as K; rewrite Z.add_0_r in K; apply K; lia|lia]].
      unfold tokenOf. rewrite HG. rewrite sub_skipn by lia. eapply scan_bad; eauto.
    + destruct HOK as (HM & HG & HA & HB & HL).
      eexists (sqSkip sl q n), [], (p + n), (FToken _ (sub (content s) p n)). split; [reflexivity|].
      split; [|split; [apply skip_ok; auto; lia|lia]].
      unfold tokenOf. destruct (group_type types k) as [[t nm]|] eqn:GT; [|congruence].
      rewrite sub_skipn by lia. eapply scan_token; eauto.
Qed.

Lemma nextOfLoop_fuel fuel q tts s p r : qok q ((s, p) :: r) -> fuel = lexFuel content q ->
  exists q' sk p' f, nextOfLoop content re fuel L q tts = Some (q', finalRes s p' f) /\
    scan content re types s tts p sk p' f /\ qok q' (afterQ s p' r f) /\ p <= p' <= sl s.
Proof.
  intros HQ ->. apply nextOfLoop_spec; auto. pose proof HQ as ((A1 & A2 & A3) & HO & HB).
  unfold lexFuel. rewrite A1, A2. lia.
Qed.

(** With all types requested every captured group is taken. *)
Lemma pick_all gs : forall k, pick types AllTokenTypes k gs = None -> forall g, In g gs -> captured g = false.
Proof.
  induction gs as [|g0 gs IH]; intros k H g Hg; [destruct Hg|]. cbn [pick] in H.
  assert (A : match group_type types k with None => true | Some (t, _) => Z.testbit AllTokenTypes t end = true).
  { pose proof (group_lookup types k) as GL. destruct (group_type types k) as [[t n]|]; auto.
    unfold AllTokenTypes. apply Z.ones_spec_low. lia. }
  rewrite A, andb_true_r in H. destruct (captured g0) eqn:C; [discriminate|].
  destruct Hg as [<-|Hg]; eauto.
Qed.

Lemma nextLoop_eq fuel : forall q l, qok q l -> 
  nextLoop content re fuel L q = nextOfLoop content re fuel L q AllTokenTypes.
Proof.
  induction fuel as [|fuel IH]; intros q l HQ; [reflexivity|]. cbn [nextLoop nextOfLoop].
  destruct l as [|(s, p) r].
  - rewrite fetch_eoi by auto. reflexivity.
  - destruct (fetch_spec q s p r AllTokenTypes HQ) as (HP & [(HE & q' & -> & _ & HQ')|(HE & o & HOK & EF)]).
    + reflexivity.
    + destruct o as [|n| |n k a b|n k a b]; cbn [outcRes outcOK] in *; rewrite EF; cbn [obind]; try reflexivity.
      * destruct HOK as (HI & HL). assert (0 < n) by (destruct HI as (gs & _ & ? & _); auto).
        destruct (Z.ltb_spec 0 n); [|lia]. eapply IH. apply skip_ok; eauto. lia.
      * exfalso. destruct HOK as (n & gs & _ & _ & (g & G1 & G2) & PK). rewrite (pick_all _ _ PK g G1) in G2. discriminate.
Qed.

Lemma lexNext_spec q s p r : qok q ((s, p) :: r) ->
  exists q' sk p' f, lexNext content re L q = Some (q', finalRes s p' f) /\
    scan content re types s AllTokenTypes p sk p' f /\ qok q' (afterQ s p' r f) /\ p <= p' <= sl s.
Proof.
  intros HQ. unfold lexNext. erewrite nextLoop_eq by eauto. apply nextOfLoop_fuel; auto.
Qed.

Lemma lexNext_eoi q : qok q [] -> lexNext content re L q = Some (q, (Some (@eoiToken S), None)).
Proof. intros HQ. unfold lexNext, lexFuel. cbn [nextLoop]. rewrite fetch_eoi by auto. reflexivity. Qed.

Lemma lexNextOf_spec q s p r tts : qok q ((s, p) :: r) -> Z.land tts (ltypeMask L) <> 0 ->
  exists q' sk p' f, lexNextOf content re L q tts = Some (q', finalRes s p' f) /\
    scan content re types s tts p sk p' f /\ qok q' (afterQ s p' r f) /\ p <= p' <= sl s.
Proof.
  intros HQ HM. unfold lexNextOf. destruct (Z.eqb_spec (Z.land tts (ltypeMask L)) 0); [contradiction|].
  apply nextOfLoop_fuel; auto.
Qed.

Lemma lexNextOf_eoi q tts : qok q [] -> Z.land tts (ltypeMask L) <> 0 ->
  lexNextOf content re L q tts = Some (q, (Some (@eoiToken S), None)).
Proof.
  intros HQ HM. unfold lexNextOf. destruct (Z.eqb_spec (Z.land tts (ltypeMask L)) 0); [contradiction|].
  unfold lexFuel. cbn [nextOfLoop]. rewrite fetch_eoi by auto. reflexivity.
Qed.

Lemma lexNextOf_zero q tts : Z.land tts (ltypeMask L) = 0 ->
  lexNextOf content re L q tts = Some (q, (None, None)).
Proof. intros H. unfold lexNextOf. rewrite H. reflexivity. Qed.

Lemma mask_zero tts : 0 <= tts ->
  (Z.land tts (ltypeMask L) = 0 <-> forall k t n, group_type types k = Some (t, n) -> Z.testbit tts t = false).
Proof.
  intros Ht. split.
  - intros H k t n HG. pose proof (group_lookup types k) as GL. rewrite HG in GL.
    assert (M : Z.testbit (ltypeMask L) t = true) by (apply mask_new; [lia|eauto]).
    assert (B : Z.testbit (Z.land tts (ltypeMask L)) t = false) by (rewrite H; apply Z.bits_0).
    rewrite Z.land_spec, M, andb_true_r in B. auto.
  - intros H. apply Z.bits_inj'. intros j Hj. rewrite Z.bits_0, Z.land_spec.
    destruct (Z.testbit (ltypeMask L) j) eqn:M; [|apply andb_false_r].
    apply mask_new in M as (k & n & HG); auto. rewrite (H _ _ _ HG). reflexivity.
Qed.

(** facts about scan *)
Lemma scan_prefix s tts p sk p' f : scan content re types s tts p sk p' f -> 0 <= p ->
  p + Z.of_nat (List.length (concat sk ++ match f with FToken _ lx => lx | _ => [] end)) = p' /\
  concat sk ++ match f with FToken _ lx => lx | _ => [] end = sub (content s) p (p' - p).
Proof.
  assert (SS : forall c p n m, 0 <= p -> 0 <= n -> 0 <= m -> sub c p n ++ sub c (p + n) m = sub c p (n + m)).
  { intros c q n m Hq Hn Hm. unfold sub.
    replace (Z.to_nat (q + n)) with (Z.to_nat q + Z.to_nat n)%nat by lia. rewrite <- skipn_skipn'.
    replace (Z.to_nat (n + m)) with (Z.to_nat n + Z.to_nat m)%nat by lia.
    generalize (skipn (Z.to_nat q) c). intros d. generalize (Z.to_nat n) (Z.to_nat m). clear. intros n.
    revert d. induction n; intros d m; [reflexivity|]. destruct d; cbn; [destruct m; reflexivity|]. f_equal. apply IHn. }
  assert (SL : forall c p n, 0 <= p -> 0 <= n -> n <= zlen (skipn (Z.to_nat p) c) -> Z.of_nat (List.length (sub c p n)) = n).
  { intros c q n H1 H2 H3. unfold sub. rewrite firstn_length. unfold zlen in H3. lia. }
  induction 1 as [pos HE|pos HE HN|pos HE HN|pos n k a b HE HM HG|pos n k a b t nm HE HM HG|pos n sk p' f HE HI HS IH];
    intros HP; cbn [concat app].
  1-4: rewrite Z.sub_diag; cbn; split; [lia|reflexivity].
  - destruct HM as (gs & ER & Hn & _).
    assert (n <= zlen (skipn (Z.to_nat pos) (content s))).
    { destruct (HRE (skipn (Z.to_nat pos) (content s))) as [X|(m0 & m1 & gs' & X & _ & B & _)]; [congruence|].
      rewrite ER in X. injection X as _ <- _. auto. }
    rewrite SL by (auto; lia). replace (pos + n - pos) with n by lia. auto.
  - destruct HI as (gs & ER & Hn & _).
    assert (n <= zlen (skipn (Z.to_nat pos) (content s))).
    { destruct (HRE (skipn (Z.to_nat pos) (content s))) as [X|(m0 & m1 & gs' & X & _ & B & _)]; [congruence|].
      rewrite ER in X. injection X as _ <- _. auto. }
    destruct (IH ltac:(lia)) as [I1 I2]. rewrite <- app_assoc, app_length, Nat2Z.inj_add, SL by (auto; lia).
    split; [lia|]. rewrite I2.
    rewrite SS by lia. f_equal. lia.
Qed.

End P.
