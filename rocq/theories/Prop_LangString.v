(** Strings of descriptions (C23). *)
From Coq Require Import ZArith List Bool Lia.
From Verif Require Import Base BaseProofs Utf8 LangString LangStringSpec.
Import ListNotations.
Open Scope Z_scope.

(** *** Numbers *)
Lemma digit_iff b d : hexDigit b = Some d <-> digit b d.
Proof.
  unfold hexDigit, between. split.
  - destruct ((48 <=? b) && (b <=? 57)) eqn:A; [|destruct ((97 <=? b) && (b <=? 102)) eqn:B; [|destruct ((65 <=? b) && (b <=? 70)) eqn:C; [|discriminate]]]; intros H; injection H as <-.
    + replace b with (48 + (b - 48)) at 1 by lia. apply DG_dec. lia.
    + replace b with (97 + (b - 87 - 10)) at 1 by lia. apply DG_low. lia.
    + replace b with (65 + (b - 55 - 10)) at 1 by lia. apply DG_up. lia.
  - intros H. inversion H; subst.
    + destruct (Z.leb_spec 48 (48 + d)), (Z.leb_spec (48 + d) 57); try lia. cbn [andb]. f_equal. lia.
    + destruct (Z.leb_spec (97 + (d - 10)) 57); [lia|]. rewrite andb_false_r. destruct (Z.leb_spec 97 (97 + (d - 10))), (Z.leb_spec (97 + (d - 10)) 102); try lia. cbn [andb]. f_equal. lia.
    + destruct (Z.leb_spec (65 + (d - 10)) 57); [lia|]. rewrite andb_false_r. destruct (Z.leb_spec 97 (65 + (d - 10))); [lia|]. cbn [andb]. destruct (Z.leb_spec 65 (65 + (d - 10))), (Z.leb_spec (65 + (d - 10)) 70); try lia. cbn [andb]. f_equal. lia.
Qed.
Lemma digit_range b d : digit b d -> 0 <= d < 16.
Proof. inversion 1; lia. Qed.
Lemma hexDigits_snoc s b : forall n, hexDigits (s ++ [b]) n = do m <- hexDigits s n; do d <- hexDigit b; Some (m * 16 + d).
Proof. induction s as [|x s IH]; intros n; cbn; [destruct (hexDigit b); reflexivity|]. destruct (hexDigit x); cbn; [apply IH|reflexivity]. Qed.
Lemma number_iff s n : hexDigits s 0 = Some n <-> number s n.
Proof.
  split.
  - revert n. induction s as [|b s IH] using rev_ind; intros n H; [injection H as <-; constructor|]. rewrite hexDigits_snoc in H. destruct (hexDigits s 0) as [m|]; [|discriminate]. cbn in H. destruct (hexDigit b) as [d|] eqn:D; [|discriminate]. cbn in H.
    injection H as <-. replace (m * 16 + d) with (16 * m + d) by lia. constructor; [apply IH; reflexivity|apply digit_iff, D].
  - induction 1 as [|s n b d N IH D]; [reflexivity|]. rewrite hexDigits_snoc, IH. cbn [obind]. apply digit_iff in D. rewrite D. cbn [obind]. f_equal. lia.
Qed.
Lemma number_range s n : number s n -> 0 <= n < 16 ^ zlen s.
Proof.
  induction 1 as [|s n b d N IH D]; [cbn; lia|]. apply digit_range in D. unfold zlen in *. rewrite app_length, Nat2Z.inj_add. cbn [length]. change (Z.of_nat 1) with 1. rewrite Z.pow_add_r by lia. lia.
Qed.
Lemma parseHex_iff s n : s <> [] -> zlen s <= 8 -> parseHex s = Some n <-> number s n.
Proof.
  intros NE L. unfold parseHex. destruct s as [|b s]; [contradiction|]. rewrite <- number_iff. destruct (hexDigits (b :: s) 0) as [m|] eqn:H; [|cbn; reflexivity]. cbn [obind]. apply number_iff in H. apply number_range in H.
  assert (16 ^ zlen (b :: s) <= 16 ^ 8) by (apply Z.pow_le_mono_r; lia). change (16 ^ 8) with 4294967296 in *. destruct (Z.ltb_spec m 4294967296); [reflexivity|lia].
Qed.

(** *** Runes *)
Lemma valid_iff n : 0 <= n < 4294967296 -> validRune (toRune n) = true <-> aRune n.
Proof. intros R. unfold validRune, toRune, aRune, between. destruct (Z.ltb_spec n 2147483648); lia. Qed.
Lemma valid_same n : 0 <= n < 4294967296 -> validRune (toRune n) = true -> toRune n = n.
Proof. intros R V. unfold toRune in *. destruct (Z.ltb_spec n 2147483648); [reflexivity|]. unfold validRune, between in V. lia. Qed.
Lemma utf8_iff n u : aRune n -> utf8 n u <-> u = encodeRune n.
Proof.
  intros A. assert (R : 0 <= n <= 1114111) by (unfold aRune in A; lia). unfold encodeRune. split.
  - assert (DM : forall a b, 0 <= b < 64 -> (a * 64 + b) / 64 = a /\ (a * 64 + b) mod 64 = b).
    { intros a b B. split; [symmetry; apply Z.div_unique with b; lia|symmetry; apply Z.mod_unique with a; lia]. }
    intros H. inversion H; subst.
    + destruct (Z.ltb_spec n 128); [reflexivity|lia].
    + destruct (DM a b ltac:(lia)) as (-> & ->). destruct (Z.ltb_spec (a * 64 + b) 128); [lia|]. destruct (Z.ltb_spec (a * 64 + b) 2048); [reflexivity|lia].
    + change 4096 with (64 * 64). rewrite <- Z.div_div by lia. destruct (DM (a * 64 + b) c ltac:(lia)) as (-> & ->). destruct (DM a b ltac:(lia)) as (-> & ->).
      destruct (Z.ltb_spec ((a * 64 + b) * 64 + c) 128); [lia|]. destruct (Z.ltb_spec ((a * 64 + b) * 64 + c) 2048); [lia|]. destruct (Z.ltb_spec ((a * 64 + b) * 64 + c) 65536); [reflexivity|lia].
    + change 262144 with (64 * 64 * 64). change 4096 with (64 * 64). rewrite <- !Z.div_div by lia. destruct (DM ((a * 64 + b) * 64 + c) d ltac:(lia)) as (-> & ->). destruct (DM (a * 64 + b) c ltac:(lia)) as (-> & ->). destruct (DM a b ltac:(lia)) as (-> & ->).
      destruct (Z.ltb_spec (((a * 64 + b) * 64 + c) * 64 + d) 128); [lia|]. destruct (Z.ltb_spec (((a * 64 + b) * 64 + c) * 64 + d) 2048); [lia|]. destruct (Z.ltb_spec (((a * 64 + b) * 64 + c) * 64 + d) 65536); [lia|reflexivity].
  - intros ->.
    assert (X : forall m, m = m / 64 * 64 + m mod 64 /\ 0 <= m mod 64 < 64) by (intros m; pose proof (Z.div_mod m 64 ltac:(lia)); pose proof (Z.mod_pos_bound m 64 ltac:(lia)); lia).
    destruct (X n) as (X1 & X2), (X (n / 64)) as (X3 & X4), (X (n / 64 / 64)) as (X5 & X6).
    destruct (Z.ltb_spec n 128); [constructor; lia|]. destruct (Z.ltb_spec n 2048); [rewrite X1 at 1; constructor; lia|].
    change 262144 with (64 * 64 * 64). change 4096 with (64 * 64). rewrite <- !Z.div_div by lia. destruct (Z.ltb_spec n 65536).
    + replace n with ((n / 64 / 64 * 64 + n / 64 mod 64) * 64 + n mod 64) at 1 by lia. constructor; lia.
    + replace n with (((n / 64 / 64 / 64 * 64 + n / 64 / 64 mod 64) * 64 + n / 64 mod 64) * 64 + n mod 64) at 1 by lia. constructor; lia.
Qed.

(** *** One step of the loop *)
Lemma unescape_byte f b c res : b <> 92 -> unescape (S f) (b :: c) res = unescape (S f) c (res ++ [b]).
Proof.
  intros N. cbn [unescape cutSlash]. destruct (Z.eqb_spec b Slash); [contradiction|]. destruct (cutSlash c) as [(p, s)|]; [|rewrite <- app_assoc; reflexivity].
  replace (res ++ b :: p) with ((res ++ [b]) ++ p) by (rewrite <- app_assoc; reflexivity). reflexivity.
Qed.
Lemma unescape_end f res : unescape (S f) [34] res = SOk (res ++ [34]).
Proof. reflexivity. Qed.
Lemma zlen_cons {A} (x : A) l : zlen (x :: l) = 1 + zlen l.
Proof. unfold zlen. cbn [length]. lia. Qed.
Lemma zlen_pos {A} (l : list A) : 0 <= zlen l.
Proof. unfold zlen. lia. Qed.
Lemma slice_tail {A} (h c : list A) : zslice (h ++ c) (zlen h) (zlen (h ++ c)) = Some c.
Proof.
  unfold zslice, zlen. rewrite app_length, Nat2Z.inj_add. destruct (Z.leb_spec 0 (Z.of_nat (length h))); [|lia]. destruct (Z.leb_spec (Z.of_nat (length h)) (Z.of_nat (length h) + Z.of_nat (length c))); [|lia]. rewrite Z.leb_refl. cbn [andb].
  rewrite Nat2Z.id, skipn_app, skipn_all, Nat.sub_diag. cbn [app skipn]. rewrite firstn_all2; [reflexivity|lia].
Qed.
Lemma slice_mid {A} (x y : A) (h c : list A) n : zlen h = n -> zslice (x :: y :: h ++ c) 2 (n + 2) = Some h.
Proof.
  intros <-. unfold zslice. rewrite !zlen_cons. unfold zlen. rewrite app_length. change (0 <=? 2) with true. destruct (Z.leb_spec 2 (Z.of_nat (length h) + 2)); [|lia]. destruct (Z.leb_spec (Z.of_nat (length h) + 2) (1 + (1 + Z.of_nat (length h + length c)))); [|lia]. cbn [andb].
  replace (Z.to_nat (Z.of_nat (length h) + 2 - 2)) with (length h) by lia. change (Z.to_nat 2) with 2%nat. cbn [skipn]. rewrite firstn_app, firstn_all, Nat.sub_diag. cbn [firstn]. rewrite app_nil_r. reflexivity.
Qed.
Lemma unescape_simple f b c res x : escapeChar b = Some (x, 0) -> unescape (S f) (92 :: b :: c) res = unescape f c (res ++ [x]).
Proof.
  intros E. cbn [unescape cutSlash]. change (92 =? Slash) with true. cbv iota. change (zget (92 :: b :: c) 1) with (Some b). cbv iota beta. rewrite E. change (0 =? 0) with true. cbv iota. rewrite app_nil_r.
  pose proof (slice_tail [92; b] c) as S. cbn [app] in S. change (zlen [92; b]) with 2 in S. rewrite S. reflexivity.
Qed.
Lemma unescape_bad f b c res : escapeChar b = None -> unescape (S f) (92 :: b :: c) res = SBadEscape [92; b].
Proof.
  intros E. cbn [unescape cutSlash]. change (92 =? Slash) with true. cbv iota. change (zget (92 :: b :: c) 1) with (Some b). cbv iota beta. rewrite E.
  unfold zslice. rewrite !zlen_cons. pose proof (zlen_pos c). destruct (Z.leb_spec 2 (1 + (1 + zlen c))); [reflexivity|lia].
Qed.
Definition fails (r : strRes) : Prop := (exists t, r = SBadEscape t) \/ (exists t, r = SBadRune t).
Lemma unescape_hex f b c res k y : escapeChar b = Some (y, k) -> 0 < k <= 8 ->
  (exists h c' n, c = h ++ c' /\ zlen h = k /\ number h n /\ aRune n /\ c' <> [] /\ unescape (S f) (92 :: b :: c) res = unescape f c' (res ++ encodeRune n)) \/
  (fails (unescape (S f) (92 :: b :: c) res) /\ forall h c' n, c = h ++ c' -> c' <> [] -> zlen h = k -> number h n -> ~ aRune n).
Proof.
  intros E K. cbn [unescape cutSlash]. change (92 =? Slash) with true. cbv iota. change (zget (92 :: b :: c) 1) with (Some b). cbv iota beta. rewrite E. destruct (Z.eqb_spec k 0) as [K0|K0]; [lia|]. clear K0. rewrite app_nil_r.
  unfold peekRune. rewrite !zlen_cons. destruct (Z.ltb_spec (1 + (1 + zlen c)) (k + 3)) as [L|L].
  { right. split; [left; eexists; reflexivity|]. intros h c' n -> NE HL _ _. unfold zlen in *. rewrite app_length in L. destruct c'; [contradiction|]. cbn [length] in L. lia. }
  assert (C : exists h c', c = h ++ c' /\ zlen h = k /\ c' <> []).
  { exists (firstn (Z.to_nat k) c), (skipn (Z.to_nat k) c). split; [symmetry; apply firstn_skipn|]. unfold zlen in *. split; [rewrite firstn_length; lia|]. intros X. apply (f_equal (@length Z)) in X. rewrite skipn_length in X. cbn in X. lia. }
  destruct C as (h & c' & -> & HL & NE). rewrite (slice_mid 92 b h c' k HL).
  assert (HN : h <> []). { intros ->. cbn in HL. lia. }
  assert (U : forall h2 c2 n2, h ++ c' = h2 ++ c2 -> zlen h2 = k -> number h2 n2 -> number h n2).
  { intros h2 c2 n2 X L2 N2. assert (h2 = h) as ->; [|exact N2]. apply (f_equal (firstn (length h))) in X. unfold zlen in *. rewrite firstn_app, firstn_all, Nat.sub_diag in X. cbn [firstn] in X. rewrite app_nil_r in X.
    rewrite X. rewrite firstn_app. replace (length h) with (length h2) by lia. rewrite firstn_all, Nat.sub_diag. cbn. rewrite app_nil_r. reflexivity. }
  destruct (parseHex h) as [n|] eqn:P.
  - apply parseHex_iff in P; [|exact HN|lia]. pose proof (number_range _ _ P) as R. assert (R' : 0 <= n < 4294967296). { assert (16 ^ zlen h <= 16 ^ 8) by (apply Z.pow_le_mono_r; lia). change (16 ^ 8) with 4294967296 in *. lia. }
    destruct (validRune (toRune n)) eqn:V.
    + left. exists h, c', n. split; [reflexivity|]. split; [exact HL|]. split; [exact P|]. split; [apply valid_iff; assumption|]. split; [exact NE|]. rewrite (valid_same n R' V).
      replace (k + 2) with (zlen (92 :: b :: h)) by (rewrite !zlen_cons; lia). pose proof (slice_tail (92 :: b :: h) c') as S. cbn [app] in S. rewrite !zlen_cons in *. rewrite S. reflexivity.
    + right. split; [right; eexists; reflexivity|]. intros h2 c2 n2 X NE2 L2 N2 A2. pose proof (U _ _ _ X L2 N2) as Y. apply number_iff in Y. apply number_iff in P. rewrite P in Y. injection Y as <-. apply (valid_iff n R') in A2. congruence.
  - right. split; [left; eexists; reflexivity|]. intros h2 c2 n2 X NE2 L2 N2 A2. pose proof (U _ _ _ X L2 N2) as Y. apply (parseHex_iff h n2 HN) in Y; [congruence|lia].
Qed.

(** *** The whole string *)
Lemma escape_simple b x : escapeChar b = Some (x, 0) -> escape utf8 [92; b] [x] /\ forall h u, escape utf8 (92 :: b :: h) u -> h = [] /\ u = [x].
Proof.
  unfold escapeChar, Slash, Quote.
  repeat match goal with |- (if ?b =? ?k then _ else _) = _ -> _ => destruct (Z.eqb_spec b k) as [->|] end; intros H; try discriminate H; injection H as <-; (split; [constructor|intros h u X; inversion X; auto]).
Qed.
Lemma escape_none b : escapeChar b = None -> forall h u, ~ escape utf8 (92 :: b :: h) u.
Proof.
  unfold escapeChar, Slash, Quote.
  repeat match goal with |- (if ?b =? ?k then _ else _) = _ -> _ => destruct (Z.eqb_spec b k) as [->|] end; intros H; try discriminate H; intros h u X; inversion X; subst; congruence.
Qed.
Lemma escape_hex b y k : escapeChar b = Some (y, k) -> k <> 0 -> 0 < k <= 8 /\ forall h u, escape utf8 (92 :: b :: h) u <-> exists n, zlen h = k /\ number h n /\ aRune n /\ u = encodeRune n.
Proof.
  unfold escapeChar, Slash, Quote.
  repeat match goal with |- (if ?b =? ?k then _ else _) = _ -> _ => destruct (Z.eqb_spec b k) as [->|] end; intros H; try discriminate H; injection H as <- <-; try congruence; intros _; (split; [lia|]); repeat match goal with H : _ <> _ |- _ => clear H end; intros h u; split.
  - intros X. inversion X; subst. exists n. match goal with N : number _ n |- _ => pose proof (number_range _ _ N) end. unfold zlen in *. split; [lia|]. split; [assumption|]. match goal with L : length h = _ |- _ => rewrite L in * end. change (16 ^ Z.of_nat 2) with 256 in *.
    assert (A : aRune n) by (unfold aRune; lia). split; [exact A|]. apply utf8_iff; assumption.
  - intros (n & L & N & A & ->). econstructor; [unfold zlen in L; lia|exact N|]. apply utf8_iff; auto.
  - intros X. inversion X; subst. exists n. unfold zlen. split; [lia|]. split; [assumption|]. split; [assumption|]. apply utf8_iff; assumption.
  - intros (n & L & N & A & ->). econstructor; [unfold zlen in L; lia|exact N|exact A|]. apply utf8_iff; auto.
  - intros X. inversion X; subst. exists n. unfold zlen. split; [lia|]. split; [assumption|]. split; [assumption|]. apply utf8_iff; assumption.
  - intros (n & L & N & A & ->). econstructor; [unfold zlen in L; lia|exact N|exact A|]. apply utf8_iff; auto.
Qed.
Lemma denotes_byte b s t : b <> 92 -> denotes utf8 (b :: s) t -> exists t', t = b :: t' /\ denotes utf8 s t'.
Proof.
  intros N H. inversion H as [|b' s' t' N1 N2 D|e u s' t' E D X]; subst; [eauto|]. inversion E; subst; cbn in X; injection X as X; congruence.
Qed.
Lemma denotes_slash b s t : denotes utf8 (92 :: b :: s) t -> exists h s' u t', s = h ++ s' /\ escape utf8 (92 :: b :: h) u /\ denotes utf8 s' t' /\ t = u ++ t'.
Proof.
  intros H. inversion H as [|b' s' t' N1 N2 D|e u s' t' E D X]; subst; [congruence|].
  assert (exists b' h, e = 92 :: b' :: h) as (b' & h & ->) by (inversion E; subst; eauto). cbn in X. injection X as X1 X2. subst. exists h, s', u, t'. auto.
Qed.
Lemma body_app h s : body (h ++ s) -> (forall b, In b h -> b <> 92) -> body s.
Proof. induction h as [|b h IH]; [auto|]. intros B N. cbn in B. inversion B; subst; [apply IH; [assumption|intros x I; apply N; right; exact I]|]. destruct (N 92); [left; reflexivity|reflexivity]. Qed.
Lemma number_no_slash h n : number h n -> forall b, In b h -> b <> 92.
Proof.
  induction 1 as [|s n b d N IH D]; [intros b []|]. intros x I. apply in_app_iff in I. destruct I as [I|[<-|[]]]; [apply IH, I|]. inversion D; lia.
Qed.
Lemma unescape_all : forall m s, (length s < m)%nat -> body s -> forall f res, (length s < f)%nat ->
  (exists u, (forall t, denotes utf8 s t <-> t = u) /\ unescape f (s ++ [34]) res = SOk (res ++ u ++ [34])) \/
  ((forall t, ~ denotes utf8 s t) /\ fails (unescape f (s ++ [34]) res)).
Proof.
  induction m as [|m IH]; intros s LM B f res LF; [lia|]. destruct f as [|f]; [lia|]. inversion B as [|b s' N1 N2 B'|b s' B']; subst.
  - left. exists []. split; [|reflexivity]. intros t. split; [|intros ->; constructor]. intros H. inversion H as [| |e u s' t' E D X]; [reflexivity|]. subst. inversion E; subst; discriminate X.
  - cbn [app]. rewrite unescape_byte by exact N1. cbn [length] in *. destruct (IH s' ltac:(lia) B' (S f) (res ++ [b]) ltac:(lia)) as [(u & D & X)|(D & X)].
    + left. exists (b :: u). split; [|rewrite X, <- !app_assoc; reflexivity]. intros t. split.
      * intros H. destruct (denotes_byte _ _ _ N1 H) as (t' & -> & H'). apply D in H'. congruence.
      * intros ->. constructor; [exact N1|exact N2|apply D; reflexivity].
    + right. split; [|exact X]. intros t H. destruct (denotes_byte _ _ _ N1 H) as (t' & -> & H'). apply (D _ H').
  - cbn [app length] in *. destruct (escapeChar b) as [(x, k)|] eqn:EC.
    + destruct (Z.eq_dec k 0) as [->|K0].
      * rewrite (unescape_simple _ _ _ _ _ EC). destruct (escape_simple b x EC) as (E1 & E2). destruct (IH s' ltac:(lia) B' f (res ++ [x]) ltac:(lia)) as [(u & D & X)|(D & X)].
        -- left. exists (x :: u). split; [|rewrite X, <- !app_assoc; reflexivity]. intros t. split.
           ++ intros H. destruct (denotes_slash _ _ _ H) as (h & s2 & u2 & t2 & -> & E & D2 & ->). destruct (E2 _ _ E) as (-> & ->). cbn in *. apply D in D2. congruence.
           ++ intros ->. apply (DN_escape utf8 [92; b] [x] s' u E1). apply D. reflexivity.
        -- right. split; [|exact X]. intros t H. destruct (denotes_slash _ _ _ H) as (h & s2 & u2 & t2 & -> & E & D2 & ->). destruct (E2 _ _ E) as (-> & ->). apply (D _ D2).
      * destruct (escape_hex b x k EC K0) as (KR & EX). destruct (unescape_hex f b (s' ++ [34]) res k x EC KR) as [(h & c' & n & X & HL & HN & HA & NE & U)|(F & NO)].
        -- destruct (exists_last NE) as (s2 & q & ->). rewrite app_assoc in X. apply app_inj_tail in X. destruct X as (-> & <-). rewrite U. assert (B2 : body s2) by (eapply body_app; [exact B'|eapply number_no_slash, HN]). rewrite app_length in *.
           destruct (IH s2 ltac:(lia) B2 f (res ++ encodeRune n) ltac:(lia)) as [(u & D & Y)|(D & Y)].
           ++ left. exists (encodeRune n ++ u). split; [|rewrite Y, <- !app_assoc; reflexivity]. intros t. split.
              ** intros H. destruct (denotes_slash _ _ _ H) as (h3 & s3 & u3 & t3 & X & E & D3 & ->). apply EX in E. destruct E as (n3 & L3 & N3 & A3 & ->). unfold zlen in *.
                 assert (h3 = h) as -> by (apply (f_equal (firstn (length h))) in X; rewrite !firstn_app, firstn_all in X; replace (length h - length h)%nat with O in X by lia; replace (length h - length h3)%nat with O in X by lia; cbn [firstn] in X; rewrite !app_nil_r in X; rewrite X, firstn_all2 by lia; reflexivity).
                 apply app_inv_head in X. subst s3. apply number_iff in N3. apply number_iff in HN. rewrite HN in N3. injection N3 as <-. apply D in D3. congruence.
              ** intros ->. apply (DN_escape utf8 (92 :: b :: h) (encodeRune n) s2 u); [apply EX; exists n; auto|apply D; reflexivity].
           ++ right. split; [|exact Y]. intros t H. destruct (denotes_slash _ _ _ H) as (h3 & s3 & u3 & t3 & X & E & D3 & ->). apply EX in E. destruct E as (n3 & L3 & N3 & A3 & ->). unfold zlen in *.
              assert (h3 = h) as -> by (apply (f_equal (firstn (length h))) in X; rewrite !firstn_app, firstn_all in X; replace (length h - length h)%nat with O in X by lia; replace (length h - length h3)%nat with O in X by lia; cbn [firstn] in X; rewrite !app_nil_r in X; rewrite X, firstn_all2 by lia; reflexivity).
              apply app_inv_head in X. subst s3. apply (D _ D3).
        -- right. split; [|exact F]. intros t H. destruct (denotes_slash _ _ _ H) as (h3 & s3 & u3 & t3 & -> & E & D3 & ->). apply EX in E. destruct E as (n3 & L3 & N3 & A3 & ->). eapply (NO h3 (s3 ++ [34]) n3); [rewrite app_assoc; reflexivity|destruct s3; discriminate|exact L3|exact N3|exact A3].
    + right. split; [|rewrite (unescape_bad _ _ _ _ EC); left; eauto]. intros t H. destruct (denotes_slash _ _ _ H) as (h & s2 & u2 & t2 & -> & E & D2 & ->). apply (escape_none b EC _ _ E).
Qed.
Lemma cut_none s : cutSlash s = None <-> ~ In 92 s.
Proof.
  induction s as [|b s IH]; cbn [cutSlash In]; [tauto|]. destruct (Z.eqb_spec b Slash) as [->|N]; [split; [discriminate|intros H; destruct H; left; reflexivity]|]. destruct (cutSlash s) as [(p, q)|]; [split; [discriminate|]|].
  - intros H. destruct IH as (_ & IH). assert (X : ~ In 92 s) by tauto. discriminate (IH X).
  - split; [|reflexivity]. intros _. unfold Slash in N. destruct IH as (IH & _). specialize (IH eq_refl). tauto.
Qed.
Lemma denotes_plain s : body s -> ~ In 92 s -> forall t, denotes utf8 s t <-> t = s.
Proof.
  induction 1 as [|b s N1 N2 B IH|b s B IH]; intros NI t.
  - split; [|intros ->; constructor]. intros H. inversion H as [| |e u s' t' E D X]; [reflexivity|]. subst. inversion E; subst; discriminate X.
  - split.
    + intros H. destruct (denotes_byte _ _ _ N1 H) as (t' & -> & H'). apply IH in H'; [congruence|]. intros I. apply NI. right. exact I.
    + intros ->. constructor; [exact N1|exact N2|]. apply IH; [|reflexivity]. intros I. apply NI. right. exact I.
  - destruct NI. left. reflexivity.
Qed.

(** *** C23 *)
(** A double-quoted string is decoded as documented but for \x##, which stands for the rune U+00##; there is an error if and
    only if the text stands for nothing. *)
Theorem string_decoding_partial s : body s ->
  (forall t, processString (34 :: s ++ [34]) = SOk t <-> exists u, denotes utf8 s u /\ t = 34 :: u ++ [34]) /\
  (fails (processString (34 :: s ++ [34])) <-> forall u, ~ denotes utf8 s u).
Proof.
  intros B. cbn [processString]. change (34 =? Quote) with true. cbn [negb orb]. destruct (cutSlash (34 :: s ++ [34])) as [x|] eqn:C.
  - rewrite unescape_byte by discriminate. cbn [app]. destruct (unescape_all (S (length s)) s ltac:(lia) B (S (length (34 :: s ++ [34]))) [34]) as [(u & D & X)|(D & X)]; [cbn [length]; rewrite app_length; lia| |]; rewrite ?X.
    + split.
      * intros t. split; [intros H; injection H as <-; exists u; split; [apply D|]; reflexivity|]. intros (v & V & ->). apply D in V. subst. reflexivity.
      * split; [intros [(t & H)|(t & H)]; discriminate|]. intros H. destruct (H u). apply D. reflexivity.
    + split.
      * intros t. split; [intros H; rewrite H in X; destruct X as [(y & Y)|(y & Y)]; discriminate|]. intros (v & V & _). destruct (D _ V).
      * split; [intros _; exact D|intros _; exact X].
  - apply cut_none in C. assert (N : ~ In 92 s) by (intros I; apply C; right; apply in_app_iff; auto). split.
    + intros t. split; [intros H; injection H as <-; exists s; split; [apply denotes_plain; auto|reflexivity]|]. intros (u & U & ->). apply (denotes_plain s B N) in U. subst. reflexivity.
    + split; [intros [(t & H)|(t & H)]; discriminate|]. intros H. destruct (H s). apply denotes_plain; auto.
Qed.
(** A single-quoted string is taken as is. *)
Theorem single_quoted_verbatim s : processString (39 :: s) = SOk (39 :: s).
Proof. reflexivity. Qed.
(** The documented meaning of \x## is not what is read: "\x80" *)
Theorem string_decoding_refuted : exists s u, body s /\ denotes aByte s u /\ processString (34 :: s ++ [34]) <> SOk (34 :: u ++ [34]).
Proof.
  exists [92; 120; 56; 48], [128]. split; [repeat constructor; discriminate|]. split; [|vm_compute; discriminate].
  change [128] with ([128] ++ []). change [92; 120; 56; 48] with ([92; 120; 56; 48] ++ []). constructor; [|constructor]. apply (ES_single aByte [56; 48] 128); [reflexivity| |reflexivity].
  apply number_iff. reflexivity.
Qed.
(** "a\né": the documented meaning *)
Example decoded : body [97; 92; 110; 92; 117; 48; 48; 101; 57] /\ processString (34 :: [97; 92; 110; 92; 117; 48; 48; 101; 57] ++ [34]) = SOk [34; 97; 10; 195; 169; 34].
Proof. split; [|vm_compute; reflexivity]. repeat first [apply BD_end|apply BD_quoted|apply BD_byte; [discriminate|discriminate|]]. Qed.
(** "\q", "\ud800" *)
Example not_decoded : processString [34; 92; 113; 34] = SBadEscape [92; 113] /\ processString [34; 92; 117; 100; 56; 48; 48; 34] = SBadRune [100; 56; 48; 48].
Proof. split; vm_compute; reflexivity. Qed.

Print Assumptions string_decoding_partial.
Print Assumptions single_quoted_verbatim.
Print Assumptions string_decoding_refuted.
