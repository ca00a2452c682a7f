(** Reading of generated Go files: tokens. *)
From Coq Require Import String ZArith List Bool Lia.
From Verif Require Import Base BaseProofs Utf8 Grammar LangTypes LangString LangStringSpec Prop_LangString Gen GoSpec.
From Verif Require LangText.
Import ListNotations.
Local Open Scope string_scope.
Local Open Scope list_scope.
Open Scope Z_scope.

(** ** Runs *)
Definition pre (a : list gotok) (o : option (list gotok * mode)) : option (list gotok * mode) :=
  match o with Some (b, m) => Some (a ++ b, m) | None => None end.
Lemma pre_pre a b o : pre a (pre b o) = pre (a ++ b) o.
Proof. destruct o as [(c, m)|]; cbn; [rewrite app_assoc|]; reflexivity. Qed.
Lemma pre_nil o : pre [] o = o.
Proof. destruct o as [(c, m)|]; reflexivity. Qed.
Lemma run_app m p r ts m' : run m p = Some (ts, m') -> run m (p ++ r) = pre ts (run m' r).
Proof.
  revert m ts. induction p as [|c p IH]; intros m ts; cbn [run app].
  - intros H. injection H as <- <-. symmetry. apply pre_nil.
  - destruct (step m c) as [(a, m1)|]; cbn [obind fst snd]; [|discriminate]. destruct (run m1 p) as [(b, m2)|] eqn:E; cbn [obind fst snd]; [|discriminate]. intros H. injection H as <- <-.
    rewrite (IH m1 b E). destruct (run m2 r) as [(d, m3)|]; cbn; [rewrite app_assoc|]; reflexivity.
Qed.
Lemma run_cons m c r : run m (c :: r) = match step m c with Some (a, m1) => pre a (run m1 r) | None => None end.
Proof. cbn [run]. destruct (step m c) as [(a, m1)|]; cbn [obind fst snd]; [|reflexivity]. destruct (run m1 r) as [(b, m2)|]; reflexivity. Qed.

(** ** Numbers *)
Definition ints (z : Z) : list gotok := if z <? 0 then [GOp 45; GInt (- z)] else [GInt z].
Lemma run_digits n f b : 0 <= n < 10 ^ Z.of_nat f -> (f <> 0)%nat -> run (Idle b) (digits f n) = Some ([], Num n (n =? 0)).
Proof.
  revert n. induction f as [|f IH]; intros n H N; [congruence|]. clear N. rewrite Nat2Z.inj_succ, Z.pow_succ_r in H by lia. cbn [digits]. destruct (Z.ltb_spec n 10) as [L|L].
  - cbn [run step obind fst snd]. unfold idle. replace ((48 + n =? 32) || (48 + n =? 9) || (48 + n =? 13)) with false by (symmetry; rewrite !orb_false_iff, !Z.eqb_neq; lia).
    replace (48 + n =? 10) with false by (symmetry; apply Z.eqb_neq; lia). replace (letterB (48 + n)) with false by (symmetry; unfold letterB, between; rewrite !orb_false_iff, !andb_false_iff, !Z.leb_gt, Z.eqb_neq; lia).
    replace (digitB (48 + n)) with true by (symmetry; unfold digitB, between; rewrite andb_true_iff, !Z.leb_le; lia). cbn [obind fst snd app]. f_equal. f_equal. f_equal; [lia|]. apply eq_true_iff_eq. rewrite !Z.eqb_eq. lia.
  - assert (Q : 1 <= n / 10 < 10 ^ Z.of_nat f) by (split; [apply Z.div_le_lower_bound; lia|apply Z.div_lt_upper_bound; lia]). pose proof (Z.mod_pos_bound n 10 ltac:(lia)) as M.
    rewrite (run_app _ _ _ [] (Num (n / 10) (n / 10 =? 0))) by (apply IH; [lia|]; intros ->; cbn in Q; lia). replace (n / 10 =? 0) with false by (symmetry; apply Z.eqb_neq; lia). cbn [run step]. replace (digitB (48 + n mod 10)) with true by (symmetry; unfold digitB, between; rewrite andb_true_iff, !Z.leb_le; lia).
    cbn [obind fst snd app pre]. f_equal. f_equal. replace (n =? 0) with false by (symmetry; apply Z.eqb_neq; lia). f_equal. pose proof (Z.div_mod n 10 ltac:(lia)). lia.
Qed.
(** all integers of a grammar have at most 64 bits *)
Definition small (z : Z) : Prop := - 2 ^ 63 <= z <= 2 ^ 64 - 1.
Lemma run_dec z c r b : small z -> digitB c || letterB c || (c =? 46) = false -> run (Idle b) (dec z ++ c :: r) = pre (ints z) (run (Idle true) (c :: r)).
Proof.
  intros Hz Hc. rewrite !orb_false_iff in Hc. destruct Hc as ((C1 & C2) & C3). unfold small in Hz.
  assert (R : forall n b, 0 <= n <= 2 ^ 64 - 1 -> run (Idle b) (digits 20 n ++ c :: r) = pre [GInt n] (run (Idle true) (c :: r))).
  { intros n b0 Hn. rewrite (run_app _ _ _ [] (Num n (n =? 0))) by (apply run_digits; [|discriminate]; change (10 ^ Z.of_nat 20) with 100000000000000000000; change (2 ^ 64) with 18446744073709551616 in Hn; lia).
    rewrite pre_nil, !run_cons. cbn [step]. rewrite C1, C2, C3. cbn [orb]. destruct (idle true c) as [(x, m)|]; cbn [obind fst snd]; [|reflexivity]. rewrite pre_pre. reflexivity. }
  unfold dec, ints. destruct (Z.ltb_spec z 0) as [L|L].
  - cbn [app]. rewrite run_cons. cbn [step]. assert (I : idle b 45 = Some ([GOp 45], Idle false)) by reflexivity. rewrite I, R by (change (2 ^ 63) with 9223372036854775808 in Hz; change (2 ^ 64) with 18446744073709551616; lia). rewrite pre_pre. reflexivity.
  - apply R. lia.
Qed.

(** ** Strings *)
Definition byteZ (b : Z) : Prop := 0 <= b < 256.
Lemma hexDigit_hexChar d : 0 <= d < 16 -> hexDigit (hexChar d) = Some d.
Proof.
  intros H. unfold hexChar, hexDigit, between. destruct (Z.ltb_spec d 10).
  - replace ((48 <=? 48 + d) && (48 + d <=? 57)) with true by (symmetry; rewrite andb_true_iff, !Z.leb_le; lia). f_equal. lia.
  - replace ((48 <=? 87 + d) && (87 + d <=? 57)) with false by (symmetry; rewrite andb_false_iff, !Z.leb_gt; lia). replace ((97 <=? 87 + d) && (87 + d <=? 102)) with true by (symmetry; rewrite andb_true_iff, !Z.leb_le; lia). f_equal. lia.
Qed.
(** value [v] was read, [k] digits of [n] are added, at least one digit is to follow *)
Lemma run_hex acc ru k j n v : 0 <= n < 16 ^ Z.of_nat k -> run (Hex acc ru (k + S j) v) (hex k n) = Some ([], Hex acc ru (S j) (v * 16 ^ Z.of_nat k + n)).
Proof.
  revert j n. induction k as [|k IH]; intros j n H.
  - cbn in *. f_equal. f_equal. f_equal. lia.
  - rewrite Nat2Z.inj_succ, Z.pow_succ_r in * by lia. cbn [hex]. assert (Q : 0 <= n / 16 < 16 ^ Z.of_nat k) by (split; [apply Z.div_pos; lia|apply Z.div_lt_upper_bound; lia]). pose proof (Z.mod_pos_bound n 16 ltac:(lia)) as M.
    replace (S k + S j)%nat with (k + S (S j))%nat by lia. rewrite (run_app _ _ _ [] _ (IH (S j) (n / 16) Q)), pre_nil, run_cons. cbn [step]. rewrite hexDigit_hexChar by lia. cbn [obind run pre app]. f_equal. f_equal. f_equal. pose proof (Z.div_mod n 16 ltac:(lia)). nia.
Qed.
Lemma run_hex_byte acc n r : 0 <= n < 256 -> run (Hex acc false 2 0) (hex 2 n ++ r) = run (Text (n :: acc)) r.
Proof.
  intros H. change (hex 2 n) with (hex 1 (n / 16) ++ [hexChar (n mod 16)]). rewrite <- app_assoc. assert (Q : 0 <= n / 16 < 16 ^ Z.of_nat 1) by (cbn; split; [apply Z.div_pos; lia|apply Z.div_lt_upper_bound; lia]). pose proof (Z.mod_pos_bound n 16 ltac:(lia)) as M.
  rewrite (run_app _ _ _ [] _ (run_hex acc false 1 0 (n / 16) 0 Q)), pre_nil. cbn [app]. rewrite run_cons. cbn [step]. rewrite hexDigit_hexChar by lia. cbn [obind]. rewrite pre_nil. do 3 f_equal. cbn. pose proof (Z.div_mod n 16 ltac:(lia)). lia.
Qed.
Lemma run_hex_rune acc k n r : validRune n = true -> 0 <= n < 16 ^ Z.of_nat (S k) -> run (Hex acc true (S k) 0) (hex (S k) n ++ r) = run (Text (rev (encodeRune n) ++ acc)) r.
Proof.
  intros V H. rewrite Nat2Z.inj_succ, Z.pow_succ_r in H by lia. cbn [hex]. rewrite <- app_assoc. assert (Q : 0 <= n / 16 < 16 ^ Z.of_nat k) by (split; [apply Z.div_pos; lia|apply Z.div_lt_upper_bound; lia]). pose proof (Z.mod_pos_bound n 16 ltac:(lia)) as M.
  pose proof (run_hex acc true k 0 (n / 16) 0 Q) as X. replace (k + 1)%nat with (S k) in X by lia. rewrite (run_app _ _ _ [] _ X), pre_nil. cbn [app]. rewrite run_cons. cbn [step]. rewrite hexDigit_hexChar by lia. cbn [obind].
  replace ((0 * 16 ^ Z.of_nat k + n / 16) * 16 + n mod 16) with n by (pose proof (Z.div_mod n 16 ltac:(lia)); lia). rewrite V, pre_nil. reflexivity.
Qed.
(** plain bytes within a string *)
Lemma run_plain p acc r : Forall (fun b => b <> 34 /\ b <> 92 /\ b <> 10) p -> run (Text acc) (p ++ r) = run (Text (rev p ++ acc)) r.
Proof.
  intros F. revert acc. induction F as [|b p (A & B & C) F IH]; intros acc; [reflexivity|]. cbn [app rev]. rewrite run_cons. cbn [step].
  apply Z.eqb_neq in A, B, C. rewrite A, B, C, pre_nil, IH, <- app_assoc. reflexivity.
Qed.

(** what decoding tells *)
Lemma decode_ok s : Forall byteZ s -> s <> [] -> let (r, w) := decodeRune s in
  (w = 1 /\ r = RuneError /\ 128 <= hd 0 s) \/ (validRune r = true /\ 1 <= w /\ exists u, s = encodeRune r ++ u /\ skipn (Z.to_nat w) s = u /\ (r = RuneError -> w = 3)).
Proof.
  intros F N. destruct s as [|b0 s]; [congruence|]. cbn [decodeRune hd]. inversion F as [|? ? B0 F0]; subst. unfold byteZ in B0.
  assert (BAD : 128 <= b0 -> 1 = 1 /\ RuneError = RuneError /\ 128 <= b0) by auto.
  destruct (Z.ltb_spec b0 128) as [L|L].
  { right. unfold validRune, between, encodeRune. replace ((0 <=? b0) && (b0 <=? 55295)) with true by (symmetry; rewrite andb_true_iff, !Z.leb_le; lia). replace (b0 <? 128) with true by (symmetry; apply Z.ltb_lt; lia). split; [reflexivity|]. split; [lia|]. exists s. split; [reflexivity|]. split; [reflexivity|]. unfold RuneError. lia. }
  destruct (between 194 223 b0) eqn:E2.
  { unfold between in E2. rewrite andb_true_iff, !Z.leb_le in E2. destruct s as [|b1 s]; [left; auto|]. destruct (between 128 191 b1) eqn:E3; [|left; auto]. unfold between in E3. rewrite andb_true_iff, !Z.leb_le in E3.
    right. set (r := (b0 - 192) * 64 + (b1 - 128)). assert (D : 128 <= r < 2048) by (unfold r; lia). unfold validRune, between, encodeRune. replace ((0 <=? r) && (r <=? 55295)) with true by (symmetry; rewrite andb_true_iff, !Z.leb_le; lia).
    replace (r <? 128) with false by (symmetry; apply Z.ltb_ge; lia). replace (r <? 2048) with true by (symmetry; apply Z.ltb_lt; lia). split; [reflexivity|]. split; [lia|]. exists s. split; [|split; [reflexivity|unfold RuneError; lia]].
    cbn [app]. f_equal; [|f_equal]; unfold r; Z.div_mod_to_equations; lia. }
  destruct (between 224 239 b0) eqn:E4.
  { unfold between in E4. rewrite andb_true_iff, !Z.leb_le in E4. destruct s as [|b1 [|b2 s]]; [left; auto|left; auto|]. cbv zeta.
    destruct (between (if b0 =? 224 then 160 else 128) (if b0 =? 237 then 159 else 191) b1 && between 128 191 b2) eqn:E5; [|left; auto]. unfold between in E5. rewrite !andb_true_iff, !Z.leb_le in E5.
    right. set (r := (b0 - 224) * 4096 + (b1 - 128) * 64 + (b2 - 128)).
    assert (D : 2048 <= r <= 55295 \/ 57344 <= r < 65536) by (unfold r; destruct (Z.eqb_spec b0 224); destruct (Z.eqb_spec b0 237); lia).
    assert (V : validRune r = true) by (unfold validRune, between; rewrite orb_true_iff, !andb_true_iff, !Z.leb_le; lia). split; [exact V|]. split; [lia|]. exists s. unfold encodeRune.
    replace (r <? 128) with false by (symmetry; apply Z.ltb_ge; lia). replace (r <? 2048) with false by (symmetry; apply Z.ltb_ge; lia). replace (r <? 65536) with true by (symmetry; apply Z.ltb_lt; lia). split; [|split; [reflexivity|auto]].
    assert (B1 : 128 <= b1 <= 191) by (destruct (b0 =? 224), (b0 =? 237); lia). cbn [app]. f_equal; [|f_equal; [|f_equal]]; unfold r; Z.div_mod_to_equations; lia. }
  destruct (between 240 244 b0) eqn:E6; [|left; auto].
  unfold between in E6. rewrite andb_true_iff, !Z.leb_le in E6. destruct s as [|b1 [|b2 [|b3 s]]]; [left; auto|left; auto|left; auto|]. cbv zeta.
  destruct (between (if b0 =? 240 then 144 else 128) (if b0 =? 244 then 143 else 191) b1 && between 128 191 b2 && between 128 191 b3) eqn:E7; [|left; auto]. unfold between in E7. rewrite !andb_true_iff, !Z.leb_le in E7.
  right. set (r := (b0 - 240) * 262144 + (b1 - 128) * 4096 + (b2 - 128) * 64 + (b3 - 128)).
  assert (D : 65536 <= r <= 1114111) by (unfold r; destruct (Z.eqb_spec b0 240); destruct (Z.eqb_spec b0 244); lia).
  assert (V : validRune r = true) by (unfold validRune, between; rewrite orb_true_iff, !andb_true_iff, !Z.leb_le; lia). split; [exact V|]. split; [lia|]. exists s. unfold encodeRune.
  replace (r <? 128) with false by (symmetry; apply Z.ltb_ge; lia). replace (r <? 2048) with false by (symmetry; apply Z.ltb_ge; lia). replace (r <? 65536) with false by (symmetry; apply Z.ltb_ge; lia). split; [|split; [reflexivity|unfold RuneError; lia]].
  assert (B1 : 128 <= b1 <= 191) by (destruct (b0 =? 240), (b0 =? 244); lia). cbn [app]. f_equal; [|f_equal; [|f_equal; [|f_equal]]]; unfold r; Z.div_mod_to_equations; lia.
Qed.
Lemma encode_bytes r : validRune r = true -> 128 <= r -> Forall (fun b => 128 <= b < 256) (encodeRune r).
Proof.
  intros V H. unfold validRune, between in V. rewrite orb_true_iff, !andb_true_iff, !Z.leb_le in V. unfold encodeRune. destruct (Z.ltb_spec r 128); [lia|].
  destruct (Z.ltb_spec r 2048); [repeat constructor; Z.div_mod_to_equations; lia|]. destruct (Z.ltb_spec r 65536); repeat constructor; Z.div_mod_to_equations; lia.
Qed.

Section Quote.
Variable isPrint : Z -> bool.
(** printable runes are not control characters, nor the byte order mark *)
Hypothesis PR : forall r, isPrint r = true -> 32 <= r /\ r <> 65279.
Notation quoteRune := (quoteRune isPrint).
Notation quoteBody := (quoteBody isPrint).
Notation quote := (quote isPrint).
Lemma run_esc acc c b r : escaped c = Some b -> run (Text acc) (92 :: c :: r) = run (Text (b :: acc)) r.
Proof. intros H. rewrite run_cons. cbn [step]. change (92 =? 34) with false. change (92 =? 92) with true. cbn [pre]. rewrite run_cons. cbn [step]. rewrite H, !pre_nil. reflexivity. Qed.
Lemma run_quoteRune r acc rest : validRune r = true -> run (Text acc) (quoteRune r ++ rest) = run (Text (rev (encodeRune r) ++ acc)) rest.
Proof.
  intros V. assert (R0 : 0 <= r <= 1114111) by (unfold validRune, between in V; rewrite orb_true_iff, !andb_true_iff, !Z.leb_le in V; lia).
  assert (A : forall x, r = x -> 0 <= x < 128 -> encodeRune r = [x]) by (intros x -> X; unfold encodeRune; replace (x <? 128) with true by (symmetry; apply Z.ltb_lt; lia); reflexivity).
  assert (ONE : forall c, 0 <= r < 128 -> escaped c = Some r -> run (Text acc) ((92 :: [c]) ++ rest) = run (Text (rev (encodeRune r) ++ acc)) rest) by (intros c X Y; rewrite (A r eq_refl X); cbn [app rev]; apply run_esc, Y).
  unfold Gen.quoteRune. destruct ((r =? 34) || (r =? 92)) eqn:E1; [rewrite orb_true_iff, !Z.eqb_eq in E1; apply (ONE r); [lia|destruct E1; subst; reflexivity]|]. rewrite orb_false_iff, !Z.eqb_neq in E1.
  destruct (isPrint r) eqn:P.
  { apply PR in P. apply run_plain. destruct (Z.ltb_spec r 128); [rewrite (A r eq_refl ltac:(lia)); repeat constructor; lia|]. eapply Forall_impl; [|apply encode_bytes; auto]. cbn beta. intros b X. lia. }
  do 7 (match goal with |- run _ ((if ?x =? ?y then _ else _) ++ _) = _ => destruct (Z.eqb_spec x y); [subst; apply ONE; [lia|reflexivity]|] end).
  destruct ((r <? 32) || (r =? 127)) eqn:E2.
  { rewrite orb_true_iff, Z.ltb_lt, Z.eqb_eq in E2. rewrite (A r eq_refl ltac:(lia)). cbn [rev app]. change (bytes "\x") with [92; 120]. rewrite <- app_assoc. cbn [app]. rewrite run_cons. cbn [step]. change (92 =? 34) with false. change (92 =? 92) with true. cbn [pre]. rewrite pre_nil, run_cons. assert (X : step (Esc acc) 120 = Some ([], GoSpec.Hex acc false 2 0)) by reflexivity. rewrite X, pre_nil. apply run_hex_byte. lia. }
  destruct (Z.ltb_spec r 65536).
  - change (bytes "\u") with [92; 117]. rewrite <- app_assoc. cbn [app]. rewrite run_cons. cbn [step]. change (92 =? 34) with false. change (92 =? 92) with true. cbn [pre]. rewrite pre_nil, run_cons. assert (X : step (Esc acc) 117 = Some ([], GoSpec.Hex acc true 4 0)) by reflexivity. rewrite X, pre_nil. apply run_hex_rune; [exact V|]. cbn. lia.
  - change (bytes "\U") with [92; 85]. rewrite <- app_assoc. cbn [app]. rewrite run_cons. cbn [step]. change (92 =? 34) with false. change (92 =? 92) with true. cbn [pre]. rewrite pre_nil, run_cons. assert (X : step (Esc acc) 85 = Some ([], GoSpec.Hex acc true 8 0)) by reflexivity. rewrite X, pre_nil. apply run_hex_rune; [exact V|]. cbn. lia.
Qed.
Lemma run_quoteBody f s acc rest : Forall byteZ s -> (length s <= f)%nat -> run (Text acc) (quoteBody f s ++ rest) = run (Text (rev s ++ acc)) rest.
Proof.
  revert s acc. induction f as [|f IH]; intros s acc F L; [destruct s; [reflexivity|cbn in L; lia]|]. destruct s as [|b s]; [reflexivity|]. cbn [Gen.quoteBody].
  pose proof (decode_ok (b :: s) F ltac:(discriminate)) as D. destruct (decodeRune (b :: s)) as (r, w). destruct D as [(-> & -> & B)|(V & W & u & E & K & X)].
  - change ((1 =? 1) && (RuneError =? RuneError)) with true. cbv iota. rewrite <- !app_assoc. change (bytes "\x") with [92; 120]. cbn [app]. rewrite run_cons. cbn [step]. change (92 =? 34) with false. change (92 =? 92) with true. cbn [pre]. rewrite pre_nil, run_cons.
    assert (Y : step (Esc acc) 120 = Some ([], GoSpec.Hex acc false 2 0)) by reflexivity. rewrite Y, pre_nil. inversion F; subst. rewrite run_hex_byte by (unfold byteZ in *; lia). change (skipn (Z.to_nat 1) (b :: s)) with s. rewrite IH by (auto; cbn in L; lia). cbn [rev]. rewrite <- app_assoc. reflexivity.
  - replace ((w =? 1) && (r =? RuneError)) with false by (symmetry; rewrite andb_false_iff, !Z.eqb_neq; destruct (Z.eq_dec r RuneError) as [Q|Q]; [left; rewrite (X Q); lia|right; exact Q]). rewrite <- app_assoc, run_quoteRune by exact V. rewrite K.
    assert (LE : (1 <= length (encodeRune r))%nat) by (unfold encodeRune; destruct (r <? 128), (r <? 2048), (r <? 65536); cbn; lia). rewrite E in *. rewrite IH.
    + rewrite rev_app_distr, <- app_assoc. reflexivity.
    + apply Forall_app in F. apply F.
    + rewrite app_length in L. lia.
Qed.
Lemma run_quote s b rest : Forall byteZ s -> run (Idle b) (quote s ++ rest) = pre [GStr s] (run (Idle true) rest).
Proof.
  intros F. unfold Gen.quote. cbn [app]. rewrite run_cons. assert (X : step (Idle b) 34 = Some ([], Text [])) by reflexivity. rewrite X, pre_nil, <- app_assoc, run_quoteBody by auto. rewrite app_nil_r. cbn [app]. rewrite run_cons. cbn [step]. change (34 =? 34) with true. cbv iota. rewrite rev_involutive. reflexivity.
Qed.

(** ** Valid text *)
Lemma goText_app a b : goText a -> goText b -> goText (a ++ b).
Proof. intros A B. induction A; [exact B|]. rewrite <- app_assoc. econstructor; eauto. Qed.
Lemma goText_rune r : validRune r = true -> r <> 0 -> r <> 65279 -> goText (encodeRune r).
Proof.
  intros V A B. assert (AR : aRune r) by (unfold validRune, between in V; rewrite orb_true_iff, !andb_true_iff, !Z.leb_le in V; exact V). rewrite <- (app_nil_r (encodeRune r)). econstructor; eauto; [|constructor]. apply utf8_iff; auto.
Qed.
Definition asciiB (p : list Z) : bool := forallb (fun b => (0 <? b) && (b <? 128)) p.
Lemma goText_ascii p : asciiB p = true -> goText p.
Proof.
  induction p as [|b p IH]; intros H; [constructor|]. cbn in H. apply andb_true_iff in H. destruct H as (A & B). apply andb_true_iff in A. rewrite !Z.ltb_lt in A. change (b :: p) with ([b] ++ p).
  apply (GT_rune b); [left; lia|lia|lia|apply U8_1; lia|auto].
Qed.
Lemma ascii_app a b : asciiB (a ++ b) = asciiB a && asciiB b.
Proof. apply forallb_app. Qed.
Lemma ascii_digits f n : 0 <= n -> asciiB (digits f n) = true.
Proof.
  revert n. induction f as [|f IH]; intros n H; [reflexivity|]. cbn [digits]. destruct (Z.ltb_spec n 10).
  - unfold asciiB; cbn [forallb]. rewrite !andb_true_iff, !Z.ltb_lt. lia.
  - rewrite ascii_app, IH by (apply Z.div_pos; lia). pose proof (Z.mod_pos_bound n 10 ltac:(lia)). unfold asciiB; cbn [forallb andb]. rewrite !andb_true_iff, !Z.ltb_lt. lia.
Qed.
Lemma ascii_dec z : asciiB (dec z) = true.
Proof. unfold dec. destruct (Z.ltb_spec z 0); [|apply ascii_digits; lia]. change (45 :: digits 20 (- z)) with ([45] ++ digits 20 (- z)). rewrite ascii_app, ascii_digits by lia. reflexivity. Qed.
Lemma ascii_hex k n : 0 <= n -> asciiB (hex k n) = true.
Proof.
  revert n. induction k as [|k IH]; intros n H; [reflexivity|]. cbn [hex]. rewrite ascii_app, IH by (apply Z.div_pos; lia). pose proof (Z.mod_pos_bound n 16 ltac:(lia)). unfold hexChar, asciiB. cbn [forallb]. destruct (Z.ltb_spec (n mod 16) 10); rewrite !andb_true_iff, !Z.ltb_lt; lia.
Qed.
Lemma goText_quoteRune r : validRune r = true -> goText (quoteRune r).
Proof.
  intros V. assert (R0 : 0 <= r <= 1114111) by (unfold validRune, between in V; rewrite orb_true_iff, !andb_true_iff, !Z.leb_le in V; lia). unfold Gen.quoteRune. destruct ((r =? 34) || (r =? 92)) eqn:E1; [rewrite orb_true_iff, !Z.eqb_eq in E1; apply goText_ascii; destruct E1; subst; reflexivity|].
  destruct (isPrint r) eqn:P; [apply PR in P; apply goText_rune; auto; lia|]. do 7 (match goal with |- goText (if ?x then _ else _) => destruct x; [apply goText_ascii; reflexivity|] end).
  destruct ((r <? 32) || (r =? 127)); [apply goText_ascii; rewrite ascii_app, ascii_hex by lia; reflexivity|]. destruct (r <? 65536); apply goText_ascii; rewrite ascii_app, ascii_hex by lia; reflexivity.
Qed.
Lemma goText_quote s : Forall byteZ s -> goText (quote s).
Proof.
  intros F. unfold Gen.quote. change (34 :: quoteBody (length s) s ++ [34]) with ([34] ++ quoteBody (length s) s ++ [34]). apply goText_app; [apply goText_ascii; reflexivity|]. apply goText_app; [|apply goText_ascii; reflexivity].
  generalize (length s) at 1. intros f. revert s F. induction f as [|f IH]; intros s F; [destruct s; constructor|]. destruct s as [|b s]; [constructor|]. cbn [Gen.quoteBody].
  pose proof (decode_ok (b :: s) F ltac:(discriminate)) as D. destruct (decodeRune (b :: s)) as (r, w). apply goText_app.
  - destruct D as [(-> & -> & B)|(V & W & u & E & K & X)].
    + change ((1 =? 1) && (RuneError =? RuneError)) with true. cbv iota. apply goText_ascii. inversion F; subst. rewrite ascii_app, ascii_hex by (unfold byteZ in *; lia). reflexivity.
    + replace ((w =? 1) && (r =? RuneError)) with false by (symmetry; rewrite andb_false_iff, !Z.eqb_neq; destruct (Z.eq_dec r RuneError) as [Q|Q]; [left; rewrite (X Q); lia|right; exact Q]). apply goText_quoteRune, V.
  - apply IH. rewrite <- (firstn_skipn (Z.to_nat w)) in F. apply Forall_app in F. apply F.
Qed.
End Quote.
