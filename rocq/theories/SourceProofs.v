From Coq Require Import ZArith List Lia Bool.
From Verif Require Import Base BaseProofs QueueProofs Utf8 Source SourceSpec.
Import ListNotations.
Open Scope Z_scope.

Notation gz := (g 0).

(** ** line table *)

Fixpoint startsFrom (l : list Z) (i : Z) : list Z :=
  match l with
  | [] => []
  | b :: r => if b =? LF then (i + 1) :: startsFrom r (i + 1) else startsFrom r (i + 1)
  end.

Lemma countLF_lf l : countLF l = Z.of_nat (lf_count l).
Proof.
  unfold lf_count. induction l as [|b r IH]; cbn [countLF filter]; auto. rewrite IH.
  unfold LF. rewrite (Z.eqb_sym b 10). destruct (10 =? b); cbn [length]; lia.
Qed.

Lemma startsFrom_len l : forall i, zlen (startsFrom l i) = countLF l.
Proof.
  induction l as [|b r IH]; intros i; simpl; auto. destruct (b =? LF).
  - rewrite zlen_cons, IH. lia.
  - rewrite IH. lia.
Qed.

Lemma countLF_nonneg l : 0 <= countLF l.
Proof. rewrite countLF_lf. lia. Qed.

Lemma upd_mid' {A} (done rest : list A) z x :
  upd (done ++ z :: rest) (length done) x = (done ++ [x]) ++ rest.
Proof. induction done; simpl; auto. f_equal. auto. Qed.

Lemma fillStarts_spec rest : forall i done,
  fillStarts rest i (zlen done) (zlen done + countLF rest) (done ++ repeat 0 (Z.to_nat (countLF rest)))
  = Some (done ++ startsFrom rest i).
Proof.
  induction rest as [|b r IH]; intros i done; cbn [fillStarts countLF startsFrom].
  - reflexivity.
  - pose proof (countLF_nonneg r). destruct (Z.eqb_spec b LF).
    + destruct (Z.ltb_spec (zlen done) (zlen done + (1 + countLF r))); [|lia].
      replace (Z.to_nat (1 + countLF r)) with (S (Z.to_nat (countLF r))) by lia. cbn [repeat].
      rewrite zset_Some.
      2:{ rewrite zlen_app, zlen_cons. pose proof (zlen_nonneg done).
          pose proof (zlen_nonneg (repeat 0 (Z.to_nat (countLF r)))). lia. }
      cbn [obind]. replace (Z.to_nat (zlen done)) with (length done) by (unfold zlen; lia). rewrite upd_mid'.
      specialize (IH (i + 1) (done ++ [i + 1])). rewrite zlen_app in IH.
      change (zlen [i + 1]) with 1 in IH.
      replace (zlen done + (1 + countLF r)) with (zlen done + 1 + countLF r) by lia.
      rewrite IH. rewrite <- app_assoc. reflexivity.
    + replace (0 + countLF r) with (countLF r) by lia.
      destruct (Z.ltb_spec (zlen done) (zlen done + countLF r)).
      * apply IH.
      * assert (E : countLF r = 0) by lia. rewrite E. cbn [Z.to_nat repeat]. f_equal. f_equal.
        pose proof (startsFrom_len r (i + 1)). rewrite E in H1. unfold zlen in H1.
        destruct (startsFrom r (i + 1)); auto. simpl in H1. lia.
Qed.

Definition starts (c : list Z) : list Z := 0 :: startsFrom c 0.

Lemma newSrc_spec c : newSrc c = Some (mkSrc c (starts c) (-1)).
Proof.
  unfold newSrc. pose proof (countLF_nonneg c).
  rewrite zmake_Some by lia. cbn [obind].
  replace (Z.to_nat (countLF c + 1)) with (S (Z.to_nat (countLF c))) by lia. cbn [repeat].
  rewrite zset_Some. 2:{ rewrite zlen_cons. pose proof (zlen_nonneg (repeat 0 (Z.to_nat (countLF c)))). lia. }
  cbn [obind Z.to_nat upd].
  pose proof (fillStarts_spec c 0 [0]) as E. change (zlen [0]) with 1 in E.
  replace (countLF c + 1) with (1 + countLF c) by lia. cbn [app] in E. rewrite E. reflexivity.
Qed.

Lemma startsFrom_app a b : forall i, startsFrom (a ++ b) i = startsFrom a i ++ startsFrom b (i + zlen a).
Proof.
  induction a as [|x a IH]; intros i; cbn [app startsFrom].
  - change (zlen (@nil Z)) with 0. rewrite Z.add_0_r. reflexivity.
  - rewrite IH, zlen_cons. replace (i + 1 + zlen a) with (i + (zlen a + 1)) by lia.
    destruct (x =? LF); reflexivity.
Qed.

Lemma startsFrom_bounds l : forall i x, In x (startsFrom l i) -> i < x <= i + zlen l.
Proof.
  induction l as [|b r IH]; intros i x H; cbn [startsFrom] in H; [destruct H|].
  rewrite zlen_cons. pose proof (zlen_nonneg r). destruct (b =? LF).
  - destruct H as [<-|H]; [lia|]. apply IH in H. lia.
  - apply IH in H. lia.
Qed.

Lemma gz_In l i : 0 <= i < zlen l -> In (gz l i) l.
Proof. intros. unfold g. apply nth_In. unfold zlen in *. lia. Qed.

Lemma startsFrom_sorted l : forall i a b, 0 <= a < b -> b < countLF l ->
  gz (startsFrom l i) a < gz (startsFrom l i) b.
Proof.
  induction l as [|x r IH]; intros i a b Hab Hb; cbn [countLF startsFrom] in *; [lia|].
  pose proof (countLF_nonneg r).
  destruct (x =? LF).
  - rewrite !g_cons by lia. destruct (Z.eqb_spec b 0); [lia|].
    destruct (Z.eqb_spec a 0).
    + assert (In (gz (startsFrom r (i + 1)) (b - 1)) (startsFrom r (i + 1))).
      { apply gz_In. rewrite startsFrom_len. lia. }
      apply startsFrom_bounds in H0. lia.
    + apply IH; lia.
  - apply IH; lia.
Qed.

Lemma starts_len c : zlen (starts c) = countLF c + 1.
Proof. unfold starts. rewrite zlen_cons, startsFrom_len. reflexivity. Qed.

Lemma starts_sorted c a b : 0 <= a < b -> b < zlen (starts c) -> gz (starts c) a < gz (starts c) b.
Proof.
  intros H1 H2. rewrite starts_len in H2. unfold starts. rewrite !g_cons by lia.
  destruct (Z.eqb_spec b 0); [lia|]. destruct (Z.eqb_spec a 0).
  - assert (In (gz (startsFrom c 0) (b - 1)) (startsFrom c 0)).
    { apply gz_In. rewrite startsFrom_len. lia. }
    apply startsFrom_bounds in H. lia.
  - apply startsFrom_sorted; lia.
Qed.

(** the index of the line containing [pos] *)
Definition lineIdx (c : list Z) (pos : Z) : Z := countLF (firstn (Z.to_nat pos) c).

Lemma countLF_app a b : countLF (a ++ b) = countLF a + countLF b.
Proof. induction a; simpl; auto. rewrite IHa. lia. Qed.

Lemma starts_split c pos : 0 <= pos <= zlen c ->
  starts c = starts (firstn (Z.to_nat pos) c) ++ startsFrom (skipn (Z.to_nat pos) c) pos.
Proof.
  intros H. unfold starts. rewrite <- (firstn_skipn (Z.to_nat pos) c) at 1.
  rewrite startsFrom_app. cbn [app]. do 2 f_equal. f_equal.
  unfold zlen in *. rewrite firstn_length. lia.
Qed.

Lemma lineIdx_range c pos : 0 <= lineIdx c pos < zlen (starts c).
Proof.
  rewrite starts_len. unfold lineIdx. pose proof (countLF_nonneg (firstn (Z.to_nat pos) c)).
  rewrite <- (firstn_skipn (Z.to_nat pos) c) at 3. rewrite countLF_app.
  pose proof (countLF_nonneg (skipn (Z.to_nat pos) c)). lia.
Qed.

Lemma key c pos j : 0 <= pos <= zlen c -> 0 <= j < zlen (starts c) ->
  (gz (starts c) j <= pos <-> j <= lineIdx c pos).
Proof.
  intros Hp Hj. rewrite (starts_split c pos Hp) in *.
  set (pre := firstn (Z.to_nat pos) c) in *.
  assert (Lp : zlen pre = pos) by (unfold zlen, pre in *; rewrite firstn_length; lia).
  rewrite g_app by lia. rewrite zlen_app, starts_len in *. unfold lineIdx. fold pre.
  destruct (Z.ltb_spec j (countLF pre + 1)).
  - split; [lia|]. intros _. unfold starts. rewrite g_cons by lia.
    destruct (Z.eqb_spec j 0); [lia|].
    assert (In (gz (startsFrom pre 0) (j - 1)) (startsFrom pre 0)).
    { apply gz_In. rewrite startsFrom_len. lia. }
    apply startsFrom_bounds in H0. lia.
  - split; [|lia]. intros H1. exfalso.
    assert (In (gz (startsFrom (skipn (Z.to_nat pos) c) pos) (j - (countLF pre + 1)))
               (startsFrom (skipn (Z.to_nat pos) c) pos)).
    { apply gz_In. lia. }
    apply startsFrom_bounds in H0. lia.
Qed.

(** ** findLineIndex *)

Lemma scanLines_spec c pos : 0 <= pos <= zlen c -> forall fuel i,
  0 <= i <= lineIdx c pos + 1 -> zlen (starts c) < i + Z.of_nat fuel ->
  scanLines fuel (starts c) i (zlen (starts c) - 1) pos = Some (lineIdx c pos + 1).
Proof.
  intros Hp. pose proof (lineIdx_range c pos) as HR.
  induction fuel as [|f IH]; intros i Hi Hf; [lia|].
  cbn [scanLines]. destruct (Z.leb_spec i (zlen (starts c) - 1)).
  - rewrite (zget_Some _ _ 0) by lia. cbn [obind]. fold (gz (starts c) i).
    pose proof (key c pos i Hp ltac:(lia)) as K.
    destruct (Z.leb_spec (gz (starts c) i) pos).
    + apply IH; lia.
    + f_equal. lia.
  - f_equal. lia.
Qed.

Lemma searchLines_spec c pos : 0 <= pos <= zlen c -> forall fuel l r idx,
  0 <= l <= lineIdx c pos -> lineIdx c pos <= r < zlen (starts c) ->
  (l < r \/ idx = lineIdx c pos) -> r - l <= Z.of_nat fuel ->
  exists e, searchLines fuel (starts c) l r idx pos = Some (lineIdx c pos, e).
Proof.
  intros Hp. induction fuel as [|f IH]; intros l r idx Hl Hr Hx Hf; cbn [searchLines].
  - destruct (Z.ltb_spec l r); [lia|]. exists false. do 2 f_equal. lia.
  - destruct (Z.ltb_spec l r).
    2:{ exists false. do 2 f_equal. lia. }
    set (m := Z.shiftr (l + r + 1) 1).
    assert (Hm : l < m <= r).
    { unfold m. rewrite Z.shiftr_div_pow2 by lia. change (2 ^ 1) with 2.
      pose proof (Z.div_mod (l + r + 1) 2). pose proof (Z.mod_pos_bound (l + r + 1) 2). lia. }
    rewrite (zget_Some _ _ 0) by lia. cbn [obind]. fold (gz (starts c) m).
    pose proof (key c pos m Hp ltac:(lia)) as K.
    destruct (Z.eqb_spec (gz (starts c) m) pos).
    + exists true. do 2 f_equal. assert (m <= lineIdx c pos) by (apply K; lia).
      destruct (Z.eq_dec m (lineIdx c pos)); auto. exfalso.
      pose proof (lineIdx_range c pos).
      pose proof (starts_sorted c m (lineIdx c pos) ltac:(lia) ltac:(lia)).
      pose proof (proj2 (key c pos (lineIdx c pos) Hp ltac:(lia)) ltac:(lia)). lia.
    + destruct (Z.ltb_spec (gz (starts c) m) pos).
      * apply IH; lia.
      * apply IH; lia.
Qed.

(** State of a source after any calls: the content and table never change, the
    cache is -1 or a line index. *)
Definition srcOK (c : list Z) (s : src) : Prop :=
  content s = c /\ lineStarts s = starts c /\ -1 <= prevLineIndex s < zlen (starts c).

Lemma findLineIndex_spec c s pos : srcOK c s -> 0 <= pos <= zlen c ->
  exists s', findLineIndex s pos = Some (s', lineIdx c pos) /\ srcOK c s'.
Proof.
  intros (HC & HS & HP) Hp. unfold findLineIndex. rewrite HC, HS.
  pose proof (lineIdx_range c pos) as HR.
  destruct (Z.leb_spec 0 (prevLineIndex s)).
  - rewrite (zget_Some _ _ 0) by lia. cbn [obind]. fold (gz (starts c) (prevLineIndex s)).
    pose proof (key c pos (prevLineIndex s) Hp ltac:(lia)) as K.
    destruct (Z.leb_spec (gz (starts c) (prevLineIndex s)) pos).
    + rewrite scanLines_spec; [|lia|lia|unfold zlen; lia]. cbn [obind].
      replace (lineIdx c pos + 1 - 1) with (lineIdx c pos) by lia.
      eexists; split; [reflexivity|]. split; [auto|split; auto]. cbn [prevLineIndex]. lia.
    + destruct (searchLines_spec c pos Hp (length (starts c)) 0 (prevLineIndex s) 0) as (e & ->);
        [lia|lia|lia|unfold zlen in *; lia|]. cbn [obind].
      destruct e; eexists; (split; [reflexivity|]); (split; [auto|split; auto]); cbn [prevLineIndex]; lia.
  - cbn [obind].
    destruct (searchLines_spec c pos Hp (length (starts c)) 0 (zlen (starts c) - 1) 0) as (e & ->);
        [lia|lia|lia|unfold zlen in *; lia|]. cbn [obind].
    destruct e; eexists; (split; [reflexivity|]); (split; [auto|split; auto]); cbn [prevLineIndex]; lia.
Qed.

(** ** lines *)

Lemma last_line_split l : exists p, l = p ++ last_line l /\ lf_count (last_line l) = 0%nat /\
  (p = [] \/ exists q, p = q ++ [10]).
Proof.
  unfold last_line.
  assert (G : forall m, exists p, m = take_until_lf m ++ p /\ lf_count (take_until_lf m) = 0%nat /\
     (p = [] \/ exists q, p = 10 :: q)).
  { induction m as [|b r IH]; simpl.
    - exists []; auto.
    - destruct (Z.eqb_spec b 10).
      + exists (b :: r). subst. repeat split; auto. right. eauto.
      + destruct IH as (p & E & C & P). exists p. split; [simpl; f_equal; auto|]. split; auto.
        unfold lf_count in *. cbn [filter]. destruct (Z.eqb_spec 10 b); [lia|]. exact C. }
  destruct (G (rev l)) as (p & E & C & P).
  exists (rev p). split; [|split].
  - rewrite <- rev_app_distr, <- E, rev_involutive. reflexivity.
  - unfold lf_count in *.
    assert (F : forall m, length (filter (Z.eqb 10) (rev m)) = length (filter (Z.eqb 10) m)).
    { induction m as [|x m IHm]; cbn [rev filter]; auto. rewrite filter_app, app_length, IHm.
      cbn [filter]. destruct (10 =? x); cbn [length]; lia. }
    rewrite F. auto.
  - destruct P as [->|(q & ->)]; [left; auto|right]. exists (rev q). reflexivity.
Qed.

Lemma countLF_zero l : lf_count l = 0%nat -> countLF l = 0.
Proof. intros. rewrite countLF_lf. lia. Qed.

Lemma startsFrom_nolf l i : countLF l = 0 -> startsFrom l i = [].
Proof.
  intros H. pose proof (startsFrom_len l i). rewrite H in H0. unfold zlen in H0.
  destruct (startsFrom l i); auto. simpl in H0. lia.
Qed.

(** start of the line containing [pos] *)
Lemma line_start c pos : 0 <= pos <= zlen c ->
  gz (starts c) (lineIdx c pos) = pos - zlen (last_line (firstn (Z.to_nat pos) c)).
Proof.
  intros Hp. rewrite (starts_split c pos Hp). unfold lineIdx.
  set (pre := firstn (Z.to_nat pos) c).
  assert (Lp : zlen pre = pos) by (unfold zlen, pre in *; rewrite firstn_length; lia).
  pose proof (countLF_nonneg pre).
  rewrite g_app by lia. rewrite starts_len.
  destruct (Z.ltb_spec (countLF pre) (countLF pre + 1)); [|lia].
  destruct (last_line_split pre) as (p & E & C & P).
  rewrite E at 1 2. rewrite countLF_app, (countLF_zero _ C), Z.add_0_r.
  unfold starts. rewrite startsFrom_app, (startsFrom_nolf _ _ (countLF_zero _ C)), app_nil_r.
  assert (Lpre : zlen p + zlen (last_line pre) = pos) by (rewrite <- zlen_app, <- E; auto).
  replace (pos - zlen (last_line pre)) with (zlen p) by lia.
  destruct P as [->|(q & ->)].
  - reflexivity.
  - rewrite countLF_app. simpl countLF at 2. rewrite startsFrom_app.
    pose proof (countLF_nonneg q).
    cbn [startsFrom]. change (10 =? LF) with true. cbn [Z.eqb].
    rewrite g_cons by lia. destruct (Z.eqb_spec (countLF q + 1) 0); [lia|].
    rewrite g_app by lia. rewrite startsFrom_len.
    destruct (Z.ltb_spec (countLF q + 1 - 1) (countLF q)); [lia|].
    replace (countLF q + 1 - 1 - countLF q) with 0 by lia. cbn.
    rewrite zlen_app. reflexivity.
Qed.

Lemma slice_last_line c pos : 0 <= pos <= zlen c ->
  zslice c (pos - zlen (last_line (firstn (Z.to_nat pos) c))) pos
  = Some (last_line (firstn (Z.to_nat pos) c)).
Proof.
  intros Hp. set (pre := firstn (Z.to_nat pos) c).
  assert (Lp : zlen pre = pos) by (unfold zlen, pre in *; rewrite firstn_length; lia).
  destruct (last_line_split pre) as (p & E & C & P).
  assert (Lpre : zlen p + zlen (last_line pre) = pos) by (rewrite <- zlen_app, <- E; auto).
  pose proof (zlen_nonneg p). pose proof (zlen_nonneg (last_line pre)).
  rewrite zslice_Some by lia. f_equal.
  set (ll := last_line pre) in *.
  replace (pos - zlen ll) with (zlen p) by lia.
  rewrite <- (firstn_skipn (Z.to_nat pos) c). fold pre. rewrite E, <- app_assoc.
  replace (Z.to_nat (zlen p)) with (length p) by (unfold zlen; lia).
  rewrite skipn_app, skipn_all, Nat.sub_diag. cbn [app skipn].
  replace (Z.to_nat (pos - zlen p)) with (length ll) by (unfold zlen in *; lia).
  rewrite firstn_app, firstn_all, Nat.sub_diag. cbn [firstn]. apply app_nil_r.
Qed.

Lemma lineCol_spec c s pos : srcOK c s ->
  exists s', lineCol s pos = Some (s', line_col_spec c pos) /\ srcOK c s'.
Proof.
  intros HS. pose proof HS as (HC & HSt & HP). unfold lineCol.
  assert (G : forall p s', srcOK c s' -> 0 <= p <= zlen c -> clamp (length c) pos = Z.to_nat p ->
    exists s'', (do lineStart <- zget (lineStarts s') (lineIdx c p);
     do sl <- zslice (content s') lineStart p; Some (s', (lineIdx c p + 1, runeCount sl + 1)))
     = Some (s'', line_col_spec c pos) /\ srcOK c s'').
  { intros p s' (A & B & D) Hp Hcl. rewrite A, B. pose proof (lineIdx_range c p).
    rewrite (zget_Some _ _ 0) by lia. cbn [obind]. fold (gz (starts c) (lineIdx c p)).
    rewrite line_start, slice_last_line by auto. cbn [obind].
    exists s'. split; [|repeat split; auto; lia]. f_equal. f_equal.
    unfold line_col_spec. rewrite Hcl. cbv zeta. unfold lineIdx, runeCount.
    rewrite countLF_lf. f_equal; lia. }
  pose proof (zlen_nonneg c).
  destruct (Z.ltb_spec pos 0).
  - cbn [obind]. destruct (G 0 s HS ltac:(lia) ltac:(unfold clamp; lia)) as (s'' & E & H').
    exists s''. split; [exact E|exact H'].
  - rewrite HC. destruct (Z.leb_spec (zlen c) pos).
    + cbn [obind]. destruct (G (zlen c) s HS ltac:(lia) ltac:(unfold clamp, zlen in *; lia)) as (s'' & E & H').
      exists s''. split; [|exact H']. rewrite <- E. rewrite HC, HSt.
      assert (EL : lineIdx c (zlen c) = zlen (starts c) - 1).
      { rewrite starts_len. unfold lineIdx. replace (Z.to_nat (zlen c)) with (length c) by (unfold zlen; lia).
        rewrite firstn_all. lia. }
      rewrite EL. reflexivity.
    + destruct (findLineIndex_spec c s pos HS) as (s1 & -> & HS1); [lia|]. cbn [obind].
      destruct (G pos s1 HS1 ltac:(lia) ltac:(unfold clamp, zlen in *; lia)) as (s'' & E & H').
      exists s''. split; auto.
Qed.

(** ** Pos *)

Lemma decodeRune_width p : p <> [] -> 1 <= snd (decodeRune p) <= zlen p.
Proof.
  intros H. destruct p as [|b0 r]; [congruence|]. rewrite zlen_cons. pose proof (zlen_nonneg r).
  unfold decodeRune. destruct (b0 <? 128); [simpl; lia|].
  destruct (between 194 223 b0).
  { destruct r as [|b1 r]; [simpl; lia|]. rewrite zlen_cons in *. pose proof (zlen_nonneg r). destruct (between _ _ b1); simpl; lia. }
  destruct (between 224 239 b0).
  { destruct r as [|b1 [|b2 r]]; try (simpl; lia). rewrite !zlen_cons in *. pose proof (zlen_nonneg r).
    destruct (_ && _); simpl; lia. }
  destruct (between 240 244 b0).
  { destruct r as [|b1 [|b2 [|b3 r]]]; try (simpl; lia). rewrite !zlen_cons in *. pose proof (zlen_nonneg r).
    destruct (_ && _ && _); simpl; lia. }
  simpl; lia.
Qed.

(** bytes after the first of a multi-byte rune are continuation bytes *)
Lemma decodeRune_tail p k : 
  (1 <= k < Z.to_nat (snd (decodeRune p)))%nat -> 128 <= nth k p 0.
Proof.
  destruct p as [|b0 r]; cbn [decodeRune]; [simpl; lia|].
  destruct (b0 <? 128); [simpl; lia|].
  destruct (between 194 223 b0).
  { destruct r as [|b1 r]; [simpl; lia|]. destruct (between 128 191 b1) eqn:E; [|simpl; lia].
    unfold between in E. apply andb_prop in E as [E _]. apply Z.leb_le in E.
    simpl. intros. destruct k as [|[|k]]; simpl; lia. }
  destruct (between 224 239 b0).
  { destruct r as [|b1 [|b2 r]]; try (simpl; lia).
    match goal with |- context [if ?X then _ else _] => destruct X eqn:E; [|simpl; lia] end.
    unfold between in E. apply andb_prop in E as [E E2]. apply andb_prop in E as [E1 _]. apply andb_prop in E2 as [E2 _].
    apply Z.leb_le in E1, E2. simpl. intros.
    destruct k as [|[|[|k]]]; simpl; try lia. destruct (b0 =? 224); lia. }
  destruct (between 240 244 b0).
  { destruct r as [|b1 [|b2 [|b3 r]]]; try (simpl; lia).
    match goal with |- context [if ?X then _ else _] => destruct X eqn:E; [|simpl; lia] end.
    unfold between in E. apply andb_prop in E as [E E3]. apply andb_prop in E as [E1 E2].
    apply andb_prop in E1 as [E1 _]. apply andb_prop in E2 as [E2 _]. apply andb_prop in E3 as [E3 _].
    apply Z.leb_le in E1, E2, E3. simpl. intros.
    destruct k as [|[|[|[|k]]]]; simpl; try lia. destruct (b0 =? 240); lia. }
  simpl; lia.
Qed.

(** decoding a prefix that contains the whole first rune *)
Lemma decodeRune_prefix p n :
  (0 < n)%nat -> snd (decodeRune p) <= Z.of_nat n -> decodeRune (firstn n p) = decodeRune p.
Proof.
  intros Hn. destruct p as [|b0 r]; [destruct n; reflexivity|].
  destruct n as [|n]; [lia|]. cbn [firstn decodeRune].
  destruct (b0 <? 128); auto.
  destruct (between 194 223 b0).
  { destruct r as [|b1 r]; [destruct n; reflexivity|]. destruct n; [|auto].
    cbn [firstn]. destruct (between 128 191 b1); simpl; [lia|auto]. }
  destruct (between 224 239 b0).
  { destruct r as [|b1 r]; [destruct n; auto|]. destruct r as [|b2 r]; [destruct n as [|[|n]]; auto|].
    destruct n as [|[|n]]; auto; cbn [firstn]; match goal with |- context [if ?X then _ else _] => destruct X; [simpl; lia|auto] end. }
  destruct (between 240 244 b0); auto.
  { destruct r as [|b1 r]; [destruct n; auto|]. destruct r as [|b2 r]; [destruct n as [|[|n]]; auto|].
    destruct r as [|b3 r]; [destruct n as [|[|[|n]]]; auto|].
    destruct n as [|[|[|n]]]; auto; cbn [firstn]; match goal with |- context [if ?X then _ else _] => destruct X; [simpl; lia|auto] end. }
Qed.

Lemma decodeRune_LF p : p <> [] -> (fst (decodeRune p) = LF <-> hd 0 p = LF).
Proof.
  intros H. destruct p as [|b0 r]; [congruence|]. unfold LF. cbn [hd decodeRune].
  destruct (Z.ltb_spec b0 128); [simpl; tauto|].
  split; [|lia]. unfold RuneError.
  destruct (between 194 223 b0) eqn:E0.
  { unfold between in E0. apply andb_prop in E0 as [E0 _]. apply Z.leb_le in E0.
    destruct r as [|b1 r]; [simpl; lia|]. destruct (between 128 191 b1) eqn:E; simpl; [|lia].
    unfold between in E. apply andb_prop in E as [E _]. apply Z.leb_le in E. lia. }
  destruct (between 224 239 b0) eqn:E1.
  { unfold between in E1. apply andb_prop in E1 as [E1 _]. apply Z.leb_le in E1.
    destruct r as [|b1 [|b2 r]]; try (simpl; lia).
    match goal with |- context [if ?X then _ else _] => destruct X eqn:E; [|simpl; lia] end.
    unfold between in E. apply andb_prop in E as [E E2]. apply andb_prop in E as [E3 _]. apply andb_prop in E2 as [E2 _].
    apply Z.leb_le in E3, E2. simpl. destruct (Z.eqb_spec b0 224); lia. }
  destruct (between 240 244 b0) eqn:E2.
  { unfold between in E2. apply andb_prop in E2 as [E2 _]. apply Z.leb_le in E2.
    destruct r as [|b1 [|b2 [|b3 r]]]; try (simpl; lia).
    match goal with |- context [if ?X then _ else _] => destruct X eqn:E; [|simpl; lia] end.
    unfold between in E. apply andb_prop in E as [E E3]. apply andb_prop in E as [E4 E5].
    apply andb_prop in E4 as [E4 _]. apply andb_prop in E5 as [E5 _]. apply andb_prop in E3 as [E3 _].
    apply Z.leb_le in E4, E5, E3. simpl. destruct (Z.eqb_spec b0 240); lia. }
  simpl; lia.
Qed.

Lemma runes_fuel_irrel a : forall b q, (length q <= a)%nat -> (length q <= b)%nat ->
  runes_fuel a q = runes_fuel b q.
Proof.
  induction a as [|a IHa]; intros b q A B.
  - destruct q; [destruct b; reflexivity|simpl in A; lia].
  - destruct q as [|x q]; [destruct b; reflexivity|]. destruct b as [|b]; [simpl in B; lia|].
    cbn [runes_fuel]. f_equal. pose proof (decodeRune_width (x :: q) ltac:(congruence)) as [W _].
    cbn [length] in *. revert W. generalize (snd (decodeRune (x :: q))). intros w W.
    apply IHa; rewrite skipn_length; cbn [length]; lia.
Qed.

Lemma runes_step p : p <> [] ->
  runes p = firstn (Z.to_nat (snd (decodeRune p))) p :: runes (skipn (Z.to_nat (snd (decodeRune p))) p).
Proof.
  intros H. destruct p as [|b r]; [congruence|]. unfold runes at 1. cbn [runes_fuel length]. f_equal.
  pose proof (decodeRune_width (b :: r) ltac:(congruence)) as [W _]. revert W.
  generalize (snd (decodeRune (b :: r))). intros w W. unfold runes.
  apply runes_fuel_irrel; rewrite ?skipn_length; cbn [length]; lia.
Qed.

Lemma concat_runes p : concat (runes p) = p.
Proof.
  remember (length p) as n eqn:E. revert p E. induction n as [n IH] using lt_wf_ind. intros p E.
  destruct p as [|b r]; [reflexivity|].
  rewrite runes_step by congruence. cbn [concat].
  pose proof (decodeRune_width (b :: r) ltac:(congruence)) as [W _]. revert W.
  generalize (snd (decodeRune (b :: r))). intros w W.
  rewrite (IH (length (skipn (Z.to_nat w) (b :: r)))); [apply firstn_skipn| |reflexivity].
  rewrite skipn_length. subst n. cbn [length]. lia.
Qed.

Lemma nolf_cons b l : countLF (b :: l) = 0 -> b <> LF /\ countLF l = 0.
Proof. cbn [countLF]. pose proof (countLF_nonneg l). destruct (Z.eqb_spec b LF); lia. Qed.

(** a line feed is never inside a longer rune *)
Lemma decodeRune_line line tail : line <> [] -> (tail = [] \/ exists t, tail = LF :: t) ->
  decodeRune (line ++ tail) = decodeRune line.
Proof.
  intros HL HT. destruct line as [|b r]; [congruence|]. clear HL.
  destruct HT as [->|(t & ->)]; [rewrite app_nil_r; reflexivity|].
  set (l := b :: r). assert (Hl : l <> []) by (unfold l; congruence).
  transitivity (decodeRune (firstn (length l) (l ++ LF :: t))).
  2:{ f_equal. rewrite firstn_app, firstn_all, Nat.sub_diag. cbn [firstn]. apply app_nil_r. }
  symmetry. apply decodeRune_prefix; [unfold l; cbn [length]; lia|].
  destruct (Z.leb_spec (snd (decodeRune (l ++ LF :: t))) (Z.of_nat (length l))); auto.
  exfalso. pose proof (decodeRune_tail (l ++ LF :: t) (length l)) as T.
  rewrite app_nth2, Nat.sub_diag in T by lia. cbn [nth] in T. unfold LF in T at 2.
  assert (1 <= length l)%nat by (unfold l; cbn [length]; lia).
  specialize (T ltac:(lia)). lia.
Qed.

Lemma runes_app_line line tail : (tail = [] \/ exists t, tail = LF :: t) ->
  runes (line ++ tail) = runes line ++ runes tail.
Proof.
  intros HT. remember (length line) as n eqn:E. revert line E.
  induction n as [n IH] using lt_wf_ind. intros line E.
  destruct line as [|b r]; [reflexivity|].
  rewrite (runes_step ((b :: r) ++ tail)) by (cbn [app]; congruence).
  rewrite decodeRune_line by (auto; congruence).
  rewrite (runes_step (b :: r)) by congruence.
  pose proof (decodeRune_width (b :: r) ltac:(congruence)) as W. revert W.
  generalize (snd (decodeRune (b :: r))). intros w W. unfold zlen in W. cbn [app].
  f_equal.
  - change (b :: r ++ tail) with ((b :: r) ++ tail). rewrite firstn_app.
    replace (Z.to_nat w - length (b :: r))%nat with 0%nat by lia. cbn [firstn]. apply app_nil_r.
  - change (b :: r ++ tail) with ((b :: r) ++ tail). rewrite skipn_app.
    replace (Z.to_nat w - length (b :: r))%nat with 0%nat by lia.
    change (skipn 0 tail) with tail.
    apply (IH (length (skipn (Z.to_nat w) (b :: r)))); [|reflexivity].
    rewrite skipn_length. subst n. cbn [length] in *. lia.
Qed.

Lemma runes_LF t : runes (LF :: t) = [LF] :: runes t.
Proof. rewrite runes_step by congruence. reflexivity. Qed.

(** a whole number of runes decodes to these runes *)
Lemma runes_firstn p : forall k, runes (concat (firstn k (runes p))) = firstn k (runes p).
Proof.
  remember (length p) as n eqn:E. revert p E. induction n as [n IH] using lt_wf_ind. intros p E k.
  destruct p as [|b r]; [destruct k; reflexivity|].
  destruct k as [|k]; [reflexivity|].
  rewrite (runes_step (b :: r)) by congruence. cbn [firstn concat].
  set (q := b :: r) in *. assert (Hq : q <> []) by (unfold q; congruence).
  pose proof (decodeRune_width q Hq) as W. unfold zlen in W.
  set (w := snd (decodeRune q)) in *.
  set (tl := concat (firstn k (runes (skipn (Z.to_nat w) q)))).
  assert (P : exists m, firstn (Z.to_nat w) q ++ tl = firstn (Z.to_nat w + m) q).
  { exists (length tl).
    assert (T : tl = firstn (length tl) (skipn (Z.to_nat w) q)).
    { unfold tl at 1. rewrite <- (concat_runes (skipn (Z.to_nat w) q)) at 2.
      rewrite <- (firstn_skipn k (runes (skipn (Z.to_nat w) q))) at 2. rewrite concat_app.
      fold tl. rewrite firstn_app, firstn_all, Nat.sub_diag. cbn [firstn]. symmetry. apply app_nil_r. }
    rewrite T at 1. rewrite <- (firstn_skipn (Z.to_nat w) q) at 3.
    assert (L : length (firstn (Z.to_nat w) q) = Z.to_nat w) by (rewrite firstn_length; lia).
    rewrite firstn_app, L. rewrite (firstn_all2 (firstn (Z.to_nat w) q)) by lia.
    replace (Z.to_nat w + length tl - Z.to_nat w)%nat with (length tl) by lia. reflexivity. }
  destruct P as (m & P).
  assert (D : decodeRune (firstn (Z.to_nat w) q ++ tl) = decodeRune q).
  { rewrite P. apply decodeRune_prefix; fold w; lia. }
  assert (L : length (firstn (Z.to_nat w) q) = Z.to_nat w) by (rewrite firstn_length; lia).
  rewrite runes_step.
  2:{ intros C. apply (f_equal (@length Z)) in C. rewrite app_length, L in C. cbn [length] in C. lia. }
  rewrite D. fold w. f_equal.
  - rewrite firstn_app, L, Nat.sub_diag. cbn [firstn]. rewrite app_nil_r. apply firstn_all2. lia.
  - rewrite skipn_app, L, Nat.sub_diag. rewrite skipn_all2 by lia. cbn [app skipn].
    unfold tl. apply (IH (length (skipn (Z.to_nat w) q))); [|reflexivity].
    rewrite skipn_length. subst n. lia.
Qed.

Lemma take_until_split r : exists t, r = take_until_lf r ++ t /\ countLF (take_until_lf r) = 0 /\
  (t = [] \/ exists t', t = LF :: t').
Proof.
  induction r as [|b r IH]; cbn [take_until_lf].
  - exists []; auto.
  - destruct (Z.eqb_spec b 10).
    + exists (b :: r). subst. split; [auto|split; [auto|right; eauto]].
    + destruct IH as (t & E & C & P). exists t. split; [cbn [app]; f_equal; auto|]. split; auto.
      cbn [countLF]. unfold LF. destruct (Z.eqb_spec b 10); [lia|]. lia.
Qed.

Lemma posLoop_spec line tail : (tail = [] \/ exists t, tail = LF :: t) -> countLF line = 0 ->
  forall p col fuel, 1 <= col <= Z.of_nat fuel ->
  posLoop fuel (p ++ line ++ tail) col (zlen p) (zlen (p ++ line ++ tail))
  = Some (zlen p + Z.of_nat (length (concat (firstn (Z.to_nat (col - 1)) (runes line))))).
Proof.
  intros HT. remember (length line) as n eqn:E. revert line E.
  induction n as [n IH] using lt_wf_ind. intros line E HN p col fuel Hf.
  destruct fuel as [|f]; [lia|]. cbn [posLoop]. rewrite !zlen_app.
  destruct (Z.ltb_spec 1 col).
  2:{ cbn [andb]. replace (Z.to_nat (col - 1)) with 0%nat by lia. cbn. f_equal. lia. }
  destruct line as [|b r].
  { change (zlen (@nil Z)) with 0. change (runes (@nil Z)) with (@nil (list Z)). rewrite firstn_nil. cbn [concat length app].
    destruct HT as [->|(t & ->)].
    - change (zlen (@nil Z)) with 0. destruct (Z.ltb_spec (zlen p) (zlen p + (0 + 0))); [lia|]. cbn [andb]. f_equal. lia.
    - rewrite zlen_cons. pose proof (zlen_nonneg t). pose proof (zlen_nonneg p).
      destruct (Z.ltb_spec (zlen p) (zlen p + (0 + (zlen t + 1)))); [|lia]. cbn [andb].
      rewrite zslice_Some by (rewrite ?zlen_app, ?zlen_cons; lia). cbn [obind].
      rewrite skipn_app. replace (Z.to_nat (zlen p)) with (length p) by (unfold zlen; lia).
      rewrite skipn_all, Nat.sub_diag. cbn [app skipn].
      replace (Z.to_nat (zlen p + (0 + (zlen t + 1)) - zlen p)) with (S (length t)) by (unfold zlen; lia).
      cbn [firstn decodeRune]. change (LF <? 128) with true. cbv iota. rewrite Z.eqb_refl. f_equal. lia. }
  set (l := b :: r) in *. assert (Hl : l <> []) by (unfold l; congruence).
  pose proof (zlen_nonneg tail). pose proof (zlen_nonneg p).
  assert (Ll : 1 <= zlen l) by (unfold l; rewrite zlen_cons; pose proof (zlen_nonneg r); lia).
  destruct (Z.ltb_spec (zlen p) (zlen p + (zlen l + zlen tail))); [|lia]. cbn [andb].
  rewrite zslice_Some by (rewrite ?zlen_app; lia). cbn [obind].
  rewrite skipn_app. replace (Z.to_nat (zlen p)) with (length p) by (unfold zlen; lia).
  rewrite skipn_all, Nat.sub_diag. cbn [app skipn].
  rewrite firstn_all2 by (rewrite app_length; unfold zlen; lia).
  rewrite decodeRune_line by auto.
  destruct (decodeRune l) as [ru rl] eqn:D.
  pose proof (decodeRune_LF l Hl) as DL. rewrite D in DL. cbn [fst] in DL.
  assert (hd 0 l <> LF) by (unfold l in *; cbn [hd]; apply nolf_cons in HN; tauto).
  destruct (Z.eqb_spec ru LF); [tauto|].
  pose proof (decodeRune_width l Hl) as W. rewrite D in W. cbn [snd] in W.
  rewrite (runes_step l Hl), D. cbn [snd].
  replace (Z.to_nat (col - 1)) with (S (Z.to_nat (col - 1 - 1))) by lia. cbn [firstn concat].
  rewrite app_length. unfold zlen in W. rewrite firstn_length.
  assert (EQ : p ++ l ++ tail = (p ++ firstn (Z.to_nat rl) l) ++ skipn (Z.to_nat rl) l ++ tail).
  { rewrite <- app_assoc. f_equal. rewrite app_assoc, firstn_skipn. reflexivity. }
  assert (ZP : zlen p + rl = zlen (p ++ firstn (Z.to_nat rl) l)).
  { rewrite zlen_app. unfold zlen. rewrite firstn_length. lia. }
  assert (ZT : zlen p + (zlen l + zlen tail) = zlen (p ++ l ++ tail)) by (rewrite !zlen_app; lia).
  assert (NL : countLF (skipn (Z.to_nat rl) l) = 0).
  { pose proof (countLF_app (firstn (Z.to_nat rl) l) (skipn (Z.to_nat rl) l)) as CA.
    rewrite firstn_skipn in CA. pose proof (countLF_nonneg (firstn (Z.to_nat rl) l)).
    pose proof (countLF_nonneg (skipn (Z.to_nat rl) l)). lia. }
  rewrite ZT, ZP, EQ.
  rewrite (IH (length (skipn (Z.to_nat rl) l)));
    [|rewrite skipn_length; subst n; lia|reflexivity|auto|lia].
  f_equal. rewrite <- ZP. lia.
Qed.

Lemma drop_lines_split n : forall c, Z.of_nat n <= countLF c ->
  exists p, c = p ++ drop_lines n c /\ countLF p = Z.of_nat n /\ (p = [] \/ exists q, p = q ++ [LF]).
Proof.
  induction n as [|n IH]; intros c H.
  - exists []. repeat split; auto.
  - cbn [drop_lines].
    assert (A : exists q, c = q ++ LF :: after_lf c /\ countLF q = 0).
    { clear IH. induction c as [|b r IHc]; [cbn [countLF] in H; lia|]. cbn [after_lf countLF] in *.
      unfold LF in H. destruct (Z.eqb_spec b 10).
      - exists []. subst. split; reflexivity.
      - destruct IHc as (q & E & C); [lia|]. exists (b :: q). split; [cbn [app]; f_equal; auto|].
        cbn [countLF]. unfold LF. destruct (Z.eqb_spec b 10); [lia|]. lia. }
    destruct A as (q & E & C).
    assert (CC : countLF c = 1 + countLF (after_lf c)).
    { rewrite E at 1. rewrite countLF_app, C. cbn [countLF]. rewrite Z.eqb_refl. lia. }
    destruct (IH (after_lf c) ltac:(lia)) as (p & E2 & C2 & P2).
    exists (q ++ LF :: p). split; [|split].
    + rewrite <- app_assoc. cbn [app]. rewrite <- E2. exact E.
    + rewrite countLF_app, C. cbn [countLF]. rewrite Z.eqb_refl. lia.
    + right. destruct P2 as [->|(q2 & ->)]; [exists q; reflexivity|].
      exists (q ++ LF :: q2). rewrite <- app_assoc. reflexivity.
Qed.

Lemma starts_at p rest : (p = [] \/ exists q, p = q ++ [LF]) ->
  gz (starts (p ++ rest)) (countLF p) = zlen p.
Proof.
  intros P. unfold starts. pose proof (countLF_nonneg p).
  destruct P as [->|(q & ->)]; [reflexivity|].
  rewrite countLF_app in *. change (countLF [LF]) with 1 in *. pose proof (countLF_nonneg q).
  rewrite g_cons by lia. destruct (Z.eqb_spec (countLF q + 1) 0); [lia|].
  rewrite !startsFrom_app, <- app_assoc. rewrite g_app by lia. rewrite startsFrom_len.
  destruct (Z.ltb_spec (countLF q + 1 - 1) (countLF q)); [lia|].
  replace (countLF q + 1 - 1 - countLF q) with 0 by lia. rewrite zlen_app. cbn. reflexivity.
Qed.

Lemma srcPos_spec c s line col : srcOK c s -> srcPos s line col = Some (pos_spec c line col).
Proof.
  intros (HC & HS & _). unfold srcPos, pos_spec. rewrite HC, HS, starts_len.
  destruct ((line <=? 0) || (col <=? 0)) eqn:Z0; auto.
  apply orb_false_iff in Z0 as [L0 C0]. apply Z.leb_gt in L0, C0.
  unfold line_count. rewrite countLF_lf.
  replace (1 + Z.of_nat (lf_count c)) with (Z.of_nat (lf_count c) + 1) by lia.
  destruct (Z.ltb_spec (Z.of_nat (lf_count c) + 1) line); auto.
  assert (HL : Z.of_nat (Z.to_nat (line - 1)) <= countLF c) by (rewrite countLF_lf; lia).
  destruct (drop_lines_split (Z.to_nat (line - 1)) c HL) as (p & E & C & P).
  unfold line_text. set (rest := drop_lines (Z.to_nat (line - 1)) c) in *.
  pose proof (starts_at p rest P) as SA. rewrite <- E, C in SA.
  replace (Z.of_nat (Z.to_nat (line - 1))) with (line - 1) in SA by lia.
  rewrite (zget_Some _ _ 0) by (rewrite starts_len, countLF_lf; lia).
  cbn [obind]. fold (gz (starts c) (line - 1)). rewrite SA.
  destruct (take_until_split rest) as (t & E2 & C2 & P2).
  set (ln := take_until_lf rest) in *.
  rewrite E at 1 2. rewrite E2 at 1 2. rewrite (posLoop_spec ln t P2 C2) by lia. cbn [obind].
  assert (B : (length (concat (firstn (Z.to_nat (col - 1)) (runes ln))) <= length ln)%nat).
  { rewrite <- (concat_runes ln) at 2. rewrite <- (firstn_skipn (Z.to_nat (col - 1)) (runes ln)) at 2.
    rewrite concat_app, app_length. lia. }
  assert (LC : zlen c = zlen p + (zlen ln + zlen t)) by (rewrite E, E2 at 1; rewrite !zlen_app; lia).
  pose proof (zlen_nonneg t).
  destruct (Z.ltb_spec (zlen c) (zlen p + Z.of_nat (length (concat (firstn (Z.to_nat (col - 1)) (runes ln)))))).
  { unfold zlen in *. lia. }
  f_equal. f_equal. rewrite E at 1. rewrite app_length. unfold zlen. lia.
Qed.

Definition line_end (p : list Z) : Prop := p = [] \/ exists q, p = q ++ [LF].

Lemma runes_app_end p x : line_end p -> runes (p ++ x) = runes p ++ runes x.
Proof.
  intros [->|(q & ->)]; [reflexivity|]. rewrite <- app_assoc. cbn [app].
  rewrite runes_app_line by (right; eauto). rewrite runes_LF.
  rewrite (runes_app_line q [LF]) by (right; eauto). rewrite <- app_assoc. reflexivity.
Qed.

Lemma after_lf_app q x : countLF q = 0 -> after_lf (q ++ LF :: x) = x.
Proof.
  induction q as [|b q IH]; intros H; [reflexivity|]. apply nolf_cons in H as [H1 H2].
  cbn [app after_lf]. unfold LF in H1. destruct (Z.eqb_spec b 10); [contradiction|]. auto.
Qed.

Lemma first_lf p : 0 < countLF p -> exists q r, p = q ++ LF :: r /\ countLF q = 0.
Proof.
  induction p as [|b p IH]; cbn [countLF]; [lia|]. intros H. destruct (Z.eqb_spec b LF).
  - exists [], p. subst. auto.
  - destruct IH as (q & r & -> & C); [lia|]. exists (b :: q), r. split; auto.
    cbn [countLF]. destruct (Z.eqb_spec b LF); [contradiction|]. lia.
Qed.

Lemma drop_lines_app n : forall p x, line_end p -> countLF p = Z.of_nat n -> drop_lines n (p ++ x) = x.
Proof.
  induction n as [|n IH]; intros p x P C.
  - destruct P as [->|(q & ->)]; [reflexivity|]. rewrite countLF_app in C. change (countLF [LF]) with 1 in C.
    pose proof (countLF_nonneg q). lia.
  - destruct (first_lf p) as (q & r & -> & Cq); [lia|]. cbn [drop_lines].
    rewrite <- app_assoc. cbn [app]. rewrite after_lf_app by auto.
    rewrite countLF_app, Cq in C. cbn [countLF] in C. rewrite Z.eqb_refl in C.
    apply IH; [|lia]. destruct P as [P|(q2 & P)]; [destruct q; discriminate|].
    destruct (exists_last (l := LF :: r)) as (i & z & E); [congruence|].
    rewrite E, app_assoc in P. apply app_inj_tail in P as [_ ->].
    destruct i as [|i0 i].
    + cbn [app] in E. injection E as ->. left. reflexivity.
    + cbn [app] in E. injection E as <- ->. right. eauto.
Qed.

Lemma take_until_app a b : countLF a = 0 -> take_until_lf (a ++ b) = a ++ take_until_lf b.
Proof.
  induction a as [|x a IH]; intros H; [reflexivity|]. apply nolf_cons in H as [H1 H2].
  cbn [app take_until_lf]. unfold LF in H1. destruct (Z.eqb_spec x 10); [contradiction|]. f_equal. auto.
Qed.

Lemma countLF_rev l : countLF (rev l) = countLF l.
Proof. induction l; auto. cbn [rev countLF]. rewrite countLF_app, IHl. cbn [countLF]. lia. Qed.

Lemma last_line_app p x : line_end p -> countLF x = 0 -> last_line (p ++ x) = x.
Proof.
  intros P C. unfold last_line. rewrite rev_app_distr, take_until_app by (rewrite countLF_rev; auto).
  destruct P as [->|(q & ->)].
  - cbn. rewrite app_nil_r. apply rev_involutive.
  - rewrite (rev_app_distr q [LF]). change (take_until_lf (rev [LF] ++ rev q)) with (@nil Z).
    rewrite app_nil_r. apply rev_involutive.
Qed.

Lemma countLF_prefix a b : countLF (a ++ b) = 0 -> countLF a = 0.
Proof. rewrite countLF_app. pose proof (countLF_nonneg a). pose proof (countLF_nonneg b). lia. Qed.

Lemma firstn_concat_split {A} k (l : list (list A)) :
  concat l = concat (firstn k l) ++ concat (skipn k l).
Proof. rewrite <- concat_app, firstn_skipn. reflexivity. Qed.

Lemma boundary_range c pos : boundary c pos -> 0 <= pos <= zlen c.
Proof.
  intros (k & ->). unfold zlen. rewrite <- (concat_runes c) at 3.
  rewrite (firstn_concat_split k (runes c)), app_length. lia.
Qed.

Lemma boundary_prefix c pos : boundary c pos ->
  exists k, firstn (Z.to_nat pos) c = concat (firstn k (runes c)).
Proof.
  intros (k & ->). exists k. rewrite Nat2Z.id. rewrite <- (concat_runes c) at 2.
  rewrite (firstn_concat_split k (runes c)).
  rewrite firstn_app, firstn_all, Nat.sub_diag. cbn [firstn]. apply app_nil_r.
Qed.

Lemma prefix_eq {A} (a b c d : list A) : a ++ b = c ++ d -> length a = length c -> a = c.
Proof.
  revert c; induction a; destruct c; simpl; intros; try lia; auto. injection H as -> H. f_equal. eauto.
Qed.

Lemma boundary_line p ll suf : line_end p -> countLF ll = 0 ->
  boundary (p ++ ll ++ suf) (zlen (p ++ ll)) ->
  exists k, concat (firstn k (runes (ll ++ take_until_lf suf))) = ll.
Proof.
  intros P C (k & E). unfold zlen in E. apply Nat2Z.inj in E. rewrite app_length in E.
  rewrite runes_app_end in E by auto.
  assert (K : exists k', concat (firstn k' (runes (ll ++ suf))) = ll).
  { rewrite firstn_app, concat_app, app_length in E.
    assert (LP : (length (concat (firstn k (runes p))) <= length p)%nat).
    { rewrite <- (concat_runes p) at 2. rewrite (firstn_concat_split k (runes p)), app_length. lia. }
    destruct (Nat.le_gt_cases k (length (runes p))) as [Hk|Hk].
    - replace (k - length (runes p))%nat with 0%nat in E by lia. cbn in E.
      exists 0%nat. cbn. destruct ll; auto. cbn in E. lia.
    - exists (k - length (runes p))%nat.
      rewrite (firstn_all2 (runes p)) in E by lia. rewrite concat_runes in E.
      apply (prefix_eq _ (concat (skipn (k - length (runes p)) (runes (ll ++ suf)))) _ suf); [|lia].
      rewrite <- firstn_concat_split, concat_runes. reflexivity. }
  destruct K as (k' & K). destruct (take_until_split suf) as (t & E2 & C2 & P2).
  set (ln := ll ++ take_until_lf suf). assert (EL : ll ++ suf = ln ++ t).
  { unfold ln. rewrite <- app_assoc, <- E2. reflexivity. }
  rewrite EL, runes_app_line, firstn_app, concat_app in K by auto.
  destruct (Nat.le_gt_cases k' (length (runes ln))) as [Hk|Hk].
  - exists k'. replace (k' - length (runes ln))%nat with 0%nat in K by lia. cbn in K.
    rewrite app_nil_r in K. exact K.
  - exists k'. rewrite (firstn_all2 (runes ln)) in * by lia. rewrite concat_runes in *.
    enough (X : concat (firstn (k' - length (runes ln)) (runes t)) = []).
    { rewrite X, app_nil_r in K. exact K. }
    apply (f_equal (@length Z)) in K. rewrite app_length in K. unfold ln in K at 1. rewrite app_length in K.
    destruct (concat (firstn (k' - length (runes ln)) (runes t))); auto. cbn [length] in K. lia.
Qed.

Lemma pos_lineCol c pos : boundary c pos ->
  let '(line, col) := line_col_spec c pos in pos_spec c line col = pos.
Proof.
  intros B. pose proof (boundary_range c pos B) as R. unfold line_col_spec.
  replace (clamp (length c) pos) with (Z.to_nat pos) by (unfold clamp, zlen in *; lia). cbv zeta.
  set (pre := firstn (Z.to_nat pos) c).
  assert (Lp : zlen pre = pos) by (unfold zlen, pre in *; rewrite firstn_length; lia).
  destruct (last_line_split pre) as (p & E & C & P). set (ll := last_line pre) in *.
  apply countLF_zero in C. set (suf := skipn (Z.to_nat pos) c).
  assert (EC : c = p ++ ll ++ suf).
  { rewrite app_assoc, <- E. unfold pre, suf. symmetry. apply firstn_skipn. }
  rewrite <- Lp, E, EC in B. apply boundary_line in B as (k & K); auto.
  assert (CP : lf_count pre = Z.to_nat (countLF p)).
  { rewrite E. apply Nat2Z.inj. rewrite <- countLF_lf, countLF_app, C. pose proof (countLF_nonneg p). lia. }
  pose proof (countLF_nonneg p) as NP. rewrite CP. unfold pos_spec.
  destruct (Z.leb_spec (1 + Z.of_nat (Z.to_nat (countLF p))) 0); [lia|].
  destruct (Z.leb_spec (1 + Z.of_nat (length (runes ll))) 0); [lia|]. cbn [orb].
  assert (LC : line_count c = 1 + countLF c) by (unfold line_count; rewrite <- countLF_lf; reflexivity).
  assert (CA : countLF c = countLF p + countLF ll + countLF suf) by (rewrite EC, !countLF_app; lia).
  pose proof (countLF_nonneg suf). rewrite LC.
  destruct (Z.ltb_spec (1 + countLF c) (1 + Z.of_nat (Z.to_nat (countLF p)))); [lia|].
  unfold line_text.
  replace (Z.to_nat (1 + Z.of_nat (Z.to_nat (countLF p)) - 1)) with (Z.to_nat (countLF p)) by lia.
  assert (DL : drop_lines (Z.to_nat (countLF p)) c = ll ++ suf).
  { rewrite EC. apply drop_lines_app; auto. lia. }
  rewrite DL, take_until_app by auto.
  replace (Z.to_nat (1 + Z.of_nat (length (runes ll)) - 1)) with (length (runes ll)) by lia.
  assert (F : firstn (length (runes ll)) (runes (ll ++ take_until_lf suf)) = runes ll).
  { rewrite <- K at 1 3. rewrite runes_firstn. rewrite firstn_length.
    destruct (Nat.le_gt_cases k (length (runes (ll ++ take_until_lf suf)))).
    - rewrite Nat.min_l by lia. reflexivity.
    - rewrite Nat.min_r by lia. rewrite firstn_all, firstn_all2 by lia. reflexivity. }
  rewrite F, concat_runes. rewrite EC at 1. rewrite !app_length.
  rewrite <- Lp, E at 1. rewrite zlen_app. unfold zlen. lia.
Qed.

(** what Pos returns for an existing line and column *)
Lemma pos_spec_split c line col : 1 <= line <= line_count c -> 1 <= col ->
  exists p x y t, c = p ++ (x ++ y) ++ t /\ line_end p /\ countLF p = line - 1 /\
    line_text c line = x ++ y /\ countLF (x ++ y) = 0 /\ (t = [] \/ exists t', t = LF :: t') /\
    runes x = firstn (Z.to_nat (col - 1)) (runes (x ++ y)) /\ pos_spec c line col = zlen (p ++ x).
Proof.
  intros HL HC. unfold line_count in HL. rewrite <- countLF_lf in HL.
  destruct (drop_lines_split (Z.to_nat (line - 1)) c ltac:(lia)) as (p & E & C & P).
  set (rest := drop_lines (Z.to_nat (line - 1)) c) in *.
  destruct (take_until_split rest) as (t & E2 & C2 & P2).
  set (ln := take_until_lf rest) in *. set (n := Z.to_nat (col - 1)).
  exists p, (concat (firstn n (runes ln))), (concat (skipn n (runes ln))), t.
  rewrite <- firstn_concat_split, concat_runes.
  split; [rewrite <- E2; auto|]. split; [exact P|]. split; [lia|]. split; [reflexivity|].
  split; [auto|]. split; [auto|]. split; [apply runes_firstn|].
  unfold pos_spec. destruct (Z.leb_spec line 0); [lia|]. destruct (Z.leb_spec col 0); [lia|]. cbn [orb].
  unfold line_count. rewrite <- countLF_lf.
  destruct (Z.ltb_spec (1 + countLF c) line); [lia|].
  unfold line_text. fold rest ln n. rewrite zlen_app. rewrite E at 1. rewrite app_length. unfold zlen. lia.
Qed.

Lemma pos_spec_range c line col : 0 <= pos_spec c line col <= zlen c.
Proof.
  destruct (Z.leb_spec line 0).
  { unfold pos_spec. destruct (Z.leb_spec line 0); [|lia]. cbn [orb]. unfold zlen. lia. }
  destruct (Z.leb_spec col 0).
  { unfold pos_spec. destruct (Z.leb_spec col 0); [|lia]. rewrite orb_true_r. unfold zlen. lia. }
  destruct (Z.leb_spec line (line_count c)).
  - destruct (pos_spec_split c line col) as (p & x & y & t & E & _ & _ & _ & _ & _ & _ & ->); try lia.
    rewrite E. rewrite !zlen_app. pose proof (zlen_nonneg p). pose proof (zlen_nonneg x).
    pose proof (zlen_nonneg y). pose proof (zlen_nonneg t). lia.
  - unfold pos_spec. destruct (Z.leb_spec line 0); [lia|]. destruct (Z.leb_spec col 0); [lia|]. cbn [orb].
    destruct (Z.ltb_spec (line_count c) line); [|lia]. unfold zlen. lia.
Qed.

Lemma pos_spec_boundary c line col : boundary c (pos_spec c line col).
Proof.
  assert (B0 : boundary c 0) by (exists 0%nat; reflexivity).
  destruct (Z.leb_spec line 0).
  { unfold pos_spec. destruct (Z.leb_spec line 0); [|lia]. exact B0. }
  destruct (Z.leb_spec col 0).
  { unfold pos_spec. destruct (Z.leb_spec col 0); [|lia]. rewrite orb_true_r. exact B0. }
  destruct (Z.leb_spec line (line_count c)).
  - destruct (pos_spec_split c line col) as (p & x & y & t & E & P & _ & _ & _ & T & RX & ->); try lia.
    exists (length (runes p) + length (runes x))%nat.
    assert (RC : runes c = runes p ++ runes (x ++ y) ++ runes t).
    { rewrite E, runes_app_end, runes_app_line by auto. reflexivity. }
    rewrite RC. rewrite firstn_app_2, firstn_app, !concat_app, !app_length, concat_runes.
    rewrite RX at 1. rewrite firstn_length.
    assert (F : firstn (Nat.min (Z.to_nat (col - 1)) (length (runes (x ++ y)))) (runes (x ++ y)) = runes x).
    { rewrite RX. destruct (Nat.le_gt_cases (Z.to_nat (col - 1)) (length (runes (x ++ y)))).
      - rewrite Nat.min_l by lia. reflexivity.
      - rewrite Nat.min_r by lia. rewrite firstn_all, firstn_all2 by lia. reflexivity. }
    rewrite F, concat_runes. rewrite RX, firstn_length.
    replace (Nat.min _ _ - length (runes (x ++ y)))%nat with 0%nat by lia. cbn. rewrite zlen_app. unfold zlen. lia.
  - unfold pos_spec. destruct (Z.leb_spec line 0); [lia|]. destruct (Z.leb_spec col 0); [lia|]. cbn [orb].
    destruct (Z.ltb_spec (line_count c) line); [|lia].
    exists (length (runes c)). rewrite firstn_all, concat_runes. reflexivity.
Qed.

Lemma lineCol_pos c line col : 1 <= line <= line_count c ->
  1 <= col <= 1 + Z.of_nat (length (runes (line_text c line))) ->
  line_col_spec c (pos_spec c line col) = (line, col).
Proof.
  intros HL HC.
  destruct (pos_spec_split c line col) as (p & x & y & t & E & P & CP & LT & NL & T & RX & ->); try lia.
  unfold line_col_spec.
  assert (CL : clamp (length c) (zlen (p ++ x)) = length (p ++ x)).
  { unfold clamp, zlen. rewrite E at 1. rewrite !app_length. lia. }
  rewrite CL. cbv zeta.
  assert (F : firstn (length (p ++ x)) c = p ++ x).
  { rewrite E. rewrite <- app_assoc, app_assoc. rewrite firstn_app, firstn_all, Nat.sub_diag.
    cbn [firstn]. apply app_nil_r. }
  rewrite F. pose proof (countLF_prefix _ _ NL) as NX. rewrite last_line_app by auto.
  rewrite <- countLF_lf, countLF_app, NX, CP. rewrite RX, firstn_length. rewrite LT in HC.
  f_equal; lia.
Qed.
