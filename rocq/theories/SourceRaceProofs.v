(** LineCol called by several goroutines (SourceRace.v). *)
From Coq Require Import ZArith List Lia Bool Arith.
From Verif Require Import Base BaseProofs QueueProofs Utf8 Source SourceSpec SourceProofs SourceRace SourceRaceSpec.
Import ListNotations.
Open Scope Z_scope.

Lemma pair_inj {A B} (a a' : A) (b b' : B) : (a, b) = (a', b') -> a = a' /\ b = b'. Proof. intros E. injection E. auto. Qed.
Section R.
Variable c : list Z.
Notation n := (zlen (starts c)).
Lemma finish_right s p pos : content s = c -> lineStarts s = starts c -> 0 <= p <= zlen c -> clamp (length c) pos = Z.to_nat p -> finish s (lineIdx c p) p = Finished (Some (line_col_spec c pos)).
Proof.
  intros A B Hp Hcl. unfold finish. rewrite A, B. pose proof (lineIdx_range c p). rewrite (zget_Some _ _ 0) by lia. cbn [obind]. fold (gz (starts c) (lineIdx c p)).
  rewrite line_start, slice_last_line by auto. cbn [obind]. do 2 f_equal. unfold line_col_spec. rewrite Hcl. cbv zeta. unfold lineIdx, runeCount. rewrite countLF_lf. f_equal; lia.
Qed.
Definition inside (pos : Z) : Prop := 0 <= pos < zlen c.
(** what a goroutine relies on, it reads prevLineIndex more than once *)
Definition relies (s : src) (pos : Z) (p : pc) : Prop :=
  match p with
  | Enter => True
  | AtStart => inside pos /\ 0 <= prevLineIndex s
  | AtScan => inside pos /\ 0 <= prevLineIndex s <= lineIdx c pos
  | AtCheck => inside pos /\ (0 <= prevLineIndex s -> lineIdx c pos < prevLineIndex s)
  | AtLine | AtRight => inside pos /\ 0 <= prevLineIndex s /\ lineIdx c pos < prevLineIndex s
  | AtStore i => inside pos /\ i = lineIdx c pos
  end.
Definition amid (p : pc) : bool := match p with Enter | AtStore _ => false | _ => true end.
Lemma relies_same s s' pos p : relies s pos p -> prevLineIndex s' = prevLineIndex s \/ amid p = false -> relies s' pos p.
Proof. intros H [E|E]; destruct p; cbn [relies amid] in *; try discriminate; try rewrite E; auto. Qed.
Definition rightNext (s' : src) (pos : Z) (x : next) : Prop := match x with Go p => relies s' pos p | Finished r => r = Some (line_col_spec c pos) end.
Lemma search_right s right pos : srcOK c s -> inside pos -> lineIdx c pos <= right < n -> rightNext s pos (search s right pos).
Proof.
  intros (HC & HS & HP) HI HR. unfold inside in HI. pose proof (lineIdx_range c pos). unfold search. rewrite HS. destruct (searchLines_spec c pos ltac:(lia) (length (starts c)) 0 right 0) as (e & ->); [lia|lia|lia|unfold zlen in *; lia|].
  destruct e; cbn [rightNext relies]; [|split; [exact HI|reflexivity]]. rewrite (finish_right s pos pos HC HS); [reflexivity|lia|unfold clamp, zlen in *; lia].
Qed.
Lemma pstep_right s pos p s' x : srcOK c s -> relies s pos p -> pstep s pos p = (s', x) -> srcOK c s' /\ rightNext s' pos x.
Proof.
  intros OK RL E. pose proof OK as (HC & HS & HP). pose proof (zlen_nonneg c) as LN. destruct p as [| | | | | |i]; cbn [pstep] in E.
  - destruct (Z.ltb_spec pos 0); [|rewrite HC, HS in E; destruct (Z.leb_spec (zlen c) pos)]; apply pair_inj in E; destruct E as (<- & <-); (split; [exact OK|]).
    + replace 0 with (lineIdx c 0) at 1 by reflexivity. rewrite (finish_right s 0 pos HC HS); [reflexivity|lia|unfold clamp; lia].
    + assert (EL : lineIdx c (zlen c) = n - 1). { rewrite starts_len. unfold lineIdx. replace (Z.to_nat (zlen c)) with (length c) by (unfold zlen; lia). rewrite firstn_all. lia. }
      rewrite <- EL, (finish_right s (zlen c) pos HC HS); [reflexivity|lia|unfold clamp, zlen in *; lia].
    + destruct (Z.leb_spec 0 (prevLineIndex s)); cbn [rightNext relies]; unfold inside; lia.
  - destruct RL as (HI & HV). unfold inside in HI. rewrite HS, (zget_Some _ _ 0) in E by lia. fold (gz (starts c) (prevLineIndex s)) in E. apply pair_inj in E; destruct E as (<- & <-). split; [exact OK|]. pose proof (key c pos (prevLineIndex s) ltac:(lia) ltac:(lia)) as K.
    destruct (Z.leb_spec (gz (starts c) (prevLineIndex s)) pos); cbn [rightNext relies]; unfold inside; lia.
  - destruct RL as (HI & HV). unfold inside in HI. rewrite HS, scanLines_spec in E; [|lia|lia|unfold zlen; lia]. apply pair_inj in E; destruct E as (<- & <-). split; [exact OK|]. cbn [rightNext relies]. unfold inside. lia.
  - destruct RL as (HI & HV). pose proof (lineIdx_range c pos). destruct (Z.leb_spec 0 (prevLineIndex s)); apply pair_inj in E; destruct E as (<- & <-); (split; [exact OK|]).
    + cbn [rightNext relies]. auto.
    + rewrite HS. apply search_right; [exact OK|exact HI|lia].
  - destruct RL as (HI & HV). rewrite HS, (zget_Some _ _ 0) in E by lia. apply pair_inj in E; destruct E as (<- & <-). split; [exact OK|]. cbn [rightNext relies]. auto.
  - destruct RL as (HI & HV). apply pair_inj in E; destruct E as (<- & <-). split; [exact OK|]. apply search_right; [exact OK|exact HI|lia].
  - destruct RL as (HI & ->). unfold inside in HI. apply pair_inj in E; destruct E as (<- & <-). split; [split; [exact HC|split; [exact HS|]]; cbn [prevLineIndex]; pose proof (lineIdx_range c pos); lia|].
    rewrite (finish_right s pos pos HC HS); [reflexivity|lia|unfold clamp, zlen in *; lia].
Qed.
(** a goroutine that asks for [asked] *)
Definition fine (s : src) (asked : list Z) (t : thread) : Prop :=
  exists d, asked = d ++ asks t /\ got t = map (fun pos => Some (line_col_spec c pos)) d /\ match asks t with [] => True | pos :: _ => relies s pos (at_ t) end.
Lemma tstep_right s asked t s' t' : srcOK c s -> fine s asked t -> tstep s t = (s', t') -> srcOK c s' /\ fine s' asked t'.
Proof.
  intros OK (d & EA & EG & RL) E. unfold tstep in E. destruct (asks t) as [|pos rest] eqn:A; [apply pair_inj in E; destruct E as (<- & <-); split; [exact OK|]; exists d; rewrite A; auto|].
  destruct (pstep s pos (at_ t)) as (s1, x) eqn:P. destruct (pstep_right _ _ _ _ _ OK RL P) as (OK1 & RN). destruct x as [p|r]; apply pair_inj in E; destruct E as (<- & <-); (split; [exact OK1|]).
  - exists d. cbn [asks got at_]. auto.
  - cbn [rightNext] in RN. subst r. exists (d ++ [pos]). cbn [asks got at_]. rewrite <- app_assoc, map_app, EG. split; [exact EA|]. split; [reflexivity|]. destruct rest; exact I.
Qed.
Definition allFine (asked : list (list Z)) (x : src * list thread) : Prop := srcOK c (fst x) /\ Forall2 (fine (fst x)) asked (snd x).
Lemma F2_nth {A B} (R : A -> B -> Prop) l l' : Forall2 R l l' -> forall i b, nth_error l' i = Some b -> exists a, nth_error l i = Some a /\ R a b.
Proof. induction 1 as [|a b l l' H F IH]; intros [|i] y E; cbn in *; try discriminate; [injection E as <-; eauto|]. apply IH, E. Qed.
Lemma F2_upd {A B} (R R' : A -> B -> Prop) l l' i y : Forall2 R l l' -> (forall j a b, nth_error l j = Some a -> nth_error l' j = Some b -> R a b -> j <> i -> R' a b) -> (forall a, nth_error l i = Some a -> R' a y) -> Forall2 R' l (upd l' i y).
Proof.
  intros F. revert i. induction F as [|a b l l' H F IH]; intros i O Y; [destruct i; constructor|]. destruct i as [|i]; cbn [upd].
  - constructor; [apply Y; reflexivity|]. clear - F O. assert (O' : forall j a b, nth_error l j = Some a -> nth_error l' j = Some b -> R a b -> R' a b) by (intros j a0 b0 E1 E2 X; apply (O (S j) a0 b0 E1 E2 X); discriminate). clear O.
    induction F as [|a' b' l l' H F IH]; constructor; [apply (O' 0%nat); auto|]. apply IH. intros j a0 b0 E1 E2. apply (O' (S j)); assumption.
  - constructor; [apply (O 0%nat); auto; discriminate|]. apply IH; [|intros a0 E; apply Y, E]. intros j a0 b0 E1 E2 X N. apply (O (S j) a0 b0 E1 E2 X). congruence.
Qed.
(** no step changes prevLineIndex while another goroutine is amid its reading *)
Fixpoint undisturbed (schedule : list nat) (x : src * list thread) : Prop :=
  match schedule with
  | [] => True
  | i :: r =>
      (prevLineIndex (fst (sysStep i x)) <> prevLineIndex (fst x) -> forall j t, j <> i -> nth_error (snd x) j = Some t -> asks t <> [] -> amid (at_ t) = false) /\
      undisturbed r (sysStep i x)
  end.
Lemma sys_right i x asked : allFine asked x -> (prevLineIndex (fst (sysStep i x)) <> prevLineIndex (fst x) -> forall j t, j <> i -> nth_error (snd x) j = Some t -> asks t <> [] -> amid (at_ t) = false) -> allFine asked (sysStep i x).
Proof.
  destruct x as (s, ts). intros (OK & F) U. cbn [fst snd] in *. unfold sysStep in *. destruct (nth_error ts i) as [t|] eqn:N; [|split; assumption].
  destruct (tstep s t) as (s', t') eqn:T. cbn [fst] in U. destruct (F2_nth _ _ _ F _ _ N) as (a & NA & FA). destruct (tstep_right _ _ _ _ _ OK FA T) as (OK' & FT). split; [exact OK'|]. cbn [fst snd].
  apply (F2_upd (fine s)); [exact F| |intros a0 E; rewrite NA in E; injection E as <-; exact FT].
  intros j a0 b0 E1 E2 (d & D1 & D2 & D3) J. exists d. split; [exact D1|]. split; [exact D2|]. destruct (asks b0) as [|pos rest] eqn:AB; [exact I|]. eapply relies_same; [exact D3|].
  destruct (Z.eq_dec (prevLineIndex s') (prevLineIndex s)) as [EQ|NE]; [left; exact EQ|right]. apply (U NE j b0 J E2). rewrite AB. discriminate.
Qed.
Lemma run_right schedule : forall x asked, allFine asked x -> undisturbed schedule x -> allFine asked (runAll schedule x).
Proof. induction schedule as [|i r IH]; intros x asked F U; [exact F|]. destruct U as (U1 & U2). cbn [runAll]. apply IH; [apply sys_right; assumption|exact U2]. Qed.
Lemma start_fine s asked : srcOK c s -> allFine asked (s, map call asked).
Proof. intros OK. split; [exact OK|]. cbn [fst snd]. induction asked as [|a l IH]; constructor; [|exact IH]. exists []. cbn. split; [reflexivity|]. split; [reflexivity|]. destruct a; exact I. Qed.

(** ** Any schedule *)
(** the line found is a line of the source *)
Definition safePc (s : src) (pos : Z) (p : pc) : Prop :=
  match p with
  | Enter => True
  | AtCheck => inside pos
  | AtStore i => inside pos /\ 0 <= i < n
  | _ => inside pos /\ 0 <= prevLineIndex s
  end.
(** line [l] is a line of the text, the answer is a panic or says it is line [l] *)
Definition lineOf (r : option (Z * Z)) : Prop := match r with Some (l, k) => 1 <= l <= line_count c /\ 1 <= k | None => True end.
Definition safeNext (s : src) (pos : Z) (x : next) : Prop := match x with Go p => safePc s pos p | Finished r => lineOf r end.
Lemma finish_safe s i p pos : lineStarts s = starts c -> 0 <= i < n -> safeNext s pos (finish s i p).
Proof.
  intros HS R. unfold finish, safeNext, lineOf. rewrite HS. destruct (zget (starts c) i) as [v|]; cbn [obind]; [|exact I]. destruct (zslice (content s) v p); cbn [obind]; [|exact I]. rewrite starts_len, countLF_lf in R. unfold line_count, runeCount. lia.
Qed.
Lemma scan_range pos : forall fuel i r, 0 <= i < n -> gz (starts c) 0 <= pos -> scanLines fuel (starts c) i (n - 1) pos = Some r -> 1 <= r <= n.
Proof.
  assert (G : forall fuel i r, 1 <= i <= n -> scanLines fuel (starts c) i (n - 1) pos = Some r -> 1 <= r <= n).
  { induction fuel as [|f IH]; intros i r H E; [discriminate|]. cbn [scanLines] in E. destruct (Z.leb_spec i (n - 1)); [|injection E as <-; lia]. rewrite (zget_Some _ _ 0) in E by lia. cbn [obind] in E. destruct (_ <=? pos); [|injection E as <-; lia]. refine (IH _ _ _ E). lia. }
  intros fuel i r H Z0 E. destruct (Z.eq_dec i 0) as [->|NE]; [|apply (G fuel i); [lia|exact E]]. destruct fuel as [|f]; [discriminate|]. cbn [scanLines] in E. destruct (Z.leb_spec 0 (n - 1)); [|lia]. rewrite (zget_Some _ _ 0) in E by lia. cbn [obind] in E. change (nth _ _ _) with (gz (starts c) 0) in E. destruct (Z.leb_spec (gz (starts c) 0) pos); [|lia]. apply (G f 1); [lia|exact E].
Qed.
Lemma search_range pos : forall fuel l r i x e, 0 <= l -> l <= i \/ l < r -> 0 <= i < n -> r < n -> searchLines fuel (starts c) l r i pos = Some (x, e) -> 0 <= x < n.
Proof.
  induction fuel as [|f IH]; intros l r i x e HL HX HI HR E; cbn [searchLines] in E; destruct (Z.ltb_spec l r); try discriminate; try (injection E as <- _; lia).
  set (m := Z.shiftr (l + r + 1) 1) in *. assert (Hm : l < m <= r). { unfold m. rewrite Z.shiftr_div_pow2 by lia. change (2 ^ 1) with 2. pose proof (Z.div_mod (l + r + 1) 2). pose proof (Z.mod_pos_bound (l + r + 1) 2). lia. }
  rewrite (zget_Some _ _ 0) in E by lia. cbn [obind] in E. destruct (_ =? pos); [injection E as <- _; lia|]. destruct (_ <? pos).
  - refine (IH _ _ _ _ _ _ _ _ _ E); lia.
  - refine (IH _ _ _ _ _ _ _ _ _ E); lia.
Qed.
Lemma search_safe s right pos : lineStarts s = starts c -> inside pos -> right < n -> safeNext s pos (search s right pos).
Proof.
  intros HS HI HR. unfold search. rewrite HS. pose proof (lineIdx_range c 0). destruct (searchLines _ _ _ _ _ _) as [(i, e)|] eqn:E; [|exact I]. apply search_range in E; try lia. destruct e; [apply finish_safe; assumption|]. split; assumption.
Qed.
Lemma pstep_safe s pos p s' x : srcOK c s -> safePc s pos p -> pstep s pos p = (s', x) -> srcOK c s' /\ safeNext s' pos x /\ (0 <= prevLineIndex s -> 0 <= prevLineIndex s').
Proof.
  intros OK SP E. pose proof OK as (HC & HS & HP). pose proof (zlen_nonneg c) as LN. pose proof (lineIdx_range c 0) as NN. assert (G0 : gz (starts c) 0 = 0) by reflexivity. destruct p as [| | | | | |i]; cbn [pstep] in E.
  - destruct (Z.ltb_spec pos 0); [|rewrite HC in E; destruct (Z.leb_spec (zlen c) pos)]; apply pair_inj in E; destruct E as (<- & <-); (split; [exact OK|split; [|auto]]).
    + apply finish_safe; [exact HS|lia].
    + rewrite HS. apply finish_safe; [exact HS|lia].
    + destruct (Z.leb_spec 0 (prevLineIndex s)); cbn [safeNext safePc]; unfold inside; lia.
  - apply pair_inj in E; destruct E as (<- & <-). split; [exact OK|split; [|auto]]. destruct SP as (HI & HV). destruct (zget _ _) as [v|]; [|exact I]. destruct (v <=? pos); cbn [safeNext safePc]; auto.
  - apply pair_inj in E; destruct E as (<- & <-). split; [exact OK|split; [|auto]]. destruct SP as (HI & HV). rewrite HS. unfold inside in HI. destruct (scanLines _ _ _ _ _) as [i|] eqn:SC; [|exact I]. apply scan_range in SC; [|lia|lia]. cbn [safeNext safePc]. unfold inside. lia.
  - apply pair_inj in E; destruct E as (<- & <-). split; [exact OK|split; [|auto]]. cbn [safePc] in SP. destruct (Z.leb_spec 0 (prevLineIndex s)); [cbn [safeNext safePc]; auto|]. rewrite HS. apply search_safe; [exact HS|exact SP|lia].
  - apply pair_inj in E; destruct E as (<- & <-). split; [exact OK|split; [|auto]]. destruct SP as (HI & HV). destruct (zget _ _) as [v|]; [|exact I]. cbn [safeNext safePc]; auto.
  - apply pair_inj in E; destruct E as (<- & <-). split; [exact OK|split; [|auto]]. destruct SP as (HI & HV). apply search_safe; [exact HS|exact HI|lia].
  - apply pair_inj in E; destruct E as (<- & <-). destruct SP as (HI & HV). split; [|split]; [split; [exact HC|split; [exact HS|]]; cbn [prevLineIndex]; lia| |cbn [prevLineIndex]; lia].
    pose proof (finish_safe s i pos pos HS HV) as X. exact X.
Qed.
Definition safeT (s : src) (t : thread) : Prop := Forall lineOf (got t) /\ match asks t with [] => True | pos :: _ => safePc s pos (at_ t) end.
Lemma safePc_mono s s' pos p : (0 <= prevLineIndex s -> 0 <= prevLineIndex s') -> safePc s pos p -> safePc s' pos p.
Proof. intros M. destruct p; cbn [safePc]; intuition. Qed.
Lemma safe_run schedule : forall x, srcOK c (fst x) -> Forall (safeT (fst x)) (snd x) -> srcOK c (fst (runAll schedule x)) /\ Forall (safeT (fst (runAll schedule x))) (snd (runAll schedule x)).
Proof.
  induction schedule as [|i r IH]; intros (s, ts) OK F; [split; assumption|]. cbn [runAll]. cbn [fst snd] in *. assert (X : srcOK c (fst (sysStep i (s, ts))) /\ Forall (safeT (fst (sysStep i (s, ts)))) (snd (sysStep i (s, ts)))); [|apply IH; apply X].
  unfold sysStep. destruct (nth_error ts i) as [t|] eqn:N; [|split; assumption]. destruct (tstep s t) as (s', t') eqn:T. cbn [fst snd].
  assert (FT : safeT s t) by (rewrite Forall_forall in F; apply F, (nth_error_In _ _ N)). destruct FT as (FG & FA).
  assert (Y : srcOK c s' /\ safeT s' t' /\ (0 <= prevLineIndex s -> 0 <= prevLineIndex s')).
  { unfold tstep in T. destruct (asks t) as [|pos rest] eqn:A; [injection T as <- <-; split; [exact OK|split; [|auto]]; split; [exact FG|rewrite A; exact I]|]. destruct (pstep s pos (at_ t)) as (s1, y) eqn:P. destruct (pstep_safe _ _ _ _ _ OK FA P) as (OK1 & SN & MO).
    destruct y as [p|a]; injection T as <- <-; (split; [exact OK1|split; [|exact MO]]); split; cbn [got asks at_]; auto; [apply Forall_app; split; [exact FG|constructor; [exact SN|constructor]]|]. destruct a; [destruct rest|]; exact I. }
  destruct Y as (Y1 & Y2 & Y3). split; [exact Y1|]. clear - F Y2 Y3 N. revert i N. induction F as [|a l H F IH]; intros i N; [destruct i; discriminate|]. assert (M : forall a, safeT s a -> safeT s' a) by (intros a0 (M1 & M2); split; [exact M1|]; destruct (asks a0); [exact I|]; eapply safePc_mono; eassumption).
  destruct i as [|i]; cbn [upd]; constructor; auto. eapply Forall_impl; [|exact F]. exact M.
Qed.
(** ** Each call ends *)
Definition rank (p : pc) : nat := match p with Enter => 6 | AtStart => 5 | AtScan | AtCheck => 4 | AtLine => 3 | AtRight => 2 | AtStore _ => 1 end.
Definition left_ (t : thread) : nat := match asks t with [] => 0 | _ :: rest => rank (at_ t) + 6 * length rest end.
Lemma tstep_less s t s' t' : tstep s t = (s', t') -> (left_ t' <= pred (left_ t))%nat.
Proof.
  unfold tstep, left_. destruct (asks t) as [|pos rest] eqn:A; [intros E; apply pair_inj in E; destruct E as (<- & <-); rewrite A; cbn; lia|]. destruct (pstep s pos (at_ t)) as (s1, y) eqn:P. destruct y as [p|a]; intros E; apply pair_inj in E; destruct E as (<- & <-); cbn [asks at_].
  - assert (R : (rank p < rank (at_ t))%nat); [|lia]. assert (SR : forall s right pos p, search s right pos = Go p -> rank p = 1%nat).
    { clear. intros s right pos p. unfold search, finish. destruct (searchLines _ _ _ _ _ _) as [(i, [])|]; try discriminate. intros E. injection E as <-. reflexivity. }
    unfold finish in P. destruct (at_ t) as [| | | | | |i]; cbn [pstep] in P; apply pair_inj in P || (destruct (pos <? 0); [apply pair_inj in P|destruct (zlen (content s) <=? pos); apply pair_inj in P]); destruct P as (_ & P); try discriminate.
    + destruct (0 <=? prevLineIndex s); injection P as <-; cbn; lia.
    + destruct (zget _ _) as [v|]; [|discriminate]. destruct (v <=? pos); injection P as <-; cbn; lia.
    + destruct (scanLines _ _ _ _ _); [|discriminate]. injection P as <-. cbn. lia.
    + destruct (0 <=? prevLineIndex s); [injection P as <-; cbn; lia|]. rewrite (SR _ _ _ _ P). cbn. lia.
    + destruct (zget _ _) as [v|]; [|discriminate]. injection P as <-. cbn. lia.
    + rewrite (SR _ _ _ _ P). cbn. lia.
  - assert (R : (1 <= rank (at_ t))%nat) by (destruct (at_ t); cbn; lia). destruct a; [|lia]. destruct rest; cbn [length rank]; lia.
Qed.
Lemma run_less i schedule : forall x t, nth_error (snd x) i = Some t -> exists t', nth_error (snd (runAll schedule x)) i = Some t' /\ (left_ t' <= left_ t - count_occ Nat.eq_dec schedule i)%nat.
Proof.
  induction schedule as [|j r IH]; intros (s, ts) t N; cbn [snd] in N; [exists t; split; [exact N|cbn; lia]|]. cbn [runAll count_occ].
  assert (X : exists t1, nth_error (snd (sysStep j (s, ts))) i = Some t1 /\ (left_ t1 <= left_ t - (if Nat.eq_dec j i then 1 else 0))%nat).
  { unfold sysStep. destruct (nth_error ts j) as [tj|] eqn:NJ; [|destruct (Nat.eq_dec j i) as [->|]; [congruence|]; exists t; split; [exact N|lia]]. destruct (tstep s tj) as (s', t') eqn:T. cbn [snd]. rewrite nth_error_upd by (apply nth_error_Some; congruence).
    destruct (Nat.eqb_spec i j) as [->|NE]; [|exists t; split; [exact N|]; destruct (Nat.eq_dec j i); [congruence|lia]]. exists t'. split; [reflexivity|]. destruct (Nat.eq_dec j j); [|congruence]. rewrite N in NJ. injection NJ as <-. apply tstep_less in T. lia. }
  destruct X as (t1 & N1 & L1). destruct (IH (sysStep j (s, ts)) t1 N1) as (t' & N' & L'). exists t'. split; [exact N'|]. destruct (Nat.eq_dec j i); lia.
Qed.
End R.
