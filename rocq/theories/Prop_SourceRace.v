(** C71: places asked for by several goroutines. *)
From Coq Require Import ZArith List Lia Bool Arith.
From Verif Require Import Base BaseProofs QueueProofs Utf8 Source SourceSpec SourceProofs SourceRace SourceRaceSpec SourceRaceProofs Prop_Source.
Import ListNotations.
Open Scope Z_scope.

(** A goroutine that runs alone does what the model of LineCol (C05) does. *)
Theorem alone_same s pos : exists k,
  match lineCol s pos with
  | Some (s', r) => runAll (repeat 0%nat k) (s, [call [pos]]) = (s', [mkThread [] Enter [Some r]])
  | None => snd (runAll (repeat 0%nat k) (s, [call [pos]])) = [mkThread [] Enter [None]]
  end.
Proof.
  assert (ST : forall k s t, runAll (repeat 0%nat (S k)) (s, [t]) = runAll (repeat 0%nat k) (let '(s', t') := tstep s t in (s', [t']))) by (intros k s0 t; cbn [repeat runAll]; unfold sysStep; cbn [nth_error]; destruct (tstep s0 t); reflexivity).
  assert (GO : forall k s p p', pstep s pos p = (s, Go p') -> runAll (repeat 0%nat (S k)) (s, [mkThread [pos] p []]) = runAll (repeat 0%nat k) (s, [mkThread [pos] p' []])) by (intros k s0 p p' E; rewrite ST; unfold tstep; cbn [asks at_ got]; rewrite E; reflexivity).
  assert (FI : forall s p s' i q, pstep s pos p = (s', finish s i q) -> content s' = content s -> lineStarts s' = lineStarts s ->
    match (do lineStart <- zget (lineStarts s') i; do sl <- zslice (content s') lineStart q; Some (s', (i + 1, runeCount sl + 1))) with
    | Some (s', r) => runAll (repeat 0%nat 1) (s, [mkThread [pos] p []]) = (s', [mkThread [] Enter [Some r]])
    | None => snd (runAll (repeat 0%nat 1) (s, [mkThread [pos] p []])) = [mkThread [] Enter [None]]
    end).
  { intros s0 p s' i q E EC ES. rewrite EC, ES, ST. unfold tstep. cbn [asks at_ got]. rewrite E. unfold finish. destruct (zget _ _) as [v|]; cbn [obind]; [|reflexivity]. destruct (zslice _ _ _); reflexivity. }
  assert (NO : forall s p, pstep s pos p = (s, Finished None) -> snd (runAll (repeat 0%nat 1) (s, [mkThread [pos] p []])) = [mkThread [] Enter [None]]) by (intros s0 p E; rewrite ST; unfold tstep; cbn [asks at_ got]; rewrite E; reflexivity).
  assert (SE : forall p right, pstep s pos p = (s, search s right pos) -> exists k,
    match (do p <- (do r <- (do r <- searchLines (length (lineStarts s)) (lineStarts s) 0 right 0 pos; let '(index, early) := r in if (early : bool) then Some (s, index) else Some (mkSrc (content s) (lineStarts s) index, index)); let '(s', i) := r in Some (s', pos, i)); let '(s', pos', lineIndex) := p in
      do lineStart <- zget (lineStarts s') lineIndex; do sl <- zslice (content s') lineStart pos'; Some (s', (lineIndex + 1, runeCount sl + 1))) with
    | Some (s', r) => runAll (repeat 0%nat k) (s, [mkThread [pos] p []]) = (s', [mkThread [] Enter [Some r]])
    | None => snd (runAll (repeat 0%nat k) (s, [mkThread [pos] p []])) = [mkThread [] Enter [None]]
    end).
  { intros p right E. unfold search in E. destruct (searchLines _ _ _ _ _ _) as [(i, [])|]; cbn [obind].
    - exists 1%nat. exact (FI s p s i pos E eq_refl eq_refl).
    - exists 2%nat. rewrite (GO 1%nat _ _ _ E). exact (FI s (AtStore i) (mkSrc (content s) (lineStarts s) i) i pos eq_refl eq_refl eq_refl).
    - exists 1%nat. apply NO, E. }
  unfold lineCol, call. destruct (pos <? 0) eqn:C1; [exists 1%nat; cbn [obind]; apply (FI s Enter s 0 0); [cbn [pstep]; rewrite C1|..]; reflexivity|].
  destruct (zlen (content s) <=? pos) eqn:C2; [exists 1%nat; cbn [obind]; apply (FI s Enter s); [cbn [pstep]; rewrite C1, C2|..]; reflexivity|].
  unfold findLineIndex. destruct (0 <=? prevLineIndex s) eqn:C3.
  - assert (E1 : pstep s pos Enter = (s, Go AtStart)) by (cbn [pstep]; rewrite C1, C2, C3; reflexivity). destruct (zget (lineStarts s) (prevLineIndex s)) as [v|] eqn:G; cbn [obind].
    2:{ exists 2%nat. rewrite (GO 1%nat _ _ _ E1). apply NO. cbn [pstep]. rewrite G. reflexivity. }
    destruct (v <=? pos) eqn:C4.
    + assert (E2 : pstep s pos AtStart = (s, Go AtScan)) by (cbn [pstep]; rewrite G, C4; reflexivity). destruct (scanLines _ _ _ _ _) as [i|] eqn:SC; cbn [obind].
      * exists 4%nat. rewrite (GO 3%nat _ _ _ E1), (GO 2%nat _ _ _ E2), (GO 1%nat _ _ (AtStore (i - 1))) by (cbn [pstep]; rewrite SC; reflexivity). exact (FI s (AtStore (i - 1)) (mkSrc (content s) (lineStarts s) (i - 1)) (i - 1) pos eq_refl eq_refl eq_refl).
      * exists 3%nat. rewrite (GO 2%nat _ _ _ E1), (GO 1%nat _ _ _ E2). apply NO. cbn [pstep]. rewrite SC. reflexivity.
    + assert (E2 : pstep s pos AtStart = (s, Go AtCheck)) by (cbn [pstep]; rewrite G, C4; reflexivity). assert (E3 : pstep s pos AtCheck = (s, Go AtLine)) by (cbn [pstep]; rewrite C3; reflexivity). assert (E4 : pstep s pos AtLine = (s, Go AtRight)) by (cbn [pstep]; rewrite G; reflexivity).
      destruct (SE AtRight (prevLineIndex s) eq_refl) as (k & H). exists (S (S (S (S k)))). rewrite (GO _ _ _ _ E1), (GO _ _ _ _ E2), (GO _ _ _ _ E3), (GO _ _ _ _ E4). exact H.
  - assert (E1 : pstep s pos Enter = (s, Go AtCheck)) by (cbn [pstep]; rewrite C1, C2, C3; reflexivity). destruct (SE AtCheck (zlen (lineStarts s) - 1)) as (k & H); [cbn [pstep]; rewrite C3; reflexivity|]. exists (S k). rewrite (GO _ _ _ _ E1). exact H.
Qed.

(** Full statement: tokens are immutable, so goroutines may ask them for their places at any time: whatever the schedule each gets right answers.
    It is false: a goroutine may get a wrong place or panic. *)
Definition threeLines : list Z := [97; 97; 10; 98; 98; 10; 99; 99; 10; 100; 100].
Theorem concurrent_lookups_refuted : exists s, newSrc threeLines = Some s /\
  (exists schedule t, nth_error (snd (runAll schedule (s, [call [1; 4]; call [10]]))) 0 = Some t /\ got t = [Some (1, 2); None]) /\
  (exists schedule t, nth_error (snd (runAll schedule (s, [call [10; 4]; call [1]]))) 0 = Some t /\ got t = [Some (4, 2); Some (1, 5)] /\ line_col_spec threeLines 4 = (2, 2)).
Proof.
  eexists. split; [vm_compute; reflexivity|]. split.
  - exists ([0;0;0] ++ [0;0] ++ [1;1;1;1] ++ [0;0;0;0;0])%nat. eexists. split; vm_compute; reflexivity.
  - exists ([0;0;0] ++ [0;0] ++ [1;1;1;1;1;1] ++ [0;0;0;0;0])%nat. eexists. split; [vm_compute; reflexivity|]. split; vm_compute; reflexivity.
Qed.

Lemma fine_right c s asked t : fine c s asked t -> rightAnswers c asked (got t).
Proof. intros (d & E & G & _). exists d, (asks t). auto. Qed.
(** Answers are right if the field is never changed between the first and the last time another goroutine reads it within a call. *)
Theorem concurrent_lookups_partial c asked schedule s : newSrc c = Some s -> undisturbed schedule (s, map call asked) ->
  forall i l t, nth_error asked i = Some l -> nth_error (snd (runAll schedule (s, map call asked))) i = Some t -> rightAnswers c l (got t).
Proof.
  intros N U i l t EL ET. destruct (newSrc_OK c) as (s0 & E0 & OK). rewrite N in E0. injection E0 as <-. pose proof (run_right c schedule _ _ (start_fine c s asked OK) U) as (_ & F). destruct (F2_nth _ _ _ F _ _ ET) as (a & EA & FA). rewrite EL in EA. injection EA as <-. exact (fine_right _ _ _ _ FA).
Qed.
(** So they are when calls are made one at a time (under a lock): a goroutine makes a step only when others are not within a call. *)
Fixpoint oneAtATime (schedule : list nat) (x : src * list thread) : Prop :=
  match schedule with
  | [] => True
  | i :: r => (forall j t, j <> i -> nth_error (snd x) j = Some t -> at_ t = Enter) /\ oneAtATime r (sysStep i x)
  end.
Lemma locked_undisturbed schedule : forall x, oneAtATime schedule x -> undisturbed schedule x.
Proof.
  induction schedule as [|i r IH]; intros x O; [exact I|]. destruct O as (O1 & O2). split; [|apply IH, O2]. intros _ j t J E _. rewrite (O1 j t J E). reflexivity.
Qed.
Theorem locked_lookups c asked schedule s : newSrc c = Some s -> oneAtATime schedule (s, map call asked) ->
  forall i l t, nth_error asked i = Some l -> nth_error (snd (runAll schedule (s, map call asked))) i = Some t -> rightAnswers c l (got t).
Proof.
  intros N O. exact (concurrent_lookups_partial c asked schedule s N (locked_undisturbed _ _ O)).
Qed.
(** Whatever the schedule: lines told are lines of the source; each call ends after at most six steps of its goroutine, whatever the others do. *)
Theorem lookups_tell_lines c asked schedule s : newSrc c = Some s ->
  forall i t line col, nth_error (snd (runAll schedule (s, map call asked))) i = Some t -> In (Some (line, col)) (got t) -> 1 <= line <= line_count c /\ 1 <= col.
Proof.
  intros N i t line col ET I0. destruct (newSrc_OK c) as (s0 & E0 & OK). rewrite N in E0. injection E0 as <-. destruct (safe_run c schedule (s, map call asked) OK) as (_ & F).
  - cbn [snd fst]. apply Forall_forall. intros t0 J. apply in_map_iff in J. destruct J as (l & <- & _). split; [constructor|]. cbn. destruct l; exact I.
  - rewrite Forall_forall in F. destruct (F t (nth_error_In _ _ ET)) as (G & _). rewrite Forall_forall in G. exact (G _ I0).
Qed.
Theorem lookups_end asked schedule s i l t : nth_error asked i = Some l -> (6 * length l <= count_occ Nat.eq_dec schedule i)%nat -> nth_error (snd (runAll schedule (s, map call asked))) i = Some t -> asks t = [].
Proof.
  intros EL C ET. assert (N : nth_error (snd (s, map call asked)) i = Some (call l)) by (cbn [snd]; rewrite nth_error_map, EL; reflexivity). destruct (run_less i schedule _ _ N) as (t' & ET' & L). rewrite ET in ET'. injection ET' as <-.
  assert (X : left_ t = 0%nat) by (unfold left_ at 2 in L; destruct l as [|p l]; cbn [call asks at_ rank length] in *; lia). unfold left_ in X. destruct (asks t) as [|p rest]; [reflexivity|]. destruct (at_ t); cbn in X; lia.
Qed.
(** Together: under a lock each goroutine gets all its answers, all of them right. *)
Theorem locked_lookups_complete c asked schedule s i l t : newSrc c = Some s -> oneAtATime schedule (s, map call asked) -> nth_error asked i = Some l -> (6 * length l <= count_occ Nat.eq_dec schedule i)%nat ->
  nth_error (snd (runAll schedule (s, map call asked))) i = Some t -> got t = map (fun pos => Some (line_col_spec c pos)) l.
Proof.
  intros N O EL C ET. pose proof (lookups_end _ _ _ _ _ _ EL C ET) as A.
  pose proof (locked_undisturbed _ _ O) as U.
  destruct (newSrc_OK c) as (s0 & E0 & OK). rewrite N in E0. injection E0 as <-. pose proof (run_right c schedule _ _ (start_fine c s asked OK) U) as (_ & F). destruct (F2_nth _ _ _ F _ _ ET) as (a & EA & (d & D1 & D2 & _)). rewrite EL in EA. injection EA as <-. rewrite A, app_nil_r in D1. subst d. exact D2.
Qed.

(** Sources of one line: right whatever the schedule. *)
Section OneLine.
Variable c : list Z.
Hypothesis oneLine : lf_count c = 0%nat.
Lemma one_start : zlen (starts c) = 1. Proof. rewrite starts_len, countLF_lf, oneLine. reflexivity. Qed.
Lemma one_line pos : lineIdx c pos = 0. Proof. pose proof (lineIdx_range c pos). rewrite one_start in *. lia. Qed.
Definition exact_ (s : src) (pos : Z) (x : next) : Prop := match x with Go p => safePc c s pos p | Finished r => r = Some (line_col_spec c pos) end.
Lemma one_finish s i pos : content s = c -> lineStarts s = starts c -> inside c pos -> 0 <= i < 1 -> finish s i pos = Finished (Some (line_col_spec c pos)).
Proof. intros HC HS HI R. replace i with (lineIdx c pos) by (rewrite one_line; lia). unfold inside in HI. apply finish_right; auto; [lia|unfold clamp, zlen in *; lia]. Qed.
Lemma one_search s pos : content s = c -> lineStarts s = starts c -> inside c pos -> search s 0 pos = Go (AtStore 0).
Proof. intros HC HS HI. unfold search. rewrite HS. destruct (starts c); reflexivity. Qed.
Lemma one_pstep s pos p s' x : srcOK c s -> safePc c s pos p -> pstep s pos p = (s', x) -> exact_ s' pos x.
Proof.
  intros OK SP E. pose proof one_start as O. pose proof OK as (HC & HS & HP). rewrite O in HP. destruct (pstep_safe c _ _ _ _ _ OK SP E) as (_ & SN & _). destruct x as [p'|r]; [exact SN|]. cbn [exact_]. pose proof (zlen_nonneg c).
  assert (PR : 0 <= prevLineIndex s -> prevLineIndex s = 0) by lia. assert (G0 : zget (starts c) 0 = Some 0) by reflexivity.
  destruct p as [| | | | | |i]; cbn [pstep safePc] in *.
  - destruct (Z.ltb_spec pos 0); [|destruct (Z.leb_spec (zlen (content s)) pos)]; apply pair_inj in E; destruct E as (_ & E); try discriminate.
    + replace 0 with (lineIdx c 0) in E at 1 by reflexivity. rewrite (finish_right c s 0 pos HC HS) in E; [congruence|lia|unfold clamp; lia].
    + rewrite HS, O, HC in *. replace (1 - 1) with (lineIdx c (zlen c)) in E by apply one_line. rewrite (finish_right c s (zlen c) pos HC HS) in E; [congruence|lia|unfold clamp, zlen in *; lia].
  - rewrite HS, (PR (proj2 SP)), G0 in E. apply pair_inj in E. destruct E as (_ & E). discriminate.
  - destruct SP as (HI & HV). unfold inside in HI. rewrite HS, (PR HV), scanLines_spec in E; [apply pair_inj in E; destruct E as (_ & E); discriminate|lia|rewrite one_line; lia|unfold zlen in *; lia].
  - apply pair_inj in E. destruct E as (_ & E). destruct (0 <=? prevLineIndex s); [discriminate|]. rewrite HS, O in E. change (1 - 1) with 0 in E. rewrite one_search in E by assumption. discriminate.
  - rewrite HS, (PR (proj2 SP)), G0 in E. apply pair_inj in E. destruct E as (_ & E). discriminate.
  - apply pair_inj in E. destruct E as (_ & E). destruct SP as (HI & HV). rewrite (PR HV), one_search in E by assumption. discriminate.
  - apply pair_inj in E. destruct E as (_ & E). destruct SP as (HI & HV). rewrite O in HV. rewrite one_finish in E by assumption. congruence.
Qed.
Definition oneFine (s : src) (asked : list Z) (t : thread) : Prop :=
  exists d, asked = d ++ asks t /\ got t = map (fun pos => Some (line_col_spec c pos)) d /\ match asks t with [] => True | pos :: _ => safePc c s pos (at_ t) end.
Lemma one_run schedule asked : forall x, srcOK c (fst x) -> Forall2 (oneFine (fst x)) asked (snd x) -> Forall2 (oneFine (fst (runAll schedule x))) asked (snd (runAll schedule x)).
Proof.
  induction schedule as [|i r IH]; intros (s, ts) OK F; [exact F|]. cbn [runAll]. cbn [fst snd] in *. assert (X : srcOK c (fst (sysStep i (s, ts))) /\ Forall2 (oneFine (fst (sysStep i (s, ts)))) asked (snd (sysStep i (s, ts)))); [|apply IH; apply X].
  unfold sysStep. destruct (nth_error ts i) as [t|] eqn:N; [|split; assumption]. destruct (tstep s t) as (s', t') eqn:T. cbn [fst snd]. destruct (F2_nth _ _ _ F _ _ N) as (a & NA & (d & D1 & D2 & D3)).
  assert (Y : srcOK c s' /\ oneFine s' a t' /\ (0 <= prevLineIndex s -> 0 <= prevLineIndex s')).
  { unfold tstep in T. destruct (asks t) as [|pos rest] eqn:A; [injection T as <- <-; split; [exact OK|split; [|auto]]; exists d; rewrite A; auto|]. destruct (pstep s pos (at_ t)) as (s1, y) eqn:P. destruct (pstep_safe c _ _ _ _ _ OK D3 P) as (OK1 & _ & MO). pose proof (one_pstep _ _ _ _ _ OK D3 P) as EX.
    destruct y as [p|q]; injection T as <- <-; (split; [exact OK1|split; [|exact MO]]); [exists d; auto|]. cbn [exact_] in EX. subst q. exists (d ++ [pos]). cbn [asks got at_]. rewrite <- app_assoc, map_app, D2. split; [exact D1|]. split; [reflexivity|]. destruct rest; exact I. }
  destruct Y as (Y1 & Y2 & Y3). split; [exact Y1|]. apply (F2_upd (oneFine s)); [exact F| |intros a0 E; rewrite NA in E; injection E as <-; exact Y2].
  intros j a0 b0 _ _ (d' & X1 & X2 & X3) _. exists d'. split; [exact X1|]. split; [exact X2|]. destruct (asks b0); [exact I|]. eapply safePc_mono; eassumption.
Qed.
Theorem one_line_lookups asked schedule s : newSrc c = Some s ->
  forall i l t, nth_error asked i = Some l -> nth_error (snd (runAll schedule (s, map call asked))) i = Some t -> rightAnswers c l (got t).
Proof.
  intros N i l t EL ET. destruct (newSrc_OK c) as (s0 & E0 & OK). rewrite N in E0. injection E0 as <-. assert (F0 : Forall2 (oneFine s) asked (map call asked)).
  { clear. induction asked as [|a l IH]; constructor; [|exact IH]. exists []. cbn. split; [reflexivity|]. split; [reflexivity|]. destruct a; exact I. }
  pose proof (one_run schedule asked (s, map call asked) OK F0) as F. destruct (F2_nth _ _ _ F _ _ ET) as (a & EA & (d & D1 & D2 & _)). rewrite EL in EA. injection EA as <-. exists d, (asks t). auto.
Qed.
End OneLine.

(** Two goroutines whose calls overlap and do not disturb each other; goroutines with a lock *)
Module Example71.
  Definition s : src := mkSrc threeLines [0; 3; 6; 9] (-1).
  Example made : newSrc threeLines = Some s. Proof. vm_compute. reflexivity. Qed.
  Definition overlap : list nat := [0; 0; 0; 0; 1; 0; 1; 0; 1; 0; 1]%nat.
  Example disturbs_nothing : undisturbed overlap (s, [call [1; 4]; call [5]]).
  Proof. cbn -[nth_error]. repeat split; intros N j t J E _; try (exfalso; apply N; reflexivity); destruct j as [|[|j]]; try congruence; cbn in E; try (injection E as <-; reflexivity); destruct j; discriminate. Qed.
  Example all_right : map got (snd (runAll overlap (s, [call [1; 4]; call [5]]))) = [[Some (1, 2); Some (2, 2)]; [Some (2, 3)]]. Proof. vm_compute. reflexivity. Qed.
  Definition locked : list nat := [0; 0; 0; 1; 1; 1; 1; 0; 0; 0; 0; 0; 0; 0; 0; 0; 1; 1]%nat.
  Example locks : oneAtATime locked (s, [call [1; 4]; call [10]]).
  Proof. cbn -[nth_error]. repeat split; intros j t J E; destruct j as [|[|j]]; try congruence; cbn in E; try (injection E as <-; reflexivity); destruct j; discriminate. Qed.
  Example locked_right : map got (snd (runAll locked (s, [call [1; 4]; call [10]]))) = [[Some (1, 2); Some (2, 2)]; [Some (4, 2)]]. Proof. vm_compute. reflexivity. Qed.
End Example71.

Print Assumptions alone_same.
Print Assumptions concurrent_lookups_refuted.
Print Assumptions concurrent_lookups_partial.
Print Assumptions locked_lookups.
Print Assumptions locked_lookups_complete.
Print Assumptions lookups_tell_lines.
Print Assumptions lookups_end.
Print Assumptions one_line_lookups.
