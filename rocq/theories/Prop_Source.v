(** C05, C06, C07: source positions and line ends. *)
From Coq Require Import ZArith List Lia Bool.
From Verif Require Import Base BaseProofs QueueProofs Utf8 Source SourceSpec SourceProofs NlProofs.
Import ListNotations.
Open Scope Z_scope.

(** One call on a source: LineCol or Pos. *)
Inductive sop := SLineCol (pos : Z) | SPos (line col : Z).
Inductive sret := RLineCol (r : Z * Z) | RPos (r : Z).

Fixpoint src_run (s : src) (ops : list sop) : option (src * list sret) :=
  match ops with
  | [] => Some (s, [])
  | SLineCol p :: r =>
      do (s1, a) <- lineCol s p; do (s2, b) <- src_run s1 r; Some (s2, RLineCol a :: b)
  | SPos l c :: r =>
      do a <- srcPos s l c; do (s2, b) <- src_run s r; Some (s2, RPos a :: b)
  end.

Definition src_answer (c : list Z) (o : sop) : sret :=
  match o with
  | SLineCol p => RLineCol (line_col_spec c p)
  | SPos l k => RPos (pos_spec c l k)
  end.

Lemma src_run_sound c ops : forall s, srcOK c s ->
  exists s', src_run s ops = Some (s', map (src_answer c) ops) /\ srcOK c s'.
Proof.
  induction ops as [|[p|l k] r IH]; intros s H; cbn [src_run map].
  - eauto.
  - destruct (lineCol_spec c s p H) as (s1 & -> & H1). cbn [obind].
    destruct (IH s1 H1) as (s2 & -> & H2). cbn [obind]. eauto.
  - rewrite (srcPos_spec c s l k H). cbn [obind].
    destruct (IH s H) as (s2 & -> & H2). cbn [obind]. eauto.
Qed.

Lemma newSrc_OK c : exists s, newSrc c = Some s /\ srcOK c s.
Proof.
  exists (mkSrc c (starts c) (-1)). rewrite newSrc_spec. split; auto.
  repeat split; cbn [prevLineIndex]; rewrite ?starts_len; pose proof (countLF_nonneg c); lia.
Qed.

(** C05 (and the calls of C06).  Whatever the content and the calls made on the
    source so far, no call panics and each answer is the specified one: in
    particular LineCol is 1 + the number of line feeds before the (clamped)
    offset and 1 + the number of runes since the last of them. *)
Theorem source_answers_correct :
  forall (c : list Z) (ops : list sop),
  exists s s', newSrc c = Some s /\ src_run s ops = Some (s', map (src_answer c) ops).
Proof.
  intros c ops. destruct (newSrc_OK c) as (s & E & H).
  destruct (src_run_sound c ops s H) as (s' & E' & _). eauto.
Qed.
Print Assumptions source_answers_correct.

(** C06.  After any calls: Pos is inverse to LineCol at every rune boundary... *)
Theorem pos_of_line_col :
  forall (c : list Z) (ops : list sop) s s' outs pos,
  newSrc c = Some s -> src_run s ops = Some (s', outs) -> boundary c pos ->
  exists s'' line col,
    lineCol s' pos = Some (s'', (line, col)) /\ srcPos s'' line col = Some pos.
Proof.
  intros c ops s s' outs pos HN HR HB.
  destruct (newSrc_OK c) as (s0 & E & H). rewrite HN in E. injection E as <-.
  destruct (src_run_sound c ops s H) as (s1 & E1 & H1). rewrite HR in E1. injection E1 as <- _.
  destruct (lineCol_spec c s' pos H1) as (s2 & E2 & H2).
  pose proof (pos_lineCol c pos HB) as P. destruct (line_col_spec c pos) as [l k].
  exists s2, l, k. split; auto. rewrite (srcPos_spec c s2 l k H2), P. reflexivity.
Qed.
Print Assumptions pos_of_line_col.

(** ... LineCol is inverse to Pos for the lines and columns that exist ... *)
Theorem line_col_of_pos :
  forall (c : list Z) (ops : list sop) s s' outs line col,
  newSrc c = Some s -> src_run s ops = Some (s', outs) ->
  1 <= line <= line_count c -> 1 <= col <= 1 + Z.of_nat (length (runes (line_text c line))) ->
  exists s'' pos,
    srcPos s' line col = Some pos /\ lineCol s' pos = Some (s'', (line, col)).
Proof.
  intros c ops s s' outs line col HN HR HL HC.
  destruct (newSrc_OK c) as (s0 & E & H). rewrite HN in E. injection E as <-.
  destruct (src_run_sound c ops s H) as (s1 & E1 & H1). rewrite HR in E1. injection E1 as <- _.
  destruct (lineCol_spec c s' (pos_spec c line col) H1) as (s2 & E2 & H2).
  exists s2, (pos_spec c line col). split; [apply srcPos_spec; auto|].
  rewrite E2, lineCol_pos by auto. reflexivity.
Qed.
Print Assumptions line_col_of_pos.

(** ... and Pos always answers with a rune boundary inside the content: 0 for
    non-positive arguments, the end of the content past the last line, the end of
    the line past its last column. *)
Theorem pos_in_content :
  forall (c : list Z) (ops : list sop) s s' outs line col,
  newSrc c = Some s -> src_run s ops = Some (s', outs) ->
  exists pos, srcPos s' line col = Some pos /\ boundary c pos /\ 0 <= pos <= Z.of_nat (length c) /\
    (line <= 0 \/ col <= 0 -> pos = 0) /\
    (1 <= col -> line_count c < line -> pos = Z.of_nat (length c)) /\
    (1 <= line <= line_count c -> 1 + Z.of_nat (length (runes (line_text c line))) <= col ->
       exists q t, c = q ++ line_text c line ++ t /\ (t = [] \/ exists t', t = 10 :: t') /\
                   Z.of_nat (lf_count q) = line - 1 /\ lf_count (line_text c line) = 0%nat /\
                   pos = Z.of_nat (length (q ++ line_text c line))).
Proof.
  intros c ops s s' outs line col HN HR.
  destruct (newSrc_OK c) as (s0 & E & H). rewrite HN in E. injection E as <-.
  destruct (src_run_sound c ops s H) as (s1 & E1 & H1). rewrite HR in E1. injection E1 as <- _.
  exists (pos_spec c line col). split; [apply srcPos_spec; auto|].
  split; [apply pos_spec_boundary|]. split; [apply pos_spec_range|]. split; [|split].
  - intros HZ. unfold pos_spec. destruct (Z.leb_spec line 0); auto. destruct (Z.leb_spec col 0); auto. lia.
  - intros HC HL. pose proof (countLF_nonneg c) as N. unfold pos_spec.
    assert (1 <= line_count c) by (unfold line_count; lia).
    destruct (Z.leb_spec line 0); [lia|]. destruct (Z.leb_spec col 0); [lia|]. cbn [orb].
    destruct (Z.ltb_spec (line_count c) line); [reflexivity|lia].
  - intros HL HC.
    destruct (pos_spec_split c line col) as (p & x & y & t & E2 & P & CP & LT & NL & T & RX & EP);
      [auto|lia|]. rewrite LT in *. rewrite EP.
    assert (x = x ++ y) as EX.
    { rewrite firstn_all2 in RX by lia. rewrite <- (concat_runes x) at 1. rewrite RX. apply concat_runes. }
    exists p, t. rewrite countLF_lf in CP, NL. repeat split; auto; [lia|]. rewrite <- EX. reflexivity.
Qed.
Print Assumptions pos_in_content.

(** Non-vacuity: two lines with a two-byte rune; offset 4 is a boundary. *)
Example boundary_demo : boundary [97; 10; 195; 169; 98; 10] 4 /\ ~ boundary [97; 10; 195; 169; 98; 10] 3 /\
  line_col_spec [97; 10; 195; 169; 98; 10] 4 = (2, 2) /\ line_count [97; 10; 195; 169; 98; 10] = 3 /\
  pos_spec [97; 10; 195; 169; 98; 10] 2 99 = 5.
Proof.
  split; [exists 3%nat; vm_compute; reflexivity|]. split; [|vm_compute; auto].
  intros (k & E). destruct k as [|[|[|[|[|[|k]]]]]]; vm_compute in E; try discriminate;
    rewrite ?firstn_nil in E; discriminate.
Qed.
(** The boundary hypothesis is needed: inside a rune LineCol points at its own
    column, whose offset is another one. *)
Example pos_inside_rune_refuted :
  line_col_spec [195; 169; 98] 1 = (1, 2) /\ pos_spec [195; 169; 98] 1 2 = 2.
Proof. vm_compute. auto. Qed.

(** C07.  NormalizeNls leaves exactly the specified text, never panics; no CR is
    left and a second call changes nothing. *)
Theorem normalize_nls_correct :
  forall c : list Z,
  exists r, normalizeNls c = Some r /\ r = nl_spec c /\ ~ In 13 r /\ normalizeNls r = Some r.
Proof.
  intros c. exists (nl_spec c). rewrite !normalizeNls_spec. repeat split; auto.
  - apply nl_no_cr.
  - f_equal. apply nl_id. apply nl_no_cr.
Qed.
Print Assumptions normalize_nls_correct.

(** A text without CR is untouched. *)
Theorem normalize_nls_identity :
  forall c : list Z, ~ In 13 c -> normalizeNls c = Some c.
Proof. intros c H. rewrite normalizeNls_spec, nl_id; auto. Qed.
Print Assumptions normalize_nls_identity.

Example nl_demo : normalizeNls [13; 10; 97; 13; 13; 10; 98; 10; 13] = Some [10; 97; 10; 10; 98; 10; 10].
Proof. reflexivity. Qed.
