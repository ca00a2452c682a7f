(** The layer over memory does what the layer over lists does, and writes nothing, if tokens come in the order of the text. *)
From Coq Require Import ZArith List Bool Lia Arith.
From Verif Require Import Base BaseProofs Grammar LangTypes StdLayers Indent IndentMem IndentMemSpec.
From Verif Require Lexer LexerProofs.
Import ListNotations.
Open Scope Z_scope.

Lemma text_len m s : inBounds m s -> length (text m s) = slLen s.
Proof. intros (_ & H). unfold text. rewrite firstn_length, skipn_length. lia. Qed.
Lemma text_zlen m s : inBounds m s -> zlen (text m s) = Z.of_nat (slLen s).
Proof. intros H. unfold zlen. rewrite (text_len m s H). reflexivity. Qed.
Lemma kept_refl m : kept m m. Proof. exists []. rewrite app_nil_r. reflexivity. Qed.
Lemma kept_trans a b c : kept a b -> kept b c -> kept a c.
Proof. intros (x & ->) (y & ->). exists (x ++ y). rewrite app_assoc. reflexivity. Qed.
Lemma kept_bounds m m' s : kept m m' -> inBounds m s -> inBounds m' s.
Proof. intros (n & ->) (A & B). split; [rewrite app_length; lia|]. rewrite app_nth1; lia. Qed.
Lemma kept_text m m' s : kept m m' -> inBounds m s -> text m' s = text m s.
Proof. intros (n & ->) (A & B). unfold text. rewrite app_nth1; [reflexivity|lia]. Qed.
Lemma nil_bounds m : m <> [] -> inBounds m nilSlice.
Proof. intros H. destruct m; [congruence|]. split; cbn; lia. Qed.
Lemma upd_same {A} (l : list A) n d : upd l n (nth n l d) = l.
Proof. revert n. induction l as [|x l IH]; intros [|n]; cbn; auto. f_equal. apply IH. Qed.
Lemma split3 {A} (a : list A) e n : firstn e a ++ firstn n (skipn e a) ++ skipn (e + n) a = a.
Proof. rewrite <- (LexerProofs.skipn_skipn' a n e). rewrite firstn_skipn. apply firstn_skipn. Qed.
Lemma strip_suffix c r : stripNl c = Some r -> exists p, c = p ++ r.
Proof.
  induction c as [|x c IH]; cbn; [discriminate|]. destruct (stripNl c) as [s|] eqn:E.
  - intros H. injection H as <-. destruct (IH eq_refl) as (p & ->). exists (x :: p). reflexivity.
  - destruct (x =? 10); [|discriminate]. intros H. injection H as <-. exists [x]. reflexivity.
Qed.
Definition atEnd (m : memory) (s : slice) : Prop := (slOff s + slLen s = length (nth (slArr s) m []))%nat.
Definition sameEnd (a b : slice) : Prop := (slArr a = slArr b /\ slOff a + slLen a = slOff b + slLen b)%nat.
Lemma atEnd_kept m m' s : kept m m' -> inBounds m s -> atEnd m s -> atEnd m' s.
Proof. intros (n & ->) (A & _) E. unfold atEnd. rewrite app_nth1 by lia. exact E. Qed.
Lemma strip_slice m s : inBounds m s -> match mstripNl m s with
  | Some c => stripNl (text m s) = Some (text m c) /\ inBounds m c /\ sameEnd c s
  | None => stripNl (text m s) = None end.
Proof.
  intros B. unfold mstripNl. destruct (stripNl (text m s)) as [r|] eqn:E; cbn [option_map]; [|reflexivity]. destruct (strip_suffix _ _ E) as (p & Q). pose proof (text_len m s B) as L. rewrite Q, app_length in L. destruct B as (B1 & B2).
  assert (SE : sameEnd (mkSl (slArr s) (slOff s + (slLen s - length r)) (length r)) s) by (split; cbn; lia). split; [|split; [split; cbn; lia|exact SE]].
  f_equal. unfold text in *. cbn [slArr slOff slLen]. replace (slLen s - length r)%nat with (length p) by lia. rewrite <- (LexerProofs.skipn_skipn' _ (length p) (slOff s)). set (a := skipn (slOff s) (nth (slArr s) m [])) in *.
  assert (X : skipn (length p) (firstn (slLen s) a) = r) by (rewrite Q, skipn_app, skipn_all, Nat.sub_diag; reflexivity). rewrite skipn_firstn_comm in X. replace (slLen s - length p)%nat with (length r) in X by lia. symmetry. exact X.
Qed.
(** append, when what is appended is what stands there, or when there is no room *)
Lemma append_ok m cur t : inBounds m cur -> inBounds m t -> (0 < slLen t)%nat -> ((slArr t = slArr cur /\ slOff t = slOff cur + slLen cur)%nat \/ atEnd m cur) ->
  let (s, m') := appendTo m cur (text m t) in kept m m' /\ inBounds m' s /\ text m' s = text m cur ++ text m t /\ slLen s = (slLen cur + slLen t)%nat /\ (sameEnd s t \/ atEnd m' s).
Proof.
  intros BC BT P H. unfold appendTo. rewrite (text_len m t BT). destruct BC as (C1 & C2). pose proof BT as (T1 & T2). destruct (_ <=? _)%nat eqn:L.
  - apply Nat.leb_le in L. destruct H as [(A & O)|E]; [|unfold atEnd in E; lia].
    assert (W : firstn (slOff cur + slLen cur) (nth (slArr cur) m []) ++ text m t ++ skipn (slOff cur + slLen cur + slLen t) (nth (slArr cur) m []) = nth (slArr cur) m []).
    { unfold text. rewrite A, O. apply split3. }
    rewrite W, upd_same. split; [apply kept_refl|]. split; [split; cbn; lia|]. split; [|split; [reflexivity|left; split; cbn; lia]].
    unfold text. cbn [slArr slOff slLen]. rewrite A, O. set (a := nth (slArr cur) m []). rewrite <- (LexerProofs.skipn_skipn' a (slLen cur) (slOff cur)). set (b := skipn (slOff cur) a). rewrite <- (firstn_skipn (slLen cur) b) at 1. rewrite firstn_app, firstn_firstn.
    assert (LB : (slLen cur <= length b)%nat) by (unfold b; rewrite skipn_length; fold a in C2; lia). rewrite firstn_length. replace (Init.Nat.min (slLen cur + slLen t) (slLen cur)) with (slLen cur) by lia. replace (slLen cur + slLen t - Init.Nat.min (slLen cur) (length b))%nat with (slLen t) by lia. reflexivity.
  - apply Nat.leb_gt in L. assert (NN : nth (length m) (m ++ [text m cur ++ text m t]) [] = text m cur ++ text m t) by (rewrite app_nth2, Nat.sub_diag by lia; reflexivity).
    assert (LL : length (text m cur ++ text m t) = (slLen cur + slLen t)%nat) by (rewrite app_length, !text_len by (split; auto); reflexivity).
    split; [exists [text m cur ++ text m t]; reflexivity|]. split; [split; cbn [slArr slOff slLen]; [rewrite app_length; cbn; lia|rewrite NN, LL; lia]|]. split; [|split; [reflexivity|right; unfold atEnd; cbn [slArr slOff slLen]; rewrite NN, LL; lia]].
    unfold text at 1. cbn [slArr slOff slLen]. rewrite NN. cbn [skipn]. rewrite <- LL. apply firstn_all.
Qed.

Section P.
Context {Pos PE : Type}.
Notation mtok := (mtok Pos).
Notation mstate := (mstate Pos).
Definition tokIn (m : memory) (t : mtok) : Prop := inBounds m (mText t).
Record bounds (m : memory) (ms : mstate) : Prop := mkBounds {
  b_stack : Forall (inBounds m) (msStack ms);
  b_valid : inBounds m (msValid ms);
  b_cur : inBounds m (msCurrent ms);
  b_spaces : Forall (tokIn m) (msSpaces ms) }.
Lemma view_kept m m' (t : mtok) : kept m m' -> tokIn m t -> view m' t = view m t.
Proof. intros K B. unfold view. rewrite (kept_text _ _ _ K B). reflexivity. Qed.
Lemma bounds_kept m m' ms : kept m m' -> bounds m ms -> bounds m' ms.
Proof. intros K [A B C D]. constructor; try (eapply Forall_impl; [|eassumption]; intros x X); eapply kept_bounds; eauto. Qed.
Lemma viewState_kept m m' ms : kept m m' -> bounds m ms -> viewState m' ms = viewState m ms.
Proof.
  intros K [A B C D]. unfold viewState. rewrite (kept_text _ _ _ K B), (kept_text _ _ _ K C). f_equal; apply map_ext_in; intros x I; rewrite Forall_forall in A, D; [apply kept_text; auto|apply view_kept; auto].
Qed.
Lemma viewPeek_kept m m' (p : memory -> option mtok * option PE) : kept m m' -> steady m p -> viewPeek m' (p m') = viewPeek m (p m).
Proof. intros K (S1 & S2). rewrite (S1 _ K). unfold viewPeek. f_equal. destruct (fst (p m)) as [t|] eqn:E; [|reflexivity]. cbn. f_equal. apply view_kept; auto. apply S2. reflexivity. Qed.
Lemma steady_kept m m' (p : memory -> option mtok * option PE) : kept m m' -> steady m p -> steady m' p.
Proof. intros K (S1 & S2). split; [intros m2 K2; rewrite (S1 _ (kept_trans _ _ _ K K2)), (S1 _ K); reflexivity|]. intros t E. rewrite (S1 _ K) in E. eapply kept_bounds; [exact K|apply S2, E]. Qed.
Lemma len_eqb m a b : inBounds m a -> inBounds m b -> (zlen (text m a) =? zlen (text m b)) = (slLen a =? slLen b)%nat.
Proof. intros A B. rewrite !text_zlen by assumption. destruct (Nat.eqb_spec (slLen a) (slLen b)) as [E|E]; [rewrite E; apply Z.eqb_refl|apply Z.eqb_neq; lia]. Qed.
Lemma len_zero m a : inBounds m a -> (zlen (text m a) =? 0) = (slLen a =? 0)%nat.
Proof. intros A. rewrite text_zlen by assumption. destruct (Nat.eqb_spec (slLen a) 0) as [E|E]; [rewrite E; reflexivity|apply Z.eqb_neq; lia]. Qed.
Lemma role_view roles m t : tokIn m t -> roleOf roles (view m t) = mrole roles t.
Proof. intros B. unfold roleOf, mrole. cbn [view lType lText]. rewrite (len_zero m _ B). reflexivity. Qed.

(** what the current indentation is: nothing, the end of its array, or it ends where the last token does *)
Definition curOk (m : memory) (last : option slice) (cur : slice) : Prop := slLen cur = 0%nat \/ atEnd m cur \/ exists s, last = Some s /\ sameEnd cur s.
Lemma adjust_ok m c t (last : option slice) ms : bounds m ms -> inBounds m c -> sameEnd c t ->
  (slLen (msCurrent ms) = 0%nat \/ c = t /\ (0 < slLen t)%nat /\ curOk m last (msCurrent ms) /\ match last with Some s => inBounds m s /\ follows m s t | None => True end) ->
  let (ms', m') := madjustIndent c m ms in kept m m' /\ bounds m' ms' /\ viewState m' ms' = adjustIndent (text m c) (viewState m ms) /\ curOk m' (Some t) (msCurrent ms') /\ msSpaces ms' = msSpaces ms.
Proof.
  intros B BC SE H. unfold madjustIndent.
  assert (X : let (cur, m') := if (slLen (msCurrent ms) =? 0)%nat then (c, m) else appendTo m (msCurrent ms) (text m c) in
    kept m m' /\ inBounds m' cur /\ text m' cur = (match text m (msCurrent ms) with [] => text m c | _ => text m (msCurrent ms) ++ text m c end) /\ curOk m' (Some t) cur).
  { destruct (Nat.eqb_spec (slLen (msCurrent ms)) 0) as [E|E].
    - split; [apply kept_refl|]. split; [exact BC|]. pose proof (text_len m _ (b_cur _ _ B)) as L. rewrite E in L. destruct (text m (msCurrent ms)); [|discriminate]. split; [reflexivity|]. right. right. eauto.
    - destruct H as [H|(-> & P & CO & F)]; [contradiction|].
      assert (AE : (slArr t = slArr (msCurrent ms) /\ slOff t = slOff (msCurrent ms) + slLen (msCurrent ms))%nat \/ atEnd m (msCurrent ms)).
      { destruct CO as [Z|[A|(s & -> & (S1 & S2))]]; [contradiction|auto|]. destruct F as (BS & [(F1 & F2)|F]); [left; lia|]. right. unfold atEnd. rewrite S1, S2. exact F. }
      pose proof (append_ok m (msCurrent ms) t (b_cur _ _ B) BC P AE) as Q. destruct (appendTo m (msCurrent ms) (text m t)) as (cur, m'). destruct Q as (K & BB & T & L & Q). split; [exact K|]. split; [exact BB|]. split.
      + rewrite T. pose proof (text_len m _ (b_cur _ _ B)) as L1. destruct (text m (msCurrent ms)); [cbn in L1; congruence|reflexivity].
      + right. destruct Q as [Q|Q]; [right; eauto|left; exact Q]. }
  destruct (if (slLen (msCurrent ms) =? 0)%nat then (c, m) else appendTo m (msCurrent ms) (text m c)) as (cur, m'). destruct X as (K & BB & T & CO). pose proof (bounds_kept _ _ _ K B) as B'. destruct B' as [B1 B2 B3 B4].
  split; [exact K|]. split; [constructor; auto|]. split; [|split; [exact CO|reflexivity]].
  rewrite <- (viewState_kept _ _ _ K B). unfold adjustIndent, viewState. cbn [lsStack lsValid lsCurrent lsSpaces msStack msValid msCurrent msSpaces msState]. rewrite (kept_text _ _ _ K (b_cur _ _ B)), <- T. f_equal.
  rewrite (len_eqb m' _ _ BB B2). assert (LT : (zlen (text m' (msValid ms)) <? zlen (text m' cur)) = (slLen (msValid ms) <? slLen cur)%nat).
  { rewrite !text_zlen by assumption. destruct (Nat.ltb_spec (slLen (msValid ms)) (slLen cur)); [apply Z.ltb_lt|apply Z.ltb_ge]; lia. }
  rewrite LT. assert (EX : existsb (fun x => zlen x =? zlen (text m' cur)) (map (text m') (msStack ms)) = existsb (fun x => (slLen x =? slLen cur)%nat) (msStack ms)).
  { clear - B1 BB. induction B1 as [|x l X _ IH]; cbn; [reflexivity|]. rewrite IH, (len_eqb m' _ _ X BB). reflexivity. }
  rewrite EX. reflexivity.
Qed.
Variable indentTok dedentTok : mtok.
Variable roles : list role.
Lemma dedentLoop_view m cur st : inBounds m cur -> Forall (inBounds m) st ->
  dedentLoop (view m dedentTok) (zlen (text m cur)) (map (text m) st) = (map (view m) (fst (mdedentLoop dedentTok (slLen cur) st)), option_map (map (text m)) (snd (mdedentLoop dedentTok (slLen cur) st))).
Proof.
  intros BC. induction 1 as [|x l X _ IH]; cbn; [reflexivity|]. rewrite (len_eqb m _ _ X BC). destruct (_ =? _)%nat; cbn; [reflexivity|]. rewrite IH. destruct (mdedentLoop dedentTok (slLen cur) l) as (d, r). reflexivity.
Qed.
Lemma dedentLoop_in m l st : Forall (inBounds m) st -> tokIn m dedentTok -> Forall (tokIn m) (fst (mdedentLoop dedentTok l st)) /\ (forall r, snd (mdedentLoop dedentTok l st) = Some r -> Forall (inBounds m) r).
Proof.
  intros H D. induction H as [|x r X F IH]; cbn; [split; [constructor|discriminate]|]. destruct (_ =? _)%nat; cbn; [split; [constructor; [exact D|constructor]|intros r' E; injection E as <-; exact F]|].
  destruct (mdedentLoop dedentTok l r) as (d, q). cbn in *. destruct IH as (I1 & I2). split; [constructor; auto|exact I2].
Qed.
Notation vR m x := (let '(emit, extra, e, ms) := x in (emit, map (view m) extra, option_map (viewError (PE := PE) m) e, viewState m ms)).
(** parts that do not touch memory *)
Definition partOk (m : memory) (x : bool * list mtok * option (merror Pos PE) * mstate) : Prop := let '(emit, extra, e, ms) := x in Forall (tokIn m) extra /\ bounds m ms.
Lemma pad_part m ts ms : Forall (tokIn m) ts -> bounds m ms -> pad (map (view m) ts) (viewState m ms) = (map (view m) (fst (mpad ts ms)), viewState m (snd (mpad ts ms))) /\ Forall (tokIn m) (fst (mpad ts ms)) /\ bounds m (snd (mpad ts ms)) /\ msState (snd (mpad ts ms)) = msState ms.
Proof.
  intros F [A B C D]. unfold pad, mpad. cbn [fst snd viewState lsSpaces msSpaces]. rewrite map_app. split; [reflexivity|]. split; [apply Forall_app; auto|]. split; [constructor; auto; constructor|reflexivity].
Qed.
Lemma indent_part m ts ms : tokIn m indentTok -> Forall (tokIn m) ts -> bounds m ms -> indent (view m indentTok) (map (view m) ts) (viewState m ms) = (map (view m) (fst (mindent indentTok ts ms)), viewState m (snd (mindent indentTok ts ms))) /\ Forall (tokIn m) (fst (mindent indentTok ts ms)) /\ bounds m (snd (mindent indentTok ts ms)).
Proof.
  intros I F [A B C D]. unfold indent, mindent, pad, mpad. cbn. rewrite map_app. split; [reflexivity|]. split; [constructor; [exact I|apply Forall_app; auto]|]. constructor; cbn; auto.
Qed.
Lemma dedent_part m ts ms : tokIn m dedentTok -> Forall (tokIn m) ts -> bounds m ms -> dedent (view m dedentTok) (map (view m) ts) (viewState m ms) = (map (view m) (fst (mdedent dedentTok ts ms)), viewState m (snd (mdedent dedentTok ts ms))) /\ Forall (tokIn m) (fst (mdedent dedentTok ts ms)) /\ bounds m (snd (mdedent dedentTok ts ms)).
Proof.
  intros I F [A B C D]. unfold dedent, mdedent. cbn [viewState lsCurrent lsStack]. rewrite (dedentLoop_view m _ _ C A). pose proof (dedentLoop_in m (slLen (msCurrent ms)) (msStack ms) A I) as (D1 & D2). destruct (mdedentLoop dedentTok (slLen (msCurrent ms)) (msStack ms)) as (d, r). cbn [fst snd] in *.
  unfold pad, mpad. cbn. rewrite !map_app. split; [|split; [apply Forall_app; split; [exact D1|apply Forall_app; auto]|constructor; cbn; auto; destruct r; auto]].
  destruct r as [r|]; reflexivity.
Qed.
Lemma bounds_state m s ms : bounds m ms -> bounds m (msetState s ms).
Proof. intros [A B C D]. constructor; auto. Qed.
Lemma common_part m t ms : tokIn m indentTok -> tokIn m dedentTok -> tokIn m t -> bounds m ms ->
  handleCommon (view m indentTok) (view m dedentTok) (view m t) (viewState m ms) = vR m (mhandleCommon (PE := PE) indentTok dedentTok t ms) /\ partOk m (mhandleCommon (PE := PE) indentTok dedentTok t ms) /\
  (snd (fst (mhandleCommon (PE := PE) indentTok dedentTok t ms)) = None -> msState (snd (mhandleCommon (PE := PE) indentTok dedentTok t ms)) = SIndented).
Proof.
  intros I D T B. unfold handleCommon, mhandleCommon. cbn [viewState lsState]. fold (viewState m ms).
  destruct (pad_part m [t] ms (Forall_cons _ T (Forall_nil _)) B) as (P1 & P2 & P3 & P4). destruct (indent_part m [t] ms I (Forall_cons _ T (Forall_nil _)) B) as (I1 & I2 & I3). destruct (dedent_part m [t] ms D (Forall_cons _ T (Forall_nil _)) B) as (D1 & D2 & D3). cbn [map] in *.
  destruct (msState ms) eqn:ST; try rewrite P1; try rewrite I1; try rewrite D1; try (destruct (mpad [t] ms) as (x, ms1)); try (destruct (mindent indentTok [t] ms) as (x2, ms2)); try (destruct (mdedent dedentTok [t] ms) as (x3, ms3)); cbn [fst snd map option_map viewError] in *;
  (split; [reflexivity|split; [split; auto using bounds_state|cbn; intros X; try discriminate X; auto]]).
Qed.
(** the invariant of the layer *)
Record inv (m : memory) (last : option slice) (ms : mstate) : Prop := mkInv {
  i_bounds : bounds m ms;
  i_last : forall s, last = Some s -> inBounds m s;
  i_cur : msState ms = SIndented \/ msState ms = SSide \/ curOk m last (msCurrent ms) }.
Definition after (last : option slice) (t : mtok) : option slice := if isTextual t then Some (mText t) else last.
Hypothesis plainRoles : Forall (fun r => r = RCommon \/ r = RSpace \/ r = RSide) roles.
Lemma role_textual (t : mtok) r : mrole roles t = Some r -> isTextual t = match r with REoi | REmpty => false | _ => true end.
Proof.
  unfold mrole, isTextual. destruct (Z.eqb_spec (mType t) Lexer.EoiTokenType) as [E|E]; [intros H; injection H as <-; rewrite E; reflexivity|].
  destruct (Z.ltb_spec (mType t) 0); [intros H'; injection H' as <-; destruct (Z.leb_spec 0 (mType t)); [lia|reflexivity]|]. cbn [orb]. destruct (Nat.eqb_spec (slLen (mText t)) 0) as [L|L]; [intros H'; injection H' as <-; rewrite L; apply andb_false_r|].
  destruct (Z.leb_spec 0 (mType t)); [|lia]. destruct (Nat.ltb_spec 0 (slLen (mText t))); [|lia]. cbn [andb]. destruct (_ <? _); intros H'; [|injection H' as <-; reflexivity].
  unfold zget in H'. destruct (mType t <? 0); [discriminate|]. apply nth_error_In in H'. rewrite Forall_forall in plainRoles. destruct (plainRoles _ H') as [->|[->| ->]]; reflexivity.
Qed.
Lemma inv_same m last ms (t : mtok) : inv m last ms -> isTextual t = false -> inv m (after last t) ms.
Proof. intros H E. unfold after. rewrite E. exact H. Qed.
Lemma inv_done m last ms (t : mtok) : bounds m ms -> tokIn m t -> isTextual t = true -> msState ms = SIndented \/ msState ms = SSide \/ curOk m (Some (mText t)) (msCurrent ms) -> inv m (after last t) ms.
Proof. intros B T E C. unfold after. rewrite E. constructor; auto. intros s X. injection X as <-. exact T. Qed.
Notation outcome m t p ms last x := (match x with
  | None => handle (view m indentTok) (view m dedentTok) roles (view m t) (viewPeek m (p m)) (viewState m ms) = None
  | Some (emit, extra, e, ms', m') => kept m m' /\ Forall (tokIn m') extra /\ (e = None -> inv m' (after last t) ms') /\
      handle (view m indentTok) (view m dedentTok) roles (view m t) (viewPeek m (p m)) (viewState m ms) = Some (emit, map (view m') extra, option_map (viewError m') e, viewState m' ms')
  end).
Lemma handle_ok m last t (p : memory -> option mtok * option PE) ms : inv m last ms -> tokIn m indentTok -> tokIn m dedentTok -> tokIn m t -> steady m p -> m <> [] ->
  (isTextual t = true -> match last with Some s => follows m s (mText t) | None => True end) -> outcome m t p ms last (mhandle indentTok dedentTok roles t p m ms).
Proof.
  intros IV TI TD TT ST NE FO. pose proof (i_bounds _ _ _ IV) as B. unfold mhandle, handle. rewrite (role_view roles m t TT). destruct (mrole roles t) as [r|] eqn:R; cbn [obind]; [|reflexivity]. pose proof (role_textual t r R) as TX. destruct r.
  - (* common *) destruct (common_part m t ms TI TD TT B) as (E & P & S0). rewrite E. destruct (mhandleCommon indentTok dedentTok t ms) as (((em, ex), e), ms'). destruct P as (P1 & P2). cbn [fst snd] in S0. split; [apply kept_refl|]. split; [exact P1|]. split; [|reflexivity]. intros E0. apply inv_done; auto.
  - (* space *) unfold mhandleSpace, handleSpace. cbn [view lText]. fold (view m t). pose proof (strip_slice m (mText t) TT) as SN.
    set (pr := match mstripNl m (mText t) with Some c => (c, mkMs (msStack ms) (msValid ms) nilSlice (msSpaces ms) (if (slLen (msValid ms) =? 0)%nat then SValid else SDec)) | None => (mText t, ms) end).
    assert (PR : (match stripNl (text m (mText t)) with Some c => (c, mkLs (lsStack (viewState m ms)) (lsValid (viewState m ms)) [] (lsSpaces (viewState m ms)) (if zlen (lsValid (viewState m ms)) =? 0 then SValid else SDec)) | None => (text m (mText t), viewState m ms) end) = (text m (fst pr), viewState m (snd pr))
      /\ bounds m (snd pr) /\ inBounds m (fst pr) /\ sameEnd (fst pr) (mText t) /\
      (slLen (msCurrent (snd pr)) = 0%nat \/ fst pr = mText t /\ (msState (snd pr) = SIndented \/ msState (snd pr) = SSide \/ curOk m last (msCurrent (snd pr))))).
    { unfold pr. destruct (mstripNl m (mText t)) as [c|].
      - destruct SN as (S1 & S2 & S3). rewrite S1. cbn [fst snd]. split; [|split; [|split; [exact S2|split; [exact S3|left; reflexivity]]]].
        + f_equal. unfold viewState. cbn [lsStack lsValid lsSpaces msStack msValid msCurrent msSpaces msState]. rewrite (len_zero m _ (b_valid _ _ B)). f_equal.
        + destruct B as [B1 B2 B3 B4]. constructor; cbn; auto. apply nil_bounds, NE.
      - rewrite SN. cbn [fst snd]. split; [reflexivity|]. split; [exact B|]. split; [exact TT|]. split; [split; reflexivity|]. right. split; [reflexivity|]. apply IV. }
    clearbody pr. destruct pr as (c, ms1). cbn [fst snd] in PR. destruct PR as (PR & B1 & BC & SE & CU). rewrite PR. clear PR SN.
    change (lsState (viewState m ms1)) with (msState ms1). destruct (isIndented (msState ms1)) eqn:II.
    { assert (SI : msState ms1 = SIndented) by (destruct (msState ms1); discriminate || reflexivity). split; [apply kept_refl|]. split; [constructor|]. split; [intros _; apply inv_done; auto|reflexivity]. }
    assert (LP : (0 < slLen (mText t))%nat) by (unfold isTextual in TX; apply andb_true_iff in TX as (_ & L); apply Nat.ltb_lt, L).
    assert (AD : let (ms2, m2) := (if isSideState (msState ms1) then (ms1, m) else madjustIndent c m ms1) in kept m m2 /\ bounds m2 ms2 /\
      viewState m2 ms2 = (if isSideState (msState ms1) then viewState m ms1 else adjustIndent (text m c) (viewState m ms1)) /\ (msState ms2 = SSide \/ curOk m2 (Some (mText t)) (msCurrent ms2))).
    { destruct (isSideState (msState ms1)) eqn:IS.
      - split; [apply kept_refl|]. split; [exact B1|]. split; [reflexivity|]. left. destruct (msState ms1); discriminate || reflexivity.
      - assert (PRE : slLen (msCurrent ms1) = 0%nat \/ c = mText t /\ (0 < slLen (mText t))%nat /\ curOk m last (msCurrent ms1) /\ match last with Some s => inBounds m s /\ follows m s (mText t) | None => True end).
        { destruct CU as [CU|(-> & [X|[X|CU]])]; [auto|rewrite X in II; discriminate|rewrite X in IS; discriminate|]. right. split; [reflexivity|]. split; [exact LP|]. split; [exact CU|]. specialize (FO TX). destruct last as [s|]; [|exact I]. split; [apply (i_last _ _ _ IV); reflexivity|exact FO]. }
        pose proof (adjust_ok m c (mText t) last ms1 B1 BC SE PRE) as Q. destruct (madjustIndent c m ms1) as (ms2, m2). destruct Q as (K & B2 & V & CO & _). auto. }
    change (lsState (viewState m ms1)) with (msState ms1).
    destruct (if isSideState (msState ms1) then (ms1, m) else madjustIndent c m ms1) as (ms2, m2). destruct AD as (K & B2 & V & CO).
    rewrite <- V, <- (viewPeek_kept m m2 p K ST), <- (view_kept m m2 t K TT), <- (view_kept m m2 indentTok K TI), <- (view_kept m m2 dedentTok K TD).
    pose proof (kept_bounds _ _ _ K TI : tokIn m2 indentTok) as TI2. pose proof (kept_bounds _ _ _ K TD : tokIn m2 dedentTok) as TD2. pose proof (kept_bounds _ _ _ K TT : tokIn m2 t) as TT2. pose proof (steady_kept _ _ _ K ST) as (_ & PB).
    destruct (p m2) as (pt, pe). cbn [viewPeek fst snd option_map] in PB |- *. destruct pe as [e|]; [destruct pt; cbn [option_map]; (split; [exact K|]; split; [constructor|]; split; [discriminate|reflexivity])|].
    destruct pt as [next|]; cbn [option_map]; [|reflexivity]. rewrite (role_view roles m2 next (PB _ eq_refl)). destruct (mrole roles next) as [rn|]; cbn [obind]; [|reflexivity].
    set (ms3 := mkMs (msStack ms2) (msValid ms2) (msCurrent ms2) (msSpaces ms2 ++ [t]) (msState ms2)).
    assert (V3 : mkLs (lsStack (viewState m2 ms2)) (lsValid (viewState m2 ms2)) (lsCurrent (viewState m2 ms2)) (lsSpaces (viewState m2 ms2) ++ [view m2 t]) (lsState (viewState m2 ms2)) = viewState m2 ms3) by (unfold viewState; cbn; rewrite map_app; reflexivity).
    rewrite V3. assert (B3 : bounds m2 ms3) by (destruct B2 as [X1 X2 X3 X4]; constructor; cbn; auto; apply Forall_app; auto).
    destruct (negb (isCommon rn)).
    { split; [exact K|]. split; [constructor|]. split; [intros _|reflexivity]. apply inv_done; auto. }
    change (lsState (viewState m2 ms3)) with (msState ms3).
    destruct (pad_part m2 [] ms3 ltac:(constructor) B3) as (P1 & P2 & P3 & P4). destruct (indent_part m2 [] ms3 TI2 ltac:(constructor) B3) as (I1 & I2 & I3). destruct (dedent_part m2 [] ms3 TD2 ltac:(constructor) B3) as (D1 & D2 & D3). cbn [map] in *.
    destruct (msState ms3) eqn:SS; try rewrite P1; try rewrite I1; try rewrite D1; try (destruct (mpad [] ms3) as (x, ms4)); try (destruct (mindent indentTok [] ms3) as (x2, ms42)); try (destruct (mdedent dedentTok [] ms3) as (x3, ms43)); cbn [fst snd map option_map viewError] in *;
    (split; [exact K|]; split; [first [constructor; fail|assumption|constructor]|]; split; [intros EE; try discriminate EE; apply inv_done; auto using bounds_state|reflexivity]).
  - (* side *) unfold mhandleSide, handleSide. change (lsState (viewState m ms)) with (msState ms). destruct (isIndented (msState ms)) eqn:II.
    { assert (SI : msState ms = SIndented) by (destruct (msState ms); discriminate || reflexivity). cbn [obind]. split; [apply kept_refl|]. split; [constructor|]. split; [intros _; apply inv_done; auto|reflexivity]. }
    change (setState SSide (viewState m ms)) with (viewState m (msetState SSide ms)). pose proof (bounds_state m SSide ms B) as B2. destruct ST as (_ & PB).
    destruct (pad_part m [t] (msetState SSide ms) (Forall_cons _ TT (Forall_nil _)) B2) as (P1 & P2 & P3 & P4). cbn [map] in P1. rewrite P1. destruct (mpad [t] (msetState SSide ms)) as (x, ms4). cbn [fst snd] in *.
    destruct (p m) as (pt, pe). cbn [viewPeek fst snd option_map] in PB |- *. destruct pe as [e|]; [destruct pt; cbn [option_map obind]; (split; [apply kept_refl|]; split; [exact P2|]; split; [discriminate|reflexivity])|].
    destruct pt as [next|]; cbn [option_map obind]; [|split; [apply kept_refl|]; split; [exact P2|]; split; [intros _; apply inv_done; auto|reflexivity]].
    rewrite (role_view roles m next (PB _ eq_refl)). destruct (mrole roles next) as [rn|]; cbn [obind]; [|reflexivity].
    destruct (negb (isCommon rn)); cbn [obind]; (split; [apply kept_refl|]; split; [first [exact P2|constructor]|]; split; [intros EE; try discriminate EE; apply inv_done; auto|reflexivity]).
  - (* empty *) split; [apply kept_refl|]. split; [constructor|]. split; [intros _; apply inv_same; auto|reflexivity].
  - (* end of input *) unfold mhandleEoi, handleEoi, pad, mpad. cbn [map]. split; [apply kept_refl|]. destruct B as [X1 X2 X3 X4].
    split; [apply Forall_app; split; [apply Forall_forall; intros y Y; apply in_map_iff in Y as (? & <- & _); exact TD|apply Forall_app; split; [apply Forall_app; auto|auto]]|]. split.
    + intros _. apply inv_same; [|exact TX]. constructor; [constructor; cbn; auto|apply IV|cbn; apply IV].
    + cbn [viewState lsStack lsSpaces msSpaces option_map]. rewrite !app_nil_r, !map_app, !map_map. cbn [map]. reflexivity.
Qed.
End P.
