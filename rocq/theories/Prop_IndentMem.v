(** C73: layers do not change texts. *)
From Coq Require Import String ZArith List Bool Lia Arith.
From Verif Require Import Base BaseProofs Grammar LangTypes StdLayers Indent IndentMem IndentMemSpec IndentMemProofs.
From Verif Require Lexer LangText.
Import ListNotations.
Open Scope Z_scope.

Section P.
Context {Pos PE : Type}.
Notation mtok := (mtok Pos).
Variable indentTok dedentTok : mtok.
Variable roles : list role.
Hypothesis plainRoles : Forall (fun r => r = RCommon \/ r = RSpace \/ r = RSide) roles.
Lemma layerStep_ok m last t (p : memory -> option mtok * option PE) ms : inv m last ms -> tokIn m indentTok -> tokIn m dedentTok -> tokIn m t -> steady m p -> m <> [] ->
  (isTextual t = true -> match last with Some s => follows m s (mText t) | None => True end) ->
  match mlayerStep indentTok dedentTok roles t p m ms with
  | None => layerStep (view m indentTok) (view m dedentTok) roles (view m t) (viewPeek m (p m)) (viewState m ms) = None
  | Some (o, e, ms', m') => kept m m' /\ Forall (tokIn m') o /\ (e = None -> inv m' (after last t) ms') /\
      layerStep (view m indentTok) (view m dedentTok) roles (view m t) (viewPeek m (p m)) (viewState m ms) = Some (map (view m') o, option_map (viewError m') e, viewState m' ms')
  end.
Proof.
  intros IV TI TD TT ST NE FO. unfold mlayerStep, layerStep. cbn [view lType]. fold (view m t). destruct (Z.eqb_spec (mType t) Lexer.EofTokenType) as [E|E].
  - split; [apply kept_refl|]. split; [constructor; [exact TT|constructor]|]. split; [intros _; apply inv_same; [exact IV|unfold isTextual; rewrite E; reflexivity]|reflexivity].
  - pose proof (handle_ok indentTok dedentTok roles plainRoles m last t p ms IV TI TD TT ST NE FO) as H. destruct (mhandle indentTok dedentTok roles t p m ms) as [((((em, ex), e), ms'), m')|]; cbn [obind]; [|rewrite H; reflexivity].
    destruct H as (K & F & I0 & H). rewrite H. cbn [obind]. split; [exact K|]. pose proof (kept_bounds _ _ _ K TT : tokIn m' t) as T2. split; [|split; [exact I0|]].
    + apply Forall_app. destruct em; cbn [negb andb]; [split; [auto|exact F]|]. destruct (mType t <? 0); [|split; [constructor|exact F]]. destruct ex; [split; auto|]. split; [constructor|]. apply Forall_app. split; auto.
    + rewrite <- (view_kept m m' t K TT). repeat f_equal. rewrite map_app. destruct em; cbn [negb andb]; [reflexivity|]. destruct (mType t <? 0); [|reflexivity]. destruct ex; [reflexivity|]. cbn [map app]. rewrite map_app. reflexivity.
Qed.
Lemma inOrder_kept m m' (l : list mtok) : kept m m' -> Forall (tokIn m) l -> forall last, (forall s, last = Some s -> inBounds m s) -> inOrder m last l -> inOrder m' last l.
Proof.
  intros K F. induction F as [|t l T _ IH]; cbn; auto. intros last BL. destruct (isTextual t).
  - intros (A & B). split; [|apply IH; [intros s E; injection E as <-; exact T|exact B]]. destruct last as [s|]; [|exact A]. destruct A as [A|A]; [left; exact A|right]. apply (atEnd_kept _ _ _ K (BL _ eq_refl) A).
  - apply IH, BL.
Qed.
Lemma run_ok (s : list (mtok * (memory -> option mtok * option PE))) : forall m last ms, inv m last ms -> tokIn m indentTok -> tokIn m dedentTok -> m <> [] ->
  Forall (fun x => tokIn m (fst x) /\ steady m (snd x)) s -> inOrder m last (map fst s) ->
  match mrun indentTok dedentTok roles s m ms with
  | None => run (view m indentTok) (view m dedentTok) roles (map (fun x => (view m (fst x), viewPeek m (snd x m))) s) (viewState m ms) = None
  | Some (o, e, ms', m') => kept m m' /\ Forall (tokIn m') o /\
      run (view m indentTok) (view m dedentTok) roles (map (fun x => (view m (fst x), viewPeek m (snd x m))) s) (viewState m ms) = Some (map (view m') o, option_map (viewError m') e, viewState m' ms')
  end.
Proof.
  induction s as [|(t, p) s IH]; intros m last ms IV TI TD NE F O; cbn [mrun run map]; [split; [apply kept_refl|split; [constructor|reflexivity]]|].
  inversion F as [|? ? (TT & ST) F2]; subst. cbn [fst snd map inOrder] in *.
  assert (FO : (isTextual t = true -> match last with Some s => follows m s (mText t) | None => True end) /\ inOrder m (after last t) (map fst s)) by (unfold after; destruct (isTextual t); [split; tauto|split; [discriminate|tauto]]). destruct FO as (FO & O2).
  pose proof (layerStep_ok m last t p ms IV TI TD TT ST NE FO) as H. destruct (mlayerStep indentTok dedentTok roles t p m ms) as [(((o, e), ms'), m')|]; cbn [obind]; [|rewrite H; reflexivity].
  destruct H as (K & FT & I0 & H). rewrite H. cbn [obind option_map]. destruct e as [e|]; cbn [option_map]; [split; [exact K|split; [constructor|reflexivity]]|]. specialize (I0 eq_refl).
  assert (NE2 : m' <> []) by (destruct K as (n & ->); destruct m; [contradiction|discriminate]).
  assert (F3 : Forall (fun x => tokIn m' (fst x) /\ steady m' (snd x)) s) by (eapply Forall_impl; [|exact F2]; intros x (X1 & X2); split; [eapply kept_bounds; eauto|eapply steady_kept; eauto]).
  assert (O3 : inOrder m' (after last t) (map fst s)).
  { refine (inOrder_kept m m' _ K _ (after last t) _ O2); [apply Forall_forall; intros x IX; apply in_map_iff in IX as (y & <- & IY); rewrite Forall_forall in F2; exact (proj1 (F2 y IY))|]. intros s0 E0. unfold after in E0. destruct (isTextual t); [injection E0 as <-; exact TT|apply (i_last _ _ _ IV), E0]. }
  specialize (IH m' (after last t) ms' I0 (kept_bounds _ _ _ K TI) (kept_bounds _ _ _ K TD) NE2 F3 O3).
  assert (VS : map (fun x => (view m (fst x), viewPeek m (snd x m))) s = map (fun x => (view m' (fst x), viewPeek m' (snd x m'))) s).
  { apply map_ext_in. intros x IX. rewrite Forall_forall in F2. destruct (F2 x IX) as (X1 & X2). rewrite (view_kept _ _ _ K X1), (viewPeek_kept _ _ _ K X2). reflexivity. }
  rewrite VS, <- (view_kept _ _ _ K TI), <- (view_kept _ _ _ K TD). destruct (mrun indentTok dedentTok roles s m' ms') as [(((o2, e2), ms2), m2)|]; cbn [obind]; [|rewrite IH; reflexivity].
  destruct IH as (K2 & FT2 & IH). rewrite IH. cbn [obind]. split; [eapply kept_trans; eauto|]. split; [apply Forall_app; split; [eapply Forall_impl; [|exact FT]; intros x X; eapply kept_bounds; eauto|exact FT2]|].
  assert (VO : map (view m') o = map (view m2) o) by (apply map_ext_in; intros x IX; symmetry; apply view_kept; [exact K2|]; rewrite Forall_forall in FT; apply FT, IX). rewrite map_app, VO. reflexivity.
Qed.
Lemma init_inv m : m <> [] -> inv (Pos := Pos) m None minitState.
Proof. intros NE. constructor; [constructor; cbn; auto using nil_bounds|discriminate|right; right; left; reflexivity]. Qed.
(** *** C73 *)
(** If tokens come one after another as they stand in texts, then the layer does what it does over lists (the model of C35 and C56), and changes no text. *)
Theorem layer_keeps_texts_partial m (s : list (mtok * (memory -> option mtok * option PE))) : m <> [] -> inBounds m (mText indentTok) -> inBounds m (mText dedentTok) ->
  Forall (fun x => inBounds m (mText (fst x)) /\ steady m (snd x)) s -> inOrder m None (map fst s) ->
  match mrun indentTok dedentTok roles s m minitState with
  | None => run (view m indentTok) (view m dedentTok) roles (map (fun x => (view m (fst x), viewPeek m (snd x m))) s) initState = None
  | Some (o, e, ms', m') => kept m m' /\
      run (view m indentTok) (view m dedentTok) roles (map (fun x => (view m (fst x), viewPeek m (snd x m))) s) initState = Some (map (view m') o, option_map (viewError m') e, viewState m' ms')
  end.
Proof.
  intros NE TI TD F O. pose proof (run_ok s m None minitState (init_inv m NE) TI TD NE F O) as H. assert (IS : viewState m (minitState (Pos := Pos)) = initState) by (unfold viewState; cbn; unfold text; cbn; reflexivity). rewrite IS in H.
  destruct (mrun indentTok dedentTok roles s m minitState) as [(((o, e), ms'), m')|]; [|exact H]. destruct H as (K & _ & H). auto.
Qed.
(** A source whose tokens are not replaced before the layer is not changed, whatever it is. *)
Theorem source_kept_partial lex noPos (eoi : mtok) fuel m o m' : lexOk lex -> m <> [] -> inBounds m (mText indentTok) -> inBounds m (mText dedentTok) -> inBounds m (mText eoi) -> mType eoi = Lexer.EoiTokenType ->
  drive (PE := PE) indentTok dedentTok roles lex noPos (fun _ => None) eoi fuel m 0 minitState = Some (o, m') -> kept m m'.
Proof.
  intros LX NE TI TD TE EO. assert (G : forall fuel m pos last ms o m', m <> [] -> tokIn m indentTok -> tokIn m dedentTok -> tokIn m eoi -> inv m last ms ->
    match last with None => True | Some s => slArr s = 0%nat /\ (slOff s + slLen s = pos)%nat end -> (pos <= length (nth 0 m []))%nat ->
    drive (PE := PE) indentTok dedentTok roles lex noPos (fun _ => None) eoi fuel m pos ms = Some (o, m') -> kept m m').
  { clear fuel m o m' NE TI TD TE. induction fuel as [|fuel IH]; intros m pos last ms o m' NE TI TD TE IV LA PL D; cbn [drive] in D; [discriminate|].
    destruct (tokenAt lex noPos eoi m pos) as [t|] eqn:TA; cbn [obind] in D; [|discriminate].
    assert (TAT : forall m2 q u, kept m m2 -> (q <= length (nth 0 m []))%nat -> tokenAt lex noPos eoi m q = u -> tokenAt lex noPos eoi m2 q = u).
    { intros m2 q u (n & ->) _ <-. unfold tokenAt. rewrite app_nth1; [reflexivity|]. destruct m; [contradiction|cbn; lia]. }
    assert (TS : forall q u, (q <= length (nth 0 m []))%nat -> tokenAt lex noPos eoi m q = Some u -> u = eoi \/ isTextual u = true /\ slArr (mText u) = 0%nat /\ slOff (mText u) = q /\ (q + slLen (mText u) <= length (nth 0 m []))%nat).
    { intros q u Q. unfold tokenAt. destruct (skipn q (nth 0 m [])) as [|x r] eqn:SK; [intros X; injection X as <-; auto|]. destruct (lex (x :: r)) as [((ty, n), len)|] eqn:LE; cbn [option_map]; [|discriminate]. intros X. injection X as <-. right. destruct (LX _ _ _ _ LE) as (L1 & L2 & L3).
      rewrite <- SK, skipn_length in L3. cbn. split; [unfold isTextual; cbn [mType mText slLen]; apply andb_true_iff; split; [apply Z.leb_le, L1|destruct len; [lia|reflexivity]]|]. repeat split. lia. }
    assert (TB : forall u, u = eoi \/ isTextual u = true /\ slArr (mText u) = 0%nat /\ (slOff (mText u) + slLen (mText u) <= length (nth 0 m []))%nat -> tokIn m u).
    { intros u [->|(_ & A & L)]; [exact TE|]. split; [rewrite A; destruct m; [contradiction|cbn; lia]|rewrite A; exact L]. }
    pose proof (TS pos t PL TA) as TT. set (pos' := (pos + slLen (mText t))%nat) in D.
    assert (RP : (if mType t =? Lexer.EoiTokenType then t else replaced (fun _ => None) m t) = t) by (destruct (_ =? _); reflexivity). rewrite RP in D.
    assert (TI0 : tokIn m t) by (apply TB; destruct TT as [TT|(A1 & A2 & A3 & A4)]; [auto|right; repeat split; auto; lia]).
    destruct TT as [->|(A1 & A2 & A3 & A4)].
    - (* end of input *) assert (RO : mrole roles eoi = Some REoi) by (unfold mrole; rewrite EO; reflexivity).
      unfold mlayerStep, mhandle in D. rewrite RO in D. cbn [obind] in D. rewrite EO in D. cbn in D. destruct (_ ++ _) in D; injection D as _ <-; apply kept_refl.
    - assert (ST : steady (PE := PE) m (fun m0 => (tokenAt lex noPos eoi m0 pos', None))).
      { assert (Q : (pos' <= length (nth 0 m []))%nat) by (unfold pos'; lia). split; [intros m2 K; f_equal; apply TAT; auto|]. intros u U. cbn in U. apply TB. destruct (TS pos' u Q U) as [->|(U1 & U2 & U3 & U4)]; [auto|right; repeat split; auto; lia]. }
      assert (FO : isTextual t = true -> match last with Some s => follows m s (mText t) | None => True end) by (intros _; destruct last as [s|]; [left; lia|exact I]).
      pose proof (layerStep_ok m last t _ ms IV TI TD TI0 ST NE FO) as H. destruct (mlayerStep indentTok dedentTok roles t (fun m0 => (tokenAt lex noPos eoi m0 pos', None)) m ms) as [(((o1, e), ms1), m1)|]; cbn [obind] in D; [|discriminate].
      destruct H as (K & _ & I0 & _). destruct e as [e|]; [injection D as _ <-; exact K|]. specialize (I0 eq_refl). unfold after in I0. rewrite A1 in I0.
      destruct (Z.eqb_spec (mType t) Lexer.EoiTokenType) as [X|X]; [injection D as _ <-; exact K|].
      destruct (drive indentTok dedentTok roles lex noPos (fun _ => None) eoi fuel m1 pos' ms1) as [(o2, m2)|] eqn:D2; cbn [obind] in D; [|discriminate]. injection D as _ <-. cbn [snd].
      apply (kept_trans _ _ _ K). apply (IH m1 pos' (Some (mText t)) ms1 o2 m2); auto.
      + destruct K as (n & ->). destruct m; [contradiction|discriminate].
      + apply (kept_bounds _ _ _ K TI).
      + apply (kept_bounds _ _ _ K TD).
      + apply (kept_bounds _ _ _ K TE).
      + split; [exact A2|]. rewrite A3. reflexivity.
      + destruct K as (n & ->). rewrite app_nth1 by (destruct m; [contradiction|cbn; lia]). unfold pos'. lia. }
  intros D. eapply (G fuel m 0%nat None); eauto using init_inv; solve [exact I|cbn; lia].
Qed.
End P.

(** ** With layer convert before it *)
Module Example1.
  Definition b := LangText.bytes.
  (** types: 0 - a space, a tab or a line feed; 1 - a word *)
  Fixpoint letters (c : name) : nat := match c with x :: r => if (97 <=? x) && (x <=? 122) then S (letters r) else O | [] => O end.
  Definition lex (c : name) : option (Z * name * nat) :=
    match c with
    | x :: _ => if (x =? 32) || (x =? 9) || (x =? 10) then Some (0, b "sp", 1%nat) else match letters c with O => None | n => Some (1, b "word", n) end
    | [] => None
    end.
  Lemma letters_le c : (letters c <= length c)%nat. Proof. induction c as [|x c IH]; cbn; [lia|]. destruct (_ && _); lia. Qed.
  Lemma lex_ok : lexOk lex.
  Proof.
    intros c ty n len. unfold lex. destruct c as [|x r] eqn:E; [discriminate|]. rewrite <- E. destruct (_ || _); [intros H; injection H as <- <- <-; rewrite E; cbn; lia|]. pose proof (letters_le c). destruct (letters c) eqn:L; [discriminate|]. intros H'. injection H' as <- <- <-. lia.
  Qed.
  (** a, a line feed, a space, a tab, foo, a space, bar *)
  Definition source : name := Eval vm_compute in b "a" ++ [10; 32; 9] ++ b "foo bar".
  (** @convert input-type(sp) convert("\t", "    "); *)
  Definition memory0 : memory := [source; b "    "].
  Definition replace (c : name) : option (Z * name * slice) := if nameEqb c [9] then Some (0, b "sp", mkSl 1 0 4) else None.
  Definition noText : slice := mkSl 0 0 0.
  Definition ti : mtok unit := mkMTok 2 (b "in") noText tt.
  Definition td : mtok unit := mkMTok 3 (b "de") noText tt.
  Definition eoi : mtok unit := mkMTok Lexer.EoiTokenType (b "-eoi-") noText tt.
  Definition roles : list role := [RSpace; RCommon].
  Definition run0 := drive (PE := unit) ti td roles lex tt replace eoi 20 memory0 0 minitState.
  (** without conversion the same text is kept *)
  Example plain : exists o, drive (PE := unit) ti td roles lex tt (fun _ => None) eoi 20 memory0 0 minitState = Some (o, memory0) /\ map (fun t => (mType t, text memory0 (mText t))) o =
    [(1, b "a"); (2, []); (0, [10]); (0, b " "); (0, [9]); (1, b "foo"); (0, b " "); (1, b "bar"); (3, []); (Lexer.EoiTokenType, []); (Lexer.EoiTokenType, [])].
  Proof. eexists. split; vm_compute; reflexivity. Qed.
  Example met : kept memory0 memory0.
  Proof.
    destruct plain as (o & D & _). refine (source_kept_partial ti td roles _ lex tt eoi 20 memory0 o memory0 lex_ok _ _ _ _ eq_refl D); [repeat (apply Forall_cons; [auto|]); constructor|discriminate|split; cbn; lia..].
  Qed.
  (** a stream with three space tokens at the start of a line *)
  Definition tok (ty : Z) (o l : nat) : mtok unit := mkMTok ty (b "") (mkSl 0 o l) tt.
  Fixpoint peeks (l : list (mtok unit)) : list (mtok unit * (memory -> option (mtok unit) * option unit)) :=
    match l with [] => [] | t :: r => (t, fun _ => (match r with [] => None | n :: _ => Some n end, None)) :: peeks r end.
  Definition stream := peeks [tok 1 0 1; tok 0 1 1; tok 0 2 1; tok 0 3 1; tok 1 4 3; eoi].
  Example stream_ok : Forall (fun x => inBounds memory0 (mText (fst x)) /\ steady memory0 (snd x)) stream /\ inOrder memory0 None (map fst stream).
  Proof.
    split; [|cbn; unfold follows; cbn; repeat split; auto].
    repeat (apply Forall_cons; [split; [split; cbn; lia|split; [reflexivity|intros t E; injection E as <-; split; cbn; lia]]|]). apply Forall_cons; [|constructor]. split; [split; cbn; lia|split; [reflexivity|discriminate]].
  Qed.
  Example stream_kept : exists o ms, mrun ti td roles stream memory0 minitState = Some (o, None, ms, memory0) /\ map (fun t => (mType t, text memory0 (mText t))) o =
    [(1, b "a"); (2, []); (0, [10]); (0, b " "); (0, [9]); (1, b "foo"); (3, []); (Lexer.EoiTokenType, []); (Lexer.EoiTokenType, [])].
  Proof. eexists _, _. split; vm_compute; reflexivity. Qed.
End Example1.
(** The full statement (source_kept_partial for every replacement) is false: when a tab is replaced by four spaces, the word after it is overwritten
    with spaces and is never given out (indent.go:284-289: the copy made there is not used). *)
Theorem source_kept_refuted : exists lex (replace : name -> option (Z * name * slice)) (ti td eoi : mtok unit) roles m o m' l,
  lexOk lex /\ Forall (fun r => r = RCommon \/ r = RSpace \/ r = RSide) roles /\ (forall c ty n s, replace c = Some (ty, n, s) -> inBounds m s /\ slArr s <> 0%nat /\ ~ In 10 (text m s)) /\
  Forall (fun t => inBounds m (mText t)) [ti; td; eoi] /\ mType eoi = Lexer.EoiTokenType /\
  words lex (nth 0 m []) l /\ In (1, LangText.bytes "foo") l /\ replace (LangText.bytes "foo") = None /\
  drive (PE := unit) ti td roles lex tt replace eoi 20 m 0 minitState = Some (o, m') /\ ~ kept m m' /\ (forall t, In t o -> text m' (mText t) <> LangText.bytes "foo").
Proof.
  exists Example1.lex, Example1.replace, Example1.ti, Example1.td, Example1.eoi, Example1.roles, Example1.memory0. eexists _, _, [(1, LangText.bytes "a"); (0, [10]); (0, [32]); (0, [9]); (1, LangText.bytes "foo"); (0, [32]); (1, LangText.bytes "bar")].
  split; [exact Example1.lex_ok|]. split; [repeat (apply Forall_cons; [auto|]); constructor|]. split.
  { intros c ty n s. unfold Example1.replace. destruct (nameEqb c [9]); [|discriminate]. intros H. injection H as <- <- <-. split; [split; cbn; lia|]. split; [discriminate|]. vm_compute. intuition discriminate. }
  split; [repeat constructor; cbn; lia|]. split; [reflexivity|]. split.
  { assert (W : forall c ty n len w l, c <> [] -> Example1.lex c = Some (ty, n, len) -> firstn len c = w -> words Example1.lex (skipn len c) l -> words Example1.lex c ((ty, w) :: l)) by (intros c ty n len w l A B <- C; eapply words_cons; eauto).
    repeat (match goal with |- words _ ?c _ => let v := eval vm_compute in c in change c with v end; eapply W; [discriminate|vm_compute; reflexivity|vm_compute; reflexivity|]). vm_compute. constructor. }
  split; [cbn; auto 10|]. split; [reflexivity|]. split; [vm_compute; reflexivity|]. split.
  - intros (new & E). discriminate E.
  - intros t I. cbn in I. repeat (destruct I as [<-|I]; [vm_compute; discriminate|]). destruct I.
Qed.
Print Assumptions layer_keeps_texts_partial.
Print Assumptions source_kept_partial.
Print Assumptions source_kept_refuted.
