(** C82, C83, C84: the configuration editor of examples/conf-edit. *)
From Coq Require Import List Bool String Ascii Arith Lia.
From Verif Require Import Base Conf ConfSpec ConfProofs ConfInv ConfOps ConfEdits ConfAll.
Import ListNotations.
Open Scope string_scope.
Open Scope nat_scope.
Open Scope list_scope.

Section Edits.
(** strings.TrimSpace *)
Variable trim : string -> string.
Hypothesis trim_empty : trim "" = "".
Hypothesis trim_twice : forall x, trim (trim x) = trim x.

Lemma history es : forall root secs u f, inv trim root secs f -> forall c', performAll trim es (mkConf root secs u f) = Some c' ->
  inv trim (cRoot c') (cSections c') (cFresh c') /\ forall m, means trim root m -> exists m', editedAll trim es m m' /\ means trim (cRoot c') m'.
Proof.
  induction es as [|e es IH]; intros root secs u f I c' H; cbn [performAll] in H.
  - injection H as <-. split; [exact I|]. intros m M. exists m. split; [constructor|exact M].
  - pose proof (perform_ok trim trim_empty trim_twice e root secs u f I) as P. destruct (perform trim e _) as [[r1 s1 u1 f1]|]; [|discriminate]. cbn [obind cRoot cSections cFresh] in *. destruct P as [I1 E1]. destruct (IH _ _ _ _ I1 _ H) as [I2 E2]. split; [exact I2|].
    intros m M. destruct (E2 _ (inv_means trim trim_empty _ _ _ I1)) as (m' & A & B). exists m'. split; [econstructor; [apply E1, M|exact A]|exact B].
Qed.

(** C82: after any history of edits the tree says what the edits ask for, and the rest as before.  Missing: files where a section or an entry is repeated, see the refutations below; editors that crash, see C83. *)
Theorem conf_edits_partial root fresh : document trim root -> numbered root fresh -> noRepeats trim root ->
  exists c, load trim root fresh = Some c /\ cRoot c = root /\
    forall es c', performAll trim es c = Some c' ->
      forall m, means trim root m -> exists m', editedAll trim es m m' /\ means trim (cRoot c') m'.
Proof.
  intros D N R. destruct (load_inv trim trim_empty trim_twice root fresh D N R) as (secs & L & I). eexists. split; [exact L|]. split; [reflexivity|]. intros es c' H. exact (proj2 (history es _ _ _ _ I c' H)).
Qed.
(** There is a map for every such file, and only one. *)
Theorem conf_has_meaning root fresh : document trim root -> numbered root fresh -> noRepeats trim root -> exists m, means trim root m.
Proof. intros D N R. destruct (load_inv trim trim_empty trim_twice root fresh D N R) as (secs & L & I). eexists. apply (inv_means trim trim_empty _ _ _ I). Qed.
Theorem conf_one_meaning root m m' : means trim root m -> means trim root m' -> forall s n, m s n = m' s n.
Proof. apply means_unique. Qed.

(** The tree stays a file of the same grammar, without repeats. *)
Theorem conf_stays_document root fresh c es c' : document trim root -> numbered root fresh -> noRepeats trim root ->
  load trim root fresh = Some c -> performAll trim es c = Some c' -> document trim (cRoot c') /\ noRepeats trim (cRoot c').
Proof.
  intros D N R L H. destruct (load_inv trim trim_empty trim_twice root fresh D N R) as (secs & L' & I). rewrite L' in L. injection L as <-. destruct (history es _ _ _ _ I c' H) as [I' _]. split; [exact (i_doc _ _ _ _ I')|exact (i_rep _ _ _ _ I')].
Qed.

(** C83: an edit crashes only in two cases: adding a section after an empty default section, and removing the section that follows a comment at the start of the file. *)
Theorem conf_crash_partial root fresh c es c' e : document trim root -> numbered root fresh -> noRepeats trim root ->
  load trim root fresh = Some c -> performAll trim es c = Some c' -> perform trim e c' = None ->
  (exists s A i, (e = AddSection s \/ exists name v n, e = SetEntry name v /\ dotted name s n) /\ s <> "" /\ ~ hasSection trim (cRoot c') s /\ cRoot c' = A ++ [TNode i "def-section" []]) \/
  (exists s A t i ty qs B, e = RemoveSection s /\ cRoot c' = A ++ TTok t :: TNode i ty qs :: B /\ sectionNamed trim s (TNode i ty qs)).
Proof.
  intros D N R L H P. destruct (load_inv trim trim_empty trim_twice root fresh D N R) as (secs & L' & I). rewrite L' in L. injection L as <-. destruct (history es _ _ _ _ I c' H) as [I' _]. destruct c' as [r1 s1 u1 f1]. cbn [cRoot cSections cFresh] in *.
  pose proof (perform_ok trim trim_empty trim_twice e r1 s1 u1 f1 I') as X. rewrite P in X. destruct e as [name v|name|s|s]; cbn [stuck] in X.
  - destruct X as (s & n & Q1 & Q2 & Q3 & A & i & Q4). left. exists s, A, i. eauto 10.
  - destruct X.
  - destruct X as (A & t & i & ty & qs & B & Q1 & Q2). right. exists s, A, t, i, ty, qs, B. auto.
  - destruct X as (Q2 & Q3 & A & i & Q4). left. exists s, A, i. auto.
Qed.
(** Entries can always be removed, and always be set in sections that are there. *)
Theorem conf_entries_total root fresh c es c' : document trim root -> numbered root fresh -> noRepeats trim root ->
  load trim root fresh = Some c -> performAll trim es c = Some c' ->
  (forall name, perform trim (RemoveEntry name) c' <> None) /\
  (forall name v s n, dotted name s n -> s = "" \/ hasSection trim (cRoot c') s -> perform trim (SetEntry name v) c' <> None).
Proof.
  intros D N R L H. split.
  - intros name P. destruct (conf_crash_partial _ _ _ _ _ _ D N R L H P) as [(? & ? & ? & [X|(? & ? & ? & X & _)] & _)|(? & ? & ? & ? & ? & ? & ? & X & _)]; discriminate.
  - intros name v s n DN HS P. destruct (conf_crash_partial _ _ _ _ _ _ D N R L H P) as [(s' & A & i & [X|(name' & v' & n' & X & DN')] & NE & NS & _)|(? & ? & ? & ? & ? & ? & ? & X & _)]; [discriminate| |discriminate]. injection X as <- <-.
    assert (s = s' /\ n = n') as [<- <-]; [|tauto]. clear - DN DN'. destruct (splitName name) as [s0 n0] eqn:E.
    assert (U : forall a b, dotted name a b -> (a, b) = splitName name).
    { clear. intros a b [F [->| [-> ->]]].
      - unfold splitName. replace (lastDot (a ++ "." ++ b)%string) with (Some (a, b)); [reflexivity|].
        assert (NB : lastDot b = None).
        { clear a. induction b as [|ch b IH]; [reflexivity|]. cbn [lastDot]. rewrite IH; [|intros x y ->; exact (F (String ch x) y eq_refl)]. destruct (Ascii.eqb_spec ch "."%char) as [->|]; [|reflexivity]. exfalso. exact (F "" b eq_refl). }
        induction a as [|ch a IH]; [cbn; rewrite NB; reflexivity|]. cbn [append lastDot] in *. rewrite <- IH. reflexivity.
      - unfold splitName. replace (lastDot b) with (@None (string * string)); [reflexivity|]. induction b as [|ch b IH]; [reflexivity|]. cbn [lastDot]. rewrite <- IH; [|intros x y ->; exact (F (String ch x) y eq_refl)]. destruct (Ascii.eqb_spec ch "."%char) as [->|]; [|reflexivity]. exfalso. exact (F "" b eq_refl). }
    pose proof (U _ _ DN). pose proof (U _ _ DN'). split; congruence.
Qed.

(** Sections are there after they are added, and are not after they are removed. *)
Theorem conf_sections root fresh c es c' s c'' : document trim root -> numbered root fresh -> noRepeats trim root ->
  load trim root fresh = Some c -> performAll trim es c = Some c' ->
  (perform trim (AddSection s) c' = Some c'' -> hasSection trim (cRoot c'') s) /\
  (perform trim (RemoveSection s) c' = Some c'' -> ~ hasSection trim (cRoot c'') s).
Proof.
  intros D N R L H. destruct (load_inv trim trim_empty trim_twice root fresh D N R) as (secs & L' & I). rewrite L' in L. injection L as <-. destruct (history es _ _ _ _ I c' H) as [I' _]. destruct c' as [r1 s1 u1 f1]. cbn [cRoot cSections cFresh] in I'. split; intros P.
  - cbn [perform] in P. pose proof (add_section trim trim_empty s r1 s1 u1 f1 I') as X. destruct (addSection s _) as [[s' c2]|]; [|discriminate]. cbn [obind snd] in P. injection P as <-. destruct X as (-> & I2 & _ & sc & G). pose proof (i_rec _ _ _ _ I2 s) as C. rewrite G in C. destruct C as (t & ps & HI & S & _). exists t, ps. auto.
  - pose proof (perform_ok trim trim_empty trim_twice (RemoveSection s) r1 s1 u1 f1 I') as X. rewrite P in X. destruct X as [I2 _]. cbn [perform] in P.
    pose proof (i_rec _ _ _ _ I2 s) as C. unfold removeSection in P. cbn [cSections cRoot cFresh] in P. destruct (get s s1) as [sc|] eqn:G.
    + match type of P with obind ?x _ = _ => destruct x; [|discriminate] end. cbn [obind] in P. injection P as <-. cbn [cRoot cSections] in *. rewrite get_del, String.eqb_refl in C. exact C.
    + injection P as <-. cbn [cRoot cSections] in *. rewrite G in C. exact C.
Qed.

(** C84: a file is taken as not changed only when its tree is the one that was read.  For all trees and histories. *)
Definition dirty (c : conf) : Prop := cUpdated c = true \/ exists k sc, get k (cSections c) = Some sc /\ sUpdated sc = true.
Lemma get_in {A} k (v : A) l : get k l = Some v -> In (k, v) l.
Proof. induction l as [|[k' v'] l IH]; cbn; [discriminate|]. destruct (String.eqb_spec k' k) as [->|]; [intros [= ->]; auto|auto]. Qed.
Lemma dirty_updated c : dirty c -> updated c = true.
Proof. unfold updated. intros [H|(k & sc & G & H)]; [rewrite H; reflexivity|]. rewrite orb_true_iff. right. apply existsb_exists. exists (k, sc). split; [apply get_in, G|exact H]. Qed.
Lemma dirty_put root u f s sc sc' secs root' f' : (get s secs = Some sc -> sUpdated sc = true -> sUpdated sc' = true) -> (get s secs = Some sc \/ get s secs = None) -> dirty (mkConf root secs u f) -> dirty (mkConf root' (put s sc' secs) u f').
Proof.
  intros K C [H|(k & x & G & H)]; [left; exact H|]. right. cbn [cSections] in *. destruct (String.eqb_spec k s) as [->|NE].
  - exists s, sc'. rewrite get_put, String.eqb_refl. destruct C as [C|C]; [|congruence]. rewrite C in G. injection G as <-. auto.
  - exists k, x. rewrite get_put. destruct (String.eqb_spec k s); [contradiction|auto].
Qed.
Lemma dirty_now root u f s sc secs : sUpdated sc = true -> dirty (mkConf root (put s sc secs) u f).
Proof. intros H. right. exists s, sc. cbn. rewrite String.eqb_refl. auto. Qed.
Definition careful (c c' : conf) : Prop := (dirty c -> dirty c') /\ (dirty c' \/ cRoot c' = cRoot c).
Lemma careful_refl c : careful c c. Proof. split; auto. Qed.
Lemma careful_trans c1 c2 c3 : careful c1 c2 -> careful c2 c3 -> careful c1 c3.
Proof. intros [A B] [A' B']. split; [auto|]. destruct B' as [B'|B']; [auto|]. destruct B as [B|B]; [auto|right; congruence]. Qed.
Lemma careful_sectionNode i ty ps c s c' : addSectionNode i ty ps c = Some (s, c') -> careful c c' /\ cUpdated c' = cUpdated c.
Proof.
  unfold addSectionNode. destruct (if String.eqb ty "def-section" then _ else _) as [n|]; [|discriminate]. cbn [obind]. destruct (get n (cSections c)) as [x|] eqn:G; intros [= <- <-]; [split; [apply careful_refl|reflexivity]|]. split; [|reflexivity]. split; [|right; reflexivity]. destruct c as [r secs u f]. cbn [cSections cRoot cUpdated cFresh] in *. apply dirty_put with (sc := mkSec [] [] false); [congruence|auto].
Qed.
Lemma careful_addSection s c s' c' : addSection s c = Some (s', c') -> careful c c'.
Proof.
  unfold addSection. destruct (get s (cSections c)); [intros [= <- <-]; apply careful_refl|].
  assert (U : forall c0 i ty ps, cUpdated c0 = true -> addSectionNode i ty ps c0 = Some (s', c') -> careful c c') by (intros c0 i ty ps H X; destruct (careful_sectionNode _ _ _ _ _ _ X) as [_ E]; assert (dirty c') by (left; congruence); split; auto).
  destruct (String.eqb s "").
  - destruct (last_ (cRoot c)) as [l|]; [|apply U; reflexivity]. destruct (negb _); [|apply U; reflexivity]. destruct (find _ _) as [[t|j ty qs]|]; apply U; reflexivity.
  - match goal with |- obind ?x _ = _ -> _ => destruct x as [r|]; [|discriminate] end. cbn [obind]. apply U. reflexivity.
Qed.
Lemma careful_removeSection s c c' : removeSection s c = Some c' -> careful c c'.
Proof.
  unfold removeSection. destruct (get s (cSections c)); [|intros [= <-]; apply careful_refl]. match goal with |- obind ?x _ = _ -> _ => destruct x as [r|]; [|discriminate] end. intros [= <-]. assert (dirty (mkConf r (del s (cSections c)) true (cFresh c))) by (left; reflexivity). split; auto.
Qed.
Lemma careful_entryNode s i ks c c' : addEntryNode trim s i ks c = Some c' -> careful c c'.
Proof.
  destruct c as [r secs u f]. unfold addEntryNode. cbn [cSections cRoot cUpdated cFresh]. destruct (get s secs) as [sc|] eqn:G; [|discriminate]. cbn [obind]. destruct (nth_error (searchIn "name" ks) 0) as [nt|]; [|discriminate]. cbn [obind]. destruct (get (ttext nt) (sEntries sc)) as [e|].
  - assert (X : forall y vn v, let c2 := mkConf y (put s (mkSec (sNodes sc) (put (ttext nt) (mkEntry i vn v) (sEntries sc)) true) secs) u f in careful (mkConf r secs u f) c2) by (intros y vn v c2; assert (dirty c2) by (apply dirty_now; reflexivity); split; auto).
    destruct (nth_error (searchIn "value" ks) 0); intros [= <-]; apply X.
  - destruct (nth_error (searchIn "value" ks) 0); intros [= <-]; (split; [apply (dirty_put _ _ _ _ sc); auto|right; reflexivity]).
Qed.
Lemma careful_setEntry s n v c c' : sectionSetEntry trim s n v c = Some c' -> careful c c'.
Proof.
  destruct c as [r secs u f]. unfold sectionSetEntry. cbn [cSections cRoot cUpdated cFresh]. destruct (get s secs) as [sc|] eqn:G; [|discriminate]. cbn [obind]. destruct (get n (sEntries sc)) as [e|].
  - destruct (String.eqb (eValue e) v); [intros [= <-]; apply careful_refl|]. match goal with |- obind ?x _ = _ -> _ => destruct x as [r'|]; [|discriminate] end. cbn [obind]. intros [= <-]. match goal with |- careful _ ?c2 => assert (dirty c2) by (apply dirty_now; reflexivity) end. split; auto.
  - destruct (last_ (sNodes sc)) as [j|]; [|discriminate]. cbn [obind]. destruct (findTop j r) as [ps|]; [|discriminate]. cbn [obind]. intros X. apply careful_entryNode in X as [X _]. assert (dirty c') by (apply X, dirty_now; reflexivity). split; auto.
Qed.
Lemma careful_perform e c c' : perform trim e c = Some c' -> careful c c'.
Proof.
  destruct e as [name v|name|s|s]; cbn [perform].
  - unfold setEntry. destruct (splitName name) as [s n]. destruct (addSection s c) as [[s' c1]|] eqn:A; [|discriminate]. cbn [obind fst snd]. intros H. eapply careful_trans; [eapply careful_addSection, A|eapply careful_setEntry, H].
  - unfold removeEntry. destruct (splitName name) as [s n]. destruct (get s (cSections c)) as [sc|]; [|intros [= <-]; apply careful_refl]. destruct (get n (sEntries sc)) as [e|]; intros [= <-]; [|apply careful_refl]. match goal with |- careful _ ?c2 => assert (dirty c2) by (apply dirty_now; reflexivity) end. split; auto.
  - apply careful_removeSection.
  - destruct (addSection s c) as [[s' c1]|] eqn:A; [|discriminate]. cbn [obind snd]. intros [= <-]. eapply careful_addSection, A.
Qed.
Lemma careful_load root f c : load trim root f = Some c -> careful (mkConf root [] false f) c.
Proof.
  unfold load. generalize (mkConf root [] false f). generalize root as B. clear. induction B as [|t B IH]; intros c0; cbn [fold_left]; [intros [= <-]; apply careful_refl|].
  cbn [obind]. destruct (loadTop trim c0 t) as [c1|] eqn:E; [|intros H; exfalso; revert H; clear; induction B; cbn; [discriminate|assumption]].
  intros H. eapply careful_trans; [|apply (IH _ H)]. clear - E. destruct t as [t|i ty ps]; cbn [loadTop] in E; [injection E as <-; apply careful_refl|]. destruct (addSectionNode i ty ps c0) as [[s c2]|] eqn:A; [|discriminate]. cbn [obind fst snd] in E. apply careful_sectionNode in A as [A _]. eapply careful_trans; [exact A|]. clear A. revert c2 E. induction ps as [|p ps IH]; intros c2 E; cbn [fold_left] in E; [injection E as <-; apply careful_refl|].
  destruct p as [t|j pty ks]; [apply IH, E|]. destruct (String.eqb pty "entry"); [|apply IH, E]. cbn [obind] in E. destruct (addEntryNode trim s j ks c2) as [c3|] eqn:X; [|exfalso; revert E; clear; induction ps as [|p ps IH]; cbn; [discriminate|]; destruct p as [?|? q ?]; [exact IH|destruct (String.eqb q "entry"); exact IH]].
  eapply careful_trans; [apply (careful_entryNode _ _ _ _ _ X)|apply IH, E].
Qed.
Theorem conf_not_updated root fresh c es c' : load trim root fresh = Some c -> performAll trim es c = Some c' -> updated c' = false -> cRoot c' = root /\ serialize (cRoot c') = serialize root.
Proof.
  intros L H U. assert (X : careful (mkConf root [] false fresh) c').
  { eapply careful_trans; [apply careful_load, L|]. clear L U. revert c H. induction es as [|e es IH]; intros c H; cbn [performAll] in H; [injection H as <-; apply careful_refl|]. destruct (perform trim e c) as [c1|] eqn:P; [|discriminate]. eapply careful_trans; [apply careful_perform with (1 := P)|apply IH, H]. }
  destruct X as [_ [X|X]]; [apply dirty_updated in X; congruence|]. cbn [cRoot] in X. rewrite X. auto.
Qed.
End Edits.

Module Example1.
(** values without spaces around them are enough for the examples *)
Definition trim (s : string) : string := s.
Ltac toks := repeat (apply Forall_cons; [first [right; reflexivity|left; reflexivity|left; left; reflexivity|left; right; reflexivity|left; left; left; reflexivity]|]); apply Forall_nil.
Example trim_ok : trim "" = "" /\ forall x, trim (trim x) = trim x. Proof. split; reflexivity. Qed.
Definition nl := String "010"%char "".
Definition entry3 (i : nat) (n v : string) : part := PNode i "entry" [Tk (1 + i) "name" n; Tk (2 + i) "space" " "; Tk (3 + i) "op" "="; Tk (4 + i) "space" " "; Tk (5 + i) "value" v; Tk (6 + i) "nl" nl].
Definition entry0 (i : nat) (n : string) : part := PNode i "entry" [Tk (1 + i) "name" n; Tk (2 + i) "op" "="; Tk (3 + i) "nl" nl].
Definition head (i : nat) (s : string) : part := PNode i "header" [Tk (1 + i) "op" "["; Tk (2 + i) "sec-name" s; Tk (3 + i) "op" "]"; Tk (4 + i) "nl" nl].
Lemma entry3_ok i n v : piece trim (entry3 i n v).
Proof. apply PieceEntry with (n := n) (v := v). apply (WithValue trim n v (1 + i) [Tk (2 + i) "space" " "] (3 + i) [Tk (4 + i) "space" " "] (5 + i) v [Tk (6 + i) "nl" nl]); [toks..|reflexivity]. Qed.
Lemma entry3_name i n v x : entryNamed trim x (entry3 i n v) -> x = n.
Proof. intros (j & ks & w & E & H). injection E as <- <-. inversion H; reflexivity. Qed.
Lemma entry0_ok i n : piece trim (entry0 i n).
Proof. apply PieceEntry with (n := n) (v := ""). apply (NoValue trim n "" (1 + i) [] (2 + i) [Tk (3 + i) "nl" nl]); [toks..|reflexivity]. Qed.
Lemma entry0_name i n x : entryNamed trim x (entry0 i n) -> x = n.
Proof. intros (j & ks & w & E & H). injection E as <- <-. inversion H; reflexivity. Qed.

(** a = 1, b =, [s], c = 2 *)
Definition ps0 := [entry3 10 "a" "1"; entry0 20 "b"; PNode 30 "sep" [Tk 31 "nl" nl]].
Definition ps1 := [entry3 50 "c" "2"].
Definition root := [TNode 1 "def-section" ps0; TNode 2 "section" (head 40 "s" :: ps1)].
Lemma first_ok : sectionOf trim "" ps0 (TNode 1 "def-section" ps0).
Proof. constructor. unfold ps0. constructor; [apply entry3_ok|]. constructor; [apply entry0_ok|]. constructor; [apply PieceSep; toks|constructor]. Qed.
Lemma second_ok : sectionOf trim "s" ps1 (TNode 2 "section" (head 40 "s" :: ps1)).
Proof. apply (Named trim 2 40 [Tk 41 "op" "["] 42 "s" [Tk 43 "op" "]"; Tk 44 "nl" nl] ps1); [discriminate|unfold inHeader, plain; toks|unfold inHeader, plain; toks|]. constructor; [apply entry3_ok|constructor]. Qed.
Example root_document : document trim root.
Proof. constructor; [eapply ItemSection, first_ok|]. constructor; [eapply ItemSection, second_ok|constructor]. Qed.
Example root_numbered : numbered root 100.
Proof. unfold numbered. cbn. repeat split; repeat constructor; cbn; intuition (try lia; try discriminate). Qed.
Example root_noRepeats : noRepeats trim root.
Proof.
  split.
  - repeat constructor. intros s [p H] [p' H']. destruct (section_det trim _ _ _ _ _ first_ok H) as [<- _]. destruct (section_det trim _ _ _ _ _ second_ok H') as [E _]. discriminate.
  - intros t s ps [<-|[<-|[]]] H; [destruct (section_det trim _ _ _ _ _ first_ok H) as [_ <-]|destruct (section_det trim _ _ _ _ _ second_ok H) as [_ <-]].
    + unfold ps0. repeat constructor.
      * intros n H1 H2. apply entry3_name in H1. apply entry0_name in H2. congruence.
      * intros n _ (? & ? & ? & X & _). discriminate.
      * intros n _ (? & ? & ? & X & _). discriminate.
    + repeat constructor.
Qed.
Definition edits := [SetEntry "a" "7"; SetEntry "b" "8"; SetEntry "s.x" "y"; RemoveEntry "s.c"; SetEntry "t.u" "v"; AddSection "w"; RemoveSection "s"; SetEntry "b" ""].
Definition after : option (bool * string) := do c <- load trim root 100; do c' <- performAll trim edits c; Some (updated c', serialize (cRoot c')).
Example serialized : serialize root = ("a = 1" ++ nl ++ "b=" ++ nl ++ nl ++ "[s]" ++ nl ++ "c = 2" ++ nl)%string. Proof. reflexivity. Qed.
Example performed : after = Some (true, "a = 7" ++ nl ++ "b=" ++ nl ++ "[t]" ++ nl ++ "u=v" ++ nl ++ nl ++ "[w]" ++ nl)%string. Proof. vm_compute. reflexivity. Qed.
(** nothing to change *)
Example unchanged : (do c <- load trim root 100; do c' <- performAll trim [SetEntry "a" "1"; RemoveEntry "z"; RemoveSection "z"] c; Some (updated c')) = Some false. Proof. vm_compute. reflexivity. Qed.

(** a = 1, a=: the entry keeps the value of the entry before it *)
Definition psr := [entry3 10 "a" "1"; entry0 20 "a"].
Definition rootr := [TNode 1 "def-section" psr].
Lemma repeated_ok : sectionOf trim "" psr (TNode 1 "def-section" psr).
Proof. constructor. constructor; [apply entry3_ok|]. constructor; [apply entry0_ok|constructor]. Qed.
(** [s], a = 1, [s], b = 2: only the first one is removed *)
Definition rootd := [TNode 1 "section" [head 10 "s"; entry3 20 "a" "1"]; TNode 2 "section" [head 40 "s"; entry3 50 "b" "2"]].
Lemma section_ok i j k n v : sectionOf trim "s" [entry3 k n v] (TNode i "section" [head j "s"; entry3 k n v]).
Proof. apply (Named trim i j [Tk (1 + j) "op" "["] (2 + j) "s" [Tk (3 + j) "op" "]"; Tk (4 + j) "nl" nl]); [discriminate|unfold inHeader, plain; toks|unfold inHeader, plain; toks|]. constructor; [apply entry3_ok|constructor]. Qed.
(** # c, [s], a = 1 *)
Definition rootc := [TTok (Tk 1 "comment" ("# c" ++ nl)%string); TNode 2 "section" [head 10 "s"; entry3 20 "a" "1"]].
(** a = 1 *)
Definition roote := [TNode 1 "def-section" [entry3 10 "a" "1"]].
End Example1.

(** C82, refuted in full: with a repeated entry the value that was set is not in the file that is written; with a repeated section entries of a removed section stay. *)
Theorem conf_edits_refuted : exists trim, (trim "" = "" /\ forall x, trim (trim x) = trim x) /\
  (exists root fresh c c', document trim root /\ numbered root fresh /\ load trim root fresh = Some c /\ perform trim (SetEntry "a" "2") c = Some c' /\ ~ says trim (cRoot c') "" "a" "2") /\
  (exists root fresh c c', document trim root /\ numbered root fresh /\ load trim root fresh = Some c /\ perform trim (RemoveSection "s") c = Some c' /\ says trim (cRoot c') "s" "b" "2").
Proof.
  exists Example1.trim. split; [exact Example1.trim_ok|]. split.
  - exists Example1.rootr, 100. eexists. eexists. split; [constructor; [eapply ItemSection, Example1.repeated_ok|constructor]|]. split; [unfold numbered; cbn; repeat split; repeat constructor; cbn; intuition (try lia; try discriminate)|]. split; [vm_compute; reflexivity|]. split; [vm_compute; reflexivity|].
    intros (t & ps & [<-|[]] & S & i & ks & HI & E). inversion S; subst. destruct HI as [X|[]]. injection X as <- <-. match type of E with entryOf _ _ _ ?l0 => remember l0 as l eqn:EQ end. destruct E as [i s1 j rest F1 F2 V|i s1 j s2 k y rest F1 F2 F3 V]; [discriminate|]. cbn in EQ.
    injection EQ as _ EQ. destruct s1 as [|q1 s1]; cbn in EQ; [|injection EQ; intros; subst; inversion F1 as [|? ? [Q|Q]]; discriminate]. injection EQ as _ EQ. destruct s2 as [|q2 s2]; cbn in EQ; [discriminate|]. injection EQ as _ EQ. destruct s2; discriminate.
  - exists Example1.rootd, 100. eexists. eexists. split; [constructor; [eapply ItemSection, Example1.section_ok|]; constructor; [eapply ItemSection, Example1.section_ok|constructor]|]. split; [unfold numbered; cbn; repeat split; repeat constructor; cbn; intuition (try lia; try discriminate)|]. split; [vm_compute; reflexivity|]. split; [vm_compute; reflexivity|].
    eexists _, _. split; [left; reflexivity|]. split; [exact (Example1.section_ok 2 40 50 "b" "2")|]. eexists _, _. split; [left; reflexivity|]. exact (WithValue Example1.trim "b" "2" 51 [Tk 52 "space" " "] 53 [Tk 54 "space" " "] 55 "2" [Tk 56 "nl" Example1.nl] ltac:(Example1.toks) ltac:(Example1.toks) ltac:(Example1.toks) eq_refl).
Qed.
(** Values are written as they are given, so line ends in a value make other entries: two edited files have the same text, and mean different values. *)
Theorem conf_text_refuted : exists trim, (trim "" = "" /\ forall x, trim (trim x) = trim x) /\
  exists c c1 c2, load trim [] 0 = Some c /\ performAll trim [SetEntry "a" ("1" ++ Example1.nl ++ "b=2")%string] c = Some c1 /\ performAll trim [SetEntry "a" "1"; SetEntry "b" "2"] c = Some c2 /\
    serialize (cRoot c1) = serialize (cRoot c2) /\ forall m, means trim (cRoot c1) m -> ~ means trim (cRoot c2) m.
Proof.
  exists Example1.trim. split; [exact Example1.trim_ok|]. eexists. eexists. eexists. split; [vm_compute; reflexivity|]. split; [vm_compute; reflexivity|]. split; [vm_compute; reflexivity|]. split; [vm_compute; reflexivity|].
  intros m M1 M2.
  assert (X : forall v i j k l e ps, entryOf Example1.trim "a" v [Tk j "name" "a"; Tk k "op" "="; Tk l "value" v; Tk e "nl" Example1.nl] -> Forall (piece Example1.trim) ps -> says Example1.trim [TNode 0 "def-section" (PNode i "entry" [Tk j "name" "a"; Tk k "op" "="; Tk l "value" v; Tk e "nl" Example1.nl] :: ps)] "" "a" v).
  { intros v i j k l e ps E F. eexists _, _. split; [left; reflexivity|]. split; [constructor; constructor; [eapply PieceEntry, E|exact F]|]. eexists _, _. split; [left; reflexivity|exact E]. }
  assert (Y : forall n v j k l e, entryOf Example1.trim n v [Tk j "name" n; Tk k "op" "="; Tk l "value" v; Tk e "nl" Example1.nl]) by (intros n v j k l e; apply (WithValue Example1.trim n v j [] k [] l v [Tk e "nl" Example1.nl]); [Example1.toks..|reflexivity]).
  assert (A : m "" "a" = Some ("1" ++ Example1.nl ++ "b=2")%string) by (apply M1; apply X; [apply Y|constructor]).
  assert (B : m "" "a" = Some "1") by (apply M2; apply X; [apply Y|constructor; [eapply PieceEntry, Y|constructor]]).
  rewrite A in B. discriminate.
Qed.
(** C83, refuted in full: files without repeats where two ordinary edits crash the editor. *)
Theorem conf_crash_refuted : exists trim, (trim "" = "" /\ forall x, trim (trim x) = trim x) /\
  (exists root fresh c, document trim root /\ numbered root fresh /\ noRepeats trim root /\ load trim root fresh = Some c /\ performAll trim [RemoveEntry "a"; SetEntry "s.b" "2"] c = None) /\
  (exists root fresh c, document trim root /\ numbered root fresh /\ noRepeats trim root /\ load trim root fresh = Some c /\ performAll trim [RemoveSection "s"] c = None).
Proof.
  exists Example1.trim. split; [exact Example1.trim_ok|]. split.
  - exists Example1.roote, 100. eexists.
    assert (S : sectionOf Example1.trim "" [Example1.entry3 10 "a" "1"] (TNode 1 "def-section" [Example1.entry3 10 "a" "1"])) by (constructor; constructor; [apply Example1.entry3_ok|constructor]).
    split; [constructor; [eapply ItemSection, S|constructor]|]. split; [unfold numbered; cbn; repeat split; repeat constructor; cbn; intuition (try lia; try discriminate)|]. split; [|split; vm_compute; reflexivity].
    split; [repeat constructor|]. intros t s ps [<-|[]] H. destruct (section_det _ _ _ _ _ _ S H) as [_ <-]. repeat constructor.
  - exists Example1.rootc, 100. eexists. pose proof (Example1.section_ok 2 10 20 "a" "1") as S.
    split; [constructor; [constructor; left; right; reflexivity|constructor; [eapply ItemSection, S|constructor]]|]. split; [unfold numbered; cbn; repeat split; repeat constructor; cbn; intuition (try lia; try discriminate)|]. split; [|split; vm_compute; reflexivity].
    split; [repeat constructor; intros s [? H]; inversion H|]. intros t s ps [<-|[<-|[]]] H; [inversion H|]. destruct (section_det _ _ _ _ _ _ S H) as [_ <-]. repeat constructor.
Qed.

Print Assumptions conf_edits_partial.
Print Assumptions conf_has_meaning.
Print Assumptions conf_one_meaning.
Print Assumptions conf_stays_document.
Print Assumptions conf_crash_partial.
Print Assumptions conf_entries_total.
Print Assumptions conf_sections.
Print Assumptions conf_not_updated.
Print Assumptions conf_edits_refuted.
Print Assumptions conf_text_refuted.
Print Assumptions conf_crash_refuted.
