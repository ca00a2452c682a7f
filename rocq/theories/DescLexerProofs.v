(** The regular expression of the lexer of descriptions takes spaces, comments and the longest tokens. *)
From Coq Require Import String ZArith List Bool Lia.
From Verif Require Import Base BaseProofs Utf8 Grammar Lexer Regexp RegexpProofs LangText LangTextSpec DescLexer DescLexerSpec.
Import ListNotations.
Open Scope Z_scope.

Definition taken (t : tok) : Prop := documented t /\ inLine t.

(** ** Texts between quotes *)
Inductive inside (q : Z) : list Z -> Prop :=
| IN_end : inside q []
| IN_byte b s : b <> 92 -> b <> q -> inside q s -> inside q (b :: s)
| IN_escape b s : b <> 10 -> inside q s -> inside q (92 :: b :: s).
Lemma inside_quoted q s : inside q s -> quoted q s.
Proof. induction 1; constructor; assumption. Qed.
Lemma inside_line q s r : inside q s -> escapesInLine r -> escapesInLine (s ++ r).
Proof. intros H E. induction H; cbn [app]; [exact E|constructor; assumption|constructor; assumption]. Qed.
Lemma quoted_inside q s : quoted q s -> forall r, escapesInLine (s ++ r) -> inside q s.
Proof.
  induction 1 as [|b s N1 N2 _ IH|b s _ IH]; intros r E; cbn [app] in E.
  - constructor.
  - constructor; [assumption|assumption|]. apply (IH r). inversion E; subst; [assumption|contradiction].
  - inversion E; subst; [contradiction|]. constructor; [assumption|]. apply (IH r). assumption.
Qed.
Lemma inside_high q u s : q < 128 -> Forall (fun x => 128 <= x) u -> inside q s -> inside q (u ++ s).
Proof. intros Q U H. induction U; cbn [app]; [exact H|]. constructor; [lia|lia|assumption]. Qed.
Lemma inside_after q u s : q < 128 -> Forall (fun x => 128 <= x) u -> inside q (u ++ s) -> inside q s.
Proof. intros Q U. induction U as [|x u X U IH]; cbn [app]; [auto|]. intros H. inversion H; subst; [auto|lia]. Qed.
Lemma inside_chunk q u l' : q < 128 -> Forall (fun x => 128 <= x) u -> forall s rest, u ++ l' = s ++ q :: rest -> exists s', s = u ++ s' /\ l' = s' ++ q :: rest.
Proof.
  intros Q U. induction U as [|x u X U IH]; intros s rest E; [exists s; auto|]. destruct s as [|y s]; cbn [app] in E; injection E as -> E; [lia|]. destruct (IH _ _ E) as (s' & -> & ->). exists s'. auto.
Qed.
Lemma inside_unique q : q <> 92 -> forall s, inside q s -> forall s' r r', inside q s' -> s ++ q :: r = s' ++ q :: r' -> s = s'.
Proof.
  intros NQ s H. induction H as [|b s N1 N2 _ IH|b s N _ IH]; intros s' r r' H' E; (inversion H' as [|c t M1 M2 H1|c t M H1]; subst; cbn [app] in E); try reflexivity; try (injection E; intros; congruence).
  - injection E as <- E. f_equal. eauto.
  - injection E as <- E. f_equal. f_equal. eauto.
Qed.

Lemma noneOf_hi l : Forall (fun c => c < 128) l -> hi (noneOf l).
Proof. intros F c C. unfold noneOf, oneOf. induction F as [|x l X _ IH]; [reflexivity|]. cbn [existsb]. destruct (Z.eqb_spec c x); [lia|exact IH]. Qed.
Lemma oneOf_lo l : Forall (fun c => c < 128) l -> lo (oneOf l).
Proof. intros F c C. unfold oneOf. induction F as [|x l X _ IH]; [reflexivity|]. cbn [existsb]. destruct (Z.eqb_spec c x); [lia|exact IH]. Qed.
Lemma dot_hi : hi (noneOf [10]). Proof. apply noneOf_hi. repeat constructor. Qed.

(** [^\\q]|\\. *)
Section Inner.
Variable q : Z.
Hypothesis Q128 : q < 128.
Hypothesis Q92 : q <> 92.
Context {R : Type}.
Lemma class_hi : hi (noneOf [92; q]). Proof. apply noneOf_hi. constructor; [lia|]. constructor; [lia|constructor]. Qed.
Lemma class_no b : noneOf [92; q] b = true <-> b <> 92 /\ b <> q.
Proof. unfold noneOf, oneOf. cbn [existsb]. rewrite orb_false_r, negb_true_iff, orb_false_iff, !Z.eqb_neq. reflexivity. Qed.
Lemma inner_goes : goesOn (rxInner q).
Proof. apply alt_goes; [apply class_goes|]. apply cat_goes; apply class_goes. Qed.
(** what is taken at once, and the text left *)
Lemma inner_step i l g : (forall k : reached -> option R, W (rxInner q) (mkAt i l g) k = None) /\ (forall s rest, inside q s -> l = s ++ q :: rest -> s = []) \/
  exists v l', v <> [] /\ l = v ++ l' /\ (forall k : reached -> option R, W (rxInner q) (mkAt i l g) k = k (mkAt (i + zlen v) l' g)) /\
    (forall s, inside q s -> inside q (v ++ s)) /\ (forall s rest, inside q s -> l = s ++ q :: rest -> exists s', inside q s' /\ s = v ++ s' /\ l' = s' ++ q :: rest).
Proof.
  unfold rxInner. destruct l as [|b l].
  { left. split; [intros k; rewrite W_alt, W_cat; unfold RRune; rewrite !W_class_end; reflexivity|]. intros [|x s] rest _ E; discriminate. }
  destruct (Z.ltb_spec b 128) as [B|B].
  - destruct (noneOf [92; q] b) eqn:N.
    + apply class_no in N as NB. destruct NB as (N1 & N2). right. exists [b], l. split; [discriminate|]. split; [reflexivity|]. split; [|split].
      * intros k. rewrite W_alt, W_cat, W_class_low, N by exact B. rewrite W_rune by lia. destruct (Z.eqb_spec 92 b); [congruence|]. cbn [orElse]. change (zlen [b]) with 1. destruct (k _); reflexivity.
      * intros s H. cbn [app]. constructor; assumption.
      * intros s rest H E. destruct H as [|c s M1 M2 H|c s M H]; cbn [app] in E; injection E as E1 E; subst; [contradiction| |contradiction]. exists s. auto.
    + assert (FST : forall k : reached -> option R, W (RClass (noneOf [92; q])) (mkAt i (b :: l) g) k = None) by (intros k; rewrite W_class_low, N by exact B; reflexivity).
      assert (CASE : b = 92 \/ b = q). { destruct (Z.eq_dec b 92); [auto|]. destruct (Z.eq_dec b q); [auto|]. rewrite (proj2 (class_no b)) in N by auto. discriminate. }
      destruct CASE as [->| ->].
      2:{ left. split; [intros k; rewrite W_alt, W_cat, FST; rewrite W_rune by lia; destruct (Z.eqb_spec 92 q); [congruence|reflexivity]|]. intros s rest H E. destruct H as [|c s M1 M2 H|c s M H]; cbn [app] in E; [reflexivity|congruence|congruence]. }
      assert (SND : forall k : reached -> option R, W (RAlt (RClass (noneOf [92; q])) (RCat (RRune 92) RDot)) (mkAt i (92 :: l) g) k = W RDot (mkAt (i + 1) l g) k).
      { intros k. rewrite W_alt, W_cat, FST. rewrite W_rune by lia. rewrite Z.eqb_refl. reflexivity. }
      destruct l as [|c l].
      { left. split; [intros k; rewrite SND; reflexivity|]. intros s rest H E. destruct H as [|x s M1 M2 H|x s M H]; cbn [app] in E; [reflexivity|congruence|discriminate E]. }
      destruct (Z.ltb_spec c 128) as [C|C].
      * destruct (Z.eq_dec c 10) as [->|NC].
        { left. split; [intros k; rewrite SND; unfold RDot; rewrite W_class_low by lia; reflexivity|]. intros s rest H E. destruct H as [|x s M1 M2 H|x s M H]; cbn [app] in E; [reflexivity|congruence|congruence]. }
        right. exists [92; c], l. split; [discriminate|]. split; [reflexivity|]. split; [|split].
        -- intros k. rewrite SND. unfold RDot. rewrite W_class_low by exact C. unfold noneOf, oneOf. cbn [existsb]. destruct (Z.eqb_spec c 10); [contradiction|]. cbn [orb negb]. replace (i + 1 + 1) with (i + zlen [92; c]) by (change (zlen [92; c]) with 2; lia). reflexivity.
        -- intros s H. cbn [app]. constructor; assumption.
        -- intros s rest H E. destruct H as [|x s M1 M2 H|x s M H]; cbn [app] in E; [congruence|congruence|]. injection E as <- E. exists s. auto.
      * destruct (@W_class_hi R _ (i + 1) c l g dot_hi C) as (u & l' & -> & U & _ & E0). right. exists (92 :: c :: u), l'. split; [discriminate|]. split; [reflexivity|]. split; [|split].
        -- intros k. rewrite SND. unfold RDot. rewrite E0. f_equal. f_equal. unfold zlen. cbn [length]. lia.
        -- intros s H. cbn [app]. constructor; [lia|]. apply inside_high; assumption.
        -- intros s rest H E. destruct H as [|x s M1 M2 H|x s M H]; cbn [app] in E; [congruence|congruence|]. injection E as <- E. destruct (inside_chunk q u l' Q128 U _ _ E) as (s' & -> & ->). exists s'. split; [exact (inside_after q u s' Q128 U H)|]. auto.
  - destruct (@W_class_hi R _ i b l g class_hi B) as (u & l' & -> & U & _ & E0). right. exists (b :: u), l'. split; [discriminate|]. split; [reflexivity|]. split; [|split].
    + intros k. rewrite W_alt, W_cat, E0. rewrite W_rune by lia. destruct (Z.eqb_spec 92 b); [lia|]. replace (i + (1 + zlen u)) with (i + zlen (b :: u)) by (unfold zlen; cbn [length]; lia). destruct (k _); reflexivity.
    + intros s H. cbn [app]. constructor; [lia|lia|]. apply inside_high; assumption.
    + intros s rest H E. destruct H as [|x s M1 M2 H|x s M H]; cbn [app] in E; [injection E as E _; lia| |injection E as E _; lia]. injection E as <- E. destruct (inside_chunk q u l' Q128 U _ _ E) as (s' & -> & ->). exists s'. split; [exact (inside_after q u s' Q128 U H)|]. auto.
Qed.
(** repeated, then the closing quote *)
Lemma inner_closed g (k : reached -> option R) : (forall s, k s <> None) -> forall n s rest i, (length (s ++ q :: rest) <= n)%nat -> inside q s ->
  first (fun s' => W (RRune q) s' k) (repeats (ways (rxInner q)) true n (mkAt i (s ++ q :: rest) g)) = k (mkAt (i + zlen s + 1) rest g).
Proof.
  intros T. induction n as [|n IH]; intros s rest i L H; [rewrite app_length in L; cbn [length] in L; lia|]. rewrite repeats_greedy by apply inner_goes.
  destruct (inner_step i (s ++ q :: rest) g) as [(N & E)|(v & l' & NV & EL & S1 & S2 & S3)].
  - rewrite N. rewrite (E s rest H eq_refl). cbn [app orElse]. rewrite W_rune by exact Q128. rewrite Z.eqb_refl. change (zlen (@nil Z)) with 0. rewrite Z.add_0_r. reflexivity.
  - rewrite S1. destruct (S3 s rest H eq_refl) as (s' & H' & -> & ->). rewrite IH; [|rewrite !app_length in *; destruct v; [contradiction|cbn [length] in *; lia]|exact H'].
    replace (i + zlen v + zlen s' + 1) with (i + zlen (v ++ s') + 1) by (unfold zlen; rewrite app_length; lia). destruct (k (mkAt (i + zlen (v ++ s') + 1) rest g)) eqn:X; [reflexivity|destruct (T _ X)].
Qed.
Lemma inner_open g (k : reached -> option R) : forall n l i, (length l <= n)%nat -> (forall s rest, inside q s -> l <> s ++ q :: rest) ->
  first (fun s' => W (RRune q) s' k) (repeats (ways (rxInner q)) true n (mkAt i l g)) = None.
Proof.
  assert (Z0 : forall l i, (forall s rest, inside q s -> l <> s ++ q :: rest) -> W (RRune q) (mkAt i l g) k = None).
  { intros [|b l] i H; [reflexivity|]. rewrite W_rune by exact Q128. destruct (Z.eqb_spec q b) as [<-|]; [|reflexivity]. destruct (H [] l (IN_end q) eq_refl). }
  induction n as [|n IH]; intros l i L H.
  - rewrite repeats_stop. apply Z0, H.
  - rewrite repeats_greedy by apply inner_goes. destruct (inner_step i l g) as [(N & _)|(v & l' & NV & EL & S1 & S2 & _)].
    + rewrite N. apply Z0, H.
    + rewrite S1. rewrite IH; [apply Z0, H|subst l; rewrite app_length in L; destruct v; [contradiction|cbn [length] in *; lia]|]. intros s rest HS E. apply (H (v ++ s) rest); [apply S2, HS|]. subst. rewrite <- app_assoc. reflexivity.
Qed.
End Inner.
(** '.*?' *)
Lemma single_closed {R} g (k : reached -> option R) : (forall s, k s <> None) -> forall n s rest i, (length (s ++ 39%Z :: rest) <= n)%nat -> ~ In 39 s -> ~ In 10 s ->
  first (fun s' => W (RRune 39) s' k) (repeats (ways RDot) false n (mkAt i (s ++ 39 :: rest) g)) = k (mkAt (i + zlen s + 1) rest g).
Proof.
  intros T. induction n as [|n IH]; intros s rest i L A B; [rewrite app_length in L; cbn [length] in L; lia|]. rewrite repeats_lazy by apply class_goes. destruct s as [|b s].
  - cbn [app]. rewrite W_rune by lia. rewrite Z.eqb_refl. change (zlen (@nil Z)) with 0. rewrite Z.add_0_r. destruct (k (mkAt (i + 1) rest g)) eqn:X; [reflexivity|destruct (T _ X)].
  - cbn [app]. assert (NB : b <> 39 /\ b <> 10) by (split; intros ->; [apply A|apply B]; left; reflexivity). rewrite W_rune by lia. destruct (Z.eqb_spec 39 b); [lia|]. cbn [orElse].
    destruct (Z.ltb_spec b 128) as [C|C].
    + unfold RDot at 1. rewrite W_class_low by exact C. unfold noneOf at 1, oneOf. cbn [existsb]. destruct (Z.eqb_spec b 10); [lia|]. cbn [orb negb]. rewrite IH; [|cbn [app length] in L; lia|intros X; apply A; right; exact X|intros X; apply B; right; exact X]. f_equal. f_equal. unfold zlen. cbn [length]. lia.
    + destruct (@W_class_hi R _ i b (s ++ 39 :: rest) g dot_hi C) as (u & l' & E & U & _ & E0). unfold RDot at 1. rewrite E0. symmetry in E. destruct (inside_chunk 39 u l' ltac:(lia) U _ _ E) as (s' & -> & ->).
      rewrite IH; [|cbn [app length] in L; rewrite !app_length in *; lia|intros X; apply A; right; apply in_app_iff; right; exact X|intros X; apply B; right; apply in_app_iff; right; exact X]. f_equal. f_equal. unfold zlen. cbn [length]. rewrite app_length. lia.
Qed.
Lemma single_open {R} g (k : reached -> option R) : forall n l i, (length l <= n)%nat -> (forall s rest, ~ In 39 s -> ~ In 10 s -> l <> s ++ 39 :: rest) ->
  first (fun s' => W (RRune 39) s' k) (repeats (ways RDot) false n (mkAt i l g)) = None.
Proof.
  assert (Z0 : forall l i, (forall s rest, ~ In 39 s -> ~ In 10 s -> l <> s ++ 39 :: rest) -> W (RRune 39) (mkAt i l g) k = None).
  { intros [|b l] i H; [reflexivity|]. rewrite W_rune by lia. destruct (Z.eqb_spec 39 b) as [<-|]; [|reflexivity]. destruct (H [] l (fun x => x) (fun x => x) eq_refl). }
  induction n as [|n IH]; intros l i L H.
  - rewrite repeats_stop. apply Z0, H.
  - rewrite repeats_lazy by apply class_goes. rewrite Z0 by exact H. cbn [orElse]. destruct l as [|b l]; [reflexivity|]. assert (N39 : b <> 39) by (intros ->; destruct (H [] l (fun x => x) (fun x => x) eq_refl)).
    destruct (Z.ltb_spec b 128) as [C|C].
    + unfold RDot at 1. rewrite W_class_low by exact C. unfold noneOf at 1, oneOf. cbn [existsb]. destruct (Z.eqb_spec b 10) as [|N10]; [reflexivity|]. cbn [orb negb]. apply IH; [cbn [length] in L; lia|].
      intros s rest A B E. apply (H (b :: s) rest); [intros [X|X]; [lia|contradiction]|intros [X|X]; [lia|contradiction]|]. subst l. reflexivity.
    + destruct (@W_class_hi R _ i b l g dot_hi C) as (u & l' & -> & U & _ & E0). unfold RDot at 1. rewrite E0. apply IH; [cbn [length] in L; rewrite app_length in L; lia|].
      assert (NU : forall x, x < 128 -> ~ In x (b :: u)) by (intros x X [Y|Y]; [lia|]; rewrite Forall_forall in U; specialize (U x Y); lia).
      intros s rest A B E. apply (H ((b :: u) ++ s) rest); [intros X; apply in_app_iff in X; destruct X as [X|X]; [exact (NU 39 ltac:(lia) X)|contradiction]|intros X; apply in_app_iff in X; destruct X as [X|X]; [exact (NU 10 ltac:(lia) X)|contradiction]|]. subst l'. cbn [app]. rewrite <- app_assoc. reflexivity.
Qed.

(** ** Alternatives *)
Section Alternatives.
Context {R : Type} (k : reached -> option R).
Hypothesis T : forall s, k s <> None.
Notation at_ i l g := (mkAt i l g).
Lemma cat_rune c a i b s g : c < 128 -> W (RCat (RRune c) a) (at_ i (b :: s) g) k = if c =? b then W a (at_ (i + 1) s g) k else None.
Proof. intros C. rewrite W_cat. apply W_rune, C. Qed.
Lemma cat_other c a i b s g : c < 128 -> b <> c -> W (RCat (RRune c) a) (at_ i (b :: s) g) k = None.
Proof. intros C N. rewrite cat_rune by exact C. destruct (Z.eqb_spec c b); [congruence|reflexivity]. Qed.
Lemma plus_class p i b s g : lo p -> W (RPlus (RClass p)) (at_ i (b :: s) g) k = if p b then W (RStar true (RClass p)) (at_ (i + 1) s g) k else None.
Proof. intros L. unfold RPlus. rewrite W_cat. apply W_class_lo, L. Qed.
Definition spaceB : Z -> bool := oneOf [9; 10; 12; 13; 32].
Lemma space_iff b : spaceB b = true <-> spaceByte b.
Proof. unfold spaceB, oneOf, spaceByte. cbn [existsb]. rewrite !orb_true_iff, !Z.eqb_eq. intuition discriminate. Qed.
Lemma space_lo : lo spaceB. Proof. apply oneOf_lo. repeat constructor. Qed.
Lemma letter_iff b : letterB b = true <-> letter b.
Proof. unfold letterB, letter, between. rewrite !orb_true_iff, !andb_true_iff, !Z.leb_le, Z.eqb_eq. intuition. Qed.
Lemma name_iff b : nameB b = true <-> nameByte b.
Proof. unfold nameB, nameByte, between. rewrite !orb_true_iff, letter_iff, !andb_true_iff, !Z.leb_le, Z.eqb_eq. intuition. Qed.
Lemma low_iff b : lowB b = true <-> 97 <= b <= 122.
Proof. unfold lowB, between. rewrite andb_true_iff, !Z.leb_le. reflexivity. Qed.
Lemma letter_lo : lo letterB. Proof. intros c C. apply not_true_iff_false. rewrite letter_iff. unfold letter. lia. Qed.
Lemma name_lo : lo nameB. Proof. intros c C. apply not_true_iff_false. rewrite name_iff. unfold nameByte, letter. lia. Qed.
Lemma low_lo : lo lowB. Proof. intros c C. apply not_true_iff_false. rewrite low_iff. lia. Qed.
Definition opB : Z -> bool := oneOf [40; 41; 123; 125; 91; 93; 61; 124; 44; 59; 64].
Lemma op_lo : lo opB. Proof. apply oneOf_lo. repeat constructor. Qed.
Lemma oneOf_iff l b : oneOf l b = true <-> In b l.
Proof. unfold oneOf. rewrite existsb_exists. split; [intros (x & I0 & E); apply Z.eqb_eq in E; subst; exact I0|intros I0; exists b; split; [exact I0|apply Z.eqb_refl]]. Qed.

Lemma spaces_no i b s g : ~ spaceByte b -> W rxSpaces (at_ i (b :: s) g) k = None.
Proof. intros N. unfold rxSpaces, RSpace. rewrite plus_class by exact space_lo. destruct (oneOf [9; 10; 12; 13; 32] b) eqn:E; [|reflexivity]. destruct N. apply space_iff, E. Qed.
Lemma spaces_yes i b s g : spaceByte b -> exists a rest, s = a ++ rest /\ Forall spaceByte a /\ W rxSpaces (at_ i (b :: s) g) k = k (at_ (i + zlen (b :: a)) rest g).
Proof.
  intros H. unfold rxSpaces, RSpace. rewrite plus_class by exact space_lo. change (oneOf [9; 10; 12; 13; 32] b) with (spaceB b). rewrite (proj2 (space_iff b) H). destruct (run_split spaceB s) as (a & rest & -> & F & ST). exists a, rest. split; [reflexivity|]. split; [eapply Forall_impl; [|exact F]; intros x; apply space_iff|].
  rewrite W_run by (auto using space_lo). f_equal. f_equal. unfold zlen. cbn [length]. lia.
Qed.
Lemma comment_yes i s g : exists a rest, s = a ++ rest /\ ~ In 10 a /\ (rest = [] \/ hd_error rest = Some 10) /\ W rxComment (at_ i (35 :: s) g) k = k (at_ (i + zlen (35 :: a)) rest g).
Proof.
  unfold rxComment. rewrite cat_rune by lia. rewrite Z.eqb_refl. destruct (run_split (noneOf [10]) s) as (a & rest & -> & F & ST). exists a, rest. split; [reflexivity|]. split; [intros I0; rewrite Forall_forall in F; specialize (F 10 I0); discriminate F|]. split.
  - destruct rest as [|x rest]; [auto|]. right. cbn [stopsAt] in ST. unfold noneOf, oneOf in ST. cbn [existsb] in ST. destruct (Z.eqb_spec x 10) as [->|]; [reflexivity|discriminate].
  - rewrite W_run by (auto using dot_hi). f_equal. f_equal. unfold zlen. cbn [length]. lia.
Qed.
(** a name: the longest *)
Lemma name_no i s g : ~ (exists b r, s = b :: r /\ letter b) -> W rxName (at_ i s g) k = None.
Proof. intros N. unfold rxName. rewrite W_cat. destruct s as [|b s]; [reflexivity|]. rewrite W_class_lo by exact letter_lo. destruct (letterB b) eqn:E; [|reflexivity]. destruct N. exists b, s. split; [reflexivity|apply letter_iff, E]. Qed.
Lemma name_yes i b s g : letter b -> exists a rest, s = a ++ rest /\ Forall nameByte a /\ (forall x r, rest = x :: r -> ~ nameByte x) /\ W rxName (at_ i (b :: s) g) k = k (at_ (i + zlen (b :: a)) rest g).
Proof.
  intros H. unfold rxName. rewrite W_cat. rewrite W_class_lo by exact letter_lo. rewrite (proj2 (letter_iff b) H). destruct (run_split nameB s) as (a & rest & -> & F & ST). exists a, rest. split; [reflexivity|]. split; [eapply Forall_impl; [|exact F]; intros x; apply name_iff|]. split.
  - intros x r -> X. apply name_iff in X. cbn [stopsAt] in ST. congruence.
  - rewrite W_run by (auto using name_lo). f_equal. f_equal. unfold zlen. cbn [length]. lia.
Qed.
Lemma dir_no i s g : ~ (exists b r, s = b :: r /\ 97 <= b <= 122) -> W rxDir (at_ i (33 :: s) g) k = None.
Proof. intros N. unfold rxDir. rewrite cat_rune by lia. rewrite Z.eqb_refl. destruct s as [|b s]; [reflexivity|]. rewrite plus_class by exact low_lo. destruct (lowB b) eqn:E; [|reflexivity]. destruct N. exists b, s. split; [reflexivity|apply low_iff, E]. Qed.
Lemma dir_yes i b s g : 97 <= b <= 122 -> exists a rest, s = a ++ rest /\ Forall (fun x => 97 <= x <= 122) a /\ (forall x r, rest = x :: r -> ~ 97 <= x <= 122) /\ W rxDir (at_ i (33 :: b :: s) g) k = k (at_ (i + zlen (33 :: b :: a)) rest g).
Proof.
  intros H. unfold rxDir. rewrite cat_rune by lia. rewrite Z.eqb_refl. rewrite plus_class by exact low_lo. rewrite (proj2 (low_iff b) H). destruct (run_split lowB s) as (a & rest & -> & F & ST). exists a, rest. split; [reflexivity|]. split; [eapply Forall_impl; [|exact F]; intros x; apply low_iff|]. split.
  - intros x r -> X. apply low_iff in X. cbn [stopsAt] in ST. congruence.
  - rewrite W_run by (auto using low_lo). f_equal. f_equal. unfold zlen. cbn [length]. lia.
Qed.
Lemma double_yes i s rest g : inside 34 s -> W rxDouble (at_ i (34 :: s ++ 34 :: rest) g) k = k (at_ (i + zlen (34 :: s ++ [34])) rest g).
Proof.
  intros H. unfold rxDouble. rewrite cat_rune by lia. rewrite Z.eqb_refl, W_cat, W_star. rewrite inner_closed; [|lia|lia|exact T|apply Nat.le_refl|exact H]. f_equal. f_equal. unfold zlen. cbn [length]. rewrite app_length. cbn [length]. lia.
Qed.
Lemma double_no i s g : (forall a rest, inside 34 a -> s <> a ++ 34 :: rest) -> W rxDouble (at_ i (34 :: s) g) k = None.
Proof. intros H. unfold rxDouble. rewrite cat_rune by lia. rewrite Z.eqb_refl, W_cat, W_star. apply inner_open; [lia|lia|apply Nat.le_refl|exact H]. Qed.
Lemma single_yes i s rest g : ~ In 39 s -> ~ In 10 s -> W rxSingle (at_ i (39 :: s ++ 39 :: rest) g) k = k (at_ (i + zlen (39 :: s ++ [39])) rest g).
Proof.
  intros A B. unfold rxSingle. rewrite cat_rune by lia. rewrite Z.eqb_refl, W_cat, W_star. rewrite single_closed; [|exact T|apply Nat.le_refl|exact A|exact B]. f_equal. f_equal. unfold zlen. cbn [length]. rewrite app_length. cbn [length]. lia.
Qed.
Lemma single_no i s g : (forall a rest, ~ In 39 a -> ~ In 10 a -> s <> a ++ 39 :: rest) -> W rxSingle (at_ i (39 :: s) g) k = None.
Proof. intros H. unfold rxSingle. rewrite cat_rune by lia. rewrite Z.eqb_refl, W_cat, W_star. apply single_open; [apply Nat.le_refl|exact H]. Qed.
Lemma regexp_yes i s rest g : s <> [] -> inside 47 s -> W rxRegexp (at_ i (47 :: s ++ 47 :: rest) g) k = k (at_ (i + zlen (47 :: s ++ [47])) rest g).
Proof.
  intros NE H. unfold rxRegexp, RPlus. rewrite cat_rune by lia. rewrite Z.eqb_refl, !W_cat. destruct (inner_step 47 ltac:(lia) ltac:(lia) (R := R) (i + 1) (s ++ 47 :: rest) g) as [(_ & E)|(v & l' & NV & EL & S1 & S2 & S3)].
  - destruct (NE (E s rest H eq_refl)).
  - rewrite S1. destruct (S3 s rest H eq_refl) as (s' & H' & -> & ->). rewrite W_star. rewrite inner_closed; [|lia|lia|exact T|apply Nat.le_refl|exact H']. f_equal. f_equal. unfold zlen. cbn [length]. rewrite !app_length. cbn [length]. lia.
Qed.
Lemma regexp_no i s g : (forall a rest, a <> [] -> inside 47 a -> s <> a ++ 47 :: rest) -> W rxRegexp (at_ i (47 :: s) g) k = None.
Proof.
  intros H. unfold rxRegexp, RPlus. rewrite cat_rune by lia. rewrite Z.eqb_refl, !W_cat. destruct (inner_step 47 ltac:(lia) ltac:(lia) (R := R) (i + 1) s g) as [(N & _)|(v & l' & NV & EL & S1 & S2 & _)]; [apply N|].
  rewrite S1, W_star. apply inner_open; [lia|lia|apply Nat.le_refl|]. intros a rest IA E. apply (H (v ++ a) rest); [destruct v; [contradiction|discriminate]|apply S2, IA|]. subst. rewrite <- app_assoc. reflexivity.
Qed.
Lemma template_no i s g : ~ (exists b r, s = 36 :: b :: r /\ letter b) -> W rxTemplate (at_ i (36 :: s) g) k = None.
Proof.
  intros N. unfold rxTemplate. rewrite cat_rune by lia. rewrite Z.eqb_refl. destruct s as [|c s]; [rewrite W_cat; reflexivity|]. rewrite cat_rune by lia. destruct (Z.eqb_spec 36 c) as [<-|]; [|reflexivity]. apply name_no. intros (b & r & -> & H). apply N. eauto.
Qed.
Lemma template_yes i b s g : letter b -> exists a rest, s = a ++ rest /\ Forall nameByte a /\ (forall x r, rest = x :: r -> ~ nameByte x) /\ W rxTemplate (at_ i (36 :: 36 :: b :: s) g) k = k (at_ (i + zlen (36 :: 36 :: b :: a)) rest g).
Proof.
  intros H. unfold rxTemplate. rewrite cat_rune by lia. rewrite Z.eqb_refl. rewrite cat_rune by lia. rewrite Z.eqb_refl. destruct (name_yes (i + 1 + 1) b s g H) as (a & rest & E & F & ST & ->). exists a, rest. split; [exact E|]. split; [exact F|]. split; [exact ST|]. f_equal. f_equal. unfold zlen. cbn [length]. lia.
Qed.
Lemma token_yes i b s g : letter b -> exists a rest, s = a ++ rest /\ Forall nameByte a /\ (forall x r, rest = x :: r -> ~ nameByte x) /\ W rxToken (at_ i (36 :: b :: s) g) k = k (at_ (i + zlen (36 :: b :: a)) rest g).
Proof.
  intros H. unfold rxToken. rewrite cat_rune by lia. rewrite Z.eqb_refl, W_opt. destruct (name_yes (i + 1) b s g H) as (a & rest & E & F & ST & ->). exists a, rest. split; [exact E|]. split; [exact F|]. split; [exact ST|].
  replace (i + zlen (36 :: b :: a)) with (i + 1 + zlen (b :: a)) by (unfold zlen; cbn [length]; lia). destruct (k (at_ (i + 1 + zlen (b :: a)) rest g)) eqn:X; [reflexivity|destruct (T _ X)].
Qed.
Lemma token_end i s g : ~ (exists b r, s = b :: r /\ letter b) -> W rxToken (at_ i (36 :: s) g) k = k (at_ (i + 1) s g).
Proof. intros N. unfold rxToken. rewrite cat_rune by lia. rewrite Z.eqb_refl, W_opt. rewrite name_no by exact N. reflexivity. Qed.
Lemma op_yes i b s g : In b [40; 41; 123; 125; 91; 93; 61; 124; 44; 59; 64] -> W rxOp (at_ i (b :: s) g) k = k (at_ (i + 1) s g).
Proof. intros H. unfold rxOp. rewrite W_class_lo by exact op_lo. rewrite (proj2 (oneOf_iff _ b) H). reflexivity. Qed.
Lemma op_no i b s g : ~ In b [40; 41; 123; 125; 91; 93; 61; 124; 44; 59; 64] -> W rxOp (at_ i (b :: s) g) k = None.
Proof. intros H. unfold rxOp. rewrite W_class_lo by exact op_lo. destruct (oneOf _ b) eqn:E; [|reflexivity]. destruct H. apply oneOf_iff, E. Qed.
Lemma wrong_yes i b s g : In b [39; 34; 47; 33] -> exists u rest, s = u ++ rest /\ ~ In 10 u /\ (length u <= 40)%nat /\ (rest = [] \/ hd_error rest = Some 10 \/ (10 <= length u)%nat) /\ W rxWrong (at_ i (b :: s) g) k = k (at_ (i + zlen (b :: u)) rest g).
Proof.
  intros H. unfold rxWrong. rewrite W_cat. rewrite W_class_lo by (apply oneOf_lo; repeat constructor). rewrite (proj2 (oneOf_iff _ b) H). destruct (W_upto_dot k g T 10 (i + 1) s) as (u & rest & E & N & L & ST & ->). exists u, rest. split; [exact E|]. split; [exact N|]. split; [lia|]. split; [exact ST|]. f_equal. f_equal. unfold zlen. cbn [length]. lia.
Qed.
Lemma wrong_no i b s g : ~ In b [39; 34; 47; 33] -> W rxWrong (at_ i (b :: s) g) k = None.
Proof. intros H. unfold rxWrong. rewrite W_cat. rewrite W_class_lo by (apply oneOf_lo; repeat constructor). destruct (oneOf _ b) eqn:E; [|reflexivity]. destruct H. apply oneOf_iff, E. Qed.
End Alternatives.

(** ** All of it *)
Definition ops : list Z := [40; 41; 123; 125; 91; 93; 61; 124; 44; 59; 64].
Lemma taken_cases t r b s : taken t -> b :: s = tText t ++ r ->
  (b = 34 /\ exists a, inside 34 a /\ s = a ++ 34 :: r /\ t = mkT KString (34 :: a ++ [34])) \/
  (b = 39 /\ exists a, ~ In 39 a /\ ~ In 10 a /\ s = a ++ 39 :: r /\ t = mkT KString (39 :: a ++ [39])) \/
  (letter b /\ exists a, Forall nameByte a /\ s = a ++ r /\ t = mkT KName (b :: a)) \/
  (b = 33 /\ exists c a, 97 <= c <= 122 /\ Forall (fun x => 97 <= x <= 122) a /\ s = c :: a ++ r /\ t = mkT KDir (33 :: c :: a)) \/
  (b = 36 /\ exists c a, letter c /\ Forall nameByte a /\ s = 36 :: c :: a ++ r /\ t = mkT KTemplate (36 :: 36 :: c :: a)) \/
  (b = 36 /\ exists c a, letter c /\ Forall nameByte a /\ s = c :: a ++ r /\ t = mkT KToken (36 :: c :: a)) \/
  (b = 36 /\ s = r /\ t = mkT KToken [36]) \/
  (b = 47 /\ exists a, a <> [] /\ inside 47 a /\ s = a ++ 47 :: r /\ t = mkT KRegexp (47 :: a ++ [47])) \/
  (In b ops /\ s = r /\ t = mkT KOp [b]).
Proof.
  intros (D & L) E. destruct D as [a QA|a NA|n (c & a & -> & LC & FA)|a NE FA|n (c & a & -> & LC & FA)|n (c & a & -> & LC & FA)| |a NE QA|c IC]; cbn [tText app] in E.
  - left. injection E as -> E. rewrite <- app_assoc in E. split; [reflexivity|]. exists a. split; [exact (quoted_inside 34 a QA [34] L)|]. auto.
  - right; left. injection E as -> E. rewrite <- app_assoc in E. split; [reflexivity|]. exists a. cbn [inLine tText] in L. split; [exact NA|]. split; [intros X; apply L, in_app_iff; left; exact X|]. auto.
  - do 2 right; left. injection E as -> E. split; [exact LC|]. eauto.
  - do 3 right; left. injection E as -> E. destruct a as [|c a]; [contradiction|]. inversion FA; subst. split; [reflexivity|]. exists c, a. auto.
  - do 4 right; left. injection E as -> E. split; [reflexivity|]. exists c, a. auto.
  - do 5 right; left. injection E as -> E. split; [reflexivity|]. exists c, a. auto.
  - do 6 right; left. injection E as -> E. auto.
  - do 7 right; left. injection E as -> E. rewrite <- app_assoc in E. split; [reflexivity|]. exists a. split; [exact NE|]. split; [exact (quoted_inside 47 a QA [47] L)|]. auto.
  - do 8 right. injection E as -> E. auto.
Qed.
Lemma taken_double a : inside 34 a -> taken (mkT KString (34 :: a ++ [34])).
Proof. intros H. split; [constructor; apply inside_quoted, H|]. cbn [inLine tText]. apply (inside_line 34 a [34] H). constructor; [discriminate|constructor]. Qed.
Lemma taken_single a : ~ In 39 a -> ~ In 10 a -> taken (mkT KString (39 :: a ++ [39])).
Proof. intros A B. split; [constructor; exact A|]. cbn [inLine tText]. intros X. apply in_app_iff in X. destruct X as [X|[X|[]]]; [contradiction|discriminate]. Qed.
Lemma taken_regexp a : a <> [] -> inside 47 a -> taken (mkT KRegexp (47 :: a ++ [47])).
Proof. intros N H. split; [constructor; [exact N|apply inside_quoted, H]|]. cbn [inLine tText]. apply (inside_line 47 a [47] H). constructor; [discriminate|constructor]. Qed.
Lemma inLine_other k b s : b <> 34 -> b <> 39 -> b <> 47 -> inLine (mkT k (b :: s)).
Proof.
  intros A B C. cbn [inLine tText]. destruct b as [|p|p]; try exact I. repeat (destruct p as [p|p|]; try exact I; try congruence).
Qed.
Lemma letter_other b : letter b -> ~ spaceByte b /\ b <> 35 /\ b <> 34 /\ b <> 39 /\ b <> 33 /\ b <> 36 /\ b <> 47 /\ ~ In b ops /\ ~ In b [39; 34; 47; 33].
Proof. unfold letter, spaceByte, ops. cbn [In]. lia. Qed.
Lemma taken_name b a : letter b -> Forall nameByte a -> taken (mkT KName (b :: a)).
Proof. intros L F. split; [constructor; exists b, a; auto|]. destruct (letter_other b L) as (_ & _ & A & B & _ & _ & C & _). apply inLine_other; assumption. Qed.
Lemma taken_dir c a : 97 <= c <= 122 -> Forall (fun x => 97 <= x <= 122) a -> taken (mkT KDir (33 :: c :: a)).
Proof. intros L F. split; [constructor; [discriminate|constructor; assumption]|]. apply inLine_other; discriminate. Qed.
Lemma taken_template c a : letter c -> Forall nameByte a -> taken (mkT KTemplate (36 :: 36 :: c :: a)).
Proof. intros L F. split; [constructor; exists c, a; auto|]. apply inLine_other; discriminate. Qed.
Lemma taken_token c a : letter c -> Forall nameByte a -> taken (mkT KToken (36 :: c :: a)).
Proof. intros L F. split; [constructor; exists c, a; auto|]. apply inLine_other; discriminate. Qed.
Lemma taken_end : taken (mkT KToken [36]).
Proof. split; [exact DC_end|]. apply inLine_other; discriminate. Qed.
Lemma taken_op b : In b ops -> taken (mkT KOp [b]).
Proof. intros H. split; [constructor; exact H|]. unfold ops in H. cbn [In] in H. apply inLine_other; lia. Qed.

Lemma run_prefix {A} (P : A -> Prop) a : forall rest a' r', (forall x r, rest = x :: r -> ~ P x) -> Forall P a' -> a ++ rest = a' ++ r' -> (length a' <= length a)%nat.
Proof.
  induction a as [|x a IH]; intros rest a' r' N F E; cbn [app] in E.
  - destruct a' as [|y a']; [cbn; lia|]. inversion F; subst. destruct (N y (a' ++ r') eq_refl); assumption.
  - destruct a' as [|y a']; [cbn; lia|]. cbn [app] in E. injection E as <- E. inversion F; subst. cbn [length]. specialize (IH _ _ _ N H2 E). lia.
Qed.
Lemma first_quote a : forall r a' r', ~ In 39 a -> ~ In 39 a' -> a ++ 39 :: r = a' ++ 39 :: r' -> a = a'.
Proof.
  induction a as [|x a IH]; intros r a' r' N N' E; (destruct a' as [|y a']; cbn [app] in E); [reflexivity| | |].
  - injection E as E1 _. destruct N'. left. congruence.
  - injection E as E1 _. destruct N. left. congruence.
  - injection E as <- E. f_equal. apply (IH r a' r'); [intros X; apply N; right; exact X|intros X; apply N'; right; exact X|exact E].
Qed.
Lemma ops_other b : In b ops -> ~ spaceByte b /\ b <> 35 /\ b <> 34 /\ b <> 39 /\ b <> 33 /\ b <> 36 /\ b <> 47 /\ ~ letter b /\ ~ In b [39; 34; 47; 33].
Proof. unfold letter, spaceByte, ops. cbn [In]. lia. Qed.

Lemma inside_dec q : q <> 92 -> forall n s, (length s <= n)%nat -> (exists a rest, inside q a /\ s = a ++ q :: rest) \/ (forall a rest, inside q a -> s <> a ++ q :: rest).
Proof.
  intros NQ. induction n as [|n IH]; intros s L.
  { destruct s; [|cbn in L; lia]. right. intros [|x a] rest _ E; discriminate. }
  destruct s as [|b s]; [right; intros [|x a] rest _ E; discriminate|]. cbn [length] in L. destruct (Z.eq_dec b q) as [->|N1]; [left; exists [], s; split; [constructor|reflexivity]|]. destruct (Z.eq_dec b 92) as [->|N2].
  - destruct s as [|c s]; [right; intros a rest IA E; destruct IA as [|x a M1 M2 IA|x a M IA]; cbn [app] in E; congruence|]. destruct (Z.eq_dec c 10) as [->|N3]; [right; intros a rest IA E; destruct IA as [|x a M1 M2 IA|x a M IA]; cbn [app] in E; congruence|].
    destruct (IH s) as [(a & rest & IA & ->)|H]; [cbn [length] in L; lia|left; exists (92 :: c :: a), rest; split; [constructor; assumption|reflexivity]|]. right. intros a rest IA E. destruct IA as [|x a M1 M2 IA|x a M IA]; cbn [app] in E; [congruence|congruence|]. injection E as <- E. exact (H a rest IA E).
  - destruct (IH s) as [(a & rest & IA & ->)|H]; [lia|left; exists (b :: a), rest; split; [constructor; assumption|reflexivity]|]. right. intros a rest IA E. destruct IA as [|x a M1 M2 IA|x a M IA]; cbn [app] in E; [congruence| |congruence]. injection E as <- E. exact (H a rest IA E).
Qed.
Lemma single_dec s : (exists a rest, ~ In 39 a /\ ~ In 10 a /\ s = a ++ 39 :: rest) \/ (forall a rest, ~ In 39 a -> ~ In 10 a -> s <> a ++ 39 :: rest).
Proof.
  induction s as [|b s IH]; [right; intros [|x a] rest _ _ E; discriminate|]. destruct (Z.eq_dec b 39) as [->|N1]; [left; exists [], s; auto|]. destruct (Z.eq_dec b 10) as [->|N2].
  - right. intros [|x a] rest A B E; [discriminate|]. cbn [app] in E. injection E as <- _. apply B. left. reflexivity.
  - destruct IH as [(a & rest & A & B & ->)|H].
    + left. exists (b :: a), rest. split; [intros [X|X]; [congruence|contradiction]|]. split; [intros [X|X]; [congruence|contradiction]|reflexivity].
    + right. intros [|x a] rest A B E; [cbn in E; congruence|]. cbn [app] in E. injection E as <- E. apply (H a rest); [intros X; apply A; right; exact X|intros X; apply B; right; exact X|exact E].
Qed.
Lemma starts_dec (P : Z -> Prop) (D : forall x, P x \/ ~ P x) s : (exists b r, s = b :: r /\ P b) \/ ~ (exists b r, s = b :: r /\ P b).
Proof. destruct s as [|b s]; [right; intros (x & r & E & _); discriminate|]. destruct (D b); [left; eauto|right; intros (x & r & E & H0)]. injection E as -> _. contradiction. Qed.
Definition groupOf (kd : kind) : nat :=
  match kd with KString => 0 | KName => 1 | KDir => 2 | KTemplate => 3 | KToken => 4 | KRegexp => 5 | KOp => 6 | _ => 7 end.
Definition none8 : list (Z * Z) := repeat (-1, -1) 8.
Inductive matchAt (b : Z) (s : list Z) : list Z -> Prop :=
| MA_skip a rest : b :: s = a ++ rest -> a <> [] -> (Forall spaceByte a \/ exists c, a = 35 :: c /\ ~ In 10 c /\ (rest = [] \/ hd_error rest = Some 10)) ->
    matchAt b s (0 :: zlen a :: offsets none8)
| MA_token t rest : b :: s = tText t ++ rest -> taken t -> longest taken t rest ->
    matchAt b s (0 :: zlen (tText t) :: offsets (upd none8 (groupOf (tKind t)) (0, zlen (tText t))))
| MA_bad u rest : ~ spaceByte b -> b <> 35 -> (forall t r, taken t -> b :: s <> tText t ++ r) -> In b [39; 34; 47; 33] ->
    s = u ++ rest -> ~ In 10 u -> (length u <= 40)%nat -> (rest = [] \/ hd_error rest = Some 10 \/ (10 <= length u)%nat) ->
    matchAt b s (0 :: zlen (b :: u) :: offsets (upd none8 7 (0, zlen (b :: u))))
| MA_wrong : ~ spaceByte b -> b <> 35 -> (forall t r, taken t -> b :: s <> tText t ++ r) -> ~ In b [39; 34; 47; 33] -> matchAt b s [].

Lemma descRe_first text : descRe text = match W descRegexp (mkAt 0 text none8) (fun s => Some s) with None => [] | Some s => 0 :: rPos s :: offsets (rGroups s) end.
Proof. unfold descRe, findAtStart, W, none8. destruct (ways descRegexp (mkAt 0 text (repeat (-1, -1) 8))); reflexivity. Qed.
Lemma descRe_at b s : matchAt b s (descRe (b :: s)).
Proof.
  rewrite descRe_first. unfold descRegexp, RAlts. cbn [fold_right]. rewrite !W_alt, !W_group, W_alt.
  set (K := fun s : reached => Some s).
  assert (TK : forall s, K s <> None) by discriminate.
  set (G0 := fun n (s' : reached) => K (mkAt (rPos s') (rLeft s') (upd (rGroups s') n (rPos (mkAt 0 (b :: s) none8), rPos s')))).
  change (fun s' : reached => K (mkAt (rPos s') (rLeft s') (upd (rGroups s') 0 (rPos (mkAt 0 (b :: s) none8), rPos s')))) with (G0 0%nat).
  change (fun s' : reached => K (mkAt (rPos s') (rLeft s') (upd (rGroups s') 1 (rPos (mkAt 0 (b :: s) none8), rPos s')))) with (G0 1%nat).
  change (fun s' : reached => K (mkAt (rPos s') (rLeft s') (upd (rGroups s') 2 (rPos (mkAt 0 (b :: s) none8), rPos s')))) with (G0 2%nat).
  change (fun s' : reached => K (mkAt (rPos s') (rLeft s') (upd (rGroups s') 3 (rPos (mkAt 0 (b :: s) none8), rPos s')))) with (G0 3%nat).
  change (fun s' : reached => K (mkAt (rPos s') (rLeft s') (upd (rGroups s') 4 (rPos (mkAt 0 (b :: s) none8), rPos s')))) with (G0 4%nat).
  change (fun s' : reached => K (mkAt (rPos s') (rLeft s') (upd (rGroups s') 5 (rPos (mkAt 0 (b :: s) none8), rPos s')))) with (G0 5%nat).
  change (fun s' : reached => K (mkAt (rPos s') (rLeft s') (upd (rGroups s') 6 (rPos (mkAt 0 (b :: s) none8), rPos s')))) with (G0 6%nat).
  change (fun s' : reached => K (mkAt (rPos s') (rLeft s') (upd (rGroups s') 7 (rPos (mkAt 0 (b :: s) none8), rPos s')))) with (G0 7%nat).
  assert (TG : forall n s', G0 n s' <> None) by (intros n s'; unfold G0, K; discriminate).
  assert (GE : forall n m rest, G0 n (mkAt m rest none8) = Some (mkAt m rest (upd none8 n (0, m)))) by reflexivity.
  clearbody G0. 
  (* spaces *)
  assert (SP : spaceByte b \/ ~ spaceByte b) by (unfold spaceByte; lia). destruct SP as [SP|NSP].
  { destruct (spaces_yes K TK 0 b s none8 SP) as (a & rest & E & F & ->). unfold K. cbn [orElse rPos rGroups]. rewrite Z.add_0_l. eapply MA_skip; [rewrite E; reflexivity|discriminate|]. left. constructor; assumption. }
  rewrite (spaces_no K 0 b s none8 NSP). cbn [orElse].
  destruct (Z.eq_dec b 35) as [->|N35].
  { destruct (comment_yes K TK 0 s none8) as (a & rest & E & F & ST & ->). unfold K. cbn [orElse rPos rGroups]. rewrite Z.add_0_l. eapply MA_skip; [rewrite E; reflexivity|discriminate|]. right. exists a. auto. }
  unfold rxComment at 1. rewrite cat_other by (assumption || lia). cbn [orElse].
  (* bad tokens *)
  assert (BAD : forall (NT : forall t r, taken t -> b :: s <> tText t ++ r), In b [39; 34; 47; 33] -> matchAt b s (match W rxWrong (mkAt 0 (b :: s) none8) (G0 7%nat) with Some s' => 0 :: rPos s' :: offsets (rGroups s') | None => [] end)).
  { intros NT IB. destruct (wrong_yes (G0 7%nat) (TG 7%nat) 0 b s none8 IB) as (u & rest & E & NU & LU & ST & ->). rewrite Z.add_0_l, GE. cbn [rPos rGroups]. eapply MA_bad; eauto. }
  (* strings *)
  destruct (Z.eq_dec b 34) as [->|N34].
  { assert (OTHERS : forall t r, taken t -> 34 :: s = tText t ++ r -> exists a, inside 34 a /\ s = a ++ 34 :: r /\ t = mkT KString (34 :: a ++ [34])).
    { intros t r TT E. destruct (taken_cases t r 34 s TT E) as [(_ & X)|[(X & _)|[(X & _)|[(X & _)|[(X & _)|[(X & _)|[(X & _)|[(X & _)|(X & _)]]]]]]]]; [exact X|try discriminate X ..]; [unfold letter in X; lia|unfold ops in X; cbn [In] in X; lia]. }
    destruct (inside_dec 34 ltac:(lia) _ s (Nat.le_refl _)) as [(a & rest & IA & ->)|NO].
    - rewrite (double_yes (G0 0%nat) (TG 0%nat)) by exact IA. rewrite Z.add_0_l, GE. cbn [orElse rPos rGroups]. apply (MA_token _ _ (mkT KString (34 :: a ++ [34])) rest); cbn [tText]; [cbn [app]; rewrite <- app_assoc; reflexivity|apply taken_double, IA|].
      intros t' r' TT E. cbn [tText app] in E. rewrite <- app_assoc in E. cbn [app] in E. destruct (OTHERS t' r' TT E) as (a' & IA' & E' & ->). rewrite (inside_unique 34 ltac:(lia) a IA a' rest r' IA' E'). cbn [tText]. lia.
    - rewrite double_no by exact NO. unfold rxSingle at 1. rewrite cat_other by lia. rewrite name_no by (intros (x & r & E & X); injection E as <- _; unfold letter in X; lia). unfold rxDir at 1, rxTemplate at 1, rxToken at 1, rxRegexp at 1. rewrite !cat_other by lia. rewrite op_no by (cbn [In]; lia). cbn [orElse].
      apply BAD; [|cbn [In]; lia]. intros t r TT E. destruct (OTHERS t r TT E) as (a & IA & E' & _). exact (NO a r IA E'). }
  unfold rxDouble at 1. rewrite cat_other by (assumption || lia). cbn [orElse].
  destruct (Z.eq_dec b 39) as [->|N39].
  { assert (OTHERS : forall t r, taken t -> 39 :: s = tText t ++ r -> exists a, ~ In 39 a /\ ~ In 10 a /\ s = a ++ 39 :: r /\ t = mkT KString (39 :: a ++ [39])).
    { intros t r TT E. destruct (taken_cases t r 39 s TT E) as [(X & _)|[(_ & X)|[(X & _)|[(X & _)|[(X & _)|[(X & _)|[(X & _)|[(X & _)|(X & _)]]]]]]]]; [discriminate X|exact X|try discriminate X ..]; [unfold letter in X; lia|unfold ops in X; cbn [In] in X; lia]. }
    destruct (single_dec s) as [(a & rest & A & B & ->)|NO].
    - rewrite (single_yes (G0 0%nat) (TG 0%nat)) by assumption. rewrite Z.add_0_l, GE. cbn [orElse rPos rGroups]. apply (MA_token _ _ (mkT KString (39 :: a ++ [39])) rest); cbn [tText]; [cbn [app]; rewrite <- app_assoc; reflexivity|apply taken_single; assumption|].
      intros t' r' TT E. cbn [tText app] in E. rewrite <- app_assoc in E. cbn [app] in E. destruct (OTHERS t' r' TT E) as (a' & A' & _ & E' & ->). rewrite (first_quote a rest a' r' A A' E'). cbn [tText]. lia.
    - rewrite single_no by exact NO. rewrite name_no by (intros (x & r & E & X); injection E as <- _; unfold letter in X; lia). unfold rxDir at 1, rxTemplate at 1, rxToken at 1, rxRegexp at 1. rewrite !cat_other by lia. rewrite op_no by (cbn [In]; lia). cbn [orElse].
      apply BAD; [|cbn [In]; lia]. intros t r TT E. destruct (OTHERS t r TT E) as (a & A & B & E' & _). exact (NO a r A B E'). }
  unfold rxSingle at 1. rewrite cat_other by (assumption || lia). cbn [orElse].
  (* names *)
  assert (LD : forall x, letter x \/ ~ letter x) by (intros x; unfold letter; lia).
  destruct (LD b) as [LB|NLB].
  { destruct (name_yes (G0 1%nat) (TG 1%nat) 0 b s none8 LB) as (a & rest & -> & F & ST & ->). rewrite Z.add_0_l, GE. cbn [orElse rPos rGroups]. apply (MA_token _ _ (mkT KName (b :: a)) rest); cbn [tText]; [reflexivity|apply taken_name; assumption|].
    destruct (letter_other b LB) as (_ & _ & M1 & M2 & M3 & M4 & M5 & M6 & _). intros t' r' TT E. cbn [tText app] in E.
    destruct (taken_cases t' r' b _ TT E) as [(X & _)|[(X & _)|[(_ & a' & F' & E' & ->)|[(X & _)|[(X & _)|[(X & _)|[(X & _)|[(X & _)|(X & _)]]]]]]]]; try contradiction. cbn [tText length]. apply le_n_S. exact (run_prefix nameByte a rest a' r' ST F' E'). }
  rewrite name_no by (intros (x & r & E & X); injection E as <- _; contradiction). cbn [orElse].
  destruct (Z.eq_dec b 33) as [->|N33].
  { assert (OTHERS : forall t r, taken t -> 33 :: s = tText t ++ r -> exists c a, 97 <= c <= 122 /\ Forall (fun x => 97 <= x <= 122) a /\ s = c :: a ++ r /\ t = mkT KDir (33 :: c :: a)).
    { intros t r TT E. destruct (taken_cases t r 33 s TT E) as [(X & _)|[(X & _)|[(X & _)|[(_ & X)|[(X & _)|[(X & _)|[(X & _)|[(X & _)|(X & _)]]]]]]]]; try discriminate X; [contradiction|exact X|unfold ops in X; cbn [In] in X; lia]. }
    destruct (starts_dec (fun x => 97 <= x <= 122) ltac:(intros x; cbn; lia) s) as [(c & r & -> & LC)|NO].
    - destruct (dir_yes (G0 2%nat) (TG 2%nat) 0 c r none8 LC) as (a & rest & -> & F & ST & ->). rewrite Z.add_0_l, GE. cbn [orElse rPos rGroups]. apply (MA_token _ _ (mkT KDir (33 :: c :: a)) rest); cbn [tText]; [reflexivity|apply taken_dir; assumption|].
      intros t' r' TT E. cbn [tText app] in E. destruct (OTHERS t' r' TT E) as (c' & a' & LC' & F' & E' & ->). injection E' as <- E'. cbn [tText length]. apply le_n_S, le_n_S. exact (run_prefix (fun x => 97 <= x <= 122) a rest a' r' ST F' E').
    - rewrite dir_no by exact NO. unfold rxTemplate at 1, rxToken at 1, rxRegexp at 1. rewrite !cat_other by lia. rewrite op_no by (cbn [In]; lia). cbn [orElse].
      apply BAD; [|cbn [In]; lia]. intros t r TT E. destruct (OTHERS t r TT E) as (c & a & LC & _ & E' & _). apply NO. eauto. }
  unfold rxDir at 1. rewrite cat_other by (assumption || lia). cbn [orElse].
  destruct (Z.eq_dec b 36) as [->|N36].
  { assert (OTHERS : forall t r, taken t -> 36 :: s = tText t ++ r ->
      (exists c a, letter c /\ Forall nameByte a /\ s = 36 :: c :: a ++ r /\ t = mkT KTemplate (36 :: 36 :: c :: a)) \/
      (exists c a, letter c /\ Forall nameByte a /\ s = c :: a ++ r /\ t = mkT KToken (36 :: c :: a)) \/ t = mkT KToken [36]).
    { intros t r TT E. destruct (taken_cases t r 36 s TT E) as [(X & _)|[(X & _)|[(X & _)|[(X & _)|[(_ & X)|[(_ & X)|[(_ & _ & X)|[(X & _)|(X & _)]]]]]]]]; try discriminate X; [contradiction|auto|auto|auto|unfold ops in X; cbn [In] in X; lia]. }
    destruct (starts_dec letter LD s) as [(c & r & -> & LC)|NL].
    - rewrite template_no by (intros (x & y & E & X); injection E as E _; subst c; unfold letter in LC; lia). cbn [orElse]. destruct (token_yes (G0 4%nat) (TG 4%nat) 0 c r none8 LC) as (a & rest & -> & F & ST & ->). rewrite Z.add_0_l, GE. cbn [orElse rPos rGroups].
      apply (MA_token _ _ (mkT KToken (36 :: c :: a)) rest); cbn [tText]; [reflexivity|apply taken_token; assumption|]. intros t' r' TT E. cbn [tText app] in E. destruct (OTHERS t' r' TT E) as [(c' & a' & LC' & F' & E' & ->)|[(c' & a' & LC' & F' & E' & ->)| ->]]; cbn [tText length].
      + injection E' as E1 _. subst c. unfold letter in LC. lia.
      + injection E' as <- E'. apply le_n_S, le_n_S. exact (run_prefix nameByte a rest a' r' ST F' E').
      + lia.
    - assert (TPL : (exists c r, s = 36 :: c :: r /\ letter c) \/ ~ (exists c r, s = 36 :: c :: r /\ letter c)).
      { destruct s as [|x s0]; [right; intros (c & r & E & _); discriminate|]. destruct (Z.eq_dec x 36) as [->|]; [|right; intros (c & r & E & _); congruence]. destruct (starts_dec letter LD s0) as [(c & r & -> & LC)|N]; [left; eauto|]. right. intros (c & r & E & LC). injection E as ->. apply N. eauto. }
      destruct TPL as [(c & r & -> & LC)|NT].
      + destruct (template_yes (G0 3%nat) (TG 3%nat) 0 c r none8 LC) as (a & rest & -> & F & ST & ->). rewrite Z.add_0_l, GE. cbn [orElse rPos rGroups]. apply (MA_token _ _ (mkT KTemplate (36 :: 36 :: c :: a)) rest); cbn [tText]; [reflexivity|apply taken_template; assumption|].
        intros t' r' TT E. cbn [tText app] in E. destruct (OTHERS t' r' TT E) as [(c' & a' & LC' & F' & E' & ->)|[(c' & a' & LC' & F' & E' & ->)| ->]]; cbn [tText length].
        * injection E' as <- E'. apply le_n_S, le_n_S, le_n_S. exact (run_prefix nameByte a rest a' r' ST F' E').
        * injection E' as E1 _. subst c'. unfold letter in LC'. lia.
        * lia.
      + rewrite template_no by exact NT. cbn [orElse]. rewrite token_end by exact NL. rewrite Z.add_0_l, GE. cbn [orElse rPos rGroups]. apply (MA_token _ _ (mkT KToken [36]) s); cbn [tText]; [reflexivity|apply taken_end|].
        intros t' r' TT E. cbn [tText app] in E. destruct (OTHERS t' r' TT E) as [(c' & a' & LC' & F' & E' & ->)|[(c' & a' & LC' & F' & E' & ->)| ->]]; cbn [tText length]; [destruct NT; eauto|destruct NL; eauto|lia]. }
  unfold rxTemplate at 1, rxToken at 1. rewrite !cat_other by (assumption || lia). cbn [orElse].
  destruct (Z.eq_dec b 47) as [->|N47].
  { assert (OTHERS : forall t r, taken t -> 47 :: s = tText t ++ r -> exists a, a <> [] /\ inside 47 a /\ s = a ++ 47 :: r /\ t = mkT KRegexp (47 :: a ++ [47])).
    { intros t r TT E. destruct (taken_cases t r 47 s TT E) as [(X & _)|[(X & _)|[(X & _)|[(X & _)|[(X & _)|[(X & _)|[(X & _)|[(_ & X)|(X & _)]]]]]]]]; try discriminate X; [contradiction|exact X|unfold ops in X; cbn [In] in X; lia]. }
    assert (DEC : (exists a rest, a <> [] /\ inside 47 a /\ s = a ++ 47 :: rest) \/ (forall a rest, a <> [] -> inside 47 a -> s <> a ++ 47 :: rest)).
    { destruct (inside_dec 47 ltac:(lia) _ s (Nat.le_refl _)) as [(a & rest & IA & ->)|NO]; [|right; intros a rest _ IA; apply NO, IA]. destruct a as [|x a]; [|left; exists (x :: a), rest; split; [discriminate|auto]]. right. intros a' r' NE IA' E. destruct IA' as [|x a' M1 M2 IA'|x a' M IA']; cbn [app] in E; congruence. }
    destruct DEC as [(a & rest & NE & IA & ->)|NO].
    - rewrite (regexp_yes (G0 5%nat) (TG 5%nat)) by assumption. rewrite Z.add_0_l, GE. cbn [orElse rPos rGroups]. apply (MA_token _ _ (mkT KRegexp (47 :: a ++ [47])) rest); cbn [tText]; [cbn [app]; rewrite <- app_assoc; reflexivity|apply taken_regexp; assumption|].
      intros t' r' TT E. cbn [tText app] in E. rewrite <- app_assoc in E. cbn [app] in E. destruct (OTHERS t' r' TT E) as (a' & _ & IA' & E' & ->). rewrite (inside_unique 47 ltac:(lia) a IA a' rest r' IA' E'). cbn [tText]. lia.
    - rewrite regexp_no by exact NO. rewrite op_no by (cbn [In]; lia). cbn [orElse].
      apply BAD; [|cbn [In]; lia]. intros t r TT E. destruct (OTHERS t r TT E) as (a & NE & IA & E' & _). exact (NO a r NE IA E'). }
  unfold rxRegexp at 1. rewrite cat_other by (assumption || lia). cbn [orElse].
  destruct (in_dec Z.eq_dec b ops) as [IO|NIO].
  { rewrite (op_yes (G0 6%nat)) by exact IO. rewrite Z.add_0_l, GE. cbn [orElse rPos rGroups]. apply (MA_token _ _ (mkT KOp [b]) s); cbn [tText]; [reflexivity|apply taken_op, IO|].
    intros t' r' TT E. cbn [tText app] in E. destruct (taken_cases t' r' b s TT E) as [(X & _)|[(X & _)|[(X & _)|[(X & _)|[(X & _)|[(X & _)|[(X & _)|[(X & _)|(_ & _ & ->)]]]]]]]]; try contradiction. cbn [tText length]. lia. }
  rewrite op_no by exact NIO. cbn [orElse]. rewrite wrong_no by (cbn [In]; intuition). apply MA_wrong; [exact NSP|exact N35| |cbn [In]; intuition].
  intros t r TT E. destruct (taken_cases t r b s TT E) as [(X & _)|[(X & _)|[(X & _)|[(X & _)|[(X & _)|[(X & _)|[(X & _)|[(X & _)|(X & _)]]]]]]]]; contradiction.
Qed.
