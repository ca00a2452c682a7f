(** What the regular expressions used in descriptions match. *)
From Coq Require Import ZArith List Bool Lia.
From Verif Require Import Base BaseProofs Utf8 Regexp.
Import ListNotations.
Open Scope Z_scope.

(** ** The first way that goes on *)
Fixpoint first {A R} (k : A -> option R) (l : list A) : option R :=
  match l with
  | [] => None
  | s :: r => match k s with Some x => Some x | None => first k r end
  end.
Lemma first_app {A R} (k : A -> option R) a b : first k (a ++ b) = match first k a with Some x => Some x | None => first k b end.
Proof. induction a as [|s a IH]; cbn [app first]; [reflexivity|]. destruct (k s); [reflexivity|exact IH]. Qed.
Lemma first_flat {A B R} (k : B -> option R) (f : A -> list B) l : first k (flat_map f l) = first (fun s => first k (f s)) l.
Proof. induction l as [|s l IH]; cbn [flat_map first]; [reflexivity|]. rewrite first_app, IH. reflexivity. Qed.
Lemma first_map {A B R} (k : B -> option R) (f : A -> B) l : first k (map f l) = first (fun s => k (f s)) l.
Proof. induction l as [|s l IH]; cbn [map first]; [reflexivity|]. rewrite IH. reflexivity. Qed.
Lemma first_ext {A R} (k k' : A -> option R) l : (forall s, In s l -> k s = k' s) -> first k l = first k' l.
Proof. induction l as [|s l IH]; intros H; cbn [first]; [reflexivity|]. rewrite (H s) by (left; reflexivity). rewrite IH; [reflexivity|]. intros x I0. apply H. right. exact I0. Qed.
Lemma first_none {A R} (k : A -> option R) l : (forall s, In s l -> k s = None) -> first k l = None.
Proof. induction l as [|s l IH]; intros H; cbn [first]; [reflexivity|]. rewrite (H s) by (left; reflexivity). apply IH. intros x I0. apply H. right. exact I0. Qed.

Definition W {R} (r : rx) (s : reached) (k : reached -> option R) : option R := first k (ways r s).
Definition orElse {R} (a b : option R) : option R := match a with Some x => Some x | None => b end.
Section K.
Context {R : Type}.
Implicit Type k : reached -> option R.
Lemma W_cat a b s k : W (RCat a b) s k = W a s (fun s' => W b s' k).
Proof. apply first_flat. Qed.
Lemma W_alt a b s k : W (RAlt a b) s k = orElse (W a s k) (W b s k).
Proof. apply first_app. Qed.
Lemma W_none s k : W RNone s k = k s.
Proof. unfold W. cbn [ways first]. destruct (k s); reflexivity. Qed.
Lemma W_group n a s k : W (RGroup n a) s k = W a s (fun s' => k (mkAt (rPos s') (rLeft s') (upd (rGroups s') n (rPos s, rPos s')))).
Proof. apply first_map. Qed.
Lemma W_ext r s k k' : (forall s', k s' = k' s') -> W r s k = W r s k'.
Proof. intros H. apply first_ext. auto. Qed.
Lemma W_upto n a s k : W (RUpTo (S n) a) s k = orElse (W a s (fun s' => W (RUpTo n a) s' k)) (k s).
Proof. cbn [RUpTo]. unfold ROpt. rewrite W_alt, W_cat, W_none. reflexivity. Qed.
Lemma W_opt a s k : W (ROpt a) s k = orElse (W a s k) (k s).
Proof. unfold ROpt. rewrite W_alt, W_none. reflexivity. Qed.

(** ** Runes *)
Lemma decode_low b r : b < 128 -> decodeRune (b :: r) = (b, 1).
Proof. intros H. cbn [decodeRune]. destruct (Z.ltb_spec b 128); [reflexivity|lia]. Qed.
Lemma between_true a b x : between a b x = true -> a <= x <= b.
Proof. unfold between. rewrite andb_true_iff, !Z.leb_le. auto. Qed.
Lemma decode_high b r : 128 <= b -> exists c u r', r = u ++ r' /\ Forall (fun x => 128 <= x) u /\ decodeRune (b :: r) = (c, 1 + zlen u) /\ 128 <= c /\ (length u <= 3)%nat.
Proof.
  intros H. cbn [decodeRune]. destruct (Z.ltb_spec b 128) as [X|_]; [lia|].
  assert (ONE : exists c u r', r = u ++ r' /\ Forall (fun x => 128 <= x) u /\ (RuneError, 1) = (c, 1 + zlen u) /\ 128 <= c /\ (length u <= 3)%nat).
  { exists RuneError, [], r. split; [reflexivity|]. split; [constructor|]. split; [reflexivity|]. split; [unfold RuneError; lia|cbn [length]; lia]. }
  destruct (between 194 223 b) eqn:B2; [|destruct (between 224 239 b) eqn:B3; [|destruct (between 240 244 b) eqn:B4; [|exact ONE]]].
  - apply between_true in B2. destruct r as [|b1 r]; [exact ONE|]. destruct (between 128 191 b1) eqn:X1; [|exact ONE]. apply between_true in X1.
    eexists _, [b1], r. split; [reflexivity|]. split; [repeat (constructor; [lia|]); constructor|]. split; [reflexivity|]. cbn [length]. split; lia.
  - apply between_true in B3. destruct r as [|b1 [|b2 r]]; try exact ONE. destruct (between _ _ b1 && between 128 191 b2) eqn:X; [|exact ONE]. apply andb_true_iff in X. destruct X as (X1 & X2). apply between_true in X1, X2.
    eexists _, [b1; b2], r. destruct (Z.eqb_spec b 224); destruct (Z.eqb_spec b 237); (split; [reflexivity|]; split; [repeat (constructor; [lia|]); constructor|]; split; [reflexivity|]; cbn [length]; split; lia).
  - apply between_true in B4. destruct r as [|b1 [|b2 [|b3 r]]]; try exact ONE. destruct (between _ _ b1 && between 128 191 b2 && between 128 191 b3) eqn:X; [|exact ONE]. rewrite !andb_true_iff in X. destruct X as ((X1 & X2) & X3). apply between_true in X1, X2, X3.
    eexists _, [b1; b2; b3], r. destruct (Z.eqb_spec b 240); destruct (Z.eqb_spec b 244); (split; [reflexivity|]; split; [repeat (constructor; [lia|]); constructor|]; split; [reflexivity|]; cbn [length]; split; lia).
Qed.

(** ** Classes: only ASCII, or all but some of ASCII *)
Definition lo (p : Z -> bool) : Prop := forall c, 128 <= c -> p c = false.
Definition hi (p : Z -> bool) : Prop := forall c, 128 <= c -> p c = true.
Lemma W_class_end p i g k : W (RClass p) (mkAt i [] g) k = None.
Proof. reflexivity. Qed.
Lemma W_class_low p i b l g k : b < 128 -> W (RClass p) (mkAt i (b :: l) g) k = if p b then k (mkAt (i + 1) l g) else None.
Proof.
  intros H. unfold W. cbn [ways rLeft]. rewrite (decode_low b l H). cbn [rPos rGroups]. destruct (p b); [|reflexivity].
  change (skipn (Z.to_nat 1) (b :: l)) with l. cbn [first]. destruct (k _); reflexivity.
Qed.
Lemma W_class_lo p i b l g k : lo p -> W (RClass p) (mkAt i (b :: l) g) k = if p b then k (mkAt (i + 1) l g) else None.
Proof.
  intros L. destruct (Z.ltb_spec b 128) as [B|B]; [apply W_class_low, B|]. destruct (decode_high b l B) as (c & u & l' & -> & U & D & C & _).
  unfold W. cbn [ways rLeft]. rewrite D, (L c C), (L b B). reflexivity.
Qed.
Lemma W_class_hi p i b l g : hi p -> 128 <= b -> exists u l', l = u ++ l' /\ Forall (fun x => 128 <= x) u /\ (length u <= 3)%nat /\ forall k, W (RClass p) (mkAt i (b :: l) g) k = k (mkAt (i + (1 + zlen u)) l' g).
Proof.
  intros H B. destruct (decode_high b l B) as (c & u & l' & -> & U & D & C & L). exists u, l'. split; [reflexivity|]. split; [exact U|]. split; [exact L|].
  intros k. unfold W. cbn [ways rLeft rPos rGroups]. rewrite D, (H c C). replace (Z.to_nat (1 + zlen u)) with (S (length u)) by (unfold zlen; lia). cbn [skipn]. rewrite skipn_app, skipn_all, Nat.sub_diag. cbn [app skipn first]. destruct (k _); reflexivity.
Qed.
Lemma W_rune c i b l g k : c < 128 -> W (RRune c) (mkAt i (b :: l) g) k = if c =? b then k (mkAt (i + 1) l g) else None.
Proof. intros C. apply W_class_lo. intros x X. apply Z.eqb_neq. lia. Qed.

(** ** Repetitions *)
Lemma W_star greedy a i l g k : W (RStar greedy a) (mkAt i l g) k = first k (repeats (ways a) greedy (length l) (mkAt i l g)).
Proof. reflexivity. Qed.
(** each repetition goes on *)
Definition goesOn (a : rx) : Prop := forall s s', In s' (ways a s) -> rPos s < rPos s'.
Lemma first_filter {A} (p : A -> bool) (k : A -> option R) l : (forall s, In s l -> p s = true) -> first k (filter p l) = first k l.
Proof. induction l as [|s l IH]; intros H; cbn [filter]; [reflexivity|]. rewrite (H s) by (left; reflexivity). cbn [first]. rewrite IH; [reflexivity|]. intros x I0. apply H. right. exact I0. Qed.
Lemma repeats_greedy a n s k : goesOn a -> first k (repeats (ways a) true (S n) s) = orElse (W a s (fun s' => first k (repeats (ways a) true n s'))) (k s).
Proof.
  intros G. cbn [repeats]. rewrite first_app, first_flat, first_filter by (intros x I0; apply Z.ltb_lt, G, I0). unfold W, orElse. destruct (first _ (ways a s)); [reflexivity|]. cbn [first]. destruct (k s); reflexivity.
Qed.
Lemma repeats_lazy a n s k : goesOn a -> first k (repeats (ways a) false (S n) s) = orElse (k s) (W a s (fun s' => first k (repeats (ways a) false n s'))).
Proof.
  intros G. cbn [repeats first]. rewrite first_flat, first_filter by (intros x I0; apply Z.ltb_lt, G, I0). reflexivity.
Qed.
Lemma repeats_stop greedy a s k : first k (repeats (ways a) greedy 0 s) = k s.
Proof. destruct greedy; cbn [repeats app first]; destruct (k s); reflexivity. Qed.
Lemma class_goes p : goesOn (RClass p).
Proof.
  intros s s' I0. cbn [ways] in I0. destruct (rLeft s) as [|b l]; [destruct I0|]. destruct (Z.ltb_spec b 128) as [B|B].
  - rewrite (decode_low b l B) in I0. destruct (p b); [|destruct I0]. destruct I0 as [<-|[]]. cbn [rPos]. lia.
  - destruct (decode_high b l B) as (c & u & l' & _ & _ & D & _). rewrite D in I0. destruct (p c); [|destruct I0]. destruct I0 as [<-|[]]. cbn [rPos]. pose proof (zlen_nonneg u). lia.
Qed.
Lemma cat_goes a b : goesOn a -> goesOn b -> goesOn (RCat a b).
Proof. intros A B s s' I0. cbn [ways] in I0. apply in_flat_map in I0. destruct I0 as (x & I1 & I2). apply A in I1. apply B in I2. lia. Qed.
Lemma alt_goes a b : goesOn a -> goesOn b -> goesOn (RAlt a b).
Proof. intros A B s s' I0. cbn [ways] in I0. apply in_app_iff in I0. destruct I0 as [I0|I0]; [apply A, I0|apply B, I0]. Qed.
End K.

(** The longest run of a class *)
Definition stopsAt (p : Z -> bool) (l : list Z) : Prop := match l with [] => True | b :: _ => p b = false end.
Lemma chunk_within p u l' : hi p -> Forall (fun x => 128 <= x) u -> forall a rest, stopsAt p rest -> u ++ l' = a ++ rest -> Forall (fun b => p b = true) a ->
  exists a', a = u ++ a' /\ l' = a' ++ rest.
Proof.
  intros H U. induction U as [|x u X U IH]; intros a rest ST E F; [exists a; auto|]. destruct a as [|y a]; cbn [app] in E.
  - subst rest. cbn [app stopsAt] in ST. rewrite (H x X) in ST. discriminate.
  - injection E as <- E. inversion F; subst. destruct (IH _ _ ST E) as (a' & -> & ->); [assumption|]. exists a'. auto.
Qed.
Lemma run_longest {R} p (k : reached -> option R) g : lo p \/ hi p -> (forall s, k s <> None) -> forall n a rest i, (length (a ++ rest) <= n)%nat -> Forall (fun b => p b = true) a -> stopsAt p rest ->
  first k (repeats (ways (RClass p)) true n (mkAt i (a ++ rest) g)) = k (mkAt (i + zlen a) rest g).
Proof.
  intros LH T. induction n as [|n IH]; intros a rest i L F ST.
  - destruct a; [|cbn [length app] in L; lia]. destruct rest; [|cbn [length app] in L; lia]. rewrite repeats_stop. cbn [app]. unfold zlen. cbn [length]. rewrite Z.add_0_r. reflexivity.
  - rewrite repeats_greedy by apply class_goes. destruct a as [|b a].
    + assert (N : W (RClass p) (mkAt i rest g) (fun s' => first k (repeats (ways (RClass p)) true n s')) = None).
      { destruct rest as [|b rest]; [reflexivity|]. cbn [stopsAt] in ST. destruct LH as [H|H].
        - rewrite W_class_lo by exact H. rewrite ST. reflexivity.
        - destruct (Z.ltb_spec b 128) as [B|B]; [rewrite W_class_low by exact B; rewrite ST; reflexivity|rewrite (H b B) in ST; discriminate]. }
      cbn [app]. rewrite N. cbn [orElse]. unfold zlen. cbn [length]. rewrite Z.add_0_r. reflexivity.
    + inversion F as [|? ? PB F']; subst. cbn [app length] in *. enough (X : W (RClass p) (mkAt i (b :: a ++ rest) g) (fun s' => first k (repeats (ways (RClass p)) true n s')) = k (mkAt (i + zlen (b :: a)) rest g)).
      { rewrite X. destruct (k (mkAt (i + zlen (b :: a)) rest g)) eqn:E; [reflexivity|destruct (T _ E)]. }
      assert (SHORT : b < 128 \/ lo p -> W (RClass p) (mkAt i (b :: a ++ rest) g) (fun s' => first k (repeats (ways (RClass p)) true n s')) = k (mkAt (i + zlen (b :: a)) rest g)).
      { intros C. assert (E : W (RClass p) (mkAt i (b :: a ++ rest) g) (fun s' => first k (repeats (ways (RClass p)) true n s')) = first k (repeats (ways (RClass p)) true n (mkAt (i + 1) (a ++ rest) g))).
        { destruct C as [C|C]; [rewrite W_class_low by exact C|rewrite W_class_lo by exact C]; rewrite PB; reflexivity. }
        rewrite E, IH by (auto; lia). f_equal. f_equal. unfold zlen. cbn [length]. lia. }
      destruct LH as [H|H]; [auto|]. destruct (Z.ltb_spec b 128) as [B|B]; [auto|].
      destruct (@W_class_hi R p i b (a ++ rest) g H B) as (u & l' & E & U & _ & ->). symmetry in E. destruct (chunk_within p u l' H U _ _ ST E F') as (a' & -> & ->).
      rewrite IH; [|rewrite !app_length in L; rewrite !app_length; lia|apply Forall_app in F'; apply F'|exact ST]. f_equal. f_equal. unfold zlen. cbn [length]. rewrite app_length. lia.
Qed.
Lemma run_split (p : Z -> bool) l : exists a rest, l = a ++ rest /\ Forall (fun b => p b = true) a /\ stopsAt p rest.
Proof.
  induction l as [|b l (a & rest & -> & F & ST)]; [exists [], []; split; [reflexivity|split; [constructor|exact I]]|]. destruct (p b) eqn:E.
  - exists (b :: a), rest. split; [reflexivity|]. split; [constructor; assumption|exact ST].
  - exists [], (b :: a ++ rest). split; [reflexivity|]. split; [constructor|exact E].
Qed.
Lemma W_run {R} p (k : reached -> option R) i a rest g : lo p \/ hi p -> (forall s, k s <> None) -> Forall (fun b => p b = true) a -> stopsAt p rest ->
  W (RStar true (RClass p)) (mkAt i (a ++ rest) g) k = k (mkAt (i + zlen a) rest g).
Proof. intros. rewrite W_star. apply run_longest; auto. Qed.

(** ** Up to n runes of a line *)
Lemma W_some {R} r s (k : reached -> option R) : forall x, W r s k = Some x -> exists s', In s' (ways r s) /\ k s' = Some x.
Proof. unfold W. induction (ways r s) as [|y l IH]; intros x E; cbn [first] in E; [discriminate|]. destruct (k y) eqn:K; [injection E as <-; exists y; split; [left; reflexivity|exact K]|]. destruct (IH _ E) as (z & I0 & Z0). exists z. split; [right; exact I0|exact Z0]. Qed.
Lemma W_upto_dot {R} (k : reached -> option R) g : (forall s, k s <> None) -> forall n i l, exists u rest, l = u ++ rest /\ ~ In 10 u /\ (length u <= 4 * n)%nat /\ (rest = [] \/ hd_error rest = Some 10 \/ (n <= length u)%nat) /\
  W (RUpTo n RDot) (mkAt i l g) k = k (mkAt (i + zlen u) rest g).
Proof.
  intros T. assert (HI : hi (noneOf [10])) by (intros c C; unfold noneOf, oneOf; cbn [existsb]; destruct (Z.eqb_spec c 10); [lia|reflexivity]).
  induction n as [|n IH]; intros i l.
  - exists [], l. split; [reflexivity|]. split; [intros []|]. split; [cbn [length]; lia|]. split; [right; right; cbn [length]; lia|]. cbn [RUpTo]. rewrite W_none. unfold zlen. cbn [length]. rewrite Z.add_0_r. reflexivity.
  - rewrite W_upto. destruct l as [|b l].
    { exists [], []. split; [reflexivity|]. split; [intros []|]. split; [cbn [length]; lia|]. split; [left; reflexivity|]. unfold RDot. rewrite W_class_end. cbn [orElse]. unfold zlen. cbn [length]. rewrite Z.add_0_r. reflexivity. }
    destruct (Z.ltb_spec b 128) as [B|B].
    + unfold RDot at 1. rewrite W_class_low by exact B. unfold noneOf at 1, oneOf. cbn [existsb]. destruct (Z.eqb_spec b 10) as [->|NB]; cbn [orb negb].
      * exists [], (10 :: l). split; [reflexivity|]. split; [intros []|]. split; [cbn [length]; lia|]. split; [right; left; reflexivity|]. cbn [orElse]. unfold zlen. cbn [length]. rewrite Z.add_0_r. reflexivity.
      * destruct (IH (i + 1) l) as (u & rest & -> & NI & LE & ST & ->). exists (b :: u), rest. split; [reflexivity|]. split; [intros [X|X]; [congruence|contradiction]|]. split; [cbn [length]; lia|]. split; [destruct ST as [ST|[ST|ST]]; [auto|auto|right; right; cbn [length]; lia]|].
        replace (i + zlen (b :: u)) with (i + 1 + zlen u) by (unfold zlen; cbn [length]; lia). destruct (k (mkAt (i + 1 + zlen u) rest g)) eqn:E; [reflexivity|destruct (T _ E)].
    + destruct (@W_class_hi R _ i b l g HI B) as (v & l' & -> & V & LV & E0). unfold RDot at 1. rewrite E0. destruct (IH (i + (1 + zlen v)) l') as (u & rest & -> & NI & LE & ST & ->).
      exists (b :: v ++ u), rest. split; [cbn [app]; rewrite app_assoc; reflexivity|]. split; [intros [X|X]; [lia|]; apply in_app_iff in X; destruct X as [X|X]; [rewrite Forall_forall in V; specialize (V _ X); lia|contradiction]|].
      split; [cbn [length]; rewrite app_length; lia|]. split; [destruct ST as [ST|[ST|ST]]; [auto|auto|right; right; cbn [length]; rewrite app_length; lia]|].
      replace (i + zlen (b :: v ++ u)) with (i + (1 + zlen v) + zlen u) by (unfold zlen; cbn [length]; rewrite app_length; lia). destruct (k (mkAt (i + (1 + zlen v) + zlen u) rest g)) eqn:E; [reflexivity|destruct (T _ E)].
Qed.
