From Coq Require Import ZArith List Bool Lia.
From Verif Require Import Base BaseProofs Utf8 Regexp RegexpProofs Grammar ParserNew ParserRegexp.
Import ListNotations.
Open Scope Z_scope.

(** ** groups do not matter to what is matched *)
Definition setGroups (gs : list (Z * Z)) (s : reached) : reached := mkAt (rPos s) (rLeft s) gs.
Lemma map_flat_map {A B C} (f : B -> C) (g : A -> list B) l : map f (flat_map g l) = flat_map (fun x => map f (g x)) l.
Proof. induction l as [|x l IH]; [reflexivity|]. cbn [flat_map]. rewrite map_app, IH. reflexivity. Qed.
Lemma flat_map_map {A B C} (f : A -> B) (g : B -> list C) l : flat_map g (map f l) = flat_map (fun x => g (f x)) l.
Proof. induction l as [|x l IH]; [reflexivity|]. cbn [flat_map map]. rewrite IH. reflexivity. Qed.
Lemma flat_map_ext_in {A B} (f g : A -> list B) l : (forall x, In x l -> f x = g x) -> flat_map f l = flat_map g l.
Proof. induction l as [|x l IH]; intros H; [reflexivity|]. cbn [flat_map]. rewrite H, IH by (intros; try apply H; (left; reflexivity) || (right; assumption)). reflexivity. Qed.
Lemma filter_map {A B} (f : A -> B) p l : filter p (map f l) = map f (filter (fun x => p (f x)) l).
Proof. induction l as [|x l IH]; [reflexivity|]. cbn [map filter]. destruct (p (f x)); cbn [map]; rewrite IH; reflexivity. Qed.
Lemma filter_flat_map {A B} (f : A -> list B) p l : filter p (flat_map f l) = flat_map (fun x => filter p (f x)) l.
Proof. induction l as [|x l IH]; [reflexivity|]. cbn [flat_map]. rewrite filter_app, IH. reflexivity. Qed.
Lemma ways_groups r : noGroups r = true -> forall gs s, ways r (setGroups gs s) = map (setGroups gs) (ways r s).
Proof.
  induction r as [p| |a IHa b IHb|a IHa b IHb|gr a IHa|k a IHa]; intros N gs s; cbn [noGroups] in N; cbn [ways].
  - cbn [setGroups rLeft rPos rGroups]. destruct (rLeft s); [reflexivity|]. destruct (decodeRune _) as [c n]. destruct (p c); reflexivity.
  - reflexivity.
  - apply andb_prop in N as [N1 N2]. rewrite IHa, flat_map_map, map_flat_map by exact N1. apply flat_map_ext_in. intros x _. apply IHb. exact N2.
  - apply andb_prop in N as [N1 N2]. rewrite IHa, IHb, map_app by assumption. reflexivity.
  - change (rLeft (setGroups gs s)) with (rLeft s). generalize (length (rLeft s)) as n. intros n. revert s. induction n as [|n IH]; intros s.
    + cbn [repeats]. destruct gr; reflexivity.
    + cbn [repeats]. assert (E : flat_map (repeats (ways a) gr n) (filter (fun s' => rPos (setGroups gs s) <? rPos s') (ways a (setGroups gs s))) =
        map (setGroups gs) (flat_map (repeats (ways a) gr n) (filter (fun s' => rPos s <? rPos s') (ways a s)))).
      { rewrite IHa by exact N. rewrite filter_map, flat_map_map, map_flat_map. apply flat_map_ext_in. intros x _. apply IH. }
      rewrite E. destruct gr; [rewrite map_app|]; reflexivity.
  - discriminate.
Qed.

(** ** the regexp of a lexer *)
Lemma offsets_captures count : forall k n, (k < count)%nat -> offsets (upd (repeat (-1, -1) count) k (0, n)) = captures count k n.
Proof.
  assert (R : forall c, offsets (repeat (-1, -1) c) = repeat (-1) (c + c)).
  { induction c as [|c IH]; [reflexivity|]. cbn [repeat offsets]. rewrite IH. cbn [Nat.add repeat]. rewrite Nat.add_succ_r. reflexivity. }
  induction count as [|c IH]; intros k n H; [lia|]. destruct k as [|k]; cbn [repeat upd offsets captures]; [rewrite R; reflexivity|]. rewrite IH by lia. reflexivity.
Qed.
Lemma alternatives_first (tree : name -> rx) text gs : forall patterns k, patterns <> [] -> (forall re, In re patterns -> noGroups (tree re) = true) ->
  match ways (alternatives k (map tree patterns)) (mkAt 0 text gs), firstMatch (fun re => treePrefers (tree re)) k patterns text with
  | [], None => True
  | s :: _, Some (j, n) => rPos s = n /\ rGroups s = upd gs j (0, n) /\ (k <= j < k + length patterns)%nat
  | _, _ => False
  end.
Proof.
  assert (G : forall r k, noGroups r = true -> ways (RGroup k r) (mkAt 0 text gs) = map (fun s => mkAt (rPos s) (rLeft s) (upd gs k (0, rPos s))) (ways r (mkAt 0 text []))).
  { intros r k N. cbn [ways rPos]. change (mkAt 0 text gs) with (setGroups gs (mkAt 0 text [])). rewrite ways_groups by exact N. rewrite map_map. reflexivity. }
  induction patterns as [|re rest IH]; intros k NE H; [congruence|]. cbn [firstMatch map].
  assert (N : noGroups (tree re) = true) by (apply H; left; reflexivity).
  assert (E : ways (alternatives k (tree re :: map tree rest)) (mkAt 0 text gs) =
    ways (RGroup k (tree re)) (mkAt 0 text gs) ++ match rest with [] => [] | _ => ways (alternatives (S k) (map tree rest)) (mkAt 0 text gs) end).
  { destruct rest as [|re2 rest]; [cbn [map alternatives]; rewrite app_nil_r; reflexivity|]. reflexivity. }
  rewrite E, G by exact N.
  replace (treePrefers (tree re) text) with (match ways (tree re) (mkAt 0 text []) with [] => None | s :: _ => Some (rPos s) end) by reflexivity.
  destruct (ways (tree re) (mkAt 0 text [])) as [|s l].
  - cbn [map app]. destruct rest as [|re2 rest]; [exact I|]. specialize (IH (S k) ltac:(discriminate) (fun r Hr => H r (or_intror Hr))).
    destruct (ways _ _) as [|s' l']; destruct (firstMatch _ _ _ _) as [[j n]|]; auto. destruct IH as (A & B & C). split; [exact A|]. split; [exact B|]. cbn [length] in *. lia.
  - cbn [map app rPos rGroups]. split; [reflexivity|]. split; [reflexivity|]. cbn [length]. lia.
Qed.
Lemma findAtStart_joined (tree : name -> rx) patterns text : (forall re, In re patterns -> noGroups (tree re) = true) ->
  findAtStart (alternatives 0 (map tree patterns)) (length patterns) text = joined (fun re => treePrefers (tree re)) patterns text.
Proof.
  intros H. unfold findAtStart, joined. destruct patterns as [|re rest]; [reflexivity|].
  pose proof (alternatives_first tree text (repeat (-1, -1) (length (re :: rest))) (re :: rest) 0 ltac:(discriminate) H) as A.
  destruct (ways _ _) as [|s l]; destruct (firstMatch _ _ _ _) as [[j n]|]; auto; try tauto. destruct A as (-> & -> & B). rewrite offsets_captures by lia. reflexivity.
Qed.

(** ** boundaries of runes *)
Lemma decode_width t : t <> [] -> 1 <= snd (decodeRune t) <= zlen t.
Proof.
  destruct t as [|b r]; [congruence|]. intros _. unfold zlen. destruct (Z_lt_ge_dec b 128).
  - rewrite decode_low by lia. cbn [snd length]. lia.
  - destruct (decode_high b r ltac:(lia)) as (c & u & r' & -> & _ & -> & _ & _). cbn [snd]. unfold zlen. cbn [length]. rewrite app_length. lia.
Qed.
Lemma decode_cut t m : (1 <= m)%nat -> snd (decodeRune t) <= Z.of_nat m -> decodeRune (firstn m t) = decodeRune t.
Proof.
  intros M H. destruct t as [|b0 t]; [destruct m; reflexivity|]. destruct m as [|m]; [lia|]. cbn [firstn].
  destruct m as [|[|[|m]]].
  - cbn [firstn] in *. cbn [decodeRune] in *. destruct (b0 <? 128); [reflexivity|]. destruct (between 194 223 b0).
    { destruct t as [|b1 t]; [reflexivity|]. destruct (between 128 191 b1); [cbn in H; lia|reflexivity]. }
    destruct (between 224 239 b0).
    { destruct t as [|b1 [|b2 t]]; try reflexivity. destruct (_ && _); [cbn in H; lia|reflexivity]. }
    destruct (between 240 244 b0); [|reflexivity]. destruct t as [|b1 [|b2 [|b3 t]]]; try reflexivity. destruct (_ && _); [cbn in H; lia|reflexivity].
  - destruct t as [|b1 t]; [reflexivity|]. cbn [firstn] in *. cbn [decodeRune] in *. destruct (b0 <? 128); [reflexivity|]. destruct (between 194 223 b0); [reflexivity|].
    destruct (between 224 239 b0).
    { destruct t as [|b2 t]; try reflexivity. destruct (_ && _); [cbn in H; lia|reflexivity]. }
    destruct (between 240 244 b0); [|reflexivity]. destruct t as [|b2 [|b3 t]]; try reflexivity. destruct (_ && _); [cbn in H; lia|reflexivity].
  - destruct t as [|b1 [|b2 t]]; try reflexivity. cbn [firstn] in *. cbn [decodeRune] in *. destruct (b0 <? 128); [reflexivity|]. destruct (between 194 223 b0); [reflexivity|].
    destruct (between 224 239 b0); [reflexivity|]. destruct (between 240 244 b0); [|reflexivity]. destruct t as [|b3 t]; try reflexivity. destruct (_ && _); [cbn in H; lia|reflexivity].
  - destruct t as [|b1 [|b2 [|b3 t]]]; try reflexivity.
Qed.
(** the text has a boundary of runes after [m] bytes *)
Inductive bnd : list Z -> nat -> Prop :=
| bnd_O t : bnd t 0
| bnd_S t w m : t <> [] -> Z.to_nat (snd (decodeRune t)) = w -> (w <= m)%nat -> bnd (skipn w t) (m - w) -> bnd t m.
Lemma bnd_le t m : bnd t m -> (m <= length t)%nat.
Proof. induction 1 as [t|t w m NE E L H IH]; [lia|]. rewrite skipn_length in IH. pose proof (decode_width t NE) as D. unfold zlen in D. lia. Qed.
Lemma skipn_add {A} (l : list A) a b : skipn a (skipn b l) = skipn (b + a) l.
Proof. revert l. induction b as [|b IH]; intros l; [reflexivity|]. destruct l; [rewrite !skipn_nil; reflexivity|]. cbn [skipn Nat.add]. apply IH. Qed.
Lemma bnd_trans t a : bnd t a -> forall b, bnd (skipn a t) b -> bnd t (a + b).
Proof.
  induction 1 as [t|t w m NE E L H IH]; intros b Hb; [exact Hb|]. eapply bnd_S; [exact NE|exact E|lia|].
  replace (m + b - w)%nat with (m - w + b)%nat by lia. apply IH. rewrite skipn_add. replace (w + (m - w))%nat with m by lia. exact Hb.
Qed.
Lemma bnd_sub t a : bnd t a -> forall e, bnd t e -> (a <= e)%nat -> bnd (skipn a t) (e - a).
Proof.
  induction 1 as [t|t w m NE E L H IH]; intros e He LE; [rewrite Nat.sub_0_r; exact He|].
  pose proof (decode_width t NE) as D. inversion He as [|t0 w' e' NE' E' L' H']; subst; [lia|].
  specialize (IH _ H' ltac:(lia)). rewrite skipn_add in IH. set (w := Z.to_nat (snd (decodeRune t))) in *.
  replace (w + (m - w))%nat with m in IH by lia. replace (e - w - (m - w))%nat with (e - m)%nat in IH by lia. exact IH.
Qed.
(** what has been matched ends at a boundary *)
Definition adv (s s' : reached) : Prop :=
  exists a, rPos s' = rPos s + Z.of_nat a /\ bnd (rLeft s) a /\ rLeft s' = skipn a (rLeft s).
Lemma adv_refl s : adv s s. Proof. exists 0%nat. split; [lia|]. split; [constructor|reflexivity]. Qed.
Lemma adv_trans s1 s2 s3 : adv s1 s2 -> adv s2 s3 -> adv s1 s3.
Proof.
  intros (a & A1 & A2 & A3) (b & B1 & B2 & B3). exists (a + b)%nat. split; [lia|]. rewrite A3 in B2. split; [eapply bnd_trans; eauto|].
  rewrite B3, A3, skipn_add. reflexivity.
Qed.
Lemma repeats_adv step gr : (forall s s', In s' (step s) -> adv s s') -> forall n s s', In s' (repeats step gr n s) -> adv s s'.
Proof.
  intros H n. induction n as [|n IH]; intros s s' I; cbn [repeats] in I.
  - destruct gr; destruct I as [<-|[]]; apply adv_refl.
  - assert (M : In s' (flat_map (repeats step gr n) (filter (fun s' => rPos s <? rPos s') (step s))) -> adv s s').
    { intros X. apply in_flat_map in X as (x & Hx & Hs). apply filter_In in Hx as [Hx _]. eapply adv_trans; eauto. }
    destruct gr; [apply in_app_or in I as [I|[<-|[]]]; [auto|apply adv_refl]|destruct I as [<-|I]; [apply adv_refl|auto]].
Qed.
Lemma ways_adv r : forall s s', In s' (ways r s) -> adv s s'.
Proof.
  induction r as [p| |a IHa b IHb|a IHa b IHb|gr a IHa|k a IHa]; intros s s' I; cbn [ways] in I.
  - destruct (rLeft s) as [|x l] eqn:L; [destruct I|]. pose proof (decode_width (x :: l) ltac:(discriminate)) as D. destruct (decodeRune (x :: l)) as [c n] eqn:DE. cbn [snd] in D.
    destruct (p c); [|destruct I]. destruct I as [<-|[]]. exists (Z.to_nat n). cbn [rPos rLeft]. rewrite L. split; [lia|]. split; [|reflexivity].
    eapply bnd_S; [discriminate|rewrite DE; reflexivity|cbn [snd]; lia|]. cbn [snd]. rewrite Nat.sub_diag. constructor.
  - destruct I as [<-|[]]. apply adv_refl.
  - apply in_flat_map in I as (x & Hx & Hs). eapply adv_trans; eauto.
  - apply in_app_or in I as [I|I]; auto.
  - eapply repeats_adv; eauto.
  - apply in_map_iff in I as (x & <- & Hx). destruct (IHa _ _ Hx) as (m & A & B & C). exists m. auto.
Qed.

(** ** the same text cut after a boundary *)
Definition cutAt (e : Z) (s : reached) : reached := mkAt (rPos s) (firstn (Z.to_nat (e - rPos s)) (rLeft s)) (rGroups s).
Definition okCut (e : Z) (s : reached) : Prop := rPos s <= e /\ bnd (rLeft s) (Z.to_nat (e - rPos s)).
Definition upTo (e : Z) (s : reached) : bool := rPos s <=? e.
Lemma okCut_adv e s s' : okCut e s -> adv s s' -> upTo e s' = true -> okCut e s'.
Proof.
  intros [A B] (a & C & D & E) U. apply Z.leb_le in U. split; [exact U|]. rewrite E. pose proof (bnd_sub _ _ D _ B ltac:(lia)) as X.
  replace (Z.to_nat (e - rPos s')) with (Z.to_nat (e - rPos s) - a)%nat by lia. exact X.
Qed.
Lemma none_upTo e s l : upTo e s = false -> (forall s', In s' l -> adv s s') -> filter (upTo e) l = [].
Proof.
  intros U H. apply Z.leb_gt in U. induction l as [|x l IH]; [reflexivity|]. cbn [filter].
  destruct (H x (or_introl eq_refl)) as (a & A & _). unfold upTo at 1. destruct (Z.leb_spec (rPos x) e); [lia|]. apply IH. intros; apply H; right; assumption.
Qed.
Lemma flat_map_upTo e (f f' : reached -> list reached) l : (forall s, In s l -> okCut e s \/ upTo e s = false) ->
  (forall s s', In s' (f s) -> adv s s') -> (forall s, In s l -> okCut e s -> f' (cutAt e s) = map (cutAt e) (filter (upTo e) (f s))) ->
  flat_map f' (map (cutAt e) (filter (upTo e) l)) = map (cutAt e) (filter (upTo e) (flat_map f l)).
Proof.
  intros OK AD H. induction l as [|s l IH]; [reflexivity|]. cbn [flat_map filter]. rewrite filter_app, map_app, <- IH by (intros; try apply OK; try apply H; try (right; assumption); assumption).
  destruct (OK s (or_introl eq_refl)) as [O|U].
  - assert (upTo e s = true) as -> by (apply Z.leb_le; apply O). cbn [map flat_map]. rewrite H by (auto; left; reflexivity). reflexivity.
  - rewrite U. rewrite (none_upTo e s (f s) U) by (apply AD). reflexivity.
Qed.
Lemma split_ok e s l : okCut e s -> (forall s', In s' l -> adv s s') -> forall s', In s' l -> okCut e s' \/ upTo e s' = false.
Proof. intros O A s' I. destruct (upTo e s') eqn:U; [left; eapply okCut_adv; eauto|right; reflexivity]. Qed.
Lemma more_flat step gr n s : (forall s s', In s' (step s) -> adv s s') -> (length (rLeft s) <= n)%nat ->
  match n with O => [] | S m => flat_map (repeats step gr m) (filter (fun s' => rPos s <? rPos s') (step s)) end =
  flat_map (repeats step gr (pred n)) (filter (fun s' => rPos s <? rPos s') (step s)).
Proof.
  intros AD L. destruct n as [|n]; [|reflexivity]. assert (E : filter (fun s' => rPos s <? rPos s') (step s) = []); [|rewrite E; reflexivity].
  assert (X : forall s', In s' (step s) -> (rPos s <? rPos s') = false).
  { intros s' I. destruct (AD _ _ I) as (a & A & B & C). apply bnd_le in B. apply Z.ltb_ge. lia. }
  induction (step s) as [|x l IH]; [reflexivity|]. cbn [filter]. rewrite X by (left; reflexivity). apply IH. intros; apply X; right; assumption.
Qed.
Lemma filter_comm {A} p q (l : list A) : filter p (filter q l) = filter q (filter p l).
Proof. induction l as [|x l IH]; [reflexivity|]. cbn [filter]. destruct (q x) eqn:Q, (p x) eqn:P; cbn [filter]; rewrite ?P, ?Q, IH; reflexivity. Qed.
Lemma repeats_cut e step gr : (forall s s', In s' (step s) -> adv s s') ->
  (forall s, okCut e s -> step (cutAt e s) = map (cutAt e) (filter (upTo e) (step s))) ->
  forall n n' s, okCut e s -> (length (rLeft s) <= n)%nat -> (length (rLeft (cutAt e s)) <= n')%nat ->
  repeats step gr n' (cutAt e s) = map (cutAt e) (filter (upTo e) (repeats step gr n s)).
Proof.
  intros AD ST n. induction n as [n IHn] using lt_wf_ind. intros n' s O L L'.
  assert (U : upTo e s = true) by (apply Z.leb_le; apply O).
  assert (M : match n' with O => [] | S m => flat_map (repeats step gr m) (filter (fun s' => rPos (cutAt e s) <? rPos s') (step (cutAt e s))) end =
    map (cutAt e) (filter (upTo e) match n with O => [] | S m => flat_map (repeats step gr m) (filter (fun s' => rPos s <? rPos s') (step s)) end)).
  { rewrite !more_flat by assumption. rewrite ST by exact O. rewrite filter_map. cbn [cutAt rPos]. rewrite filter_comm.
    apply flat_map_upTo.
    - intros x Hx. apply filter_In in Hx as [Hx _]. eapply split_ok; eauto.
    - intros x x'. apply repeats_adv. exact AD.
    - intros x Hx Ox. apply filter_In in Hx as [Hx G]. apply Z.ltb_lt in G. destruct (AD _ _ Hx) as (a & A & B & C). pose proof (bnd_le _ _ B) as BL.
      apply IHn; [lia|exact Ox|rewrite C, skipn_length; lia|]. cbn [cutAt rLeft] in *. rewrite firstn_length in *. rewrite C, skipn_length.
      destruct O as [O1 O2]. apply bnd_le in O2. destruct Ox as [Ox1 Ox2]. lia. }
  assert (EQ : repeats step gr n' (cutAt e s) = let more := match n' with O => [] | S m => flat_map (repeats step gr m) (filter (fun s' => rPos (cutAt e s) <? rPos s') (step (cutAt e s))) end in
     if gr then more ++ [cutAt e s] else cutAt e s :: more) by (destruct n'; reflexivity).
  assert (EQ2 : repeats step gr n s = let more := match n with O => [] | S m => flat_map (repeats step gr m) (filter (fun s' => rPos s <? rPos s') (step s)) end in
     if gr then more ++ [s] else s :: more) by (destruct n; reflexivity).
  rewrite EQ, EQ2. cbv zeta. rewrite M. destruct gr.
  - rewrite filter_app, map_app. cbn [filter]. rewrite U. reflexivity.
  - cbn [filter]. rewrite U. reflexivity.
Qed.
Lemma ways_cut e r : forall s, okCut e s -> ways r (cutAt e s) = map (cutAt e) (filter (upTo e) (ways r s)).
Proof.
  induction r as [p| |a IHa b IHb|a IHa b IHb|gr a IHa|k a IHa]; intros s O.
  - cbn [ways]. change (rLeft (cutAt e s)) with (firstn (Z.to_nat (e - rPos s)) (rLeft s)). destruct O as [O1 O2].
    destruct (rLeft s) as [|x l] eqn:L; [rewrite firstn_nil; reflexivity|]. pose proof (decode_width (x :: l) ltac:(discriminate)) as D.
    remember (Z.to_nat (e - rPos s)) as m eqn:EM. inversion O2 as [t E1 E2|t w m' NE E' L' H' E1 E2]; subst t.
    + subst m. cbn [firstn]. destruct (decodeRune (x :: l)) as [c n]. cbn [snd] in D. destruct (p c); [|reflexivity]. cbn [filter]. unfold upTo. cbn [rPos].
      destruct (Z.leb_spec (rPos s + n) e); [lia|reflexivity].
    + subst m'. destruct m as [|m]; [lia|]. rewrite (decode_cut (x :: l) (S m)) by lia. cbn [firstn].
      destruct (decodeRune (x :: l)) as [c n]. cbn [snd] in *. destruct (p c); [|reflexivity]. cbn [filter]. unfold upTo. cbn [rPos].
      destruct (Z.leb_spec (rPos s + n) e); [|lia]. cbn [map]. unfold cutAt. cbn [rPos rLeft rGroups]. f_equal. f_equal.
      change (x :: firstn m l) with (firstn (S m) (x :: l)). rewrite EM. rewrite skipn_firstn_comm. f_equal. lia.
  - cbn [ways filter]. assert (upTo e s = true) as -> by (apply Z.leb_le; apply O). reflexivity.
  - cbn [ways]. rewrite IHa by exact O. apply flat_map_upTo; [eapply split_ok; [exact O|apply ways_adv]|intros x x'; apply ways_adv|]. intros x _ Ox. apply IHb. exact Ox.
  - cbn [ways]. rewrite IHa, IHb by exact O. rewrite filter_app, map_app. reflexivity.
  - cbn [ways]. apply repeats_cut; [apply ways_adv|exact IHa|exact O|lia|lia].
  - cbn [ways]. rewrite IHa by exact O. rewrite filter_map, !map_map. reflexivity.
Qed.
Lemma treePrefers_cut r text n : treePrefers r text = Some n -> treePrefers r (firstn (Z.to_nat n) text) = Some n.
Proof.
  unfold treePrefers. destruct (ways r (mkAt 0 text [])) as [|s l] eqn:E; [discriminate|]. intros [= <-].
  destruct (ways_adv r (mkAt 0 text []) s) as (a & A & B & _); [rewrite E; left; reflexivity|]. cbn [rPos rLeft] in A, B.
  assert (O : okCut (rPos s) (mkAt 0 text [])). { split; [cbn; lia|]. cbn [rPos rLeft]. replace (Z.to_nat (rPos s - 0)) with a by lia. exact B. }
  pose proof (ways_cut (rPos s) r _ O) as W. unfold cutAt at 1 in W. cbn [rPos rLeft rGroups] in W. rewrite Z.sub_0_r in W. rewrite W, E. cbn [filter].
  unfold upTo at 1. rewrite Z.leb_refl. reflexivity.
Qed.
Lemma treePrefers_range r text n : treePrefers r text = Some n -> 0 <= n <= zlen text.
Proof.
  unfold treePrefers. destruct (ways r (mkAt 0 text [])) as [|s l] eqn:E; [discriminate|]. intros [= <-].
  destruct (ways_adv r (mkAt 0 text []) s) as (a & A & B & _); [rewrite E; left; reflexivity|]. cbn [rPos rLeft] in A, B. apply bnd_le in B. unfold zlen. lia.
Qed.
