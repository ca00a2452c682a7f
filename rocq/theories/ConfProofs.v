(** Edits of configuration files keep their records right. *)
From Coq Require Import List Bool String Ascii Arith Lia.
From Verif Require Import Base BaseProofs Conf ConfSpec.
Import ListNotations.
Open Scope string_scope.
Open Scope nat_scope.
Open Scope list_scope.

(** ** Lists *)
Lemma fop_app {A} (R : A -> A -> Prop) l m : ForallOrdPairs R (l ++ m) <-> ForallOrdPairs R l /\ ForallOrdPairs R m /\ forall x y, In x l -> In y m -> R x y.
Proof.
  induction l as [|a l IH]; cbn.
  - split; [intros H; split; [constructor|split; [exact H|intros ? ? []]]|tauto].
  - split.
    + intros H. inversion H as [|? ? H1 H2]; subst. apply IH in H2 as (H2 & H3 & H4). rewrite Forall_app in H1. destruct H1 as [H1 H5]. split; [constructor; assumption|]. split; [assumption|]. intros x y [<-|HI] HY; [exact (proj1 (Forall_forall _ _) H5 y HY)|auto].
    + intros (H1 & H2 & H3). inversion H1 as [|? ? H4 H5]; subst. constructor; [|apply IH; repeat split; auto]. apply Forall_app. split; [exact H4|]. apply Forall_forall. auto.
Qed.
Lemma fop_in {A} (R : A -> A -> Prop) l x y : ForallOrdPairs R l -> In x l -> In y l -> x = y \/ R x y \/ R y x.
Proof. intros. eapply ForallOrdPairs_In; eauto. Qed.
Lemma swap_nodup (X Y Y' Z : list nat) f : NoDup (X ++ Y ++ Z) -> NoDup Y' -> Forall (fun i => i < f) (X ++ Y ++ Z) -> (forall i, In i Y' -> In i Y \/ f <= i) -> NoDup (X ++ Y' ++ Z).
Proof.
  intros N N' F S. rewrite !Forall_app in F. destruct F as (FX & FY & FZ). rewrite Forall_forall in FX, FY, FZ.
  assert (NX : NoDup X /\ NoDup Z /\ (forall i, In i X -> ~ In i Y /\ ~ In i Z) /\ (forall i, In i Y -> ~ In i Z)).
  { clear - N. induction X as [|x X IH]; cbn in N.
    - split; [constructor|]. induction Y as [|y Y IH]; cbn in N; [split; [assumption|split; [intros ? []|intros ? []]]|]. inversion N as [|? ? H1 H2]; subst. destruct (IH H2) as (A & B & C). split; [exact A|]. split; [intros ? []|]. intros i [<-|HI]; [intros X; apply H1, in_or_app; auto|auto].
    - inversion N as [|? ? H1 H2]; subst. destruct (IH H2) as (A & B & C & D). rewrite !in_app_iff in H1. split; [constructor; tauto|]. split; [exact B|]. split; [|exact D]. intros i [<-|HI]; [tauto|auto]. }
  destruct NX as (NX & NZ & D1 & D2).
  assert (NYZ : NoDup (Y' ++ Z)).
  { clear NX D1 FX N. induction N' as [|y Y' H1 H2 IH]; cbn; [exact NZ|]. constructor; [|apply IH; intros i HI; apply S; right; exact HI]. rewrite in_app_iff. intros [H|H]; [contradiction|]. destruct (S y (or_introl eq_refl)) as [HY|HY]; [exact (D2 _ HY H)|]. specialize (FZ _ H). lia. }
  clear N. induction NX as [|x X H1 H2 IH]; cbn; [exact NYZ|]. constructor; [|apply IH; [intros i HI; apply FX; right; exact HI|intros i HI; apply D1; right; exact HI]].
  rewrite !in_app_iff. specialize (D1 x (or_introl eq_refl)). specialize (FX x (or_introl eq_refl)). intros [H|[H|H]]; [contradiction| |tauto]. destruct (S x H) as [X0|X0]; [tauto|lia].
Qed.
Lemma nodup_parts (X Y Z : list nat) : NoDup (X ++ Y ++ Z) -> NoDup Y /\ forall i, In i Y -> ~ In i X /\ ~ In i Z.
Proof.
  intros N. induction X as [|x X IH]; cbn in N.
  - induction Y as [|y Y IH]; cbn in *; [split; [constructor|intros ? []]|]. inversion N as [|? ? H1 H2]; subst. rewrite in_app_iff in H1. destruct (IH H2) as [A B]. split; [constructor; tauto|]. intros i [<-|HI]; [tauto|auto].
  - inversion N as [|? ? H1 H2]; subst. destruct (IH H2) as [A B]. split; [exact A|]. intros i HI. destruct (B i HI) as [B1 B2]. split; [|exact B2]. intros [<-|HX]; [apply H1; rewrite !in_app_iff; auto|auto].
Qed.

(** ** Maps *)
Lemma get_del {A} k k' (l : list (string * A)) : get k' (del k l) = if String.eqb k' k then None else get k' l.
Proof.
  unfold del. induction l as [|[a v] l IH]; cbn; [destruct (String.eqb k' k); reflexivity|]. destruct (String.eqb a k) eqn:E; cbn.
  - apply String.eqb_eq in E as ->. rewrite IH. destruct (String.eqb k' k) eqn:E2; [reflexivity|]. rewrite String.eqb_sym, E2. reflexivity.
  - rewrite IH. destruct (String.eqb a k') eqn:E2; [|reflexivity]. apply String.eqb_eq in E2 as ->. rewrite E. reflexivity.
Qed.
Lemma get_put {A} k k' (v : A) l : get k' (put k v l) = if String.eqb k' k then Some v else get k' l.
Proof. unfold put. cbn. rewrite String.eqb_sym. destruct (String.eqb k' k) eqn:E; [reflexivity|]. rewrite get_del, E. reflexivity. Qed.

(** ** Edits by number *)
Lemma topIds_app a b : topIds (a ++ b) = topIds a ++ topIds b. Proof. apply flat_map_app. Qed.
Lemma partIds_app a b : partIds (a ++ b) = partIds a ++ partIds b. Proof. apply flat_map_app. Qed.
Lemma tokIds_app a b : tokIds (a ++ b) = tokIds a ++ tokIds b. Proof. apply flat_map_app. Qed.

Lemma onTop_out i f A : ~ In i (topIds A) -> onTop i f A = A.
Proof. unfold onTop, topIds. induction A as [|[t|j ty ps] A IH]; cbn; intros N; [reflexivity|rewrite IH by tauto; reflexivity|]. destruct (Nat.eqb_spec j i) as [->|NE]; [tauto|]. cbn. rewrite IH by tauto. reflexivity. Qed.
Lemma onTop_at i f A ty ps B : NoDup (topIds (A ++ TNode i ty ps :: B)) -> onTop i f (A ++ TNode i ty ps :: B) = A ++ f (TNode i ty ps) ++ B.
Proof.
  intros N. rewrite topIds_app in N. change (topIds (TNode i ty ps :: B)) with ([i] ++ topIds B) in N. apply nodup_parts in N as [_ N]. destruct (N i (or_introl eq_refl)) as [N1 N2].
  unfold onTop. rewrite flat_map_app. cbn. rewrite Nat.eqb_refl. change (onTop i f A ++ f (TNode i ty ps) ++ onTop i f B = A ++ f (TNode i ty ps) ++ B). rewrite !onTop_out by assumption. reflexivity.
Qed.
Definition editParts (i : id) (f : part -> list part) := flat_map (fun p => match p with PNode k _ _ => if k =? i then f p else [p] | _ => [p] end).
Lemma editParts_out i f ps : ~ In i (partIds ps) -> editParts i f ps = ps.
Proof. unfold editParts, partIds. induction ps as [|[t|j ty ks] ps IH]; cbn; intros N; [reflexivity|rewrite IH by tauto; reflexivity|]. destruct (Nat.eqb_spec j i) as [->|NE]; [tauto|]. cbn. rewrite IH by tauto. reflexivity. Qed.
Lemma onPart_out i f A : ~ In i (partIds (flat_map partsOf A)) -> onPart i f A = A.
Proof. unfold onPart. induction A as [|[t|j ty ps] A IH]; cbn; intros N; [reflexivity|rewrite IH by exact N; reflexivity|]. rewrite partIds_app, in_app_iff in N. rewrite IH by tauto. change (TNode j ty (editParts i f ps) :: A = TNode j ty ps :: A). rewrite editParts_out by tauto. reflexivity. Qed.
Lemma parts_at A j ty P p Q B : flat_map partsOf (A ++ TNode j ty (P ++ p ++ Q) :: B) = (flat_map partsOf A ++ P) ++ p ++ (Q ++ flat_map partsOf B).
Proof. rewrite flat_map_app. cbn. rewrite <- !app_assoc. reflexivity. Qed.
Lemma onPart_at i f A j ty P pty ks Q B : NoDup (partIds (flat_map partsOf (A ++ TNode j ty (P ++ PNode i pty ks :: Q) :: B))) ->
  onPart i f (A ++ TNode j ty (P ++ PNode i pty ks :: Q) :: B) = A ++ TNode j ty (P ++ f (PNode i pty ks) ++ Q) :: B.
Proof.
  change (PNode i pty ks :: Q) with ([PNode i pty ks] ++ Q). rewrite parts_at, !partIds_app. intros N. rewrite <- ?app_assoc in N. rewrite app_assoc in N. apply nodup_parts in N as [_ N]. destruct (N i (or_introl eq_refl)) as [N1 N2]. rewrite in_app_iff in N1, N2.
  unfold onPart. rewrite map_app. cbn [map]. change (onPart i f A ++ TNode j ty (editParts i f (P ++ [PNode i pty ks] ++ Q)) :: onPart i f B = A ++ TNode j ty (P ++ f (PNode i pty ks) ++ Q) :: B).
  rewrite !onPart_out by tauto. unfold editParts. rewrite !flat_map_app. change (A ++ TNode j ty (editParts i f P ++ editParts i f [PNode i pty ks] ++ editParts i f Q) :: B = A ++ TNode j ty (P ++ f (PNode i pty ks) ++ Q) :: B).
  rewrite (editParts_out i f P), (editParts_out i f Q) by tauto. unfold editParts. cbn. rewrite Nat.eqb_refl, app_nil_r. reflexivity.
Qed.
Definition editToks (i : id) (f : tok -> list tok) := flat_map (fun x => if tid x =? i then f x else [x]).
Lemma editToks_out i f ks : ~ In i (map tid ks) -> editToks i f ks = ks.
Proof. unfold editToks. induction ks as [|t ks IH]; cbn; intros N; [reflexivity|]. destruct (Nat.eqb_spec (tid t) i) as [E0|NE]; [tauto|]. cbn. rewrite IH by tauto. reflexivity. Qed.
Definition tokParts (i : id) (f : tok -> list tok) := map (fun p => match p with PNode k ty ks => PNode k ty (editToks i f ks) | _ => p end).
Lemma tokParts_out i f ps : ~ In i (tokIds ps) -> tokParts i f ps = ps.
Proof. unfold tokParts, tokIds. induction ps as [|[t|j ty ks] ps IH]; cbn; intros N; [reflexivity|rewrite IH by tauto; reflexivity|]. rewrite in_app_iff in N. rewrite IH, editToks_out by tauto. reflexivity. Qed.
Lemma onTok_out i f A : ~ In i (tokIds (flat_map partsOf A)) -> onTok i f A = A.
Proof. unfold onTok. induction A as [|[t|j ty ps] A IH]; cbn; intros N; [reflexivity|rewrite IH by exact N; reflexivity|]. rewrite tokIds_app, in_app_iff in N. rewrite IH by tauto. change (TNode j ty (tokParts i f ps) :: A = TNode j ty ps :: A). rewrite tokParts_out by tauto. reflexivity. Qed.
Lemma onTok_at f A j ty P i pty ks t ls Q B : NoDup (tokIds (flat_map partsOf (A ++ TNode j ty (P ++ PNode i pty (ks ++ t :: ls) :: Q) :: B))) ->
  onTok (tid t) f (A ++ TNode j ty (P ++ PNode i pty (ks ++ t :: ls) :: Q) :: B) = A ++ TNode j ty (P ++ PNode i pty (ks ++ f t ++ ls) :: Q) :: B.
Proof.
  change (PNode i pty (ks ++ t :: ls) :: Q) with ([PNode i pty (ks ++ t :: ls)] ++ Q). rewrite parts_at, !tokIds_app. intros N.
  assert (E : tokIds [PNode i pty (ks ++ t :: ls)] = map tid ks ++ [tid t] ++ map tid ls) by (cbn; rewrite app_nil_r, map_app; reflexivity). rewrite E in N.
  assert (N0 : NoDup ((tokIds (flat_map partsOf A) ++ tokIds P ++ map tid ks) ++ [tid t] ++ (map tid ls ++ tokIds Q ++ tokIds (flat_map partsOf B)))) by (rewrite <- !app_assoc in *; exact N).
  apply nodup_parts in N0 as [_ N0]. destruct (N0 _ (or_introl eq_refl)) as [N1 N2]. rewrite !in_app_iff in N1, N2. clear N N0 E.
  unfold onTok. rewrite map_app. cbn [map]. change (onTok (tid t) f A ++ TNode j ty (tokParts (tid t) f (P ++ [PNode i pty (ks ++ t :: ls)] ++ Q)) :: onTok (tid t) f B = A ++ TNode j ty (P ++ PNode i pty (ks ++ f t ++ ls) :: Q) :: B).
  rewrite !onTok_out by tauto. unfold tokParts. rewrite !map_app. cbn [map app]. change (A ++ TNode j ty (tokParts (tid t) f P ++ PNode i pty (editToks (tid t) f (ks ++ [t] ++ ls)) :: tokParts (tid t) f Q) :: B = A ++ TNode j ty (P ++ PNode i pty (ks ++ f t ++ ls) :: Q) :: B).
  rewrite (tokParts_out _ f P), (tokParts_out _ f Q) by tauto. unfold editToks. rewrite !flat_map_app. change (A ++ TNode j ty (P ++ PNode i pty (editToks (tid t) f ks ++ editToks (tid t) f [t] ++ editToks (tid t) f ls) :: Q) :: B = A ++ TNode j ty (P ++ PNode i pty (ks ++ f t ++ ls) :: Q) :: B).
  rewrite (editToks_out _ f ks), (editToks_out _ f ls) by tauto. unfold editToks. cbn. rewrite Nat.eqb_refl, app_nil_r. reflexivity.
Qed.
Lemma find_out {A} (f : A -> bool) l : (forall x, In x l -> f x = false) -> find f l = None.
Proof. induction l as [|a l IH]; cbn; intros H; [reflexivity|]. rewrite (H a) by auto. auto. Qed.
Lemma find_at {A} (f : A -> bool) l x m : (forall y, In y l -> f y = false) -> f x = true -> find f (l ++ x :: m) = Some x.
Proof. induction l as [|a l IH]; cbn; intros H E; [rewrite E; reflexivity|]. rewrite (H a) by auto. auto. Qed.
Lemma findTop_at i A ty ps B : NoDup (topIds (A ++ TNode i ty ps :: B)) -> findTop i (A ++ TNode i ty ps :: B) = Some ps.
Proof.
  rewrite topIds_app. change (topIds (TNode i ty ps :: B)) with ([i] ++ topIds B). intros N. apply nodup_parts in N as [_ N]. destruct (N i (or_introl eq_refl)) as [N1 _]. unfold findTop. rewrite find_at; [reflexivity| |apply Nat.eqb_refl].
  intros [t|j ty' ps'] HI; [reflexivity|]. apply Nat.eqb_neq. intros ->. apply N1. apply in_flat_map. exists (TNode i ty' ps'). split; [exact HI|left; reflexivity].
Qed.
Lemma findPart_at i A j ty P pty ks Q B : NoDup (partIds (flat_map partsOf (A ++ TNode j ty (P ++ PNode i pty ks :: Q) :: B))) -> findPart i (A ++ TNode j ty (P ++ PNode i pty ks :: Q) :: B) = Some ks.
Proof.
  change (PNode i pty ks :: Q) with ([PNode i pty ks] ++ Q). intros N. unfold findPart. change (flat_map (fun t => match t with TNode _ _ ps => ps | _ => [] end) ?x) with (flat_map partsOf x). rewrite parts_at in *. rewrite !partIds_app in N. rewrite <- !app_assoc in N. rewrite app_assoc in N. apply nodup_parts in N as [_ N]. destruct (N i (or_introl eq_refl)) as [N1 _]. rewrite <- partIds_app in N1.
  cbn [app]. rewrite find_at; [reflexivity| |apply Nat.eqb_refl]. intros [t|k ty' ks'] HI; [reflexivity|]. apply Nat.eqb_neq. intros ->. apply N1. apply in_flat_map. eexists. split; [exact HI|left; reflexivity].
Qed.
