(** First symbols of definitions; sets of first tokens; reachability of nodes. *)
From Coq Require Import ZArith List Bool Lia Sorted Relations Permutation.
From Verif Require Import Base BaseProofs Grammar LangBuild LangSpec LangProofs LangFrame LangComplete LangDrop LangNodes LangNodesSpec.
Import ListNotations.
Open Scope Z_scope.

(** ** Sets *)
Lemma sunion_In a b t : In t (sunion a b) <-> In t a \/ In t b.
Proof. unfold sunion. revert a. induction b as [|x b IH]; intros a; cbn [fold_left In]; [tauto|]. rewrite IH, sadd_In. intuition congruence. Qed.
Lemma sunion_sorted a b : StronglySorted Z.lt a -> StronglySorted Z.lt (sunion a b).
Proof. unfold sunion. revert a. induction b as [|x b IH]; intros a S; cbn [fold_left]; [exact S|]. apply IH, sadd_sorted, S. Qed.
Lemma sremove_In x l t : In t (sremove x l) <-> In t l /\ t <> x.
Proof. unfold sremove. rewrite filter_In, negb_true_iff, Z.eqb_neq. reflexivity. Qed.
Lemma filter_sorted f l : StronglySorted Z.lt l -> StronglySorted Z.lt (filter f l).
Proof.
  induction 1 as [|x l S IH F]; [constructor|]. cbn [filter]. destruct (f x); [|exact IH]. constructor; [exact IH|]. apply Forall_forall. intros y Y. apply filter_In in Y.
  rewrite Forall_forall in F. apply F, Y.
Qed.
Lemma sremove_sorted x l : StronglySorted Z.lt l -> StronglySorted Z.lt (sremove x l).
Proof. apply filter_sorted. Qed.

(** ** First symbols *)
Inductive heads : chunk -> sym -> Prop :=
| H_tok t : heads (CTok t) (STok t)
| H_eoi : heads CEoi SEoi
| H_node i u : heads (CNode i) (SNode i u)
| H_var l c x : In c l -> heads c x -> heads (CVar l) x
| H_group opt rep l x : headsSeq l x -> heads (CGroup opt rep l) x
with headsSeq : list chunk -> sym -> Prop :=
| HS_here c l x : heads c x -> headsSeq (c :: l) x
| HS_later c l x : isOptional c = true -> headsSeq l x -> headsSeq (c :: l) x.
Scheme heads_mind := Minimality for heads Sort Prop
with headsSeq_mind := Minimality for headsSeq Sort Prop.
Combined Scheme heads_both from heads_mind, headsSeq_mind.

Lemma string_exists c : written c -> exists w, stringOf c w.
Proof.
  induction c as [t| |i|opt rep l IH|l IH] using chunk_nest; intros W.
  - eexists. constructor.
  - eexists. constructor.
  - exists [SNode i 0]. constructor. exact I.
  - inversion W as [| | | |? ? ? NE RO WL]; subst. assert (X : exists w, derivesSeq (fun _ _ => True) l w).
    { clear NE W. induction l as [|c l IL]; [eexists; constructor|]. destruct (IH c (or_introl eq_refl) (WL c (or_introl eq_refl))) as (w & D).
      destruct IL as (v & D'); [intros; apply IH; [right|]; auto|intros; apply WL; right; auto|]. eexists. constructor; eassumption. }
    destruct X as (w & D). exists w. apply D_once, D.
  - inversion W as [| | |? NE WL|]; subst. destruct l as [|c l]; [contradiction|]. destruct (IH c (or_introl eq_refl) (WL c (or_introl eq_refl))) as (w & D).
    exists w. eapply D_variant; [left; reflexivity|exact D].
Qed.
Lemma seq_exists l : (forall c, In c l -> written c) -> exists w, derivesSeq (fun _ _ => True) l w.
Proof.
  induction l as [|c l IL]; intros W; [eexists; constructor|]. destruct (string_exists c (W c (or_introl eq_refl))) as (w & D).
  destruct IL as (v & D'); [intros; apply W; right; auto|]. eexists. constructor; eassumption.
Qed.
Lemma derives_heads :
  (forall c w, derives (fun _ _ => True) c w -> forall x v, w = x :: v -> heads c x) /\
  (forall l w, derivesSeq (fun _ _ => True) l w -> forall x v, w = x :: v -> headsSeq l x).
Proof.
  apply derives_both.
  - intros t x v E. injection E as <- _. constructor.
  - intros x v E. injection E as <- _. constructor.
  - intros i t _ x v E. injection E as <- _. constructor.
  - intros l c w C _ IH x v E. econstructor; [exact C|eapply IH, E].
  - intros opt rep l w _ IH x v E. constructor. eapply IH, E.
  - discriminate.
  - intros opt l w v _ IH _ IH' x u E. destruct w as [|y w]; [eapply IH', E|]. injection E as <- _. constructor. eapply IH. reflexivity.
  - discriminate.
  - intros c l w v D IH _ IH' x u E. destruct w as [|y w].
    + apply HS_later; [eapply chunk_empty, D|eapply IH', E].
    + injection E as <- _. apply HS_here. eapply IH. reflexivity.
Qed.
Lemma heads_derive :
  (forall c x, heads c x -> written c -> exists w, derives (fun _ _ => True) c (x :: w)) /\
  (forall l x, headsSeq l x -> (forall c, In c l -> written c) -> exists w, derivesSeq (fun _ _ => True) l (x :: w)).
Proof.
  apply heads_both.
  - intros t _. exists []. constructor.
  - intros _. exists []. constructor.
  - intros i u _. exists []. constructor. exact I.
  - intros l c x C _ IH W. inversion W as [| | |? NE WL|]; subst. destruct (IH (WL c C)) as (w & D). exists w. econstructor; eassumption.
  - intros opt rep l x _ IH W. inversion W as [| | | |? ? ? NE RO WL]; subst. destruct (IH WL) as (w & D). exists w. apply D_once, D.
  - intros c l x _ IH W. destruct (IH (W c (or_introl eq_refl))) as (w & D). destruct (seq_exists l) as (v & D'); [intros; apply W; right; auto|].
    exists (w ++ v). apply (DS_cons _ c l (x :: w) v D D').
  - intros c l x O _ IH W. destruct IH as (w & D); [intros; apply W; right; auto|]. exists w. apply (DS_cons _ c l [] (x :: w)); [|exact D].
    apply optional_derives; [apply W; left; reflexivity|exact O].
Qed.
Lemma heads_iff c x : written c -> (heads c x <-> exists w, stringOf c (x :: w)).
Proof. intros W. split; [intros H; apply (proj1 heads_derive c x H W)|intros (w & D); eapply (proj1 derives_heads), eq_refl; exact D]. Qed.

(** first tokens of a first symbol *)
Definition tokenOf (F : Z -> Z -> Prop) (x : sym) (t : Z) : Prop :=
  match x with STok k => t = k | SEoi => t = EoiToken | SNode j _ => F j t end.
Fixpoint firstSeq (firsts : list (list Z)) (l : list chunk) (result : list Z) : list Z :=
  match l with
  | [] => result
  | ch :: l' => let result := sunion result (firstTokens firsts ch) in if isOptional ch then firstSeq firsts l' result else result
  end.
Fixpoint firstVar (firsts : list (list Z)) (l : list chunk) (result : list Z) : list Z :=
  match l with [] => result | ch :: l' => firstVar firsts l' (sunion result (firstTokens firsts ch)) end.
Lemma firstTokens_group firsts opt rep l : firstTokens firsts (CGroup opt rep l) = firstSeq firsts l [].
Proof. cbn [firstTokens]. generalize (@nil Z). induction l as [|c l IH]; intros r; [reflexivity|]. cbn [firstSeq]. destruct (isOptional c); [apply IH|reflexivity]. Qed.
Lemma firstTokens_var firsts l : firstTokens firsts (CVar l) = firstVar firsts l [].
Proof. cbn [firstTokens]. generalize (@nil Z). induction l as [|c l IH]; intros r; [reflexivity|]. cbn [firstVar]. apply IH. Qed.
Lemma firstTokens_spec firsts c t : In t (firstTokens firsts c) <-> exists x, heads c x /\ tokenOf (fun j t => In t (firstsOf firsts j)) x t.
Proof.
  induction c as [k| |i|opt rep l IH|l IH] using chunk_nest.
  - cbn. split; [intros [<-|[]]; exists (STok k); split; [constructor|reflexivity]|]. intros (x & H & T). inversion H; subst. cbn in T. auto.
  - cbn [firstTokens]. split; [intros [<-|[]]; exists SEoi; split; [constructor|reflexivity]|]. intros (x & H & T). inversion H; subst. cbn in T. left. auto.
  - cbn [firstTokens]. split; [intros X; exists (SNode i 0); split; [constructor|exact X]|]. intros (x & H & T). inversion H; subst. exact T.
  - rewrite firstTokens_group.
    assert (X : forall r, In t (firstSeq firsts l r) <-> In t r \/ exists x, headsSeq l x /\ tokenOf (fun j t => In t (firstsOf firsts j)) x t).
    { induction l as [|c l IL]; intros r; cbn [firstSeq].
      - split; [auto|]. intros [X|(x & H & _)]; [exact X|inversion H].
      - assert (IL' := fun r => IL (fun c' C => IH c' (or_intror C)) r). clear IL. pose proof (IH c (or_introl eq_refl)) as IC.
        destruct (isOptional c) eqn:O; [rewrite IL'|]; rewrite sunion_In, IC.
        + split.
          * intros [[X|(x & H & T)]|(x & H & T)]; [auto|right; exists x; split; [apply HS_here, H|exact T]|right; exists x; split; [apply HS_later; assumption|exact T]].
          * intros [X|(x & H & T)]; [auto|]. inversion H; subst; eauto.
        + split.
          * intros [X|(x & H & T)]; [auto|right; exists x; split; [apply HS_here, H|exact T]].
          * intros [X|(x & H & T)]; [auto|]. inversion H; subst; [eauto|congruence]. }
    rewrite X. split.
    + intros [[]|(x & H & T)]. exists x. split; [constructor; exact H|exact T].
    + intros (x & H & T). inversion H; subst. eauto.
  - rewrite firstTokens_var.
    assert (X : forall r, In t (firstVar firsts l r) <-> In t r \/ exists c x, In c l /\ heads c x /\ tokenOf (fun j t => In t (firstsOf firsts j)) x t).
    { induction l as [|c l IL]; intros r; cbn [firstVar].
      - split; [auto|]. intros [X|(c & x & [] & _)]. exact X.
      - assert (IL' := fun r => IL (fun c' C => IH c' (or_intror C)) r). clear IL. pose proof (IH c (or_introl eq_refl)) as IC.
        rewrite IL', sunion_In, IC. split.
        + intros [[X|(x & H & T)]|(c' & x & C & H & T)]; [auto|right; exists c, x; split; [left; reflexivity|auto]|right; exists c', x; split; [right; exact C|auto]].
        + intros [X|(c' & x & [<-|C] & H & T)]; [auto|eauto|right; eauto]. }
    rewrite X. split.
    + intros [[]|(c & x & C & H & T)]. exists x. split; [econstructor; eassumption|exact T].
    + intros (x & H & T). inversion H; subst. right. eauto.
Qed.
Lemma firstTokens_sorted firsts c : (forall s, In s firsts -> StronglySorted Z.lt s) -> StronglySorted Z.lt (firstTokens firsts c).
Proof.
  intros F. destruct c as [k| |i|opt rep l|l].
  - repeat constructor.
  - repeat constructor.
  - cbn [firstTokens]. unfold firstsOf. destruct (zget firsts i) eqn:G; [|constructor]. apply F. eapply zget_In, G.
  - rewrite firstTokens_group. assert (X : forall r, StronglySorted Z.lt r -> StronglySorted Z.lt (firstSeq firsts l r)); [|apply X; constructor].
    induction l as [|c l IL]; intros r S; [exact S|]. cbn [firstSeq]. destruct (isOptional c); [apply IL|]; apply sunion_sorted, S.
  - rewrite firstTokens_var. assert (X : forall r, StronglySorted Z.lt r -> StronglySorted Z.lt (firstVar firsts l r)); [|apply X; constructor].
    induction l as [|c l IL]; intros r S; [exact S|]. cbn [firstVar]. apply IL, sunion_sorted, S.
Qed.
Lemma heads_mentions c : (forall x, heads c x -> forall j u, x = SNode j u -> mentions c j).
Proof.
  intros x H. refine (proj1 (heads_both (fun c x => forall j u, x = SNode j u -> mentions c j) (fun l x => forall j u, x = SNode j u -> exists c, In c l /\ mentions c j) _ _ _ _ _ _ _) c x H).
  - discriminate.
  - discriminate.
  - intros i u j u' E. injection E as -> ->. constructor.
  - intros l c0 y C _ IH j u E. econstructor; [exact C|eapply IH, E].
  - intros opt rep l y _ IH j u E. destruct (IH j u E) as (c0 & C & M). econstructor; eassumption.
  - intros c0 l y _ IH j u E. exists c0. split; [left; reflexivity|eapply IH, E].
  - intros c0 l y _ _ IH j u E. destruct (IH j u E) as (c1 & C & M). exists c1. split; [right; exact C|exact M].
Qed.

(** ** Nodes a definition depends on *)
Fixpoint depSeq (l : list chunk) (s : list Z) : list Z := match l with [] => s | ch :: l' => depSeq l' (sunion s (dependsOn ch)) end.
Lemma depends_group opt rep l : dependsOn (CGroup opt rep l) = depSeq l [].
Proof. cbn [dependsOn]. generalize (@nil Z). induction l as [|c l IH]; intros s; [reflexivity|]. cbn [depSeq]. apply IH. Qed.
Lemma depends_var l : dependsOn (CVar l) = depSeq l [].
Proof. cbn [dependsOn]. generalize (@nil Z). induction l as [|c l IH]; intros s; [reflexivity|]. cbn [depSeq]. apply IH. Qed.
Lemma depends_spec c j : In j (dependsOn c) <-> mentions c j.
Proof.
  assert (Q : forall l s, (forall c, In c l -> (In j (dependsOn c) <-> mentions c j)) -> (In j (depSeq l s) <-> In j s \/ exists c, In c l /\ mentions c j)).
  { induction l as [|c0 l IL]; intros s IH; cbn [depSeq].
    - split; [auto|]. intros [X|(x & [] & _)]. exact X.
    - rewrite IL by (intros c1 C; apply IH; right; exact C). rewrite sunion_In, (IH c0 (or_introl eq_refl)). split.
      + intros [[X|X]|(x & C & M)]; [auto|right; exists c0; split; [left; reflexivity|exact X]|right; exists x; split; [right; exact C|exact M]].
      + intros [X|(x & [<-|C] & M)]; [auto|auto|right; eauto]. }
  induction c as [k| |i|opt rep l IH|l IH] using chunk_nest.
  - cbn. split; [intros []|intros M; inversion M].
  - cbn. split; [intros []|intros M; inversion M].
  - cbn. split; [intros [<-|[]]; constructor|intros M; inversion M; auto].
  - rewrite depends_group, Q by exact IH. split; [intros [[]|(c & C & M)]; econstructor; eassumption|intros M; inversion M; subst; eauto].
  - rewrite depends_var, Q by exact IH. split; [intros [[]|(c & C & M)]; econstructor; eassumption|intros M; inversion M; subst; eauto].
Qed.
