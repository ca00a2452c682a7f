(** Faults of descriptions (LangFaultSpec.v): there is at most one first fault, and none in correct descriptions. *)
From Coq Require Import ZArith List Bool Lia.
From Verif Require Import Base BaseProofs Grammar LangBuild LangTypes LangText LangTextTotal LangTextSpec LangDescSpec LangDescParse LangDescFacts LangDescHead LangDescNodes LangDescAll LangFaultSpec LangFaultRun.
Import ListNotations.
Open Scope Z_scope.

Lemma split_first {A} (P : A -> Prop) (p q p' q' : list A) x x' : p ++ x :: q = p' ++ x' :: q' -> Forall P p -> Forall P p' -> ~ P x -> ~ P x' -> p = p' /\ x = x'.
Proof.
  revert p'. induction p as [|y p IH]; intros [|y' p'] E F F' N N'; cbn [app] in E.
  - injection E as -> _. auto.
  - injection E as -> _. inversion F'; contradiction.
  - injection E as <- _. inversion F; contradiction.
  - injection E as <- E. inversion F; subst. inversion F'; subst. destruct (IH p' E) as (-> & ->); auto.
Qed.
Lemma first_det (F : list record -> record -> readError -> Prop) rs e e' : (forall a r e e', F a r e -> F a r e' -> e = e') -> first F rs e -> first F rs e' -> e = e'.
Proof.
  intros D (a & r & b & -> & X & Y) (a' & r' & b' & E & X' & Y').
  destruct (split_at a (r :: b) a' b' r' E) as [(q & E1 & _)|(q & E1 & E2)].
  - destruct (Y _ _ _ _ E1 X').
  - destruct q as [|z q]; cbn [app] in E2; injection E2 as <- ->.
    + rewrite app_nil_r in E1. subst a'. eapply D; eassumption.
    + destruct (Y' _ _ _ _ E1 X).
Qed.
Lemma none_first F rs e : none F rs -> ~ first F rs e.
Proof. intros N (a & r & b & E & X & _). exact (N _ _ _ _ E X). Qed.
Section R.
Variable compiles : name -> bool.
Notation headFault := (headFault compiles).
Lemma part_token t t' p : spPart t p -> spPart t' p -> t = t'.
Proof. intros A B. destruct A; inversion B; reflexivity. Qed.
Lemma templates_known a : forall env n, nget n (templates env a) <> None -> nget n env <> None \/ hasTemplate a n.
Proof.
  assert (O : forall r a n, hasTemplate a n -> hasTemplate (r :: a) n) by (intros r a' n (ps & I); exists ps; right; exact I).
  induction a as [|r a IH]; intros env n H; cbn [templates] in H; [left; exact H|]. destruct r as [d args|m ps|m ps|l|m l]; try (destruct (IH _ _ H); auto; fail).
  destruct (joined env ps) as [re|]; [|destruct (IH _ _ H); auto]. destruct (IH _ _ H) as [X|X]; [|auto]. cbn [nget] in X. destruct (nameEqb n m) eqn:E; [|auto]. apply nameEqb_ok in E. subst m. right. exists ps. left. reflexivity.
Qed.
Lemma parts_unique r ps ps' : partsOf r ps -> partsOf r ps' -> ps = ps'.
Proof. intros (n & A) (n' & B). destruct A as [-> | ->], B as [B|B]; congruence. Qed.
Lemma headFault_det a r e e' : headFault a r e -> headFault a r e' -> e = e'.
Proof.
  assert (NN : forall n ps, r = RTemplate n ps -> hasTemplate a n -> ~ isNew a r) by (intros n ps -> H X; exact (X H)).
  assert (NT : forall n ps, r = RType n ps -> hasType a n -> ~ isNew a r) by (intros n ps -> H X; exact (X H)).
  assert (KN : forall ps re, joined (templates [] a) ps = Some re -> Forall (knownPart a) ps).
  { induction ps as [|p ps IH]; intros re J; constructor; cbn [joined] in J; destruct p as [s|m]; cbn [obind knownPart] in *; auto.
    - destruct (nget m (templates [] a)) as [s|] eqn:G; [|discriminate]. destruct (templates_known a [] m) as [X|X]; [congruence|cbn in X; congruence|exact X].
    - destruct (joined (templates [] a) ps) as [x|]; [|discriminate]. exact (IH _ eq_refl).
    - destruct (nget m (templates [] a)); [|discriminate]. cbn [obind] in J. destruct (joined (templates [] a) ps) as [x|]; [|discriminate]. exact (IH _ eq_refl). }
  assert (KU : forall ps p n q re, ps = p ++ PTemplate n :: q -> ~ hasTemplate a n -> joined (templates [] a) ps = Some re -> False).
  { intros ps p n q re -> H J. apply KN in J. apply Forall_app in J. destruct J as (_ & J). apply Forall_inv in J. exact (H J). }
  assert (GP : forall p n q ps, r = RDirective DGroup (p ++ AType n :: q) -> partsOf r ps -> False) by (intros p n q ps -> (m & [X|X]); discriminate).
  intros A B. destruct A as [n ps E HT|n ps E HT|p n q E RG FP|ps p n q N PO E FP HT|p ps t re N PO J C SP]; destruct B as [n' ps' E' HT'|n' ps' E' HT'|p' n' q' E' RG' FP'|ps' p' n' q' N' PO' E' FP' HT'|p' ps' t' re' N' PO' J' C' SP'];
    try congruence; try (exfalso; eapply NN; eassumption); try (exfalso; eapply NT; eassumption); try (exfalso; eapply GP; eassumption).
  - rewrite E in E'. injection E' as X. destruct (split_at _ _ _ _ _ X) as [(y & E1 & _)|(y & E1 & E2)]; [destruct (FP _ _ _ E1 RG')|]. destruct y as [|z y]; cbn [app] in E2; injection E2; intros; [congruence|]. subst z. destruct (FP' _ _ _ E1 RG).
  - pose proof (parts_unique _ _ _ PO PO') as X. subst ps ps'. destruct (split_first (knownPart a) _ _ _ _ _ _ X FP FP' HT HT') as (_ & Y). congruence.
  - exfalso. pose proof (parts_unique _ _ _ PO PO') as X. subst ps. eapply KU; [exact (eq_sym X)|exact HT|exact J'].
  - exfalso. pose proof (parts_unique _ _ _ PO PO') as X. subst ps'. eapply KU; [exact X|exact HT'|exact J].
  - pose proof (parts_unique _ _ _ PO PO') as X. injection X as <- <-. f_equal. eapply part_token; eassumption.
Qed.
Lemma leafFault_det rs v e e' : leafFault rs v e -> leafFault rs v e' -> e = e'.
Proof. intros A B. destruct A; inversion B; subst; try reflexivity; contradiction. Qed.
Lemma split_leaf rs (p q p' q' : list variant) v v' e e' : p ++ v :: q = p' ++ v' :: q' -> Forall (fun v => forall e, ~ leafFault rs v e) p -> Forall (fun v => forall e, ~ leafFault rs v e) p' -> leafFault rs v e -> leafFault rs v' e' -> v = v'.
Proof. intros E F F' X X'. eapply (split_first (fun v => forall e, ~ leafFault rs v e)); eauto; intros Y; eapply Y; eauto. Qed.
Lemma nodeFault_det rs a r e e' : nodeFault rs a r e -> nodeFault rs a r e' -> e = e'.
Proof.
  intros A B. destruct A as [n l E I0|n l p v q e E N LE P F]; destruct B as [n' l' E' I0'|n' l' p' v' q' e' E' N' LE' P' F']; rewrite E in E'; injection E' as <- <-; try reflexivity; try contradiction.
  rewrite LE in LE'. pose proof (split_leaf _ _ _ _ _ _ _ _ _ LE' P P' F F') as <-. eapply leafFault_det; eassumption.
Qed.
Lemma reported_det rs e e' : reported compiles rs e -> reported compiles rs e' -> e = e'.
Proof.
  assert (X : forall p n q, undefined rs = p ++ n :: q -> ~ external rs n -> Forall (external rs) (undefined rs) -> False).
  { intros p n q E N F. rewrite E in F. apply Forall_app in F. destruct F as (_ & F). apply Forall_inv in F. contradiction. }
  intros A B. destruct A as [e F|N T|p n q N T U P Q|e N T U F]; destruct B as [e' F'|N' T'|p' n' q' N' T' U' P' Q'|e' N' T' U' F']; try (exfalso; eapply none_first; eassumption); try contradiction; try reflexivity.
  - eapply first_det; [exact headFault_det|exact F|exact F'].
  - rewrite U in U'. destruct (split_first (external rs) _ _ _ _ _ _ U' P P' Q Q') as (_ & ->). reflexivity.
  - exfalso. eapply X; eassumption.
  - exfalso. eapply X; eassumption.
  - eapply first_det; [exact (nodeFault_det rs)|exact F|exact F'].
Qed.
Lemma valid_clean rs res e : valid compiles rs res -> groupsKept rs -> ~ reported compiles rs e.
Proof.
  intros [V1 V2 V3 V4 V5 V6 V7] KP. assert (NH : none headFault rs). { apply headOk_clean. split; [|split; [exact V2|exact KP]]. rewrite regexps_regs in V1. intros X. rewrite X in V1. discriminate. }
  intros R. destruct R as [e F|N T|p n q N T U P Q|e N T U F].
  - exact (none_first _ _ _ NH F).
  - unfold tooMany in T. lia.
  - apply Q, V3. rewrite U. apply in_or_app. right. left. reflexivity.
  - destruct F as (a & r & b & -> & F & _). destruct F as [n l -> I0|n l p v q e -> I0 LE P F].
    + unfold nodesDefined in V5. rewrite flat_app, flat_cons in V5. cbn [app] in V5. apply NoDup_remove_2 in V5. apply V5, in_or_app. left. exact I0.
    + assert (OK : okVar (a ++ RNode n l :: b) (VList Round l)).
      { split.
        - intros x IX. eapply V6; [apply in_or_app; right; left; reflexivity|exact IX].
        - intros R s IS. apply (V7 R). unfold usedLiterals. apply flat_In. exists (RNode n l). split; [apply in_or_app; right; left; reflexivity|exact IS]. }
      apply (clean_all compiles) in OK. change (leaves (VList Round l)) with (seqLeaves l) in OK. rewrite LE in OK. apply Forall_app in OK. destruct OK as (_ & OK). apply Forall_inv in OK. exact (OK _ F).
Qed.
End R.
