From Coq Require Import ZArith List Lia Bool.
From Verif Require Import Base BaseProofs QueueProofs Source SourceSpec.
Import ListNotations.
Open Scope Z_scope.

Definition lastCR (p : list Z) : bool := match rev p with b :: _ => b =? 13 | [] => false end.

Lemma lastCR_cons a b p : lastCR (a :: b :: p) = lastCR (b :: p).
Proof.
  unfold lastCR. cbn [rev]. destruct (rev p) as [|x r]; reflexivity.
Qed.

Lemma lastCR_snoc p b : lastCR (p ++ [b]) = (b =? 13).
Proof. unfold lastCR. rewrite rev_app_distr. reflexivity. Qed.

Lemma nl_snoc p : forall b, nl_spec (p ++ [b]) =
  if (b =? 10) && lastCR p then nl_spec p
  else nl_spec p ++ [if b =? 13 then 10 else b].
Proof.
  remember (length p) as n eqn:E. revert p E. induction n as [n IH] using lt_wf_ind. intros p E b.
  destruct p as [|x p].
  { rewrite andb_false_r. cbn. destruct (b =? 13); reflexivity. }
  cbn [app nl_spec]. destruct (Z.eqb_spec x 13).
  - destruct p as [|y p].
    + cbn [app]. subst x. unfold lastCR. cbn [rev app]. rewrite Z.eqb_refl, andb_true_r.
      destruct (Z.eqb_spec b 10); [reflexivity|]. cbn. destruct (b =? 13); reflexivity.
    + cbn [app]. rewrite lastCR_cons. destruct (Z.eqb_spec y 10).
      * rewrite (IH (length p)); [|subst n; cbn [length]; lia|reflexivity].
        assert (L : lastCR (y :: p) = lastCR p).
        { destruct p as [|z p]; [subst; reflexivity|]. apply lastCR_cons. }
        rewrite L. destruct ((b =? 10) && lastCR p); reflexivity.
      * change (y :: p ++ [b]) with ((y :: p) ++ [b]).
        rewrite (IH (length (y :: p))); [|subst n; cbn [length]; lia|reflexivity].
        destruct ((b =? 10) && lastCR (y :: p)); reflexivity.
  - rewrite (IH (length p)); [|subst n; cbn [length]; lia|reflexivity].
    assert (L : lastCR (x :: p) = lastCR p).
    { destruct p as [|z p]; [|apply lastCR_cons]. unfold lastCR. cbn. destruct (Z.eqb_spec x 13); [contradiction|reflexivity]. }
    rewrite L. destruct ((b =? 10) && lastCR p); reflexivity.
Qed.

Lemma zcopy_app {A} (a b x : list A) off : off = zlen a -> (length x <= length b)%nat ->
  zcopy (a ++ b) off x = Some (a ++ x ++ skipn (length x) b).
Proof.
  intros -> H. rewrite zcopy_Some by (rewrite zlen_app; pose proof (zlen_nonneg a); pose proof (zlen_nonneg b); lia).
  f_equal. unfold zlen. rewrite Nat2Z.id.
  rewrite firstn_app, firstn_all, Nat.sub_diag. cbn [firstn]. rewrite app_nil_r. f_equal.
  rewrite firstn_all2 by (rewrite app_length; lia). f_equal.
  rewrite skipn_app. rewrite skipn_all2 by lia. cbn [app]. f_equal. lia.
Qed.

Lemma zslice_app {A} (a b c : list A) i j : i = zlen a -> j = zlen a + zlen b ->
  zslice (a ++ b ++ c) i j = Some b.
Proof.
  intros -> ->. pose proof (zlen_nonneg a). pose proof (zlen_nonneg b). pose proof (zlen_nonneg c).
  rewrite zslice_Some by (rewrite ?zlen_app; lia). f_equal.
  replace (Z.to_nat (zlen a + zlen b - zlen a)) with (length b) by (unfold zlen; lia).
  replace (Z.to_nat (zlen a)) with (length a) by (unfold zlen; lia).
  rewrite skipn_app, skipn_all, Nat.sub_diag. cbn [app skipn].
  rewrite firstn_app, firstn_all, Nat.sub_diag. cbn [firstn]. apply app_nil_r.
Qed.

Lemma zget_app {A} (a : list A) x b i : i = zlen a -> zget (a ++ x :: b) i = Some x.
Proof.
  intros ->. rewrite (zget_Some _ _ x).
  2:{ rewrite zlen_app, zlen_cons. pose proof (zlen_nonneg a). pose proof (zlen_nonneg b). lia. }
  unfold zlen. rewrite Nat2Z.id, app_nth2, Nat.sub_diag by lia. reflexivity.
Qed.

Lemma zset_app {A} (a : list A) x b i y : i = zlen a -> zset (a ++ x :: b) i y = Some (a ++ y :: b).
Proof.
  intros ->. rewrite zset_Some.
  2:{ rewrite zlen_app, zlen_cons. pose proof (zlen_nonneg a). pose proof (zlen_nonneg b). lia. }
  f_equal. unfold zlen. rewrite Nat2Z.id. clear. induction a; simpl; f_equal; auto.
Qed.

(** buffer = written prefix W, garbage G, pending run R, unread rest S *)
Definition nlInv (done S : list Z) (st : list Z * Z * Z * bool) : Prop :=
  exists W G R, st = (W ++ G ++ R ++ S, zlen W, zlen W + zlen G, lastCR done) /\
    nl_spec done = W ++ R /\ length done = length (W ++ G ++ R) /\
    (zlen W + zlen G = 0 -> W = [] /\ G = []).

Lemma nlStep_inv done b S st : nlInv done (b :: S) st ->
  exists st', nlStep st (zlen done) = Some st' /\ nlInv (done ++ [b]) S st'.
Proof.
  intros (W & G & R & -> & HN & HL & H0). unfold nlStep.
  assert (ZD : zlen done = zlen (W ++ G ++ R)) by (unfold zlen; lia).
  replace (W ++ G ++ R ++ b :: S) with ((W ++ G ++ R) ++ b :: S) by (rewrite <- !app_assoc; reflexivity).
  rewrite (zget_app _ _ _ _ ZD). cbn [obind]. unfold LF, CR.
  pose proof (nl_snoc done b) as NS.
  destruct (Z.eqb_spec b 10).
  - cbn [andb] in NS. destruct (lastCR done) eqn:LC.
    + set (i := zlen done) in *.
      assert (Hi : i - (zlen W + zlen G) = zlen R) by (rewrite ZD, !zlen_app; lia).
      rewrite Hi.
      assert (EX : exists G', length G' = (length G + 1)%nat /\
        (do buf' <- (if negb (zlen W + zlen G =? 0)
           then do sl <- zslice ((W ++ G ++ R) ++ b :: S) (zlen W + zlen G) i;
                zcopy ((W ++ G ++ R) ++ b :: S) (zlen W) sl
           else Some ((W ++ G ++ R) ++ b :: S));
         Some (buf', zlen W + zlen R, i + 1, false))
        = Some ((W ++ R) ++ G' ++ [] ++ S, zlen W + zlen R, i + 1, false)).
      { destruct (Z.eqb_spec (zlen W + zlen G) 0) as [Z0|Z0]; cbn [negb].
        - destruct (H0 Z0) as [-> ->]. exists [b]. split; [reflexivity|]. cbn [obind app].
          reflexivity.
        - replace ((W ++ G ++ R) ++ b :: S) with ((W ++ G) ++ R ++ b :: S) by (rewrite <- !app_assoc; reflexivity).
          rewrite zslice_app by (rewrite ?zlen_app; lia). cbn [obind].
          replace ((W ++ G) ++ R ++ b :: S) with (W ++ (G ++ R ++ b :: S)) by (rewrite <- !app_assoc; reflexivity).
          rewrite zcopy_app by (auto; rewrite !app_length; lia). cbn [obind].
          exists (skipn (length R) (G ++ R) ++ [b]). split.
          { rewrite app_length, skipn_length, app_length. cbn [length]. lia. }
          do 4 f_equal. rewrite <- !app_assoc. cbn [app]. do 2 f_equal.
          rewrite (app_assoc G R), skipn_app.
          replace (length R - length (G ++ R))%nat with 0%nat by (rewrite app_length; lia). reflexivity. }
      destruct EX as (G' & LG & ->). eexists. split; [reflexivity|].
      exists (W ++ R), G', []. rewrite lastCR_snoc. subst b. cbn [Z.eqb Pos.eqb].
      assert (zlen G' = zlen G + 1) by (unfold zlen; lia).
      split; [|split; [|split]].
      * rewrite !zlen_app, H.
        replace (zlen W + zlen R + (zlen G + 1)) with (i + 1) by (rewrite ZD, !zlen_app; lia).
        reflexivity.
      * rewrite NS, HN, app_nil_r. reflexivity.
      * rewrite !app_length in *. cbn [length]. lia.
      * rewrite zlen_app. pose proof (zlen_nonneg W). pose proof (zlen_nonneg R). pose proof (zlen_nonneg G). lia.
    + eexists. split; [reflexivity|]. exists W, G, (R ++ [b]). rewrite lastCR_snoc.
      split; [|split; [|split]]; auto.
      * subst b. rewrite <- !app_assoc. reflexivity.
      * rewrite NS, HN, <- app_assoc. subst b. reflexivity.
      * rewrite !app_length in *. cbn [length]. lia.
  - cbn [andb] in NS. destruct (Z.eqb_spec b 13).
    + rewrite (zset_app _ _ _ _ _ ZD). cbn [obind]. eexists. split; [reflexivity|].
      exists W, G, (R ++ [10]). rewrite lastCR_snoc. subst b.
      split; [|split; [|split]]; auto.
      * rewrite <- !app_assoc. reflexivity.
      * rewrite NS, HN, <- app_assoc. reflexivity.
      * rewrite !app_length in *. cbn [length]. lia.
    + eexists. split; [reflexivity|]. exists W, G, (R ++ [b]). rewrite lastCR_snoc.
      split; [|split; [|split]]; auto.
      * rewrite <- !app_assoc. destruct (Z.eqb_spec b 13); [contradiction|]. reflexivity.
      * rewrite NS, HN, <- app_assoc. reflexivity.
      * rewrite !app_length in *. cbn [length]. lia.
Qed.

Lemma nlLoop_inv rest : forall done st, nlInv done rest st ->
  exists st', nlLoop (length rest) (zlen done) st = Some st' /\ nlInv (done ++ rest) [] st'.
Proof.
  induction rest as [|b r IH]; intros done st H; cbn [length nlLoop].
  - rewrite app_nil_r. eauto.
  - destruct (nlStep_inv _ _ _ _ H) as (st1 & -> & H1). cbn [obind].
    destruct (IH _ _ H1) as (st2 & E & H2). rewrite zlen_app in E. change (zlen [b]) with 1 in E.
    rewrite E. rewrite <- app_assoc in H2. eauto.
Qed.

Lemma normalizeNls_spec c : normalizeNls c = Some (nl_spec c).
Proof.
  unfold normalizeNls.
  assert (I : nlInv [] c (c, 0, 0, false)).
  { exists [], [], []. repeat split; auto. }
  destruct (nlLoop_inv c [] _ I) as (st & E & (W & G & R & -> & HN & HL & H0)).
  change (zlen (@nil Z)) with 0 in E. rewrite E. cbn [obind app] in *. rewrite app_nil_r.
  assert (LC : zlen c = zlen W + zlen G + zlen R) by (unfold zlen; rewrite HL, !app_length; lia).
  pose proof (zlen_nonneg W). pose proof (zlen_nonneg R). pose proof (zlen_nonneg G).
  rewrite HN. replace (zlen c - (zlen W + zlen G) + zlen W) with (zlen (W ++ R)) by (rewrite zlen_app; lia).
  destruct (Z.eqb_spec (zlen W + zlen G) 0) as [Z0|Z0]; cbn [negb andb obind].
  - destruct (H0 Z0) as [-> ->]. cbn [app]. rewrite <- (app_nil_r R) at 1.
    exact (zslice_app [] R [] 0 (zlen R) eq_refl eq_refl).
  - destruct (Z.ltb_spec (zlen W + zlen G) (zlen c)).
    + replace (W ++ G ++ R) with ((W ++ G) ++ R ++ []) at 1 by (rewrite app_nil_r, <- app_assoc; reflexivity).
      rewrite zslice_app by (rewrite ?zlen_app; lia). cbn [obind].
      rewrite zcopy_app by (auto; rewrite app_length; lia). cbn [obind].
      rewrite app_assoc. exact (zslice_app [] (W ++ R) _ 0 _ eq_refl eq_refl).
    + assert (R = []) as -> by (destruct R; auto; rewrite zlen_cons in *; pose proof (zlen_nonneg R); lia).
      cbn [obind]. rewrite !app_nil_r. exact (zslice_app [] W G 0 _ eq_refl eq_refl).
Qed.

Lemma nl_no_cr c : ~ In 13 (nl_spec c).
Proof.
  induction c as [|b r IH] using rev_ind; [auto|]. rewrite nl_snoc.
  destruct (_ && _); auto. rewrite in_app_iff. intros [H|H]; auto.
  destruct (Z.eqb_spec b 13); destruct H as [H|[]]; lia.
Qed.

Lemma nl_id c : ~ In 13 c -> nl_spec c = c.
Proof.
  induction c as [|b r IH]; intros H; auto. cbn [nl_spec In] in *.
  destruct (Z.eqb_spec b 13); [tauto|]. f_equal. tauto.
Qed.
