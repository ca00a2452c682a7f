(** Types of tokens: proofs. *)
From Coq Require Import ZArith List Bool Lia.
From Verif Require Import Base BaseProofs Grammar LangBuild LangSpec LangProofs LangFrame LangComplete LangTotal LangTables LangDrop LangTypes LangTypesSpec.
Import ListNotations.
Open Scope Z_scope.

Lemma bit_test i b : 0 <= i < 64 -> Z.testbit (bit i) b = (i =? b).
Proof. intros I. unfold bit. replace (i <? 64) with true by (symmetry; apply Z.ltb_lt; lia). rewrite Z.shiftl_1_l. apply Z.pow2_bits_eqb. lia. Qed.
Lemma bit_nonzero i : 0 <= i < 64 -> bit i <> 0.
Proof. intros I H. pose proof (bit_test i i I) as B. rewrite H, Z.bits_0, Z.eqb_refl in B. discriminate. Qed.
Lemma zget_app_l {A} (l m : list A) i : i < zlen l -> zget (l ++ m) i = zget l i.
Proof. unfold zget, zlen. intros L. destruct (Z.ltb_spec i 0); [reflexivity|]. apply nth_error_app1. lia. Qed.
Lemma zget_app_r {A} (l m : list A) i : zlen l <= i -> zget (l ++ m) i = zget m (i - zlen l).
Proof.
  unfold zget, zlen. intros L. destruct (Z.ltb_spec i 0); [lia|]. destruct (Z.ltb_spec (i - Z.of_nat (length l)) 0); [lia|].
  rewrite nth_error_app2 by lia. f_equal. lia.
Qed.
Lemma zget_cons {A} (x : A) l i : zget (x :: l) i = if i =? 0 then Some x else zget l (i - 1).
Proof.
  unfold zget. destruct (Z.eqb_spec i 0) as [->|N]; [reflexivity|]. destruct (Z.ltb_spec i 0).
  - destruct (Z.ltb_spec (i - 1) 0); [reflexivity|lia].
  - destruct (Z.ltb_spec (i - 1) 0); [lia|]. replace (Z.to_nat i) with (S (Z.to_nat (i - 1))) by lia. reflexivity.
Qed.
Lemma zlen_app' {A} (l m : list A) : zlen (l ++ m) = zlen l + zlen m.
Proof. unfold zlen. rewrite app_length. lia. Qed.
Lemma zlen_cons' {A} (x : A) l : zlen (x :: l) = zlen l + 1.
Proof. unfold zlen. cbn [length]. lia. Qed.

Section T.
Variable fullMatch : name -> name -> bool.
Variable toUpper : name -> name.

Lemma nameEqb_iff a b : nameEqb a b = true <-> a = b.
Proof. unfold nameEqb. destruct (list_eq_dec Z.eq_dec a b); split; congruence. Qed.

Lemma scanRe_spec rest : match rest with [] => True | t :: _ => gtRe t = [] end -> forall a i, Forall regexpType a -> 0 <= i ->
  fst (scanRe i (a ++ rest)) = (match rest with [] => if i + zlen a =? 0 then 0 else i + zlen a - 1 | _ => i + zlen a end) /\
  forall j t, In (j, t) (snd (scanRe i (a ++ rest))) <-> zget a (j - i) = Some t /\ hasFlag (gtFlags t) NoLiteralsToken = false.
Proof.
  intros RE. induction a as [|x a IH]; intros i F I.
  - cbn [app]. assert (X : forall j t, zget (@nil gtoken) (j - i) = Some t -> False) by (intros j t G; apply zget_Some_inv in G; cbn in G; lia).
    destruct rest as [|t r]; cbn [scanRe].
    + cbn [fst snd]. split; [unfold zlen; cbn [length]; rewrite Z.add_0_r; reflexivity|]. intros j t. split; [intros []|intros (G & _); destruct (X _ _ G)].
    + rewrite RE. cbn [fst snd]. split; [unfold zlen; cbn; lia|]. intros j u. split; [intros []|intros (G & _); destruct (X _ _ G)].
  - inversion F as [|? ? (NE & _) F']; subst. destruct (IH (i + 1) F' ltac:(lia)) as (A & B). cbn [app scanRe]. destruct (scanRe (i + 1) (a ++ rest)) as (n, res). cbn [fst snd] in A, B.
    destruct (gtRe x) eqn:E; [contradiction|]. cbn [fst snd]. split.
    + rewrite A, zlen_cons'. pose proof (zlen_nonneg a). destruct rest; [|lia]. destruct (Z.eqb_spec (i + 1 + zlen a) 0); [lia|]. destruct (Z.eqb_spec (i + (zlen a + 1)) 0); lia.
    + intros j t. rewrite zget_cons. destruct (Z.eqb_spec (j - i) 0) as [Q|Q].
      * replace j with i by lia. assert (NB : ~ In (i, t) res). { rewrite B. intros (G & _). apply zget_Some_inv in G. lia. }
        destruct (hasFlag (gtFlags x) NoLiteralsToken) eqn:HF.
        -- split; [intros X; destruct (NB X)|]. intros (G & X). injection G as <-. congruence.
        -- split; [intros [X|X]; [injection X as <-; auto|destruct (NB X)]|]. intros (G & X). injection G as <-. left. reflexivity.
      * replace (j - i - 1) with (j - (i + 1)) by lia. rewrite <- B. destruct (hasFlag (gtFlags x) NoLiteralsToken); [reflexivity|]. split; [intros [X|X]; [injection X as <- <-; lia|exact X]|intros X; right; exact X].
Qed.
Lemma skipTypes_spec c : Forall literalToken c -> forall b i, Forall (fun t => hasFlag (gtFlags t) LiteralToken = false) b -> skipTypes i (b ++ c) = (i + zlen b, c).
Proof.
  intros L. induction b as [|t b IH]; intros i F.
  - cbn [app]. unfold zlen. cbn [length]. rewrite Z.add_0_r. destruct c as [|t c]; [reflexivity|]. inversion L as [|? ? (_ & X) _]; subst. cbn [skipTypes]. rewrite X. reflexivity.
  - inversion F as [|? ? X F']; subst. cbn [app skipTypes]. rewrite X, (IH _ F'), zlen_cons'. f_equal. lia.
Qed.
Lemma ownTypes_get n i : 0 <= n -> zget (ownTypes n) i = if (0 <=? i) && (i <? n) then Some (bit i) else None.
Proof.
  intros N. unfold ownTypes, zget. destruct (Z.ltb_spec i 0) as [I|I]; [destruct (Z.leb_spec 0 i); [lia|reflexivity]|]. destruct (Z.leb_spec 0 i); [cbn [andb]|lia].
  rewrite nth_error_map. destruct (Z.ltb_spec i n) as [L|L].
  - replace (nth_error (seq 0 (Z.to_nat n)) (Z.to_nat i)) with (Some (Z.to_nat i)); [cbn [option_map]; rewrite Z2Nat.id by lia; reflexivity|].
    symmetry. rewrite nth_error_nth' with (d := 0%nat) by (rewrite seq_length; lia). rewrite seq_nth by lia. f_equal.
  - replace (nth_error (seq 0 (Z.to_nat n)) (Z.to_nat i)) with (@None nat); [reflexivity|]. symmetry. apply nth_error_None. rewrite seq_length. lia.
Qed.
Lemma ownTypes_len n : 0 <= n -> zlen (ownTypes n) = n.
Proof. intros N. unfold ownTypes, zlen. rewrite map_length, seq_length. lia. Qed.

Definition fitsLit (lit : name) (caseless : bool) (rt : gtoken) : bool := (negb (hasFlag (gtFlags rt) CaselessToken) || caseless) && fullMatch (gtRe rt) lit.
Lemma literalTypes_spec rts lit cl : forall res types, (forall j t, In (j, t) res -> 0 <= j < 64 /\ zget rts j = Some t) ->
  exists ty, literalTypes fullMatch rts lit cl res types = Some ty /\
    (forall b, Z.testbit ty b = true <-> Z.testbit types b = true \/ exists t, In (b, t) res /\ fitsLit lit cl t = true) /\
    (ty = 0 <-> types = 0 /\ forall j t, In (j, t) res -> fitsLit lit cl t = false).
Proof.
  induction res as [|(j, re) res IH]; intros types H; cbn [literalTypes].
  - exists types. split; [reflexivity|]. split; [intros b; split; [auto|intros [X|(t & [] & _)]; exact X]|]. split; [intros ->; split; [reflexivity|intros j t []]|intros (X & _); exact X].
  - destruct (H j re (or_introl eq_refl)) as (J & G). rewrite G. cbn [obind]. fold (fitsLit lit cl re).
    destruct (IH (if fitsLit lit cl re then Z.lor types (bit j) else types) (fun j t X => H j t (or_intror X))) as (ty & E & B & N). exists ty. split; [exact E|]. split.
    + intros b. rewrite B. destruct (fitsLit lit cl re) eqn:FL.
      * rewrite Z.lor_spec, orb_true_iff, (bit_test j b J), Z.eqb_eq. split.
        -- intros [[X| ->]|(t & X & Y)]; [auto|right; exists re; split; [left; reflexivity|exact FL]|right; exists t; split; [right; exact X|exact Y]].
        -- intros [X|(t & [X|X] & Y)]; [auto|injection X as -> ->; auto|right; eauto].
      * split; [intros [X|(t & X & Y)]; [auto|right; exists t; split; [right; exact X|exact Y]]|]. intros [X|(t & [X|X] & Y)]; [auto|injection X as -> ->; congruence|right; eauto].
    + rewrite N. destruct (fitsLit lit cl re) eqn:FL.
      * split; [intros (X & _); apply Z.lor_eq_0_iff in X; destruct X as (_ & X); destruct (bit_nonzero j J X)|]. intros (_ & X). rewrite (X j re (or_introl eq_refl)) in FL. discriminate.
      * split; intros (X & Y); (split; [exact X|]); [intros i t [Z|Z]; [injection Z as <- <-; exact FL|eauto]|intros i t Z; apply (Y i t); right; exact Z].
Qed.

Variable ts : list gtoken.
Notation covers := (covers fullMatch toUpper).
Notation mayBe := (mayBe fullMatch toUpper ts).

Lemma allLiteral_spec rts res (IN : forall j t, In (j, t) res -> 0 <= j < 64 /\ zget rts j = Some t) : forall lts,
  (exists l, allLiteralTypes fullMatch toUpper rts res lts = Some (inl l) /\ zlen l = zlen lts /\
    forall i lt, zget lts i = Some lt -> exists ty, zget l i = Some ty /\ ty <> 0 /\
      forall b, Z.testbit ty b = true <-> exists t, In (b, t) res /\ fitsLit (gtName lt) (nameEqb (gtName lt) (toUpper (gtName lt))) t = true) \/
  (exists lt i, allLiteralTypes fullMatch toUpper rts res lts = Some (inr (gtName lt)) /\ zget lts i = Some lt /\
      forall b t, In (b, t) res -> fitsLit (gtName lt) (nameEqb (gtName lt) (toUpper (gtName lt))) t = false).
Proof.
  induction lts as [|lt lts IH]; cbn [allLiteralTypes].
  - left. exists []. split; [reflexivity|]. split; [reflexivity|]. intros i lt G. apply zget_Some_inv in G. cbn in G. lia.
  - destruct (literalTypes_spec rts (gtName lt) (nameEqb (gtName lt) (toUpper (gtName lt))) res 0 IN) as (ty & E & B & N). rewrite E. cbn [obind]. destruct (Z.eqb_spec ty 0) as [Z|Z].
    + right. exists lt, 0. split; [reflexivity|]. split; [reflexivity|]. intros b t. apply (proj1 N Z).
    + destruct IH as [(l & A1 & A2 & A3)|(lt' & i & A1 & A2 & A3)]; rewrite A1; cbn [obind].
      * left. exists (ty :: l). split; [reflexivity|]. split; [rewrite !zlen_cons', A2; reflexivity|]. intros i lt'. rewrite !zget_cons. destruct (Z.eqb_spec i 0).
        -- intros G. injection G as <-. exists ty. split; [reflexivity|]. split; [exact Z|]. intros b. rewrite B, Z.bits_0. split; [intros [X|X]; [discriminate|exact X]|auto].
        -- apply A3.
      * right. exists lt', (i + 1). split; [reflexivity|]. split; [|exact A3]. rewrite zget_cons. pose proof (zget_Some_inv _ _ _ A2). destruct (Z.eqb_spec (i + 1) 0); [lia|]. rewrite Z.add_simpl_r. exact A2.
Qed.

Hypothesis AR : arranged ts.
Hypothesis FEW : forall i t, zget ts i = Some t -> hasFlag (gtFlags t) LiteralToken = false -> i < 64.

Lemma token_types_all :
  (exists l, tokenTypes fullMatch toUpper ts = Some (inl l) /\ zlen l = zlen ts /\
    (forall k ty, zget l k = Some ty -> ty <> 0 /\ forall b, Z.testbit ty b = true <-> mayBe k b)) \/
  (exists k lt, tokenTypes fullMatch toUpper ts = Some (inr (gtName lt)) /\ zget ts k = Some lt /\ literalToken lt /\ forall b, ~ mayBe k b).
Proof.
  destruct AR as (a & b & c & E & FA & FB & FC).
  assert (NL : Forall (fun t => hasFlag (gtFlags t) LiteralToken = false) (a ++ b)).
  { rewrite Forall_forall in *. intros t X. apply in_app_iff in X. destruct X as [X|X]; [apply (FA t X)|apply (FB t X)]. }
  assert (LA : zlen a + zlen b <= 64).
  { destruct (Z.eq_dec (zlen (a ++ b)) 0) as [Z|Z]; rewrite zlen_app' in Z; [lia|]. pose proof (zlen_nonneg a). pose proof (zlen_nonneg b).
    destruct (zget_has (a ++ b) (zlen a + zlen b - 1)) as (t & G & I); [rewrite zlen_app'; lia|].
    assert (X : zlen a + zlen b - 1 < 64); [|lia]. apply (FEW _ t); [|rewrite Forall_forall in NL; apply NL, I]. rewrite E, app_assoc, zget_app_l; [exact G|]. rewrite zlen_app'. lia. }
  pose proof (zlen_nonneg a) as PA. pose proof (zlen_nonneg b) as PB. pose proof (zlen_nonneg c) as PC.
  assert (ZT : zlen ts = zlen a + zlen b + zlen c) by (rewrite E, !zlen_app'; lia).
  assert (TYPE : forall k, 0 <= k < zlen a + zlen b -> exists t, zget ts k = Some t /\ hasFlag (gtFlags t) LiteralToken = false).
  { intros k K. destruct (zget_has (a ++ b) k) as (t & G & I); [rewrite zlen_app'; lia|]. exists t. split; [rewrite E, app_assoc, zget_app_l by (rewrite zlen_app'; lia); exact G|]. rewrite Forall_forall in NL. apply NL, I. }
  assert (OWN : forall k, 0 <= k < zlen a + zlen b -> bit k <> 0 /\ forall b0, Z.testbit (bit k) b0 = true <-> mayBe k b0).
  { intros k K. split; [apply bit_nonzero; lia|]. intros b0. rewrite bit_test by lia. rewrite Z.eqb_eq. destruct (TYPE k K) as (t & G & F). split.
    - intros <-. eapply MB_type; eauto.
    - intros [t' G' F' ->|lt rt G' (_ & L) _ _]; [reflexivity|]. rewrite G in G'. injection G' as <-. congruence. }
  assert (RE : match b ++ c with [] => True | t :: _ => gtRe t = [] end).
  { destruct b as [|t b']; [destruct c as [|t c']; [exact I|inversion FC as [|? ? (X & _) _]; exact X]|inversion FB as [|? ? (X & _) _]; exact X]. }
  unfold tokenTypes. destruct (scanRe_spec (b ++ c) RE a 0 FA ltac:(lia)) as (S1 & S2). rewrite <- E in S1, S2. destruct (scanRe 0 ts) as (n, res). cbn [fst snd] in S1, S2. rewrite Z.add_0_l in S1.
  assert (S3 : forall j t, In (j, t) res <-> zget a j = Some t /\ hasFlag (gtFlags t) NoLiteralsToken = false) by (intros j t; rewrite S2, Z.sub_0_r; reflexivity). clear S2.
  destruct (b ++ c) as [|x r] eqn:BC.
  - (* no external tokens, no literals *)
    apply app_eq_nil in BC. destruct BC as (-> & ->). change (zlen (@nil gtoken)) with 0 in *. rewrite app_nil_r in E. subst ts.
    left. assert (N : 0 <= n <= zlen a) by (rewrite S1; destruct (Z.eqb_spec (zlen a) 0); lia).
    rewrite !zslice_Some by lia. cbn [obind].
    assert (SK : skipTypes n (firstn (Z.to_nat (zlen a - n)) (skipn (Z.to_nat n) a)) = (zlen a, [])).
    { rewrite <- (app_nil_r (firstn _ _)), skipTypes_spec.
      - f_equal. unfold zlen in *. rewrite firstn_length, skipn_length. lia.
      - constructor.
      - rewrite app_nil_r in NL. rewrite Forall_forall in *. intros t X. apply NL. rewrite <- (firstn_skipn (Z.to_nat n) a), in_app_iff. right. rewrite <- (firstn_skipn (Z.to_nat (zlen a - n)) (skipn _ a)), in_app_iff. auto. }
    rewrite SK. cbn [allLiteralTypes obind]. exists (ownTypes (zlen a) ++ []). split; [reflexivity|]. rewrite app_nil_r. split; [rewrite ownTypes_len; lia|].
    intros k ty G. rewrite ownTypes_get in G by lia. destruct ((0 <=? k) && (k <? zlen a)) eqn:K; [|discriminate]. injection G as <-. apply andb_true_iff in K. apply OWN. lia.
  - rewrite <- BC in E. clear RE. subst n. rewrite zslice_Some by lia. rewrite (zslice_Some ts (zlen a) (zlen ts)) by lia. cbn [obind].
    assert (F1 : firstn (Z.to_nat (zlen a - 0)) (skipn (Z.to_nat 0) ts) = a).
    { change (skipn (Z.to_nat 0) ts) with ts. rewrite E. unfold zlen. replace (Z.to_nat (Z.of_nat (length a) - 0)) with (length a + 0)%nat by lia. rewrite firstn_app_2. cbn. apply app_nil_r. }
    assert (F2 : firstn (Z.to_nat (zlen ts - zlen a)) (skipn (Z.to_nat (zlen a)) ts) = b ++ c).
    { assert (SK : skipn (Z.to_nat (zlen a)) ts = b ++ c) by (rewrite E; unfold zlen; rewrite Nat2Z.id, skipn_app, skipn_all, Nat.sub_diag; reflexivity).
      rewrite SK. apply firstn_all2. unfold zlen in *. rewrite app_length. lia. }
    rewrite F1, F2, skipTypes_spec; [|exact FC|rewrite Forall_forall in *; intros t X; apply (FB t X)].
    assert (IN : forall j t, In (j, t) res -> 0 <= j < 64 /\ zget a j = Some t) by (intros j t X; apply S3 in X; destruct X as (X & _); split; [apply zget_Some_inv in X; lia|exact X]).
    assert (LITG : forall i lt, zget c i = Some lt -> zget ts (zlen a + zlen b + i) = Some lt).
    { intros i lt G. pose proof (zget_Some_inv _ _ _ G). rewrite E, app_assoc, zget_app_r; rewrite zlen_app'; [|lia]. replace (zlen a + zlen b + i - (zlen a + zlen b)) with i by lia. exact G. }
    assert (LITB : forall i lt b0, zget c i = Some lt -> ((exists t, In (b0, t) res /\ fitsLit (gtName lt) (nameEqb (gtName lt) (toUpper (gtName lt))) t = true) <-> mayBe (zlen a + zlen b + i) b0)).
    { intros i lt b0 G. pose proof (LITG i lt G) as GT. assert (LL : literalToken lt) by (rewrite Forall_forall in FC; apply FC; eapply zget_In, G). split.
      - intros (t & X & Y). apply S3 in X. destruct X as (X1 & X2). unfold fitsLit in Y. apply andb_true_iff in Y. destruct Y as (Y1 & Y2). pose proof (zget_Some_inv _ _ _ X1).
        eapply MB_literal; [exact GT|exact LL|rewrite E, zget_app_l by lia; exact X1|]. split; [rewrite Forall_forall in FA; apply FA; eapply zget_In, X1|exact X2| |exact Y2].
        intros CL. rewrite CL in Y1. cbn [negb orb] in Y1. apply nameEqb_iff in Y1. symmetry. exact Y1.
      - intros [t G' F' ->|lt' rt G' _ RT CV]; rewrite GT in G'; injection G' as <-; [destruct LL as (_ & X); congruence|]. destruct CV as [(C1 & C1') C2 C3 C4].
        pose proof (zget_Some_inv _ _ _ RT) as RB. destruct (Z.lt_ge_cases b0 (zlen a)) as [LT|GE].
        + rewrite E, zget_app_l in RT by exact LT. exists rt. split; [apply S3; auto|]. unfold fitsLit. rewrite C4, andb_true_r. destruct (hasFlag (gtFlags rt) CaselessToken) eqn:CL; [|reflexivity]. cbn [negb orb]. apply nameEqb_iff. symmetry. apply C3. reflexivity.
        + exfalso. rewrite E, zget_app_r in RT by lia. apply zget_In in RT. apply in_app_iff in RT. rewrite Forall_forall in FB, FC. destruct RT as [RT|RT]; [destruct (FB _ RT); congruence|destruct (FC _ RT); congruence]. }
    destruct (allLiteral_spec a res IN c) as [(l & A1 & A2 & A3)|(lt & i & A1 & A2 & A3)]; rewrite A1; cbn [obind].
    + left. eexists. split; [reflexivity|]. assert (OL : zlen (ownTypes (zlen a + zlen b)) = zlen a + zlen b) by (apply ownTypes_len; lia). split; [rewrite zlen_app', OL; lia|].
      intros k ty G. destruct (Z.lt_ge_cases k (zlen a + zlen b)) as [LT|GE].
      * rewrite zget_app_l in G by lia. rewrite ownTypes_get in G by lia. destruct ((0 <=? k) && (k <? zlen a + zlen b)) eqn:K; [|discriminate]. injection G as <-. apply andb_true_iff in K. apply OWN. lia.
      * rewrite zget_app_r in G by lia. rewrite OL in G. pose proof (zget_Some_inv _ _ _ G) as KB. destruct (zget_has c (k - (zlen a + zlen b))) as (lt & GC & _); [lia|].
        destruct (A3 _ _ GC) as (ty' & G' & NZ & TB). rewrite G in G'. injection G' as <-. split; [exact NZ|]. intros b0. rewrite TB, (LITB _ _ b0 GC). replace (zlen a + zlen b + (k - (zlen a + zlen b))) with k by lia. reflexivity.
    + right. exists (zlen a + zlen b + i), lt. split; [reflexivity|]. split; [apply LITG, A2|]. split; [rewrite Forall_forall in FC; apply FC; eapply zget_In, A2|].
      intros b0 M. apply (LITB i lt b0 A2) in M. destruct M as (t & X & Y). rewrite (A3 b0 t X) in Y. discriminate.
Qed.
End T.

(** ** States *)
Lemma sideTypes_test ts : forall i b, 0 <= i -> (forall j t, zget ts j = Some t -> hasFlag (gtFlags t) SideToken = true -> i + j < 64) ->
  (Z.testbit (sideTypes i ts) b = true <-> exists t, zget ts (b - i) = Some t /\ hasFlag (gtFlags t) SideToken = true).
Proof.
  induction ts as [|t ts IH]; intros i b I F; cbn [sideTypes].
  - rewrite Z.bits_0. split; [discriminate|]. intros (t & G & _). apply zget_Some_inv in G. cbn in G. lia.
  - rewrite Z.lor_spec, orb_true_iff, (IH (i + 1) b ltac:(lia)).
    + rewrite zget_cons. replace (b - i - 1) with (b - (i + 1)) by lia. destruct (Z.eqb_spec (b - i) 0) as [Z|Z].
      * replace b with i by lia. assert (X : ~ exists t0, zget ts (i - (i + 1)) = Some t0 /\ hasFlag (gtFlags t0) SideToken = true) by (intros (t0 & G & _); apply zget_Some_inv in G; lia).
        destruct (hasFlag (gtFlags t) SideToken) eqn:HF.
        -- rewrite bit_test by (specialize (F 0 t eq_refl HF); lia). rewrite Z.eqb_refl. split; [intros _; eauto|auto].
        -- rewrite Z.bits_0. split; [intros [Y|Y]; [discriminate|destruct (X Y)]|]. intros (t0 & G & Y). injection G as <-. congruence.
      * split; [intros [Y|Y]; [|exact Y]|auto]. destruct (hasFlag (gtFlags t) SideToken) eqn:HF; [|rewrite Z.bits_0 in Y; discriminate].
        rewrite bit_test in Y by (specialize (F 0 t eq_refl HF); lia). apply Z.eqb_eq in Y. lia.
    + intros j t0 G HF. pose proof (zget_Some_inv _ _ _ G). specialize (F (j + 1) t0). rewrite zget_cons in F. destruct (Z.eqb_spec (j + 1) 0); [lia|]. rewrite Z.add_simpl_r in F. specialize (F G HF). lia.
Qed.
Lemma keyTypes_spec ttypes : forall keys types, (forall k, In k keys -> exists t, zget ttypes k = Some t) ->
  exists ty, keyTypes ttypes keys types = Some ty /\ (forall b, Z.testbit ty b = true <-> Z.testbit types b = true \/ exists k t, In k keys /\ zget ttypes k = Some t /\ Z.testbit t b = true) /\
    (forall k t, In k keys -> zget ttypes k = Some t -> t <> 0 -> ty <> 0).
Proof.
  induction keys as [|k keys IH]; intros types H; cbn [keyTypes].
  - exists types. split; [reflexivity|]. split; [intros b; split; [auto|intros [X|(k & t & [] & _)]; exact X]|intros k t []].
  - destruct (H k (or_introl eq_refl)) as (t & G). rewrite G. cbn [obind]. destruct (IH (Z.lor types t) (fun k X => H k (or_intror X))) as (ty & E & B & N). exists ty. split; [exact E|].
    assert (BB : forall b, Z.testbit ty b = true <-> Z.testbit types b = true \/ exists k0 t0, In k0 (k :: keys) /\ zget ttypes k0 = Some t0 /\ Z.testbit t0 b = true).
    { intros b. rewrite B, Z.lor_spec, orb_true_iff. split.
      - intros [[X|X]|(k0 & t0 & X & Y)]; [auto|right; exists k, t; split; [left; reflexivity|auto]|right; exists k0, t0; split; [right; exact X|exact Y]].
      - intros [X|(k0 & t0 & [<-|X] & Y1 & Y2)]; [auto|rewrite G in Y1; injection Y1 as <-; auto|right; eauto 6]. }
    split; [exact BB|]. intros k0 t0 X Y Z C. subst ty. apply Z. apply Z.bits_inj_0. intros b. specialize (BB b). rewrite Z.bits_0 in BB. destruct (Z.testbit t0 b) eqn:T; [|reflexivity]. symmetry. apply BB. right. eauto 6.
Qed.

Section St.
Variables (ttypes : list Z) (default : Z).
(** [es'] is [es] with some entries typed *)
Definition typedE (e : entry) : Prop := keyTypes ttypes (map fst (ePos e)) default = Some (eTypes e).
Definition sameRules (es es' : list entry) : Prop := Forall2 (fun e' e => ePos e' = ePos e /\ eNeg e' = eNeg e) es' es.
Lemma sameRules_refl es : sameRules es es.
Proof. unfold sameRules. induction es; constructor; auto. Qed.
Lemma sameRules_trans a b c : sameRules a b -> sameRules b c -> sameRules a c.
Proof.
  unfold sameRules. intros H. revert c. induction H as [|x y l l' (A & B) H IH]; intros c H'; inversion H' as [|z ? c' ? (C & D) H'']; subst; constructor; [split; congruence|apply IH, H''].
Qed.
Lemma upd_same es n e e' : nth_error es n = Some e -> ePos e' = ePos e -> eNeg e' = eNeg e -> sameRules es (upd es n e').
Proof.
  unfold sameRules. revert n. induction es as [|x es IH]; intros [|n] G A B; try discriminate; cbn [upd].
  - injection G as ->. constructor; [auto|]. apply (sameRules_refl es).
  - constructor; [auto|]. apply (IH n G A B).
Qed.
Lemma nth_upd {A} (l : list A) : forall n m x, nth_error (upd l n x) m = if Nat.eqb n m then (if Nat.ltb n (length l) then Some x else None) else nth_error l m.
Proof.
  induction l as [|y l IH]; intros n m x; cbn [upd length].
  - destruct (Nat.eqb_spec n m) as [->|]; [|reflexivity]. destruct m; reflexivity.
  - destruct n as [|n]; [destruct m; reflexivity|]. destruct m as [|m]; [reflexivity|]. cbn [nth_error]. rewrite IH. change (Nat.eqb (S n) (S m)) with (Nat.eqb n m). change (Nat.ltb (S n) (S (length l))) with (Nat.ltb n (length l)). reflexivity.
Qed.
Lemma zget_zset {A} (l l' : list A) i x j : zset l i x = Some l' -> zget l' j = if j =? i then Some x else zget l j.
Proof.
  unfold zset. destruct ((0 <=? i) && (i <? zlen l)) eqn:B; [|discriminate]. intros H. injection H as <-. apply andb_true_iff in B. destruct B as (B1 & B2). apply Z.leb_le in B1. apply Z.ltb_lt in B2. unfold zlen in B2.
  unfold zget. destruct (Z.ltb_spec j 0).
  - destruct (Z.eqb_spec j i); [lia|reflexivity].
  - rewrite nth_upd. destruct (Z.eqb_spec j i) as [->|NE].
    + rewrite Nat.eqb_refl. destruct (Nat.ltb_spec (Z.to_nat i) (length l)); [reflexivity|lia].
    + destruct (Nat.eqb_spec (Z.to_nat i) (Z.to_nat j)); [lia|reflexivity].
Qed.

Hypothesis FD : forall k, 0 <= k < zlen ttypes -> exists t, zget ttypes k = Some t.
Definition inKeys (es : list entry) : Prop := forall e k, In e es -> In k (map fst (ePos e)) -> 0 <= k < zlen ttypes.
Lemma sameRules_get es es' i e' : sameRules es es' -> zget es' i = Some e' -> exists e, zget es i = Some e /\ ePos e' = ePos e /\ eNeg e' = eNeg e.
Proof.
  unfold sameRules, zget. destruct (i <? 0); [discriminate|]. intros R. generalize (Z.to_nat i) as n. induction R as [|x y l l' E R IH]; intros [|n] G; try discriminate; [injection G as <-; cbn; eauto|]. apply IH, G.
Qed.
Lemma sameRules_keys es es' : sameRules es es' -> inKeys es -> inKeys es'.
Proof. intros S K e k I X. apply In_zget in I. destruct I as (i & G). destruct (sameRules_get _ _ _ _ S G) as (e0 & G0 & A & _). rewrite A in X. eapply K; [eapply zget_In, G0|exact X]. Qed.
Lemma sameRules_len es es' : sameRules es es' -> zlen es' = zlen es.
Proof. intros R. unfold zlen. f_equal. induction R; cbn; auto. Qed.

Lemma typeStates_spec n : forall j es, inKeys es -> 0 <= j -> j + Z.of_nat n <= zlen es ->
  exists es', typeStates ttypes default n j es = Some es' /\ sameRules es es' /\
    (forall i e', zget es' i = Some e' -> j <= i < j + Z.of_nat n \/ (exists e, zget es i = Some e /\ typedE e) -> typedE e').
Proof.
  induction n as [|n IH]; intros j es K J L; cbn [typeStates].
  - exists es. split; [reflexivity|]. split; [apply sameRules_refl|]. intros i e' G [X|(e & G' & T)]; [lia|congruence].
  - destruct (zget_has es j ltac:(lia)) as (e & G & I). rewrite G. cbn [obind].
    destruct (keyTypes_spec ttypes (map fst (ePos e)) default) as (ty & KT & _); [intros k X; apply FD, (K e k I X)|]. rewrite KT. cbn [obind].
    destruct (zset es j (mkEntry ty (ePos e) (eNeg e))) as [es1|] eqn:Z; [cbn [obind]|unfold zset in Z; destruct ((0 <=? j) && (j <? zlen es)) eqn:B; [discriminate|]; apply andb_false_iff in B; destruct B as [B|B]; [apply Z.leb_gt in B|apply Z.ltb_ge in B]; lia].
    assert (S1 : sameRules es es1).
    { unfold zset in Z. destruct ((0 <=? j) && (j <? zlen es)); [|discriminate]. injection Z as <-. apply (upd_same es _ e); [|reflexivity|reflexivity]. unfold zget in G. destruct (j <? 0); [discriminate|exact G]. }
    destruct (IH (j + 1) es1) as (es2 & E & S2 & T); [eapply sameRules_keys; eassumption|lia|rewrite (sameRules_len _ _ S1); lia|]. exists es2. split; [exact E|]. split; [eapply sameRules_trans; eassumption|].
    intros i e' G' H. apply (T i e' G'). pose proof (zget_zset _ _ _ _ i Z) as GZ. destruct (Z.eqb_spec i j) as [->|NE].
    + right. eexists. split; [exact GZ|]. exact KT.
    + destruct H as [H|(e0 & G0 & H)]; [left; lia|]. right. exists e0. split; [rewrite GZ; exact G0|exact H].
Qed.
Lemma typeNodes_spec : forall fs es, inKeys es -> (forall f, In f fs -> 0 <= f <= zlen es) ->
  exists es', typeNodes ttypes default fs es = Some es' /\ sameRules es es' /\
    (forall i e', zget es' i = Some e' -> (match fs with [] => False | f :: _ => f <= i end) \/ (exists e, zget es i = Some e /\ typedE e) -> typedE e').
Proof.
  induction fs as [|f fs IH]; intros es K B; cbn [typeNodes].
  - exists es. split; [reflexivity|]. split; [apply sameRules_refl|]. intros i e' G [[]|(e & G' & T)]. congruence.
  - set (last := match fs with [] => zlen es | f' :: _ => f' end).
    assert (L : 0 <= last <= zlen es). { unfold last. destruct fs as [|f' fs']; [pose proof (zlen_nonneg es); lia|apply B; right; left; reflexivity]. }
    pose proof (B f (or_introl eq_refl)) as F.
    destruct (typeStates_spec (Z.to_nat (last - f)) f es K) as (es1 & E1 & S1 & T1); [lia|lia|]. rewrite E1. cbn [obind].
    destruct (IH es1) as (es2 & E2 & S2 & T2); [eapply sameRules_keys; eassumption|intros x X; rewrite (sameRules_len _ _ S1); apply B; right; exact X|].
    exists es2. split; [exact E2|]. split; [eapply sameRules_trans; eassumption|]. intros i e' G H. apply (T2 i e' G). destruct (sameRules_get _ _ _ _ S2 G) as (e1 & G1 & _).
    assert (IB := zget_Some_inv _ _ _ G1). rewrite (sameRules_len _ _ S1) in IB.
    assert (D : f <= i < last \/ match fs with [] => False | f' :: _ => f' <= i end \/ (exists e, zget es i = Some e /\ typedE e)).
    { destruct H as [H|H]; [|auto]. destruct (Z.lt_ge_cases i last) as [X|X]; [left; lia|]. unfold last in X. destruct fs; [lia|]. right. left. lia. }
    destruct D as [D|[D|D]]; [right; exists e1; split; [exact G1|]; apply (T1 i e1 G1); left; lia|left; exact D|right; exists e1; split; [exact G1|]; apply (T1 i e1 G1); right; exact D].
Qed.
End St.
