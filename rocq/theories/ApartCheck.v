(** A check of tables: do conflicts stand apart?  Variants are traced until one of them is left. *)
From Coq Require Import ZArith List Bool Lia Arith.
From Verif Require Import Base BaseProofs Grammar Rules RulesSpec Prop_Rules Parser ParserSpec ParserSafeSpec ParserFlowSpec ParserTermSpec PredictSpec ParserProofs ParserInv ParserLook LookLongest VariantSpec Variant StarSpec StarRun StarDemo ApartSpec.
Import ListNotations.
Open Scope Z_scope.

Fixpoint collect {A B} (f : A -> option (list B)) (l : list A) : option (list B) :=
  match l with
  | [] => Some []
  | x :: r => do a <- f x; do b <- collect f r; Some (a ++ b)
  end.
Lemma collect_In {A B} (f : A -> option (list B)) : forall l L x, collect f l = Some L -> In x l -> exists a, f x = Some a /\ forall y, In y a -> In y L.
Proof.
  induction l as [|z l IH]; intros L x H HI; [destruct HI|]. cbn [collect] in H. destruct (f z) as [a|] eqn:EA; [|discriminate]. cbn [obind] in H.
  destruct (collect f l) as [b|] eqn:EB; [|discriminate]. injection H as <-. destruct HI as [<-|HI].
  - exists a. split; [exact EA|]. intros y Y. apply in_or_app. auto.
  - destruct (IH b x eq_refl HI) as (a' & E1 & E2). exists a'. split; [exact E1|]. intros y Y. apply in_or_app. auto.
Qed.

Section P.
Context {Tok Src W E Inst R : Type}.
Variable c : config Tok Src W E Inst R.
Notation g := (cGrammar c).
Notation nodeRec := (nodeRec Tok Inst).
Notation step := (ParserLook.step c).
Notation brun := (ParserLook.brun c).
Notation findRules := (findRules (cType c) (cText c) (cUpper c) g).

(** States of nodes, the last pushed first *)
Fixpoint popStates (s : list Z) : list Z :=
  match s with
  | [] => []
  | i :: r => if i =? FinalState then popStates r else s
  end.
Definition dryStates (t : option Tok) (r : rule) (s : list Z) : option (bool * list Z) :=
  match s with
  | [] => None
  | i :: rest =>
      let same := rNode r =? SameNode in
      let used := (same && negb (rToken r =? AnyToken)) || match t with None => true | Some _ => false end in
      let i := if rState r =? repeatState then i else rState r in
      do s <- (if same then Some (i :: rest) else do nt <- zget (gNodes g) (rNode r); Some (gnFirst nt :: i :: rest));
      Some (used, popStates s)
  end.
Lemma pop_states (l : list nodeRec) : popStates (map nState l) = map nState (dryPop l).
Proof. induction l as [|n l IH]; [reflexivity|]. cbn. destruct (nState n =? FinalState); [exact IH|reflexivity]. Qed.
Lemma dry_states t r n ls used ls' : dryRule c t r (n :: ls) = Some (used, ls') -> dryStates t r (map nState (n :: ls)) = Some (used, map nState ls').
Proof.
  rewrite dryRule_eq. unfold dryStates. cbn [map].
  destruct (if rState r =? repeatState then Some n else _) as [n'|] eqn:EN; [|discriminate]. cbn [obind].
  assert (EI : (if rState r =? repeatState then nState n else rState r) = nState n').
  { destruct (rState r =? repeatState); [injection EN as <-; reflexivity|]. cbv zeta in EN. destruct (rState r =? FinalState); [injection EN as <-; reflexivity|].
    destruct (zget (gStates g) (rState r)); [|discriminate]. injection EN as <-. reflexivity. }
  rewrite EI. clear EN EI. destruct (rNode r =? SameNode); cbn [obind].
  - intros H. match type of H with Some (_, ?d) = _ => remember d as dp eqn:EDP end. injection H as <- <-. rewrite EDP, <- pop_states. reflexivity.
  - destruct (zget (gNodes g) (rNode r)) as [nt|]; [|discriminate]. cbn [obind]. destruct (zget (gStates g) (gnFirst nt)) as [st|]; [|discriminate]. cbn [obind].
    intros H. match type of H with Some (_, ?d) = _ => remember d as dp eqn:EDP end. injection H as <- <-. rewrite EDP, <- pop_states. reflexivity.
Qed.

(** All ways to take a token; [None]: not known, or a conflict is met where it must not be *)
Fixpoint takeAll (fuel : nat) (strict : bool) (t : option Tok) (s : list Z) : option (list (list rule * list Z)) :=
  match fuel with
  | O => None
  | S f =>
      match s with
      | [] => Some []
      | i :: _ =>
          do st <- zget (gStates g) i;
          do l <- findRules t st;
          if strict && (2 <=? length l)%nat then None
          else collect (fun r => do (used, s') <- dryStates t r s;
                                 if used : bool then Some [([r], s')]
                                 else do x <- takeAll f strict t s'; Some (map (fun y => (r :: fst y, snd y)) x)) l
      end
  end.
(** Tokens that have the same rules *)
Definition like (t r : option Tok) : Prop := (t = None <-> r = None) /\ forall i st, zget (gStates g) i = Some st -> findRules t st = findRules r st.
Lemma like_dry t r x s : like t r -> dryStates t x s = dryStates r x s.
Proof.
  intros [H _]. unfold dryStates. destruct s as [|i s]; [reflexivity|]. destruct t as [t|], r as [r|]; auto; exfalso; [pose proof (proj2 H eq_refl)|pose proof (proj1 H eq_refl)]; discriminate.
Qed.
Lemma takeAll_all strict t r : like t r -> forall f ls L, takeAll f strict r (map nState ls) = Some L -> forall rs ls', brun ls [t] rs ls' [] -> In (rs, map nState ls') L.
Proof.
  intros LK. induction f as [|f IH]; intros ls L H rs ls' B; [discriminate|]. apply brun_head in B as [(_ & _ & X)|(x & rs' & s1 & toks1 & -> & S & B)]; [discriminate|].
  inversion S as [n l0 t1 ts r1 st l used ls1 A1 A2 A3 A4]; subst. cbn [takeAll map] in H. rewrite A1 in H. cbn [obind] in H. rewrite <- (proj2 LK _ _ A1), A2 in H. cbn [obind] in H.
  destruct (strict && _); [discriminate|]. destruct (collect_In _ _ _ _ H A3) as (a & EA & IA). cbv beta in EA. rewrite <- (like_dry t r) in EA by exact LK.
  change (nState n :: map nState l0) with (map nState (n :: l0)) in EA. rewrite (dry_states _ _ _ _ _ _ A4) in EA. cbn [obind] in EA. destruct used.
  - injection EA as <-. apply brun_nothing in B as (-> & -> & _). apply IA. left. reflexivity.
  - destruct (takeAll f strict r (map nState s1)) as [y|] eqn:EY; [|discriminate]. injection EA as <-. apply IA. apply in_map_iff. exists (rs', map nState ls'). split; [reflexivity|]. eapply IH; eauto.
Qed.
Hypothesis TO : tablesOk g.
Lemma takeAll_calm t r : like t r -> forall f ls L, takeAll f true r (map nState ls) = Some L -> forall x n ls', brun ls [t] x (n :: ls') [t] -> ~ conflict c t (nState n).
Proof.
  intros LK. induction f as [|f IH]; intros ls L H x n ls' B CF; [discriminate|]. apply brun_head in B as [(-> & <- & _)|(r0 & rs' & s1 & toks1 & -> & S & B)].
  - destruct (conflict_rules c TO t (nState n) CF) as (st & r1 & r2 & l & GS & FR). cbn [takeAll map] in H. rewrite GS in H. cbn [obind] in H. rewrite <- (proj2 LK _ _ GS), FR in H. discriminate.
  - inversion S as [n0 l0 t1 ts r1 st l used ls1 A1 A2 A3 A4]; subst. cbn [takeAll map] in H. rewrite A1 in H. cbn [obind] in H. rewrite <- (proj2 LK _ _ A1), A2 in H. cbn [obind] in H.
    destruct (true && _); [discriminate|]. destruct (collect_In _ _ _ _ H A3) as (a & EA & IA). cbv beta in EA. rewrite <- (like_dry t r) in EA by exact LK.
    change (nState n0 :: map nState l0) with (map nState (n0 :: l0)) in EA. rewrite (dry_states _ _ _ _ _ _ A4) in EA. cbn [obind] in EA. destruct used; [apply brun_nothing in B as (_ & _ & X); discriminate|].
    destruct (takeAll f true r (map nState s1)) as [y|] eqn:EY; [|discriminate]. eapply IH; eauto.
Qed.

(** Variants after the same tokens, with the ways to take the first token: at most one is left, or no conflict is met with any token,
    and so on. *)
Variable reps : list (option Tok).
Fixpoint aloneB (fuel : nat) (L : list (list rule * list Z)) : bool :=
  match L with
  | [] | [_] => true
  | _ =>
      match fuel with
      | O => false
      | S f => forallb (fun t => match collect (fun y => do x <- takeAll fuel true t (snd y); Some (map (fun z => (fst y, snd z)) x)) L with
                                 | Some L' => aloneB f L'
                                 | None => false
                                 end) reps
      end
  end.
Definition apartB (fuel : nat) : bool :=
  forallb (fun i => forallb (fun t =>
    match (do st <- zget (gStates g) i; findRules t st) with
    | Some (_ :: _ :: _) => match takeAll fuel false t [i] with Some L => aloneB fuel (map (fun y => (fst y, snd y)) L) | None => false end
    | _ => true
    end) reps) (map Z.of_nat (seq 0 (length (gStates g)))).
Hypothesis RP : forall t, exists r, In r reps /\ like t r.

Lemma two_in {A B} (L : list (A * B)) a1 b1 a2 b2 : In (a1, b1) L -> In (a2, b2) L -> a1 <> a2 -> exists x y l, L = x :: y :: l.
Proof. intros H1 H2 NE. destruct L as [|x [|y l]]; [destruct H1| |eauto]. destruct H1 as [->|[]], H2 as [H2|[]]. congruence. Qed.
Section Node.
Variables (n : nodeRec) (t0 : option Tok).
Definition covers (T : list (option Tok)) (L : list (list rule * list Z)) : Prop :=
  forall p k q ls, brun [n] [t0] p k [] -> brun [n] (t0 :: T) (p ++ q) ls [] -> In (p, map nState ls) L.
Lemma prefixes {A} : forall (a b x y : list A), a ++ x = b ++ y -> (exists z, a = b ++ z) \/ exists z, b = a ++ z.
Proof.
  induction a as [|u a IH]; intros [|v b] x y H; [left; exists []; reflexivity|right; exists (v :: b); reflexivity|left; exists (u :: a); reflexivity|]. cbn [app] in H. injection H as <- H. destruct (IH b x y H) as [(z & ->)|(z & ->)]; [left|right]; exists z; reflexivity.
Qed.
Lemma cut_first T X p k q ls rem : brun [n] [t0] p k [] -> brun [n] ((t0 :: T) ++ X) (p ++ q) ls rem -> (length rem <= length X)%nat ->
  exists q1 q2 ls1, q = q1 ++ q2 /\ brun [n] (t0 :: T) (p ++ q1) ls1 [] /\ brun ls1 X q2 ls rem.
Proof.
  intros P B LR.
  assert (XX : exists rs1 rs2 ls1, p ++ q = rs1 ++ rs2 /\ brun [n] (t0 :: T) rs1 ls1 []).
  { destruct (run_cut c _ _ _ _ _ _ B) as [(T' & -> & B1)|(rs1 & rs2 & ls1 & E1 & B1 & _)]; [|eauto].
    destruct T'; [|rewrite app_length in LR; cbn in LR; lia]. exists (p ++ q), [], ls. rewrite app_nil_r. auto. }
  destruct XX as (rs1 & rs2 & ls1 & E1 & B1).
  assert (YY : exists q1, rs1 = p ++ q1).
  { destruct (prefixes _ _ _ _ E1) as [(z & EZ)|(z & EZ)]; [|eauto]. exists []. rewrite app_nil_r. pose proof (brun_ext c _ _ _ _ _ T P) as P2. cbn [app] in P2. rewrite EZ in P2.
    pose proof (run_rest c _ _ _ _ _ _ _ _ P2 B1) as X1. apply brun_nothing in X1 as (-> & _ & _). rewrite EZ, app_nil_r. reflexivity. }
  destruct YY as (q1 & ->). rewrite <- app_assoc in E1. apply app_inv_head in E1. subst q. exists q1, rs2, ls1. split; [reflexivity|]. split; [exact B1|].
  rewrite app_assoc in B. pose proof (brun_ext c _ _ _ _ _ X B1) as B2. exact (run_rest c _ _ _ _ _ _ _ _ B B2).
Qed.
Lemma alone_ok : forall f L, aloneB f L = true -> forall T, covers T L -> forall ts t' p1 p2 k1 k2 q1 q2 l1 l2 x m ls,
  brun [n] [t0] p1 k1 [] -> brun [n] [t0] p2 k2 [] -> p1 <> p2 -> brun [n] ((t0 :: T) ++ ts) (p1 ++ q1) l1 [] -> brun [n] ((t0 :: T) ++ ts) (p2 ++ q2) l2 [] ->
  brun [n] (((t0 :: T) ++ ts) ++ [t']) ((p1 ++ q1) ++ x) (m :: ls) [t'] -> ~ conflict c t' (nState m).
Proof.
  induction f as [|f IH]; intros L HA T HC ts t' p1 p2 k1 k2 q1 q2 l1 l2 x m ls P1 P2 PN B1 B2 BX.
  - destruct (cut_first _ _ _ _ _ _ _ P1 B1) as (a1 & a2 & s1 & EA & C1 & D1); [cbn; lia|]. destruct (cut_first _ _ _ _ _ _ _ P2 B2) as (b1 & b2 & s2 & EB & C2 & D2); [cbn; lia|].
    destruct (two_in L _ _ _ _ (HC _ _ _ _ P1 C1) (HC _ _ _ _ P2 C2) PN) as (y1 & y2 & l & ->). cbn [aloneB] in HA. discriminate.
  - destruct (cut_first _ _ _ _ _ _ _ P1 B1) as (a1 & a2 & s1 & EA & C1 & D1); [cbn; lia|]. destruct (cut_first _ _ _ _ _ _ _ P2 B2) as (b1 & b2 & s2 & EB & C2 & D2); [cbn; lia|].
    pose proof (HC _ _ _ _ P1 C1) as I1. destruct (two_in L _ _ _ _ I1 (HC _ _ _ _ P2 C2) PN) as (y1 & y2 & l & EL).
    assert (HF : forallb (fun t => match collect (fun y => do x <- takeAll (S f) true t (snd y); Some (map (fun z => (fst y, snd z)) x)) L with Some L' => aloneB f L' | None => false end) reps = true) by (rewrite EL in HA |- *; exact HA).
    clear HA EL y1 y2 l. rewrite forallb_forall in HF. destruct ts as [|t ts].
    + rewrite app_nil_r in *. destruct (RP t') as (r & HR & LK). specialize (HF r HR). destruct (collect _ L) as [L'|] eqn:EC; [|discriminate].
      pose proof (HC _ _ _ _ P1 B1) as I2. destruct (collect_In _ _ _ _ EC I2) as (a & EA2 & _). cbn [fst snd] in EA2. destruct (takeAll (S f) true r (map nState l1)) as [y|] eqn:EY; [|discriminate].
      eapply (takeAll_calm t' r LK); [exact EY|]. pose proof (brun_ext c _ _ _ _ _ [t'] B1) as B3. exact (run_rest c _ _ _ _ _ _ _ _ BX B3).
    + destruct (RP t) as (r & HR & LK). specialize (HF r HR). destruct (collect _ L) as [L'|] eqn:EC; [|discriminate].
      assert (EQT : (t0 :: T) ++ t :: ts = (t0 :: (T ++ [t])) ++ ts) by (cbn [app]; rewrite <- app_assoc; reflexivity). rewrite EQT in *.
      eapply (IH L' HF (T ++ [t])); [|exact P1|exact P2|exact PN|exact B1|exact B2|exact BX].
      intros p k q ls' P B. change (t0 :: T ++ [t]) with ((t0 :: T) ++ [t]) in B. destruct (cut_first _ _ _ _ _ _ _ P B) as (c1 & c2 & s3 & -> & C3 & D3); [cbn; lia|].
      destruct (collect_In _ _ _ _ EC (HC _ _ _ _ P C3)) as (a & EA2 & IA). cbn [fst snd] in EA2. destruct (takeAll (S f) true r (map nState s3)) as [y|] eqn:EY; [|discriminate]. injection EA2 as <-.
      apply IA. apply in_map_iff. exists (c2, map nState ls'). split; [reflexivity|]. eapply takeAll_all; eauto.
Qed.
End Node.
Lemma apartB_ok fuel : apartB fuel = true -> apart c.
Proof.
  intros H n i t ts t' p1 p2 q1 q2 k1 k2 l1 l2 x m j l CF V1 V2 PN W1 W2 WX.
  set (n0 := mkNodeRec [] [] 0 n i : nodeRec). change (n, i) with (pr n0) in *.
  destruct (run_variant c TO n0 _ _ _ _ V1) as (s1 & P1 & _ & _), (run_variant c TO n0 _ _ _ _ V2) as (s2 & P2 & _ & _).
  destruct (run_variant c TO n0 _ _ _ _ W1) as (s3 & B1 & _ & _), (run_variant c TO n0 _ _ _ _ W2) as (s4 & B2 & _ & _).
  destruct (run_variant c TO n0 _ _ _ _ WX) as (s5 & BX & EX & _). rewrite skipn_all in B1, B2. rewrite skipn_app, skipn_all, Nat.sub_diag in BX. cbn [skipn app] in BX. cbn [skipn] in P1, P2.
  destruct s5 as [|m0 s5]; [discriminate|]. injection EX as <- <- _.
  destruct (RP t) as (r & HR & LK). destruct (conflict_rules c TO t i CF) as (st & r1 & r2 & l0 & GS & FR). pose proof (proj2 LK _ _ GS) as FE. rewrite FR in FE.
  unfold apartB in H. rewrite forallb_forall in H. specialize (H i). rewrite forallb_forall in H. 
  assert (HI : In i (map Z.of_nat (seq 0 (length (gStates g))))).
  { apply zget_Some_inv in GS. unfold zlen in GS. apply in_map_iff. exists (Z.to_nat i). split; [lia|]. apply in_seq. lia. }
  specialize (H HI r HR). rewrite GS in H. cbn [obind] in H. rewrite <- FE in H. destruct (takeAll fuel false r [i]) as [L|] eqn:EL; [|discriminate].
  eapply (alone_ok n0 t fuel _ H []) with (ts := ts); [|exact P1|exact P2|exact PN|exact B1|exact B2|exact BX].
  intros p k q ls P B. pose proof (brun_ext c _ _ _ _ _ [] P) as PP. pose proof (run_rest c _ _ _ _ _ _ _ _ B P) as X. apply brun_nothing in X as (-> & -> & _). rewrite app_nil_r in B.
  apply in_map_iff. exists (p, map nState k). split; [reflexivity|]. eapply (takeAll_all false t r LK fuel [n0]); [exact EL|exact P].
Qed.
End P.
