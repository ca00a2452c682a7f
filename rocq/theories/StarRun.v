(** Runs of rules over stacks of nodes and over more tokens. *)
From Coq Require Import ZArith List Bool Lia Arith.
From Verif Require Import Base BaseProofs Grammar Rules RulesSpec Prop_Rules Parser ParserSpec ParserProofs ParserInv ParserStream ParserLook LookLongest VariantSpec Variant.
Import ListNotations.
Open Scope Z_scope.

Section P.
Context {Tok Src W E Inst R : Type}.
Variable c : config Tok Src W E Inst R.
Notation g := (cGrammar c).
Notation nodeRec := (nodeRec Tok Inst).
Notation step := (ParserLook.step c).
Notation brun := (ParserLook.brun c).

Lemma dryPop_app (A B : list nodeRec) : dryPop (A ++ B) = match dryPop A with [] => dryPop B | _ => dryPop A ++ B end.
Proof. induction A as [|n A IH]; [reflexivity|]. cbn [app dryPop]. destruct (nState n =? FinalState); [exact IH|reflexivity]. Qed.
Lemma dryRule_frame t r n A L cons S' : dryRule c t r (n :: A ++ L) = Some (cons, S') ->
  exists B, dryRule c t r (n :: A) = Some (cons, B) /\ S' = match B with [] => dryPop L | _ => B ++ L end.
Proof.
  rewrite !dryRule_eq. destruct (if rState r =? repeatState then Some n else _) as [n'|]; [|discriminate]. cbn [obind]. destruct (rNode r =? SameNode); cbn [obind].
  - intros H. match type of H with Some (_, ?d) = _ => remember d as dp eqn:EDP end. injection H as <- <-. eexists. split; [reflexivity|]. rewrite EDP. change (n' :: A ++ L) with ((n' :: A) ++ L). apply dryPop_app.
  - destruct (zget (gNodes g) (rNode r)) as [nt|]; [|discriminate]. cbn [obind]. destruct (zget (gStates g) (gnFirst nt)) as [st|]; [|discriminate]. cbn [obind].
    intros H. match type of H with Some (_, ?d) = _ => remember d as dp eqn:EDP end. injection H as <- <-. eexists. split; [reflexivity|]. rewrite EDP.
    match goal with |- dryPop (?a :: n' :: A ++ L) = _ => change (a :: n' :: A ++ L) with ((a :: n' :: A) ++ L) end. apply dryPop_app.
Qed.
Lemma step_frame n A L toks r S' toks' : step (n :: A ++ L) toks r S' toks' -> exists B, step (n :: A) toks r B toks' /\ S' = match B with [] => dryPop L | _ => B ++ L end.
Proof.
  intros H. inversion H as [n1 ls t ts r1 st l cons ls' A1 A2 A3 A4]; subst. destruct (dryRule_frame _ _ _ _ _ _ _ A4) as (B & D & ->). exists B. split; [econstructor; eauto|reflexivity].
Qed.
(** the rules that finish the node *)
Lemma run_node : forall rs n A L toks rem, brun (n :: A ++ L) toks rs [] rem -> exists rsa rsb mid, rs = rsa ++ rsb /\ brun (n :: A) toks rsa [] mid.
Proof.
  induction rs as [|r rs IH]; intros n A L toks rem B; apply brun_head in B as [(E1 & E2 & _)|(r1 & rs' & s1 & toks1 & E1 & S & B)]; try discriminate.
  injection E1 as -> ->. destruct (step_frame _ _ _ _ _ _ _ S) as ([|n1 B1] & S1 & ES).
  - exists [r1], rs', toks1. split; [reflexivity|]. apply brun_one, S1.
  - subst s1. cbn [app] in B. destruct (IH _ _ _ _ _ B) as (rsa & rsb & mid & -> & B2). exists (r1 :: rsa), rsb, mid. split; [reflexivity|]. eapply brun_cons; eauto.
Qed.
Lemma run_rest : forall rs1 s toks rs2 s2 rem s1 mid, brun s toks (rs1 ++ rs2) s2 rem -> brun s toks rs1 s1 mid -> brun s1 mid rs2 s2 rem.
Proof.
  induction rs1 as [|r rs1 IH]; intros s toks rs2 s2 rem s1 mid A B; apply brun_head in B as [(E1 & -> & ->)|(r1 & rs' & s3 & toks3 & E1 & S & B)]; try discriminate; [exact A|].
  injection E1 as <- <-. cbn [app] in A. apply brun_head in A as [(E2 & _)|(r2 & rs3 & s4 & toks4 & E2 & S2 & A)]; [discriminate|]. injection E2 as <- <-. destruct (step_fun c _ _ _ _ _ _ _ S S2) as (<- & <-). eapply IH; eauto.
Qed.
Lemma run_suffix s toks rs s2 rem : brun s toks rs s2 rem -> exists pre, toks = pre ++ rem.
Proof.
  induction 1 as [toks|toks rs ls rem r ls' rem' B IH S]; [exists []; reflexivity|]. destruct IH as (pre & ->). inversion S as [n1 ls1 t ts r1 st l cons ls2 A1 A2 A3 A4]; subst. destruct cons; [exists (pre ++ [t]); rewrite <- app_assoc; reflexivity|exists pre; reflexivity].
Qed.
(** a run over some of tokens *)
Lemma run_cut s0 T X rs ls rem : brun s0 (T ++ X) rs ls rem ->
  (exists T', rem = T' ++ X /\ brun s0 T rs ls T') \/ (exists rs1 rs2 ls1, rs = rs1 ++ rs2 /\ brun s0 T rs1 ls1 [] /\ (length rem <= length X)%nat).
Proof.
  intros B. remember (T ++ X) as TX eqn:ET. induction B as [TX|TX rs ls rem r ls' rem' B IH S]; [left; exists T; split; [exact ET|constructor]|].
  destruct (IH ET) as [(T' & -> & B1)|(rs1 & rs2 & ls1 & -> & B1 & LE)].
  - destruct T' as [|t' T'].
    + right. exists rs, [r], ls. split; [reflexivity|]. split; [exact B1|]. inversion S as [n1 l1 t ts r1 st l cons ls2 A1 A2 A3 A4 A5 A6]. cbn [app] in *. destruct cons; subst; cbn [length]; lia.
    + left. cbn [app] in S. inversion S as [n1 l1 t ts r1 st l cons ls2 A1 A2 A3 A4]; subst. exists (if cons then T' else t' :: T'). split; [destruct cons; reflexivity|]. eapply B_snoc; [exact B1|]. econstructor; eauto.
  - right. exists rs1, (rs2 ++ [r]), ls1. split; [rewrite app_assoc; reflexivity|]. split; [exact B1|]. inversion S as [n1 l1 t ts r1 st l cons ls2 A1 A2 A3 A4 A5 A6]; subst. destruct cons; cbn [length] in *; lia.
Qed.
Lemma run_fun s toks rs s1 m1 s2 m2 : brun s toks rs s1 m1 -> brun s toks rs s2 m2 -> s1 = s2 /\ m1 = m2.
Proof. intros A B. rewrite <- (app_nil_r rs) in A. pose proof (run_rest rs s toks [] s1 m1 s2 m2 A B) as X. apply brun_head in X as [(_ & -> & ->)|(r & rs' & s3 & t3 & E1 & _)]; [auto|discriminate]. Qed.
Lemma same_suffix (p1 p2 s1 s2 : list (option Tok)) : p1 ++ s1 = p2 ++ s2 -> length s1 = length s2 -> s1 = s2.
Proof.
  revert p2. induction p1 as [|x p1 IH]; intros [|y p2] H L; cbn [app] in H; [exact H| | |injection H as _ H; exact (IH p2 H L)].
  - subst s1. cbn [length] in L. rewrite app_length in L. lia.
  - subst s2. cbn [length] in L. rewrite app_length in L. lia.
Qed.

(** ** The right variant is chosen *)
Hypothesis TO : tablesOk g.
Hypothesis TZ : forall i st, zget (gStates g) i = Some st -> sTypes st <> 0.

Lemma right_chosen n st tokens X todo mid rules (s' : pstate Tok Src W E Inst R) rsa rsb : zget (gStates g) (nState n) = Some st -> nTypes n = sTypes st ->
  todo = rsa ++ rsb -> brun [bare n] (tokens ++ X) rsa [] mid ->
  (forall rs' l' rem', brun [bare n] (tokens ++ X) rs' l' rem' -> (exists x, todo = rs' ++ x) \/ (length mid < length rem')%nat \/ (length rem' = length mid /\ l' <> [])) ->
  longest c [bare n] (tokens, rules) -> stopped c [bare n] (tokens, rules) s' -> (forall f types s e, nextToken c f types s <> Fail e s') ->
  exists x, todo = rules ++ x.
Proof.
  intros ES ET ETD RA D (ls & rem & B & MX & FI) ST NF. cbn [fst snd] in *.
  pose proof (brun_ext c _ _ _ _ _ X B) as BX.
  assert (ZA : (forall rs n1 ls1, brun [bare n] tokens rs (n1 :: ls1) [] -> nTypes n1 = 0) -> forall rs ls1, brun [bare n] tokens rs ls1 [] -> ls1 = []).
  { intros Z rs [|n1 l1] B1; [reflexivity|exfalso]. pose proof (Z _ _ _ B1) as NT. destruct (typed_run c [bare n] tokens rs (n1 :: l1) []) as [TY TF]; [| |exact B1|].
    - apply Forall_cons; [|constructor]. right. exists st. auto.
    - intros n2 r EE. injection EE as <- _. change (nState (bare n)) with (nState n). intros Y. rewrite Y in ES. discriminate.
    - destruct (Forall_inv TY) as [Y|(st1 & Y1 & Y2)]; [exact (TF _ _ eq_refl Y)|]. apply (TZ _ _ Y1). congruence. }
  destruct (run_cut _ _ _ _ _ _ RA) as [(T' & -> & B1)|(rs1 & rs2 & ls1 & -> & B1 & LE)].
  - pose proof (MX _ _ _ B1) as M1. destruct (D _ _ _ BX) as [P|[P|(P & NE)]]; [exact P|rewrite !app_length in P; lia|]. rewrite !app_length in P.
    destruct (run_suffix _ _ _ _ _ B) as (p1 & E1). destruct (run_suffix _ _ _ _ _ B1) as (p2 & E2). assert (rem = T') as <- by (apply (same_suffix p1 p2); [congruence|lia]).
    destruct rem as [|y rem].
    + destruct ST as [U|[(f & types & s & e & F)|Z]]; cbn [fst] in *; [exists rsb; rewrite (U _ _ _ _ B B1); exact ETD|exfalso; exact (NF _ _ _ _ F)|exfalso; exact (NE (ZA Z _ _ B))].
    + exfalso. apply NE, FI; [discriminate|eauto].
  - pose proof (MX _ _ _ B1) as M1. cbn [length] in M1. destruct rem; [|cbn in M1; lia]. cbn [app] in BX.
    destruct ST as [U|[(f & types & s & e & F)|Z]]; cbn [fst] in *; [exists (rs2 ++ rsb); rewrite (U _ _ _ _ B B1), app_assoc; exact ETD|exfalso; exact (NF _ _ _ _ F)|].
    pose proof (ZA Z _ _ B) as ->. pose proof (ZA Z _ _ B1) as ->. destruct (D _ _ _ BX) as [P|[P|(_ & NE)]]; [exact P| |congruence].
    exfalso. pose proof (run_rest _ _ _ _ _ _ _ _ RA (brun_ext c _ _ _ _ _ X B1)) as Y. cbn [app] in Y. apply brun_empty in Y as (_ & _ & ->). lia.
Qed.
End P.
