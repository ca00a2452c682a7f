(** Lemmas for Prop_Calc.v: what hooks build from an input; what the built expressions compute. *)
From Coq Require Import String Ascii ZArith List Bool Lia.
From Verif Require Import Calc CalcSpec.
Import ListNotations.
Local Open Scope string_scope.
Local Open Scope list_scope.

Scheme sum_rec2 := Induction for sum Sort Prop with pro_rec2 := Induction for pro Sort Prop with power_rec2 := Induction for power Sort Prop with value_rec2 := Induction for value Sort Prop with args_rec2 := Induction for args Sort Prop.
Combined Scheme ast_ind from sum_rec2, pro_rec2, power_rec2, value_rec2, args_rec2.
Scheme so_ind2 := Minimality for sumOut Sort Prop with po_ind2 := Minimality for proOut Sort Prop with wo_ind2 := Minimality for powerOut Sort Prop with vo_ind2 := Minimality for valueOut Sort Prop with ao_ind2 := Minimality for argsOut Sort Prop.
Combined Scheme out_ind from so_ind2, po_ind2, wo_ind2, vo_ind2, ao_ind2.

Section Proofs.
Context {F : Type}.
Variables zero one : F.
Variables add sub mul div pow : F -> F -> F.
Variable parseFloat : string -> option F.
Notation update := (update add sub mul div).
Notation compute := (compute add sub mul div pow).
Notation numberOf := (numberOf pow).
Notation runNode := (runNode zero one add sub mul div pow parseFloat).
Notation handleNode := (handleNode add sub mul div pow).
Notation handleToken := (handleToken parseFloat).
Notation endNode := (endNode pow).
Notation newInst := (newInst zero one).

(** ** What is built *)
Definition sumC (o : sumOp) : ascii := match o with Plus => "+"%char | Minus => "-"%char end.
Definition proC (o : proOp) : ascii := match o with Times => "*"%char | Over => "/"%char end.
Definition chainStep (op : ascii) (a : F * list (ascii * expr F)) (e : expr F) : F * list (ascii * expr F) :=
  match numberOf e with Some x => (update (fst a) x op, snd a) | None => (fst a, snd a ++ [(op, e)]) end.
Definition closed (a : F * list (ascii * expr F)) : expr F := match snd a with [] => Number (fst a) | _ => Chain (fst a) (snd a) end.
Definition powered (b x : expr F) : expr F := match numberOf (Power b x) with Some v => Number v | None => Power b x end.
Fixpoint chS (s : sum) : F * list (ascii * expr F) := match s with SOne m p => chainStep (sumC (if m then Minus else Plus)) (zero, []) (closed (chP p)) | SMore s o p => chainStep (sumC o) (chS s) (closed (chP p)) end
with chP (p : pro) : F * list (ascii * expr F) := match p with POne w => chainStep "*" (one, []) (cW w) | PMore p o w => chainStep (proC o) (chP p) (cW w) end
with cW (w : power) : expr F := match w with WOne v => powered (cV v) (Number one) | WPow v w => powered (cV v) (cW w) end
with cV (v : value) : expr F := match v with VNum t => Number (match parseFloat t with Some x => x | None => zero end) | VName n => VarName n | VCall f a => FuncCall f (cA a) | VParen s => closed (chS s) end
with cA (a : args) : list (expr F) := match a with ANil => [] | ACons s a => closed (chS s) :: cA a end.
Definition cS (s : sum) : expr F := closed (chS s).

(** the loop of runNode *)
Fixpoint kids (i : inst F) (l : list ptree) : built (inst F) :=
  match l with
  | [] => Ok i
  | PTok ty tx :: r => bindB (handleToken i ty tx) (fun i => kids i r)
  | (PNode m _ as t) :: r => bindB (runNode t) (fun s => bindB (handleNode i m s) (fun i => kids i r))
  end.
Lemma runNode_eq n l : runNode (PNode n l) = bindB (orCrashB (newInst n)) (fun i => bindB (kids i l) endNode).
Proof.
  cbn [Calc.runNode]. destruct (newInst n) as [i0|]; [|reflexivity]. cbn [orCrashB bindB].
  match goal with |- bindB ?x _ = bindB ?y _ => assert (X : x = y); [|rewrite X; reflexivity] end.
  revert i0. induction l as [|t r IH]; intros i; [reflexivity|].
  destruct t as [ty tx|m ins]; cbn [kids].
  - destruct (handleToken i ty tx); cbn [bindB]; auto.
  - match goal with |- bindB ?x _ = bindB ?y _ => change y with x; destruct x as [s| |] end; cbn [bindB]; [|reflexivity|reflexivity].
    destruct (handleNode i m s); cbn [bindB]; auto.
Qed.
Lemma kids_app l1 : forall i l2, kids i (l1 ++ l2) = bindB (kids i l1) (fun i => kids i l2).
Proof.
  induction l1 as [|t r IH]; intros i l2; [reflexivity|]. destruct t as [ty tx|m ins]; cbn [app kids].
  - destruct (handleToken i ty tx); cbn [bindB]; auto.
  - destruct (runNode (PNode m ins)) as [s| |]; cbn [bindB]; auto. destruct (handleNode i m s); cbn [bindB]; auto.
Qed.
Lemma node_chain op a n e : handleNode (IChain op (fst a) (snd a)) n (SExpr e) = Ok (IChain op (fst (chainStep op a e)) (snd (chainStep op a e))).
Proof. cbn. unfold chainStep. destruct (numberOf e); reflexivity. Qed.
Lemma build :
  (forall s, readS parseFloat s -> runNode (PNode "expr" (inS s)) = Ok (SExpr (cS s)) /\
     exists op, kids (IChain "+" zero []) (inS s) = Ok (IChain op (fst (chS s)) (snd (chS s)))) /\
  (forall p, readP parseFloat p -> runNode (PNode "pro" (inP p)) = Ok (SExpr (closed (chP p))) /\
     exists op, kids (IChain "*" one []) (inP p) = Ok (IChain op (fst (chP p)) (snd (chP p)))) /\
  (forall w, readW parseFloat w -> runNode (PNode "pow" (inW w)) = Ok (SExpr (cW w))) /\
  (forall v, readV parseFloat v -> runNode (PNode "value" (inV v)) = Ok (SExpr (cV v))) /\
  (forall a, readA parseFloat a -> forall n l, kids (ICall n l) (inA a) = Ok (ICall n (l ++ cA a))).
Proof.
  assert (CS : forall s, (exists op, kids (IChain "+" zero []) (inS s) = Ok (IChain op (fst (chS s)) (snd (chS s)))) -> runNode (PNode "expr" (inS s)) = Ok (SExpr (cS s))).
  { intros s [op E]. rewrite runNode_eq. change (newInst "expr") with (Some (@IChain F "+" zero [])). cbn [orCrashB bindB]. rewrite E. reflexivity. }
  assert (CP : forall p, (exists op, kids (IChain "*" one []) (inP p) = Ok (IChain op (fst (chP p)) (snd (chP p)))) -> runNode (PNode "pro" (inP p)) = Ok (SExpr (closed (chP p)))).
  { intros p [op E]. rewrite runNode_eq. change (newInst "pro") with (Some (@IChain F "*" one [])). cbn [orCrashB bindB]. rewrite E. reflexivity. }
  apply ast_ind.
  - intros m p IH R. cbn [readS] in R. destruct (IH R) as [E _].
    assert (X : exists op, kids (IChain "+" zero []) (inS (SOne m p)) = Ok (IChain op (fst (chS (SOne m p))) (snd (chS (SOne m p))))).
    { exists (sumC (if m then Minus else Plus)). destruct m; cbn [inS app kids]; [cbn [Calc.handleToken bindB kids]|]; rewrite E; cbn [bindB].
      - change (@IChain F "-" zero []) with (IChain (F:=F) "-" (fst (zero, @nil (ascii * expr F))) (snd (zero, @nil (ascii * expr F)))). rewrite node_chain. reflexivity.
      - change (@IChain F "+" zero []) with (IChain (F:=F) "+" (fst (zero, @nil (ascii * expr F))) (snd (zero, @nil (ascii * expr F)))). rewrite node_chain. reflexivity. }
    split; [apply CS; exact X|exact X].
  - intros s IHs o p IHp [R1 R2]. destruct (IHs R1) as [_ [op E1]]. destruct (IHp R2) as [E2 _].
    assert (X : exists op, kids (IChain "+" zero []) (inS (SMore s o p)) = Ok (IChain op (fst (chS (SMore s o p))) (snd (chS (SMore s o p))))).
    { exists (sumC o). cbn [inS]. rewrite kids_app, E1. cbn [bindB].
      destruct o; cbn [sumTok kids Calc.handleToken bindB]; rewrite E2; cbn [bindB]; rewrite node_chain; reflexivity. }
    split; [apply CS; exact X|exact X].
  - intros w IH R. cbn [readP] in R. pose proof (IH R) as E.
    assert (X : exists op, kids (IChain "*" one []) (inP (POne w)) = Ok (IChain op (fst (chP (POne w))) (snd (chP (POne w))))).
    { exists "*"%char. cbn [inP kids]. rewrite E. cbn [bindB].
      change (@IChain F "*" one []) with (IChain (F:=F) "*" (fst (one, @nil (ascii * expr F))) (snd (one, @nil (ascii * expr F)))).
      rewrite (node_chain "*" (one, [])). reflexivity. }
    split; [apply CP; exact X|exact X].
  - intros p IHp o w IHw [R1 R2]. destruct (IHp R1) as [_ [op E1]]. pose proof (IHw R2) as E2.
    assert (X : exists op, kids (IChain "*" one []) (inP (PMore p o w)) = Ok (IChain op (fst (chP (PMore p o w))) (snd (chP (PMore p o w))))).
    { exists (proC o). cbn [inP]. rewrite kids_app, E1. cbn [bindB].
      destruct o; cbn [proTok kids Calc.handleToken bindB]; rewrite E2; cbn [bindB]; rewrite node_chain; reflexivity. }
    split; [apply CP; exact X|exact X].
  - intros v IH R. cbn [readW] in R. rewrite runNode_eq. change (newInst "pow") with (Some (@IPower F None (Number one))). cbn [orCrashB bindB inW kids].
    rewrite (IH R). reflexivity.
  - intros v IHv w IHw [R1 R2]. rewrite runNode_eq. change (newInst "pow") with (Some (@IPower F None (Number one))). cbn [orCrashB bindB inW kids].
    rewrite (IHv R1). cbn [bindB Calc.handleNode inner orCrashB kids Calc.handleToken]. rewrite (IHw R2). reflexivity.
  - intros t R. cbn [readV] in R. rewrite runNode_eq. change (newInst "value") with (Some (@IValue F None)). cbn [orCrashB bindB inV kids Calc.handleToken].
    change ("number" =? "name") with false. change ("number" =? "number") with true. cbn iota.
    cbn [cV]. destruct (parseFloat t); [reflexivity|congruence].
  - intros n _. rewrite runNode_eq. reflexivity.
  - intros f a IH R. cbn [readV] in R. rewrite runNode_eq. change (newInst "value") with (Some (@IValue F None)). cbn [orCrashB bindB inV kids].
    rewrite runNode_eq. change (newInst "call") with (Some (@ICall F "" [])). cbn [orCrashB bindB kids Calc.handleToken].
    change ("name" =? "name") with true. change ("op" =? "name") with false. cbn iota.
    change (handleToken (ICall f []) "op" "(") with (Ok (@ICall F f [])). cbn [bindB]. rewrite kids_app.
    assert (K : kids (ICall f []) match a with ANil => [] | ACons s a => PNode "expr" (inS s) :: inA a end = Ok (ICall f (cA a))).
    { specialize (IH R f []). destruct a as [|s a]; [reflexivity|]. cbn [inA kids Calc.handleToken bindB] in IH. change ("op" =? "name") with false in IH. cbn iota in IH. exact IH. }
    rewrite K. cbn [bindB kids Calc.handleToken]. change ("op" =? "name") with false. reflexivity.
  - intros s IH R. cbn [readV] in R. destruct (IH R) as [E _]. rewrite runNode_eq. change (newInst "value") with (Some (@IValue F None)). cbn [orCrashB bindB inV kids Calc.handleToken].
    change ("op" =? "name") with false. change ("op" =? "number") with false. cbn iota. cbn [bindB]. rewrite E.
    cbn [bindB Calc.handleNode inner orCrashB kids Calc.handleToken]. change ("op" =? "name") with false. change ("op" =? "number") with false. reflexivity.
  - intros _ n l. cbn [inA kids cA]. rewrite app_nil_r. reflexivity.
  - intros s IHs a IHa [R1 R2] n l. destruct (IHs R1) as [E _]. cbn [inA kids Calc.handleToken bindB]. change ("op" =? "name") with false. cbn iota. rewrite E.
    cbn [bindB Calc.handleNode]. change ("expr" =? "expr") with true. cbn iota. cbn [inner orCrashB bindB]. rewrite (IHa R2). cbn [cA]. rewrite <- app_assoc. reflexivity.
Qed.

(** ** What is computed *)
Definition ends (o : outcome F) : out F -> Prop := fun x => match o, x with Val v, inl w => v = w | Err e, inr e' => e = e' | _, _ => False end.
Definition asOutcome (x : out F) : outcome F := match x with inl v => Val v | inr e => Err e end.
Definition R (e : expr F) (c : context F) (x : out F) : Prop := exists n, forall m, n <= m -> compute m e c = asOutcome x.
(** the loops of compute *)
Fixpoint chainLoop (fu : nat) (c : context F) (res : F) (ovs : list (ascii * expr F)) : outcome F :=
  match ovs with
  | [] => Val res
  | (op, e) :: r => match compute fu e c with Val x => chainLoop fu c (update res x op) r | o => o end
  end.
Fixpoint argLoop (fu : nat) (c : context F) (f : function F) (args : list (expr F)) (vs : list F) : outcome F :=
  match args with
  | [] =>
      if Nat.eqb (length vs) (length (fArgs f)) then
        compute fu (fBody f) (mkFrame (fold_left (fun m p => set (fst p) (snd p) m) (combine (fArgs f) vs) []) [] :: c)
      else Err (WrongArgNumber (fName f) (length (fArgs f)) (length vs))
  | a :: r => match compute fu a c with Val x => argLoop fu c f r (vs ++ [x]) | o => o end
  end.
Lemma compute_chain fu v ovs c : compute (S fu) (Chain v ovs) c = chainLoop fu c v ovs.
Proof. cbn [Calc.compute]. revert v. induction ovs as [|[op e] r IH]; intros v; [reflexivity|]. cbn [chainLoop]. destruct (compute fu e c); auto. Qed.
Lemma compute_call fu n args c : compute (S fu) (FuncCall n args) c = match functionOf n c with inr e => Err e | inl f => argLoop fu c f args [] end.
Proof.
  cbn [Calc.compute]. destruct (functionOf n c) as [f|e]; [|reflexivity].
  match goal with |- ?lp args [] = _ => assert (X : forall vs, lp args vs = argLoop fu c f args vs); [|apply X] end.
  induction args as [|a r IH]; intros vs; [reflexivity|]. cbn [argLoop]. destruct (compute fu a c); auto.
Qed.
Lemma R_number v c : R (Number v) c (inl v).
Proof. exists 1. intros m L. destruct m; [lia|reflexivity]. Qed.
Lemma R_power_ok b x c v o : R b c (inl v) -> R x c o -> R (Power b x) c (on2 pow v o).
Proof.
  intros [n1 H1] [n2 H2]. exists (S (n1 + n2)). intros m L. destruct m; [lia|]. cbn [Calc.compute]. rewrite H1 by lia. cbn [asOutcome]. rewrite H2 by lia. destruct o; reflexivity.
Qed.
Lemma R_power_err b x c e : R b c (inr e) -> R (Power b x) c (inr e).
Proof. intros [n H]. exists (S n). intros m L. destruct m; [lia|]. cbn [Calc.compute]. rewrite H by lia. reflexivity. Qed.

Inductive chainR (c : context F) : F -> list (ascii * expr F) -> out F -> Prop :=
| cr_nil v : chainR c v [] (inl v)
| cr_ok v op e r x o : R e c (inl x) -> chainR c (update v x op) r o -> chainR c v ((op, e) :: r) o
| cr_err v op e r er : R e c (inr er) -> chainR c v ((op, e) :: r) (inr er).
Lemma chainR_loop c v ovs o : chainR c v ovs o -> exists n, forall m, n <= m -> chainLoop m c v ovs = asOutcome o.
Proof.
  induction 1 as [v|v op e r x o [n1 H1] _ [n2 H2]|v op e r er [n H]].
  - exists 0. reflexivity.
  - exists (n1 + n2). intros m L. cbn [chainLoop]. rewrite H1 by lia. cbn [asOutcome]. apply H2. lia.
  - exists n. intros m L. cbn [chainLoop]. rewrite H by lia. reflexivity.
Qed.
Lemma R_closed c a o : chainR c (fst a) (snd a) o -> R (closed a) c o.
Proof.
  intros H. unfold closed. destruct a as [v [|x r]]; cbn [fst snd] in *.
  - inversion H; subst. apply R_number.
  - destruct (chainR_loop _ _ _ _ H) as [n N]. exists (S n). intros m L. destruct m; [lia|]. rewrite compute_chain. apply N. lia.
Qed.
Lemma chainR_snoc c v ovs x op e y : chainR c v ovs (inl x) -> R e c y -> chainR c v (ovs ++ [(op, e)]) (match y with inl y => inl (update x y op) | inr er => inr er end).
Proof.
  intros H. remember (inl x) as o eqn:E. revert x E. induction H as [v|v op1 e1 r x1 o H1 H2 IH|]; intros x E Y; inversion E; subst; cbn [app].
  - destruct y as [y|er]; [eapply cr_ok; [exact Y|constructor]|apply cr_err; exact Y].
  - eapply cr_ok; [exact H1|]. apply IH; auto.
Qed.
Lemma chainR_error c v ovs er more : chainR c v ovs (inr er) -> forall w, chainR c w (ovs ++ more) (inr er).
Proof.
  intros H. remember (inr er) as o eqn:E. induction H as [v|v op e r x o H1 H2 IH|v op e r er' H1]; intros w; inversion E; subst; cbn [app].
  - eapply cr_ok; [exact H1|]. apply IH. reflexivity.
  - apply cr_err. exact H1.
Qed.
(** numbers among terms *)
Definition swap (ops : list ascii) : Prop := forall p q, In p ops -> In q ops -> forall a x y, update (update a x p) y q = update (update a y q) x p.
Lemma chainR_swap c ops q y : swap ops -> In q ops -> forall ovs v x, Forall (fun p => In (fst p) ops) ovs -> chainR c v ovs (inl x) -> chainR c (update v y q) ovs (inl (update x y q)).
Proof.
  intros SW Q ovs v x FA H. remember (inl x) as o eqn:E. revert x E FA. induction H as [v|v op e r z o H1 H2 IH|]; intros x E FA; inversion E; subst.
  - constructor.
  - inversion FA; subst. eapply cr_ok; [exact H1|]. rewrite <- (SW op q) by assumption. apply IH; auto.
Qed.
Definition normal (e : expr F) : Prop := forall v, numberOf e = Some v -> e = Number v.
Lemma normal_closed a : normal (closed a).
Proof. intros v H. unfold closed in *. destruct a as [w [|x r]]; cbn in *; congruence. Qed.
Lemma normal_powered b x : normal (powered b x).
Proof. intros v H. unfold powered in *. destruct (numberOf (Power b x)) eqn:E; [cbn in *|]; congruence. Qed.
Lemma R_det e c x y : R e c x -> R e c y -> x = y.
Proof. intros [n1 H1] [n2 H2]. specialize (H1 (n1 + n2)). specialize (H2 (n1 + n2)). rewrite H1 in H2 by lia. specialize (H2 ltac:(lia)). destruct x, y; cbn in H2; congruence. Qed.
Lemma step_ok c ops op a e x y :
  In op ops -> normal e -> (swap ops \/ (numberOf e <> None -> snd a = [])) -> Forall (fun p => In (fst p) ops) (snd a) ->
  chainR c (fst a) (snd a) (inl x) -> R e c y ->
  chainR c (fst (chainStep op a e)) (snd (chainStep op a e)) (match y with inl y => inl (update x y op) | inr er => inr er end).
Proof.
  intros O N D FA H Y. unfold chainStep. destruct (numberOf e) as [v|] eqn:E; cbn [fst snd].
  - pose proof (N v E). subst e. pose proof (R_det _ _ _ _ Y (R_number v c)). subst y. destruct D as [D|D].
    + eapply chainR_swap; eauto.
    + rewrite (D ltac:(congruence)) in *. inversion H; subst. constructor.
  - apply chainR_snoc; assumption.
Qed.
Lemma step_err c op a e er : chainR c (fst a) (snd a) (inr er) -> chainR c (fst (chainStep op a e)) (snd (chainStep op a e)) (inr er).
Proof.
  intros H. unfold chainStep. destruct (numberOf e); cbn [fst snd].
  - rewrite <- (app_nil_r (snd a)). eapply chainR_error; exact H.
  - eapply chainR_error; exact H.
Qed.
Lemma step_ops ops op a e : In op ops -> Forall (fun p => In (fst p) ops) (snd a) -> Forall (fun p => In (fst p) ops) (snd (chainStep op a e)).
Proof. intros O FA. unfold chainStep. destruct (numberOf e); cbn [snd]; [exact FA|]. apply Forall_app. split; [exact FA|]. constructor; [exact O|constructor]. Qed.
Definition sumOps : list ascii := ["+"; "-"]%char.
Definition proOps : list ascii := ["*"; "/"]%char.
Lemma sumC_in o : In (sumC o) sumOps. Proof. destruct o; cbn; auto. Qed.
Lemma proC_in o : In (proC o) proOps. Proof. destruct o; cbn; auto. Qed.
Lemma chS_ops s : Forall (fun p => In (fst p) sumOps) (snd (chS s)).
Proof. induction s; cbn [chS]; apply step_ops; auto using sumC_in; constructor. Qed.
Lemma chP_ops p : Forall (fun p => In (fst p) proOps) (snd (chP p)).
Proof. induction p; cbn [chP]; apply step_ops; auto using proC_in; try (cbn; auto; fail); constructor. Qed.
Lemma update_sum o a x : update a x (sumC o) = addOp add sub o a x.
Proof. destruct o; reflexivity. Qed.
Lemma update_pro o a x : update a x (proC o) = mulOp mul div o a x.
Proof. destruct o; reflexivity. Qed.
(** constants *)
Definition flat (a : F * list (ascii * expr F)) : bool := match snd a with [] => true | _ => false end.
Definition isNum (e : expr F) : bool := match numberOf e with Some _ => true | None => false end.
Lemma isNum_closed a : isNum (closed a) = flat a.
Proof. unfold isNum, closed, flat. destruct (snd a); reflexivity. Qed.
Lemma flat_step op a e : flat (chainStep op a e) = flat a && isNum e.
Proof. unfold flat, chainStep, isNum. destruct (numberOf e), (snd a); reflexivity. Qed.
Lemma isNum_powered b x : isNum (powered b x) = isNum b && isNum x.
Proof. unfold isNum, powered. cbn [Calc.numberOf]. destruct (numberOf b) eqn:Eb, (numberOf x) eqn:Ex; cbn [Calc.numberOf]; try rewrite Eb; try rewrite Ex; reflexivity. Qed.
Lemma const_ok : (forall s, constS s = flat (chS s)) /\ (forall p, constP p = flat (chP p)) /\ (forall w, constW w = isNum (cW w)) /\ (forall v, constV v = isNum (cV v)) /\ (forall a : args, True).
Proof.
  apply ast_ind; intros; cbn [constS constP constW constV chS chP cW cV]; rewrite ?flat_step, ?isNum_closed, ?isNum_powered; try reflexivity; try exact I; try congruence.
  - exact H.
  - exact H.
  - change (isNum (Number one)) with true. rewrite andb_true_r. assumption.
Qed.

(** ** Values of inputs *)
Hypothesis pow_one : forall a, pow a one = a.
Definition exactly : Prop := exact add sub mul div.
Lemma exact_sum : exactly -> swap sumOps.
Proof.
  intros [X _] p q P Q a x y. cbn in P, Q. destruct P as [<-|[<-|[]]], Q as [<-|[<-|[]]]; cbn; symmetry; apply X; cbn; auto.
Qed.
Lemma exact_pro : exactly -> swap proOps.
Proof.
  intros [_ X] p q P Q a x y. cbn in P, Q. destruct P as [<-|[<-|[]]], Q as [<-|[<-|[]]]; cbn; symmetry; apply X; cbn; auto.
Qed.
Variable st : state F.
(** arguments of all functions *)
Variable A : list string.
Hypothesis funs_params : forall f ps b, get f (sFuns st) = Some (ps, b) -> NoDup ps /\ (forall x, In x ps -> In x A).
Hypothesis funs_scoped : forall f ps b x, get f (sFuns st) = Some (ps, b) -> In x (namesS b) -> In x ps \/ ~ In x A.
Hypothesis funs_tidy : forall f ps b, get f (sFuns st) = Some (ps, b) -> exactly \/ tidyS b.
Definition rooted (root : frame F) : Prop :=
  (forall n, get n (vars root) = get n (sVars st)) /\
  (forall f, get f (functions root) = match get f (sFuns st) with Some (ps, b) => Some (mkFunc f ps (cS b)) | None => None end).
Variable root : frame F.
Hypothesis RT : rooted root.
(** a context inside calls of functions *)
Definition inside (c : context F) : Prop := exists fs, c = fs ++ [root] /\ Forall (fun f => functions f = [] /\ forall x, get x (vars f) <> None -> In x A) fs.
Definition found (loc : list (string * F)) (x : string) : F + calcError :=
  match get x loc with Some v => inl v | None => match get x (sVars st) with Some v => inl v | None => inr (UnknownVar x) end end.
Definition sees (c : context F) (loc : list (string * F)) (ns : list string) : Prop := forall x, In x ns -> variable x c = found loc x.
Lemma function_root c f : inside c -> functionOf f c = match get f (sFuns st) with Some (ps, b) => inl (mkFunc f ps (cS b)) | None => inr (UnknownFunc f) end.
Proof.
  intros [fs [-> FA]]. induction FA as [|fr r [E _] _ IH]; cbn [app functionOf].
  - destruct RT as [_ RF]. rewrite (RF f). destruct (get f (sFuns st)) as [[ps b]|]; reflexivity.
  - rewrite E. exact IH.
Qed.
Lemma variable_root c x : inside c -> ~ In x A -> variable x c = found [] x.
Proof.
  intros [fs [-> FA]] N. induction FA as [|fr r [_ E] _ IH]; cbn [app variable].
  - destruct RT as [RV _]. rewrite (RV x). reflexivity.
  - destruct (get x (vars fr)) eqn:G; [|exact IH]. destruct N. apply E. congruence.
Qed.
Lemma fold_get (x : string) (l : list (string * F)) : NoDup (map fst l) -> forall m, get x (fold_left (fun m p => set (fst p) (snd p) m) l m) = match get x l with Some v => Some v | None => get x m end.
Proof.
  induction l as [|[k v] r IH]; intros ND m; [reflexivity|]. cbn [map fst] in ND. inversion ND as [|? ? NI ND']; subst. cbn [fold_left get]. rewrite IH by assumption.
  destruct (x =? k) eqn:E.
  - apply String.eqb_eq in E. subst k. cbn [fst snd]. unfold set. cbn [get]. rewrite String.eqb_refl.
    assert (G : get x r = None). { clear -NI. induction r as [|[k w] r IH]; [reflexivity|]. cbn in *. destruct (x =? k) eqn:E; [apply String.eqb_eq in E; subst; tauto|apply IH; tauto]. }
    rewrite G. reflexivity.
  - cbn [fst snd]. unfold set at 1. cbn [get]. rewrite E. reflexivity.
Qed.
Lemma get_in {B} (x : string) (l : list (string * B)) : get x l <> None -> In x (map fst l).
Proof. induction l as [|[k v] r IH]; [intros H; cbn in H; congruence|]. cbn. destruct (x =? k) eqn:E; [apply String.eqb_eq in E; auto|auto]. Qed.
Lemma in_get {B} (x : string) (l : list (string * B)) : In x (map fst l) -> get x l <> None.
Proof. induction l as [|[k v] r IH]; [cbn; tauto|]. cbn. destruct (x =? k) eqn:E; [intros _; discriminate|]. intros [->|I]; [rewrite String.eqb_refl in E; congruence|auto]. Qed.
Lemma map_combine (ps : list string) (vs : list F) : length vs = length ps -> map fst (combine ps vs) = ps.
Proof. revert vs. induction ps as [|p r IH]; intros [|v vs] L; cbn in *; try congruence; try lia. f_equal. apply IH. lia. Qed.
Lemma call_context c ps vs b f : inside c -> get f (sFuns st) = Some (ps, b) -> length vs = length ps ->
  let c' := mkFrame (fold_left (fun m p => set (fst p) (snd p) m) (combine ps vs) []) [] :: c in
  inside c' /\ sees c' (combine ps vs) (namesS b).
Proof.
  intros IN G L c'. destruct (funs_params f ps b G) as [ND PA].
  assert (V : forall x, get x (fold_left (fun m p => set (fst p) (snd p) m) (combine ps vs) []) = get x (combine ps vs)).
  { intros x. rewrite fold_get by (rewrite map_combine; assumption). destruct (get x (combine ps vs)); reflexivity. }
  split.
  - destruct IN as [fs [-> FA]]. exists (mkFrame (fold_left (fun m p => set (fst p) (snd p) m) (combine ps vs) []) [] :: fs). split; [reflexivity|].
    constructor; [|exact FA]. split; [reflexivity|]. cbn [vars]. intros x X. rewrite V in X. apply get_in in X. rewrite map_combine in X by assumption. auto.
  - intros x X. unfold c'. cbn [variable vars]. rewrite V. unfold found. destruct (get x (combine ps vs)) eqn:E; [reflexivity|].
    destruct (funs_scoped f ps b x G X) as [I|I].
    + exfalso. apply (in_get x (combine ps vs)); [rewrite map_combine; assumption|exact E].
    + rewrite variable_root by assumption. reflexivity.
Qed.
Definition goalA (c : context F) (a : args) (x : list F + calcError) : Prop := forall f ws, 
  match x with
  | inl vs => exists n, forall m, n <= m -> argLoop m c f (cA a) ws = argLoop m c f [] (ws ++ vs)
  | inr e => exists n, forall m, n <= m -> argLoop m c f (cA a) ws = Err e
  end.
Lemma values :
  (forall loc s x, sumOut zero one add sub mul div pow parseFloat st loc s x -> forall c, inside c -> sees c loc (namesS s) -> exactly \/ tidyS s -> chainR c (fst (chS s)) (snd (chS s)) x) /\
  (forall loc p x, proOut zero one add sub mul div pow parseFloat st loc p x -> forall c, inside c -> sees c loc (namesP p) -> exactly \/ tidyP p -> chainR c (fst (chP p)) (snd (chP p)) x) /\
  (forall loc w x, powerOut zero one add sub mul div pow parseFloat st loc w x -> forall c, inside c -> sees c loc (namesW w) -> exactly \/ tidyW w -> R (cW w) c x) /\
  (forall loc v x, valueOut zero one add sub mul div pow parseFloat st loc v x -> forall c, inside c -> sees c loc (namesV v) -> exactly \/ tidyV v -> R (cV v) c x) /\
  (forall loc a x, argsOut zero one add sub mul div pow parseFloat st loc a x -> forall c, inside c -> sees c loc (namesA a) -> exactly \/ tidyA a -> goalA c a x).
Proof.
  assert (SP : forall c loc l1 l2, sees c loc (l1 ++ l2) -> sees c loc l1 /\ sees c loc l2).
  { intros c loc l1 l2 H. split; intros x X; apply H; apply in_or_app; auto. }
  assert (PW : forall c b x v o, R b c (inl v) -> R x c o -> R (powered b x) c (on2 pow v o)).
  { intros c b x v o Hb Hx. unfold powered. destruct (numberOf (Power b x)) as [w|] eqn:E; [|apply R_power_ok; assumption].
    cbn [Calc.numberOf] in E. destruct (numberOf b) as [vb|] eqn:Eb; [|discriminate]. destruct (numberOf x) as [vx|] eqn:Ex; [|discriminate]. injection E as <-.
    assert (NM : forall e u, numberOf e = Some u -> R e c (inl u)).
    { clear. induction e as [u0|v0 ovs|b IHb x IHx|n|n args]; intros u E; cbn [Calc.numberOf] in E; try discriminate.
      - injection E as <-. apply R_number.
      - destruct ovs; [|discriminate]. injection E as <-. exists 1. intros m L. destruct m; [lia|]. reflexivity.
      - destruct (numberOf b) as [vb|] eqn:Eb; [|discriminate]. destruct (numberOf x) as [vx|] eqn:Ex; [|discriminate]. injection E as <-.
        apply (R_power_ok b x c vb (inl vx)); auto. }
    rewrite (R_det _ _ _ _ Hx (NM x vx Ex)). pose proof (R_det _ _ _ _ Hb (NM b vb Eb)) as Q. injection Q as ->. apply R_number. }
  assert (PE : forall c b x e, R b c (inr e) -> R (powered b x) c (inr e)).
  { intros c b x e Hb. unfold powered. destruct (numberOf (Power b x)) as [w|] eqn:E; [|apply R_power_err; assumption].
    exfalso. cbn [Calc.numberOf] in E. destruct (numberOf b) as [vb|] eqn:Eb; [|discriminate].
    assert (NM : forall e u, numberOf e = Some u -> R e c (inl u)).
    { clear. induction e as [u0|v0 ovs|b IHb x IHx|n|n args]; intros u E; cbn [Calc.numberOf] in E; try discriminate.
      - injection E as <-. apply R_number.
      - destruct ovs; [|discriminate]. injection E as <-. exists 1. intros m L. destruct m; [lia|]. reflexivity.
      - destruct (numberOf b) as [vb|] eqn:Eb; [|discriminate]. destruct (numberOf x) as [vx|] eqn:Ex; [|discriminate]. injection E as <-.
        apply (R_power_ok b x c vb (inl vx)); auto. }
    pose proof (R_det _ _ _ _ Hb (NM b vb Eb)). discriminate. }
  destruct const_ok as [KS [KP [KW [KV _]]]].
  apply out_ind.
  - intros loc m p x _ IH c IN SE TD. cbn [namesS] in SE. cbn [chS].
    pose proof (R_closed c (chP p) x (IH c IN SE ltac:(destruct TD as [T|T]; [left; exact T|right; exact T]))) as RC.
    pose proof (step_ok c sumOps (sumC (if m then Minus else Plus)) (zero, []) (closed (chP p)) zero x (sumC_in _) (normal_closed _) (or_intror (fun _ => eq_refl)) (Forall_nil _) (cr_nil c zero) RC) as H.
    destruct x as [x|e]; cbn [on2]; [rewrite <- update_sum|]; exact H.
  - intros loc s op p x y _ IHs _ IHp c IN SE TD. cbn [namesS] in SE. apply SP in SE. destruct SE as [S1 S2]. cbn [chS].
    pose proof (R_closed c (chP p) y (IHp c IN S2 ltac:(destruct TD as [T|[_ [T _]]]; auto))) as RC.
    assert (D : swap sumOps \/ (numberOf (closed (chP p)) <> None -> snd (chS s) = [])).
    { destruct TD as [T|[_ [_ T]]]; [left; apply exact_sum; exact T|right]. intros N. rewrite KP, KS in T.
      assert (Q : flat (chS s) = true). { apply T. rewrite <- isNum_closed. unfold isNum. destruct (numberOf (closed (chP p))); congruence. }
      unfold flat in Q. destruct (snd (chS s)); congruence. }
    pose proof (step_ok c sumOps (sumC op) (chS s) (closed (chP p)) x y (sumC_in _) (normal_closed _) D (chS_ops s) (IHs c IN S1 ltac:(destruct TD as [T|[T _]]; auto)) RC) as H.
    destruct y as [y|e]; cbn [on2]; [rewrite <- update_sum|]; exact H.
  - intros loc s op p e _ IHs c IN SE TD. cbn [namesS] in SE. apply SP in SE. destruct SE as [S1 S2]. cbn [chS].
    apply step_err. apply IHs; auto. destruct TD as [T|[T _]]; auto.
  - intros loc w x _ IH c IN SE TD. cbn [namesP] in SE. cbn [chP].
    pose proof (IH c IN SE TD) as RC.
    pose proof (step_ok c proOps "*"%char (one, []) (cW w) one x (or_introl eq_refl) ltac:(destruct w; apply normal_powered) (or_intror (fun _ => eq_refl)) (Forall_nil _) (cr_nil c one) RC) as H.
    destruct x as [x|e]; exact H.
  - intros loc p op w x y _ IHp _ IHw c IN SE TD. cbn [namesP] in SE. apply SP in SE. destruct SE as [S1 S2]. cbn [chP].
    pose proof (IHw c IN S2 ltac:(destruct TD as [T|[_ [T _]]]; auto)) as RC.
    assert (D : swap proOps \/ (numberOf (cW w) <> None -> snd (chP p) = [])).
    { destruct TD as [T|[_ [_ T]]]; [left; apply exact_pro; exact T|right]. intros N. rewrite KW, KP in T.
      assert (Q : flat (chP p) = true). { apply T. unfold isNum. destruct (numberOf (cW w)); congruence. }
      unfold flat in Q. destruct (snd (chP p)); congruence. }
    pose proof (step_ok c proOps (proC op) (chP p) (cW w) x y (proC_in _) ltac:(destruct w; apply normal_powered) D (chP_ops p) (IHp c IN S1 ltac:(destruct TD as [T|[T _]]; auto)) RC) as H.
    destruct y as [y|e]; cbn [on2]; [rewrite <- update_pro|]; exact H.
  - intros loc p op w e _ IHp c IN SE TD. cbn [namesP] in SE. apply SP in SE. destruct SE as [S1 S2]. cbn [chP].
    apply step_err. apply IHp; auto. destruct TD as [T|[T _]]; auto.
  - intros loc v x _ IH c IN SE TD. cbn [namesW] in SE. cbn [cW]. pose proof (IH c IN SE TD) as RC. destruct x as [x|e].
    + pose proof (PW c (cV v) (Number one) x (inl one) RC (R_number one c)) as H. cbn [on2] in H. rewrite pow_one in H. exact H.
    + apply PE. exact RC.
  - intros loc v w x y _ IHv _ IHw c IN SE TD. cbn [namesW] in SE. apply SP in SE. destruct SE as [S1 S2]. cbn [cW].
    apply PW; [apply IHv|apply IHw]; auto; destruct TD as [T|[T1 T2]]; auto.
  - intros loc v w e _ IHv c IN SE TD. cbn [namesW] in SE. apply SP in SE. destruct SE as [S1 S2]. cbn [cW].
    apply PE. apply IHv; auto. destruct TD as [T|[T1 T2]]; auto.
  - intros loc text x E c _ _ _. cbn [cV]. rewrite E. apply R_number.
  - intros loc n x E c IN SE _. exists 1. intros m L. destruct m; [lia|]. cbn [cV Calc.compute]. rewrite (SE n) by (cbn; auto). unfold found. rewrite E. reflexivity.
  - intros loc n x E1 E2 c IN SE _. exists 1. intros m L. destruct m; [lia|]. cbn [cV Calc.compute]. rewrite (SE n) by (cbn; auto). unfold found. rewrite E1, E2. reflexivity.
  - intros loc n E1 E2 c IN SE _. exists 1. intros m L. destruct m; [lia|]. cbn [cV Calc.compute]. rewrite (SE n) by (cbn; auto). unfold found. rewrite E1, E2. reflexivity.
  - intros loc s x _ IH c IN SE TD. cbn [cV]. apply R_closed. apply IH; auto.
  - intros loc f a G c IN _ _. exists 1. intros m L. destruct m; [lia|]. cbn [cV]. rewrite compute_call, function_root by assumption. rewrite G. reflexivity.
  - intros loc f a [ps b] e G _ IH c IN SE TD. cbn [cV]. destruct (IH c IN SE TD (mkFunc f ps (cS b)) []) as [n N]. exists (S n). intros m L. destruct m; [lia|].
    rewrite compute_call, function_root by assumption. rewrite G. apply N. lia.
  - intros loc f a ps b vs G _ IH L c IN SE TD. cbn [cV]. destruct (IH c IN SE TD (mkFunc f ps (cS b)) []) as [n N]. exists (S n). intros m M. destruct m; [lia|].
    rewrite compute_call, function_root by assumption. rewrite G. rewrite N by lia. cbn [argLoop app fArgs fName]. apply Nat.eqb_neq in L. rewrite L. reflexivity.
  - intros loc f a ps b vs x G _ IHa L _ IHb c IN SE TD. cbn [cV]. destruct (IHa c IN SE TD (mkFunc f ps (cS b)) []) as [n N].
    destruct (call_context c ps vs b f IN G L) as [IN' SE'].
    destruct (R_closed _ _ _ (IHb _ IN' SE' (funs_tidy f ps b G))) as [n2 N2].
    exists (S (n + n2)). intros m M. destruct m; [lia|].
    rewrite compute_call, function_root by assumption. rewrite G. rewrite N by lia. cbn [argLoop app fArgs fName fBody]. apply Nat.eqb_eq in L. rewrite L. apply N2. lia.
  - intros loc c _ _ _ f ws. exists 0. intros m _. cbn [cA]. rewrite app_nil_r. reflexivity.
  - intros loc s a x vs _ IHs _ IHa c IN SE TD f ws. cbn [namesA] in SE. apply SP in SE. destruct SE as [S1 S2]. cbn [cA].
    destruct (R_closed _ _ _ (IHs c IN S1 ltac:(destruct TD as [T|[T _]]; auto))) as [n1 N1].
    destruct (IHa c IN S2 ltac:(destruct TD as [T|[_ T]]; auto) f (ws ++ [x])) as [n2 N2].
    exists (n1 + n2). intros m L. cbn [argLoop]. rewrite N1 by lia. cbn [asOutcome]. rewrite N2 by lia. rewrite <- app_assoc. reflexivity.
  - intros loc s a x e _ IHs _ IHa c IN SE TD f ws. cbn [namesA] in SE. apply SP in SE. destruct SE as [S1 S2]. cbn [cA].
    destruct (R_closed _ _ _ (IHs c IN S1 ltac:(destruct TD as [T|[T _]]; auto))) as [n1 N1].
    destruct (IHa c IN S2 ltac:(destruct TD as [T|[_ T]]; auto) f (ws ++ [x])) as [n2 N2].
    exists (n1 + n2). intros m L. cbn [argLoop]. rewrite N1 by lia. cbn [asOutcome]. rewrite N2 by lia. reflexivity.
  - intros loc s a e _ IHs c IN SE TD f ws. cbn [namesA] in SE. apply SP in SE. destruct SE as [S1 S2]. cbn [cA].
    destruct (R_closed _ _ _ (IHs c IN S1 ltac:(destruct TD as [T|[T _]]; auto))) as [n1 N1].
    exists n1. intros m L. cbn [argLoop]. rewrite N1 by lia. reflexivity.
Qed.
Lemma top_value s x : sumOut zero one add sub mul div pow parseFloat st [] s x -> exactly \/ tidyS s -> R (cS s) [root] x.
Proof.
  intros H TD. destruct values as [V _]. apply R_closed. apply (V [] s x H); auto.
  - exists []. split; [reflexivity|constructor].
  - intros y _. cbn [variable]. destruct RT as [RV _]. rewrite (RV y). unfold found. cbn [get]. reflexivity.
Qed.
End Proofs.

Section Sessions.
Context {F : Type}.
Variables zero one : F.
Variables add sub mul div pow : F -> F -> F.
Variable parseFloat : string -> option F.
Hypothesis pow_one : forall a, pow a one = a.
Notation runNode := (runNode zero one add sub mul div pow parseFloat).
Notation kids := (kids zero one add sub mul div pow parseFloat).
Notation cS := (cS zero one add sub mul div pow parseFloat).
Notation calcLine := (calcLine zero one add sub mul div pow parseFloat).
Notation session := (session zero one add sub mul div pow parseFloat).
Notation rooted := (rooted zero one add sub mul div pow parseFloat).

(** ** Arguments of functions *)
Lemma not_func n : n <> "func" -> (n =? "func") = false.
Proof. apply String.eqb_neq. Qed.
Lemma existsb_in n l : existsb (String.eqb n) l = true <-> In n l.
Proof. rewrite existsb_exists. split; [intros [y [I E]]; apply String.eqb_eq in E; subst; exact I|intros I; exists n; split; [exact I|apply String.eqb_refl]]. Qed.
Lemma existsb_not n l : ~ In n l -> existsb (String.eqb n) l = false.
Proof. intros N. destruct (existsb (String.eqb n) l) eqn:E; [apply existsb_in in E; tauto|reflexivity]. Qed.
Definition listed (ps : list string) : list ptree := concat (map (fun p => [PTok "op" ","; PTok "name" p]) ps).
Lemma comma_skip f (a : list string) r : kids (IFunc f a None) (PTok "op" "," :: r) = kids (IFunc f a None) r.
Proof. reflexivity. Qed.
Lemma in_listed f a ps r : kids (IFunc f a None) (inParams ps ++ r) = kids (IFunc f a None) (listed ps ++ r).
Proof. destruct ps; reflexivity. Qed.
Lemma params_ok f ps : f <> "" -> ~ In "func" ps -> forall a r, NoDup (a ++ ps) -> kids (IFunc f a None) (listed ps ++ r) = kids (IFunc f (a ++ ps) None) r.
Proof.
  intros NE. induction ps as [|p ps IH]; intros NF a r ND; [rewrite app_nil_r; reflexivity|].
  change (listed (p :: ps) ++ r) with (PTok "op" "," :: PTok "name" p :: (listed ps ++ r)). rewrite comma_skip. cbn [CalcProofs.kids Calc.handleToken].
  change (negb ("name" =? "name")) with false. cbn iota. rewrite (not_func p) by (intros ->; apply NF; left; reflexivity). apply String.eqb_neq in NE. rewrite NE.
  assert (NP : ~ In p a). { apply NoDup_remove_2 in ND. rewrite in_app_iff in ND. tauto. }
  rewrite existsb_not by exact NP. cbn [bindB]. rewrite IH; [rewrite <- app_assoc; reflexivity|intros I; apply NF; right; exact I|rewrite <- app_assoc; exact ND].
Qed.
Lemma params_bad f ps n qs r : f <> "" -> ~ In "func" (ps ++ n :: qs) -> NoDup ps -> In n ps -> kids (IFunc f [] None) (listed (ps ++ n :: qs) ++ r) = Fail (ArgDefined n).
Proof.
  intros NE NF ND I. unfold listed. rewrite map_app, concat_app, <- app_assoc. fold (listed ps).
  rewrite (params_ok f ps NE); [|intros X; apply NF; apply in_or_app; auto|exact ND].
  cbn [map concat app]. rewrite comma_skip. cbn [CalcProofs.kids Calc.handleToken]. change (negb ("name" =? "name")) with false. cbn iota.
  rewrite (not_func n) by (intros ->; apply NF; apply in_or_app; right; left; reflexivity). apply String.eqb_neq in NE. rewrite NE.
  apply existsb_in in I. rewrite I. reflexivity.
Qed.
Lemma build_expr s : readS parseFloat s -> runNode (PNode "expr" (inS s)) = Ok (SExpr (cS s)).
Proof. destruct (build zero one add sub mul div pow parseFloat) as [B _]. intros R. destruct (B s R) as [E _]. exact E. Qed.
Lemma build_root n ins s : runNode (PNode n ins) = Ok s -> runNode (PNode "calcGrammar" [PNode n ins]) = Ok s.
Proof. intros E. rewrite runNode_eq. change (newInst zero one "calcGrammar") with (Some (@IRoot F None)). cbn [orCrashB bindB CalcProofs.kids]. rewrite E. reflexivity. Qed.
Lemma build_fail n ins e : runNode (PNode n ins) = Fail e -> runNode (PNode "calcGrammar" [PNode n ins]) = Fail e.
Proof. intros E. rewrite runNode_eq. change (newInst zero one "calcGrammar") with (Some (@IRoot F None)). cbn [orCrashB bindB CalcProofs.kids]. rewrite E. reflexivity. Qed.
Lemma build_line s : readS parseFloat s -> runNode (lineTree (LExpr s)) = Ok (SExpr (cS s)).
Proof. intros R. apply build_root. apply build_expr. exact R. Qed.
Lemma build_assign x s : readS parseFloat s -> runNode (lineTree (LAssign x s)) = Ok (SAssign x (cS s)).
Proof.
  intros R. apply build_root. rewrite runNode_eq. change (newInst zero one "assign") with (Some (@IAssign F "" None)). cbn [orCrashB bindB CalcProofs.kids Calc.handleToken].
  change ("name" =? "name") with true. change ("op" =? "name") with false. cbn iota. rewrite (build_expr s R). reflexivity.
Qed.
Lemma func_start f l : f <> "func" -> runNode (PNode "func" (PTok "name" f :: PTok "op" "(" :: l)) = bindB (kids (IFunc f [] None) l) (endNode pow).
Proof.
  intros N. rewrite runNode_eq. change (newInst zero one "func") with (Some (@IFunc F "" [] None)). cbn [orCrashB bindB CalcProofs.kids Calc.handleToken].
  change (negb ("name" =? "name")) with false. cbn iota. rewrite (not_func f N). reflexivity.
Qed.
Lemma build_def f ps s : f <> "" -> f <> "func" -> ~ In "func" ps -> NoDup ps -> readS parseFloat s -> runNode (lineTree (LDef f ps s)) = Ok (SDef f ps (cS s)).
Proof.
  intros NE NF NP ND R. apply build_root. rewrite func_start by assumption. rewrite in_listed, params_ok by assumption. cbn [app].
  cbn [CalcProofs.kids Calc.handleToken]. change (negb ("op" =? "name")) with true. cbn iota. cbn [bindB CalcProofs.kids Calc.handleToken].
  rewrite (build_expr s R). reflexivity.
Qed.
Lemma build_nodef f ps n qs s : f <> "" -> f <> "func" -> ~ In "func" (ps ++ n :: qs) -> NoDup ps -> In n ps -> runNode (lineTree (LDef f (ps ++ n :: qs) s)) = Fail (ArgDefined n).
Proof.
  intros NE NF NP ND I. apply build_fail. rewrite func_start by assumption. rewrite in_listed, params_bad by assumption. reflexivity.
Qed.

(** ** Inputs one after another *)
Definition fine (A : list string) (st : state F) : Prop := forall f ps b, get f (sFuns st) = Some (ps, b) ->
  NoDup ps /\ (forall x, In x ps -> In x A) /\ (forall x, In x (namesS b) -> In x ps \/ ~ In x A) /\ (exact add sub mul div \/ tidyS b).
Lemma line_ok A st root l x st' : fine A st -> rooted st root -> readS parseFloat (sumOf l) -> exact add sub mul div \/ tidyS (sumOf l) ->
  (forall f ps s, l = LDef f ps s -> f <> "" /\ f <> "func" /\ ~ In "func" ps /\ (forall y, In y ps -> In y A) /\ (forall y, In y (namesS s) -> In y ps \/ ~ In y A)) ->
  lineOut zero one add sub mul div pow parseFloat st l x st' ->
  exists n root', rooted st' root' /\ fine A st' /\ forall m, n <= m -> calcLine m (lineTree l) root = (Ok (asOutcome x), root').
Proof.
  intros FN RT RD TD DF H.
  assert (TV : forall s x, sumOut zero one add sub mul div pow parseFloat st [] s x -> exact add sub mul div \/ tidyS s -> exists n, forall m, n <= m -> compute add sub mul div pow m (cS s) [root] = asOutcome x).
  { intros s y Y T. apply (top_value zero one add sub mul div pow parseFloat pow_one st A) with (1 := fun f ps b G => conj (proj1 (FN f ps b G)) (proj1 (proj2 (FN f ps b G)))); auto.
    - intros f ps b z G. destruct (FN f ps b G) as [_ [_ [S _]]]. apply S.
    - intros f ps b G. destruct (FN f ps b G) as [_ [_ [_ S]]]. exact S. }
  inversion H as [s y S|n s v S|n s e S|f ps s ND|f ps qs n s ND I]; subst; cbn [sumOf] in *.
  - destruct (TV s x S TD) as [n N]. exists n, root. split; [exact RT|split; [exact FN|]]. intros m L. unfold Calc.calcLine.
    unfold lineTree. rewrite (build_root _ _ _ (build_expr s RD)). rewrite N by exact L. reflexivity.
  - destruct (TV s (inl v) S TD) as [k N]. exists k, (mkFrame (set n v (vars root)) (functions root)). split; [|split; [exact FN|]].
    + destruct RT as [RV RF]. split; [|exact RF]. intros y. cbn [vars sVars]. unfold set. cbn [get]. destruct (y =? n); [reflexivity|apply RV].
    + intros m L. unfold Calc.calcLine. rewrite (build_assign n s RD). rewrite N by exact L. reflexivity.
  - destruct (TV s (inr e) S TD) as [k N]. exists k, root. split; [exact RT|split; [exact FN|]].
    intros m L. unfold Calc.calcLine. rewrite (build_assign n s RD). rewrite N by exact L. reflexivity.
  - destruct (DF f ps s eq_refl) as [NE [NF [NP [PA SC]]]]. exists 0, (mkFrame (vars root) (set f (mkFunc f ps (cS s)) (functions root))). split; [|split].
    + destruct RT as [RV RF]. split; [exact RV|]. intros y. cbn [functions sFuns]. unfold set. cbn [get]. destruct (y =? f) eqn:E; [apply String.eqb_eq in E; subst y; reflexivity|apply RF].
    + intros g qs b. cbn [sFuns]. unfold set. cbn [get]. destruct (g =? f); [|apply FN]. intros E. injection E as <- <-. auto.
    + intros m _. unfold Calc.calcLine. rewrite (build_def f ps s) by assumption. reflexivity.
  - destruct (DF f (ps ++ n :: qs) s eq_refl) as [NE [NF [NP [PA SC]]]]. exists 0, root. split; [exact RT|split; [exact FN|]].
    intros m _. unfold Calc.calcLine. rewrite (build_nodef f ps n qs s) by assumption. reflexivity.
Qed.
Lemma session_ok A ls : forall st root xs, fine A st -> rooted st root ->
  (forall l, In l ls -> readS parseFloat (sumOf l) /\ (exact add sub mul div \/ tidyS (sumOf l)) /\
     forall f ps s, l = LDef f ps s -> f <> "" /\ f <> "func" /\ ~ In "func" ps /\ (forall y, In y ps -> In y A) /\ (forall y, In y (namesS s) -> In y ps \/ ~ In y A)) ->
  sessionOut zero one add sub mul div pow parseFloat st ls xs ->
  exists n, forall m, n <= m -> session m (map lineTree ls) root = map (fun x => Ok (asOutcome x)) xs.
Proof.
  induction ls as [|l ls IH]; intros st root xs FN RT HL H; inversion H as [|? ? ? x st' ys L SS]; subst.
  - exists 0. reflexivity.
  - destruct (HL l (or_introl eq_refl)) as [RD [TD DF]]. destruct (line_ok A st root l x st' FN RT RD TD DF L) as [n1 [root' [RT' [FN' N1]]]].
    destruct (IH st' root' ys FN' RT' (fun l I => HL l (or_intror I)) SS) as [n2 N2].
    exists (n1 + n2). intros m M. cbn [map Calc.session]. rewrite N1 by lia. rewrite N2 by lia. reflexivity.
Qed.
End Sessions.
