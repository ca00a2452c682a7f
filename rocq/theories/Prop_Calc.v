(** C79, C80, C81: the calculator of /repo/examples/calc.
    - [calc_session_partial]: answers to inputs of a session are the values of their expressions, if order of terms and factors does not matter or constants come first, no function uses arguments of another one, and no function or argument is called func.
    - [calc_order_refuted]: with float64 the order matters: x/49 is not 1 for x = 49.
    - [calc_scope_refuted]: a function called from another one sees its arguments instead of globals.
    - [calc_name_refuted]: a function called func can't be defined.
    - [calc_answers_partial]: all inputs get an answer if there is no recursion.
    - [calc_endless_refuted]: recursion never ends (in Go the stack overflows).
    - [calc_failed_input]: an input without a value changes nothing. *)
From Coq Require Import String Ascii ZArith List Bool Lia QArith Qcanon SpecFloat.
From Verif Require Import Calc CalcSpec CalcProofs.
Import ListNotations.
Local Open Scope nat_scope.
Local Open Scope string_scope.
Local Open Scope list_scope.

Section Any.
Context {F : Type}.
Variables zero one : F.
Variables add sub mul div pow : F -> F -> F.
Variable parseFloat : string -> option F.
Notation session := (session zero one add sub mul div pow parseFloat).
Notation sessionOut := (sessionOut zero one add sub mul div pow parseFloat).
Notation compute := (compute add sub mul div pow).
Notation calcLine := (calcLine zero one add sub mul div pow parseFloat).

Lemma answer_outcome (xs : list (out F)) : map (fun x => Ok (asOutcome x)) xs = map answer xs.
Proof. apply map_ext. intros [v|e]; reflexivity. Qed.
Lemma fine_none A : fine add sub mul div A noState.
Proof. intros f ps b G. discriminate. Qed.
Lemma rooted_none : rooted zero one add sub mul div pow parseFloat noState rootContext.
Proof. split; reflexivity. Qed.
Lemma in_params ls f ps s x : In (LDef f ps s) ls -> In x ps -> In x (params ls).
Proof. intros I X. unfold params. apply in_concat. exists ps. split; [|exact X]. apply in_map_iff. exists (LDef f ps s). auto. Qed.

(** Answers are values of expressions. *)
Theorem calc_session_partial :
  (forall a, pow a one = a) ->
  forall ls xs, Forall (fun l => readS parseFloat (sumOf l)) ls -> named ls -> noFunc ls -> scoped ls ->
  exact add sub mul div \/ Forall (fun l => tidyS (sumOf l)) ls ->
  sessionOut noState ls xs ->
  exists n, forall m, n <= m -> session m (map lineTree ls) rootContext = map answer xs.
Proof.
  intros P1 ls xs RD NM NF SC TD H.
  destruct (session_ok zero one add sub mul div pow parseFloat P1 (params ls) ls noState rootContext xs (fine_none _) rooted_none) with (2 := H) as [n N].
  - intros l I. rewrite Forall_forall in RD. split; [apply RD; exact I|]. split.
    + destruct TD as [T|T]; [left; exact T|right]. rewrite Forall_forall in T. apply T. exact I.
    + intros f ps s ->. destruct (NF f ps s I) as [A B]. repeat split; auto; [eapply NM; eauto|intros y Y; eapply in_params; eauto|intros y Y; eapply SC; eauto].
  - exists n. intros m L. rewrite N by exact L. apply answer_outcome.
Qed.

(** Without recursion all inputs have values or errors. *)
Lemma meaning st (rank : string -> nat) : (forall f ps b g, get f (sFuns st) = Some (ps, b) -> In g (callsS b) -> rank g < rank f) ->
  (forall f ps b, get f (sFuns st) = Some (ps, b) -> readS parseFloat b) ->
  forall k,
  (forall s, readS parseFloat s -> (forall g, In g (callsS s) -> rank g < k) -> forall loc, exists x, sumOut zero one add sub mul div pow parseFloat st loc s x) /\
  (forall p, readP parseFloat p -> (forall g, In g (callsP p) -> rank g < k) -> forall loc, exists x, proOut zero one add sub mul div pow parseFloat st loc p x) /\
  (forall w, readW parseFloat w -> (forall g, In g (callsW w) -> rank g < k) -> forall loc, exists x, powerOut zero one add sub mul div pow parseFloat st loc w x) /\
  (forall v, readV parseFloat v -> (forall g, In g (callsV v) -> rank g < k) -> forall loc, exists x, valueOut zero one add sub mul div pow parseFloat st loc v x) /\
  (forall a, readA parseFloat a -> (forall g, In g (callsA a) -> rank g < k) -> forall loc, exists x, argsOut zero one add sub mul div pow parseFloat st loc a x).
Proof.
  intros RK RB. induction k as [k IHk] using lt_wf_ind.
  assert (SP : forall l1 l2 : list string, (forall g, In g (l1 ++ l2) -> rank g < k) -> (forall g, In g l1 -> rank g < k) /\ (forall g, In g l2 -> rank g < k)).
  { intros l1 l2 H. split; intros g G; apply H; apply in_or_app; auto. }
  apply ast_ind.
  - intros m p IH R C loc. destruct (IH R C loc) as [x X]. eexists. apply so_one. exact X.
  - intros s IHs o p IHp [R1 R2] C loc. apply SP in C. destruct C as [C1 C2]. destruct (IHs R1 C1 loc) as [[x|e] X].
    + destruct (IHp R2 C2 loc) as [y Y]. eexists. eapply so_more; eauto.
    + exists (inr e). apply so_stop. exact X.
  - intros w IH R C loc. destruct (IH R C loc) as [x X]. eexists. apply po_one. exact X.
  - intros s IHs o p IHp [R1 R2] C loc. apply SP in C. destruct C as [C1 C2]. destruct (IHs R1 C1 loc) as [[x|e] X].
    + destruct (IHp R2 C2 loc) as [y Y]. eexists. eapply po_more; eauto.
    + exists (inr e). apply po_stop. exact X.
  - intros v IH R C loc. destruct (IH R C loc) as [x X]. exists x. apply wo_one. exact X.
  - intros s IHs p IHp [R1 R2] C loc. apply SP in C. destruct C as [C1 C2]. destruct (IHs R1 C1 loc) as [[x|e] X].
    + destruct (IHp R2 C2 loc) as [y Y]. eexists. eapply wo_pow; eauto.
    + exists (inr e). apply wo_stop. exact X.
  - intros t R _ loc. cbn [readV] in R. destruct (parseFloat t) as [x|] eqn:E; [|congruence]. exists (inl x). apply vo_num. exact E.
  - intros n _ _ loc. destruct (get n loc) as [x|] eqn:E1; [exists (inl x); apply vo_local; exact E1|].
    destruct (get n (sVars st)) as [x|] eqn:E2; [exists (inl x); apply vo_global; assumption|exists (inr (UnknownVar n)); apply vo_unknown; assumption].
  - intros f a IH R C loc. cbn [callsV] in C. destruct (get f (sFuns st)) as [[ps b]|] eqn:G; [|exists (inr (UnknownFunc f)); apply vo_nofunc; exact G].
    destruct (IH R (fun g I => C g (or_intror I)) loc) as [[vs|e] X]; [|exists (inr e); eapply vo_badarg; eauto].
    destruct (Nat.eq_dec (length vs) (length ps)) as [L|L]; [|eexists; eapply vo_number; eauto].
    destruct (IHk (rank f) (C f (or_introl eq_refl))) as [BS _]. destruct (BS b (RB f ps b G) (fun g I => RK f ps b g G I) (combine ps vs)) as [x Y].
    exists x. eapply vo_call; eauto.
  - intros s IH R C loc. destruct (IH R C loc) as [x X]. exists x. apply vo_paren. exact X.
  - intros _ _ loc. exists (inl []). apply ao_nil.
  - intros s IHs a IHa [R1 R2] C loc. apply SP in C. destruct C as [C1 C2]. destruct (IHs R1 C1 loc) as [[x|e] X].
    + destruct (IHa R2 C2 loc) as [[vs|e] Y]; eexists; [eapply ao_cons; eauto|eapply ao_rest; eauto].
    + exists (inr e). apply ao_stop. exact X.
Qed.
Lemma first_twice (ps : list string) : NoDup ps \/ exists a n b, ps = a ++ n :: b /\ NoDup a /\ In n a.
Proof.
  induction ps as [|p ps IH] using rev_ind; [left; constructor|]. destruct IH as [IH|[a [n [b [-> [ND I]]]]]].
  - destruct (in_dec string_dec p ps) as [I|I]; [right; exists ps, p, []; auto|left].
    clear -IH I. induction IH as [|x l N ND IH]; cbn; [constructor; [tauto|constructor]|]. constructor.
    + rewrite in_app_iff. cbn. intros [X|[X|[]]]; [tauto|subst; apply I; left; reflexivity].
    + apply IH. intros X. apply I. right. exact X.
  - right. exists a, n, (b ++ [p]). rewrite <- app_assoc. auto.
Qed.
Lemma bound (rank : string -> nat) (l : list string) : exists k, forall g, In g l -> rank g < k.
Proof.
  induction l as [|x l [k K]]; [exists 0; cbn; tauto|]. exists (S (k + rank x)). intros g [->|I]; [lia|specialize (K g I); lia].
Qed.
Lemma session_meaning ls : Forall (fun l => readS parseFloat (sumOf l)) ls -> ranked ls -> exists xs, sessionOut noState ls xs.
Proof.
  intros RD [rank RK].
  assert (G : forall st, (forall f ps b g, get f (sFuns st) = Some (ps, b) -> In g (callsS b) -> rank g < rank f) -> (forall f ps b, get f (sFuns st) = Some (ps, b) -> readS parseFloat b) -> exists xs, sessionOut st ls xs).
  { induction RD as [|l ls R _ IH]; intros st H1 H2; [exists []; constructor|].
    assert (V : exists x, sumOut zero one add sub mul div pow parseFloat st [] (sumOf l) x).
    { destruct (bound rank (callsS (sumOf l))) as [k K]. destruct (meaning st rank H1 H2 k) as [M _]. exact (M (sumOf l) R K []). }
    specialize (IH (fun f ps s g I => RK f ps s g (or_intror I))). destruct V as [x X]. destruct l as [s|n s|f ps s]; cbn [sumOf] in *.
    - destruct (IH st H1 H2) as [xs XS]. exists (x :: xs). econstructor; [apply lo_expr; exact X|exact XS].
    - destruct x as [v|e].
      + destruct (IH (mkState (set n v (sVars st)) (sFuns st)) H1 H2) as [xs XS]. exists (inl v :: xs). econstructor; [apply lo_assign; exact X|exact XS].
      + destruct (IH st H1 H2) as [xs XS]. exists (inr e :: xs). econstructor; [apply lo_noassign; exact X|exact XS].
    - destruct (first_twice ps) as [ND|[a [n [b [-> [ND I]]]]]].
      + destruct (IH (mkState (sVars st) (set f (ps, s) (sFuns st)))) as [xs XS].
        * intros g qs b h. cbn [sFuns]. unfold set. cbn [get]. destruct (g =? f) eqn:E; [|apply H1]. apply String.eqb_eq in E. subst g. intros Q I. injection Q as <- <-. eapply RK; [left; reflexivity|exact I].
        * intros g qs b. cbn [sFuns]. unfold set. cbn [get]. destruct (g =? f); [|apply H2]. intros Q. injection Q as <- <-. exact R.
        * eexists. econstructor; [apply lo_def; exact ND|exact XS].
      + destruct (IH st H1 H2) as [xs XS]. eexists. econstructor; [apply lo_nodef; assumption|exact XS]. }
  apply G; intros; discriminate.
Qed.
(** All inputs get an answer if there is no recursion. *)
Theorem calc_answers_partial :
  (forall a, pow a one = a) ->
  forall ls, Forall (fun l => readS parseFloat (sumOf l)) ls -> named ls -> noFunc ls -> scoped ls -> ranked ls ->
  exact add sub mul div \/ Forall (fun l => tidyS (sumOf l)) ls ->
  exists xs n, sessionOut noState ls xs /\ forall m, n <= m -> session m (map lineTree ls) rootContext = map answer xs.
Proof.
  intros P1 ls RD NM NF SC RK TD. destruct (session_meaning ls RD RK) as [xs H].
  destruct (calc_session_partial P1 ls xs RD NM NF SC TD H) as [n N]. exists xs, n. auto.
Qed.
(** An input without a value changes nothing. *)
Theorem calc_failed_input n t root o root' : calcLine n t root = (o, root') -> (forall v, o <> Ok (Val v)) -> root' = root.
Proof.
  unfold Calc.calcLine. destruct (runNode zero one add sub mul div pow parseFloat t) as [[e|x e|f a b]|e|]; intros E N; [|destruct (compute n e [root]) as [v|er|]| | |]; injection E as <- <-; try reflexivity; exfalso; eapply N; reflexivity.
Qed.
(** Recursion never ends. *)
Definition call0 (f : string) : sum := SOne false (POne (WOne (VCall f ANil))).
Theorem calc_endless_refuted : exists ls, Forall (fun l => readS parseFloat (sumOf l)) ls /\ named ls /\ noFunc ls /\ scoped ls /\
  forall n, session n (map lineTree ls) rootContext = [Ok (Val zero); Ok Endless].
Proof.
  exists [LDef "f" [] (call0 "f"); LExpr (call0 "f")]. split; [repeat constructor|]. split; [|split; [|split]].
  - intros f ps s [E|[E|[]]]; [injection E as <- _ _; discriminate|discriminate].
  - intros f ps s [E|[E|[]]]; [injection E as <- <- _; split; [discriminate|tauto]|discriminate].
  - intros f ps s x [E|[E|[]]]; [injection E as <- <- <-; cbn; tauto|discriminate].
  - intros n.
    set (e := Chain zero [("+"%char, Chain one [("*"%char, Power (FuncCall "f" []) (Number one))])] : expr F).
    assert (X : forall n c, functionOf "f" c = inl (mkFunc "f" [] e) -> compute n e c = Endless).
    { clear n. induction n as [n IH] using lt_wf_ind. intros c C. destruct n as [|[|[|[|n]]]]; try reflexivity. cbn [e Calc.compute]. rewrite C. cbn [fArgs fBody length Nat.eqb combine fold_left].
      rewrite (IH n) by (try lia; exact C). reflexivity. }
    change (session n (map lineTree [LDef "f" [] (call0 "f"); LExpr (call0 "f")]) rootContext) with [Ok (Val zero); Ok (compute n e [mkFrame [] [("f", mkFunc "f" [] e)]])].
    rewrite X; reflexivity.
Qed.
End Any.

(** ** float64 *)
Module Float64.
Definition f64 := spec_float.
Definition ofZ (z : Z) : f64 := binary_normalize 53 1024 z 0 false.
Definition add := SFadd 53 1024.
Definition sub := SFsub 53 1024.
Definition mul := SFmul 53 1024.
Definition div := SFdiv 53 1024.
End Float64.
Definition num (t : string) : sum := SOne false (POne (WOne (VNum t))).
Definition var (n : string) : sum := SOne false (POne (WOne (VName n))).
(** [x = 49], [x/49] *)
Definition rounded : list line := [LAssign "x" (num "49"); LExpr (SOne false (PMore (POne (WOne (VName "x"))) Over (WOne (VNum "49"))))].
(** The order of operations is changed: with float64 the answer is wrong. *)
Theorem calc_order_refuted : forall pow parseFloat, (forall a, pow a (Float64.ofZ 1) = a) -> parseFloat "49" = Some (Float64.ofZ 49) ->
  exists ls xs, Forall (fun l => readS parseFloat (sumOf l)) ls /\ named ls /\ noFunc ls /\ scoped ls /\
  sessionOut (Float64.ofZ 0) (Float64.ofZ 1) Float64.add Float64.sub Float64.mul Float64.div pow parseFloat noState ls xs /\
  forall n, 4 <= n -> session (Float64.ofZ 0) (Float64.ofZ 1) Float64.add Float64.sub Float64.mul Float64.div pow parseFloat n (map lineTree ls) rootContext <> map answer xs.
Proof.
  intros pow pf P1 P49. exists rounded, [inl (Float64.ofZ 49); inl (Float64.ofZ 1)].
  split; [repeat constructor; cbn; congruence|]. split; [|split; [|split; [|split]]].
  - intros f ps s [E|[E|[]]]; discriminate.
  - intros f ps s [E|[E|[]]]; discriminate.
  - intros f ps s x [E|[E|[]]]; discriminate.
  - econstructor.
    + apply lo_assign. change (inl (Float64.ofZ 49)) with (on2 (addOp Float64.add Float64.sub Plus) (Float64.ofZ 0) (on2 Float64.mul (Float64.ofZ 1) (inl (Float64.ofZ 49)))).
      apply (so_one _ _ _ _ _ _ _ _ _ _ false). apply po_one. apply wo_one. apply vo_num. exact P49.
    + econstructor; [|constructor]. apply lo_expr.
      change (inl (Float64.ofZ 1)) with (on2 (addOp Float64.add Float64.sub Plus) (Float64.ofZ 0) (on2 (mulOp Float64.mul Float64.div Over) (Float64.ofZ 49) (inl (Float64.ofZ 49)))).
      apply (so_one _ _ _ _ _ _ _ _ _ _ false). apply po_more; [change (inl (Float64.ofZ 49)) with (on2 Float64.mul (Float64.ofZ 1) (inl (Float64.ofZ 49))); apply po_one; apply wo_one; apply vo_global; reflexivity|apply wo_one; apply vo_num; exact P49].
  - intros n L E. apply (f_equal (fun l => nth 1 l Crash)) in E. revert E.
    unfold rounded, num. cbn [map Calc.session]. unfold Calc.calcLine.
    rewrite build_assign by (cbn; congruence). destruct n as [|[|[|[|n]]]]; try lia. clear L.
    unfold cS. cbn [chS chP cW cV]. rewrite P49. cbn iota. unfold powered. cbn [Calc.numberOf]. rewrite P1. cbn [closed chainStep Calc.numberOf fst snd Calc.compute].
    rewrite build_line by (cbn; repeat split; congruence).
    unfold cS. cbn [chS chP cW cV]. rewrite P49. cbn iota. unfold powered. cbn [Calc.numberOf]. rewrite P1.
    cbn [closed chainStep Calc.numberOf fst snd app]. cbn [Calc.compute Calc.variable get set vars Calc.update]. cbn [String.eqb Ascii.eqb Bool.eqb].
    rewrite P1. vm_compute. intros E. discriminate E.
Qed.

(** ** Rational numbers: the order of terms and factors does not matter *)
Module Rationals.
Definition zero : Qc := Q2Qc 0.
Definition one : Qc := Q2Qc 1.
(** whole positive powers *)
Definition pow (a b : Qc) : Qc := match this b with Qmake (Zpos p) 1 => Pos.iter (Qcmult a) one p | _ => zero end.
Definition parse (t : string) : option Qc :=
  match t with
  | String a EmptyString => if (48 <=? nat_of_ascii a)%nat && (nat_of_ascii a <=? 57)%nat then Some (Q2Qc (Z.of_nat (nat_of_ascii a - 48) # 1)) else None
  | _ => None
  end.
Lemma exactQ : exact Qcplus Qcminus Qcmult Qcdiv.
Proof.
  split; intros f g [<-|[<-|[]]] [<-|[<-|[]]] a x y; unfold Qcminus, Qcdiv; ring.
Qed.
Lemma pow_one a : pow a one = a.
Proof. change (pow a one) with (Qcmult a one). apply Qcmult_1_r. Qed.
Notation sessionOut := (sessionOut zero one Qcplus Qcminus Qcmult Qcdiv pow parse noState).
Notation session n ls := (session zero one Qcplus Qcminus Qcmult Qcdiv pow parse n (map lineTree ls) rootContext).
End Rationals.
(** [x = 1], [g() = x], [f(x) = g()], [f(2)] *)
Definition shadowed : list line :=
  [LAssign "x" (num "1"); LDef "g" [] (var "x"); LDef "f" ["x"] (call0 "g"); LExpr (SOne false (POne (WOne (VCall "f" (ACons (num "2") ANil)))))].
Definition get1 (l : list (built (outcome Qc))) (k : nat) : option Q := match nth k l Crash with Ok (Val v) => Some (this v) | _ => None end.
Lemma one_value {F} (zero one : F) add sub mul div pow parse st loc v x : valueOut zero one add sub mul div pow parse st loc v (inl x) ->
  CalcSpec.sumOut zero one add sub mul div pow parse st loc (SOne false (POne (WOne v))) (inl (add zero (mul one x))).
Proof.
  intros H. change (inl (add zero (mul one x))) with (on2 (addOp add sub (if false then Minus else Plus)) zero (on2 mul one (inl x : out F))). apply so_one. apply po_one. apply wo_one. exact H.
Qed.
Ltac qvalue := apply one_value.
(** A function called from another one gets its arguments in place of globals. *)
Theorem calc_scope_refuted : exists ls xs, Forall (fun l => readS Rationals.parse (sumOf l)) ls /\ named ls /\ noFunc ls /\ ranked ls /\
  Rationals.sessionOut ls xs /\ forall n, Rationals.session n ls <> map answer xs.
Proof.
  exists shadowed. eexists. split; [repeat apply Forall_cons; try apply Forall_nil; cbn; repeat split; try discriminate|]. split; [|split; [|split; [|split]]].
  - intros f ps s [E|[E|[E|[E|[]]]]]; try discriminate; injection E as <- _ _; discriminate.
  - intros f ps s [E|[E|[E|[E|[]]]]]; try discriminate; injection E as <- <- _; (split; [discriminate|cbn; intros X; repeat (destruct X as [X|X]; try discriminate X); tauto]).
  - exists (fun f : string => if String.eqb f "f" then 1%nat else 0%nat). intros f ps s h [E|[E|[E|[E|[]]]]]; try discriminate; injection E as <- <- <-; cbn; [tauto|].
    intros [<-|[]]. cbn. lia.
  - econstructor; [apply lo_assign; qvalue; apply vo_num; reflexivity|].
    econstructor; [apply lo_def; constructor|]. econstructor; [apply lo_def; repeat constructor; tauto|]. econstructor; [|constructor].
    apply lo_expr. qvalue. eapply vo_call; [reflexivity|eapply ao_cons; [qvalue; apply vo_num; reflexivity|apply ao_nil]|reflexivity|].
    qvalue. eapply vo_call; [reflexivity|apply ao_nil|reflexivity|]. qvalue. apply vo_global; reflexivity.
  - intros n E. apply (f_equal (fun l => get1 l 3)) in E. do 12 (destruct n as [|n]; [vm_compute in E; discriminate E|]). vm_compute in E. discriminate E.
Qed.
(** [func(x) = x], [func(1)] *)
Definition unnamed : list line := [LDef "func" ["x"] (var "x"); LExpr (SOne false (POne (WOne (VCall "func" (ACons (num "1") ANil)))))].
(** A function called func can't be defined. *)
Theorem calc_name_refuted : exists ls xs, Forall (fun l => readS Rationals.parse (sumOf l)) ls /\ named ls /\ scoped ls /\ ranked ls /\
  Rationals.sessionOut ls xs /\ forall n, Rationals.session n ls <> map answer xs.
Proof.
  exists unnamed. eexists. split; [repeat apply Forall_cons; try apply Forall_nil; cbn; repeat split; try discriminate|]. split; [|split; [|split; [|split]]].
  - intros f ps s [E|[E|[]]]; try discriminate; injection E as <- _ _; discriminate.
  - intros f ps s x [E|[E|[]]]; try discriminate; injection E as <- <- <-; cbn; tauto.
  - exists (fun f => 0%nat). intros f ps s h [E|[E|[]]]; try discriminate; injection E as <- <- <-; cbn; tauto.
  - econstructor; [apply lo_def; repeat constructor; tauto|]. econstructor; [|constructor].
    apply lo_expr. qvalue. eapply vo_call; [reflexivity|eapply ao_cons; [qvalue; apply vo_num; reflexivity|apply ao_nil]|reflexivity|]. qvalue. apply vo_local; reflexivity.
  - intros n E. apply (f_equal (fun l => get1 l 1)) in E. do 6 (destruct n as [|n]; [vm_compute in E; discriminate E|]). vm_compute in E. discriminate E.
Qed.

Print Assumptions calc_session_partial.
Print Assumptions calc_answers_partial.
Print Assumptions calc_failed_input.
Print Assumptions calc_endless_refuted.
Print Assumptions calc_order_refuted.
Print Assumptions calc_scope_refuted.
Print Assumptions calc_name_refuted.

(** [f(a, b) = a*(b - 2)/3], [x = f(7, 5) + 2^3], [-x*2 - f(1, y)], [f(1)] with rational numbers: constants among others, an unknown variable, a wrong number of arguments *)
Module Example1.
Definition v (t : string) : power := WOne (VNum t).
Definition ls : list line :=
  [LDef "f" ["a"; "b"] (SOne false (PMore (PMore (POne (WOne (VName "a"))) Times (WOne (VParen (SMore (var "b") Minus (POne (v "2")))))) Over (v "3")));
   LAssign "x" (SMore (SOne false (POne (WOne (VCall "f" (ACons (num "7") (ACons (num "5") ANil)))))) Plus (POne (WPow (VNum "2") (v "3"))));
   LExpr (SOne true (PMore (POne (WOne (VName "x"))) Times (v "2")));
   LExpr (SMore (SOne true (PMore (POne (WOne (VName "x"))) Times (v "2"))) Minus (POne (WOne (VCall "f" (ACons (num "1") (ACons (var "y") ANil))))));
   LExpr (SOne false (POne (WOne (VCall "f" (ACons (num "1") ANil)))))].
Example meets : exists xs n, Rationals.sessionOut ls xs /\ forall m, n <= m -> Rationals.session m ls = map answer xs.
Proof.
  apply (calc_answers_partial _ _ _ _ _ _ _ _ Rationals.pow_one).
  - repeat apply Forall_cons; try apply Forall_nil; cbn; repeat split; try discriminate.
  - intros f ps s I. cbn in I. repeat (destruct I as [E|I]; [try discriminate E; injection E as <- _ _; discriminate|]). destruct I.
  - intros f ps s I. cbn in I. repeat (destruct I as [E|I]; [try discriminate E; injection E as <- <- _; (split; [discriminate|cbn; intros X; repeat (destruct X as [X|X]; try discriminate X); tauto])|]). destruct I.
  - intros f ps s x I. cbn in I. repeat (destruct I as [E|I]; [try discriminate E; injection E as <- <- <-; cbn; tauto|]). destruct I.
  - exists (fun f => 0%nat). intros f ps s g I. cbn in I. repeat (destruct I as [E|I]; [try discriminate E; injection E as <- <- <-; cbn; tauto|]). destruct I.
  - left. exact Rationals.exactQ.
Qed.
Example computed : map (get1 (Rationals.session 20 ls)) [1; 2] = [Some (15 # 1)%Q; Some (-30 # 1)%Q].
Proof. vm_compute. reflexivity. Qed.
Example failed : skipn 3 (Rationals.session 20 ls) = [Ok (Err (UnknownVar "y")); Ok (Err (WrongArgNumber "f" 2 1))].
Proof. vm_compute. reflexivity. Qed.
End Example1.
(** [x = 49], [49/x] with float64: constants come first *)
Module Example2.
Definition pow (a b : spec_float) : spec_float := a.
Definition parse (t : string) : option spec_float := if t =? "49" then Some (Float64.ofZ 49) else None.
Definition ls : list line := [LAssign "x" (num "49"); LExpr (SOne false (PMore (POne (WOne (VNum "49"))) Over (WOne (VName "x"))))].
Example meets : exists xs n, sessionOut (Float64.ofZ 0) (Float64.ofZ 1) Float64.add Float64.sub Float64.mul Float64.div pow parse noState ls xs /\
  forall m, n <= m -> session (Float64.ofZ 0) (Float64.ofZ 1) Float64.add Float64.sub Float64.mul Float64.div pow parse m (map lineTree ls) rootContext = map answer xs.
Proof.
  apply (calc_answers_partial _ _ _ _ _ _ pow parse).
  - reflexivity.
  - repeat apply Forall_cons; try apply Forall_nil; cbn; repeat split; try discriminate.
  - intros f ps s [E|[E|[]]]; discriminate.
  - intros f ps s [E|[E|[]]]; discriminate.
  - intros f ps s x [E|[E|[]]]; discriminate.
  - exists (fun f => 0%nat). intros f ps s g [E|[E|[]]]; discriminate.
  - right. repeat apply Forall_cons; try apply Forall_nil; cbn; repeat split; try discriminate.
Qed.
Example computed : session (Float64.ofZ 0) (Float64.ofZ 1) Float64.add Float64.sub Float64.mul Float64.div pow parse 9 (map lineTree ls) rootContext = [Ok (Val (Float64.ofZ 49)); Ok (Val (Float64.ofZ 1))].
Proof. vm_compute. reflexivity. Qed.
End Example2.
