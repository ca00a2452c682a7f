(** Proofs about hook layer indent (Indent.v). *)
From Coq Require Import String ZArith List Bool Lia.
From Verif Require Import Base BaseProofs Grammar LangTypes StdLayers StdLayersSpec Indent IndentSpec.
From Verif Require Lexer LangText LangTextTotal.
Import ListNotations.
Local Open Scope list_scope.
Open Scope Z_scope.

Section P.
Context {Pos PE : Type}.
Notation tok := (ltok Pos).
Notation lstate := (lstate Pos).
Notation indentError := (indentError Pos PE).
Variable indentTok dedentTok : tok.
Variable roles : list role.
Variable kind : tok -> role.
Hypothesis KN : forall t, roleOf roles t = Some (kind t).
Notation handle := (handle (PE := PE) indentTok dedentTok roles).
Notation layerStep := (layerStep (PE := PE) indentTok dedentTok roles).
Notation run := (run (PE := PE) indentTok dedentTok roles).
Notation isEmpty := (isEmpty kind).

Variable space side : Z -> Prop.
Hypothesis KS : kinds space side kind.
Lemma eoi_kind t : kind t = REoi <-> lType t = Lexer.EoiTokenType.
Proof. apply KS. Qed.
Lemma empty_kind t : kind t = REmpty <-> lType t <> Lexer.EoiTokenType /\ (lType t < 0 \/ lText t = []).
Proof. apply KS. Qed.
(** ** Balance *)
Record good (ls : lstate) : Prop := mkGood {
  gd_dec : lsState ls = SDec -> exists x, In x (lsStack ls) /\ zlen x = zlen (lsCurrent ls);
  gd_ind : lsState ls = SIndented -> lsSpaces ls = [];
  gd_spaces : forall t, In t (lsSpaces ls) -> isEmpty t = false }.
Lemma dedentLoop_ok l : forall st, (exists x, In x st /\ zlen x = l) -> exists p x r, st = p ++ x :: r /\ zlen x = l /\ dedentLoop dedentTok l st = (map (fun _ => dedentTok) (p ++ [x]), Some r) /\ forall y, In y p -> zlen y <> l.
Proof.
  induction st as [|y st IH]; intros (x & I & L); [destruct I|]. cbn [dedentLoop]. destruct (Z.eqb_spec (zlen y) l) as [E|E].
  - exists [], y, st. split; [reflexivity|]. split; [exact E|]. split; [reflexivity|]. intros z [].
  - destruct I as [->|I]; [contradiction|]. destruct IH as (p & x' & r & -> & L' & D & N); [eauto|]. exists (y :: p), x', r. split; [reflexivity|]. split; [exact L'|]. rewrite D. split; [reflexivity|]. intros z [<-|Z]; auto.
Qed.
Definition keeps (l : list tok) : list (mark * tok) := map (pair Kept) l.
Definition downs {A} (l : list A) : list (mark * tok) := map (fun _ => (Down, dedentTok)) l.
Lemma walk_app (a : list (mark * tok)) : forall n c, walk n (a ++ c) = match walk n a with Some m => walk m c | None => None end.
Proof. induction a as [|(m, t) a IH]; intros n c; [reflexivity|]. cbn [app walk]. destruct m; [apply IH|apply IH|destruct n; [reflexivity|apply IH]]. Qed.
Lemma walk_keeps n l : walk n (keeps l) = Some n.
Proof. induction l; [reflexivity|exact IHl]. Qed.
Lemma walk_downs {A} (l : list A) n : walk (length l + n) (downs l) = Some n.
Proof. induction l; [reflexivity|exact IHl]. Qed.
Lemma walk_downs_eq {A} (l : list A) n m : n = (length l + m)%nat -> walk n (downs l) = Some m.
Proof. intros ->. apply walk_downs. Qed.
Lemma kept_app (a c : list (mark * tok)) : kept (a ++ c) = kept a ++ kept c.
Proof. unfold kept. rewrite filter_app, map_app. reflexivity. Qed.
Lemma kept_keeps l : kept (keeps l) = l.
Proof. induction l as [|x l IH]; [reflexivity|]. cbn. f_equal. exact IH. Qed.
Lemma kept_downs {A} (l : list A) : kept (downs l) = [].
Proof. induction l as [|x l IH]; [reflexivity|]. exact IH. Qed.
Lemma snd_keeps l : map snd (keeps l) = l.
Proof. unfold keeps. rewrite map_map. apply map_id. Qed.
Lemma snd_downs {A} (l : list A) : map snd (downs l) = map (fun _ => dedentTok) l.
Proof. unfold downs. rewrite map_map. reflexivity. Qed.
Notation honest := (honest indentTok dedentTok).
Lemma honest_app a c : honest a -> honest c -> honest (a ++ c).
Proof. intros A C m t I. apply in_app_or in I. destruct I; auto. Qed.
Lemma honest_keeps l : honest (keeps l).
Proof. intros m t I. apply in_map_iff in I. destruct I as (x & E & _). injection E as <- _. split; discriminate. Qed.
Lemma honest_downs {A} (l : list A) : honest (downs l).
Proof. intros m t I. apply in_map_iff in I. destruct I as (x & E & _). injection E as <- <-. split; [discriminate|reflexivity]. Qed.
Lemma honest_up : honest [(Up, indentTok)].
Proof. intros m t [E|[]]. injection E as <- <-. split; [reflexivity|discriminate]. Qed.
Notation nonEmpty := (nonEmpty kind).
Notation empties := (empties kind).
(** one token that is not the end of input: annotated output [a]; what was held back is kept *)
Definition stepOK (t : tok) (ls : lstate) (o : list tok) (ls' : lstate) : Prop := exists a, o = map snd a /\ honest a /\ good ls' /\ walk (length (lsStack ls)) a = Some (length (lsStack ls')) /\
  nonEmpty (kept a) ++ lsSpaces ls' = lsSpaces ls ++ nonEmpty [t] /\ empties (kept a) = empties [t].
Lemma nonEmpty_app a c : nonEmpty (a ++ c) = nonEmpty a ++ nonEmpty c. Proof. apply filter_app. Qed.
Lemma empties_app a c : empties (a ++ c) = empties a ++ empties c. Proof. apply filter_app. Qed.
Lemma nonEmpty_all l : (forall t, In t l -> isEmpty t = false) -> nonEmpty l = l /\ empties l = [].
Proof. induction l as [|t l IH]; intros H; [auto|]. cbn. rewrite (H t (or_introl eq_refl)). destruct IH as (A & B); [intros x X; apply H; right; exact X|]. cbn [negb]. unfold IndentSpec.nonEmpty, IndentSpec.empties in *. rewrite A, B. auto. Qed.
Lemma held l ls : (forall t, In t (lsSpaces ls) -> isEmpty t = false) -> nonEmpty (lsSpaces ls ++ l) = lsSpaces ls ++ nonEmpty l /\ empties (lsSpaces ls ++ l) = empties l.
Proof. intros H. rewrite nonEmpty_app, empties_app. destruct (nonEmpty_all _ H) as (-> & ->). auto. Qed.
(** giving out of what is held, with [ts] after it *)
Definition gives (ls : lstate) (ts : list tok) (o : list tok) (ls' : lstate) : Prop := exists a, o = map snd a /\ honest a /\ walk (length (lsStack ls)) a = Some (length (lsStack ls')) /\ kept a = lsSpaces ls ++ ts /\ lsSpaces ls' = [].
Lemma pad_gives ls ts : gives ls ts (fst (pad ts ls)) (snd (pad ts ls)).
Proof. exists (keeps (lsSpaces ls ++ ts)). cbn. rewrite snd_keeps, walk_keeps, kept_keeps. repeat split; try reflexivity; try discriminate; intros; apply (honest_keeps _ _ _ H); assumption. Qed.
Lemma indent_gives ls ts : gives ls ts (fst (indent indentTok ts ls)) (snd (indent indentTok ts ls)).
Proof.
  exists ((Up, indentTok) :: keeps (lsSpaces ls ++ ts)). cbn [indent pad fst snd lsSpaces lsStack map walk length]. rewrite snd_keeps, walk_keeps. split; [reflexivity|]. split; [apply (honest_app [_]); [apply honest_up|apply honest_keeps]|]. split; [reflexivity|]. split; [apply (kept_keeps (lsSpaces ls ++ ts))|reflexivity].
Qed.
Lemma dedent_gives ls ts : (exists x, In x (lsStack ls) /\ zlen x = zlen (lsCurrent ls)) -> gives ls ts (fst (dedent dedentTok ts ls)) (snd (dedent dedentTok ts ls)).
Proof.
  intros H. destruct (dedentLoop_ok _ _ H) as (p & x & r & E & L & D & _). unfold dedent. rewrite D. cbn [pad fst snd lsSpaces lsStack].
  exists (downs (p ++ [x]) ++ keeps (lsSpaces ls ++ ts)). rewrite (map_app snd), snd_downs, snd_keeps, walk_app, kept_app, kept_downs, kept_keeps. split; [reflexivity|]. split; [apply honest_app; [apply honest_downs|apply honest_keeps]|]. split; [|split; reflexivity].
  rewrite E. match goal with |- context [walk ?n (downs ?l)] => replace (walk n (downs l)) with (Some (length r)) by (symmetry; apply walk_downs_eq; rewrite !app_length; cbn; lia) end. rewrite walk_keeps. reflexivity.
Qed.
Lemma gives_step ls ts t o ls' : good ls -> gives ls ts o ls' -> lsState ls' = SIndented \/ lsState ls' = SSide \/ lsState ls' = SValid -> nonEmpty ts = nonEmpty [t] -> empties ts = empties [t] -> stepOK t ls o ls'.
Proof.
  intros G (a & A & B & C & D & E) S N M. exists a. split; [exact A|]. split; [exact B|]. split; [|split; [exact C|]].
  - constructor; [intros Q; rewrite Q in S; destruct S as [S|[S|S]]; discriminate|intros _; exact E|rewrite E; intros x []].
  - rewrite D, E, app_nil_r. destruct (held ts ls (gd_spaces _ G)) as (-> & ->). split; congruence.
Qed.
Lemma gives_set ls ts o ls' s : gives ls ts o ls' -> gives ls ts o (setState s ls').
Proof. intros (a & A & B & C & D & E). exists a. auto. Qed.
Lemma setState_state s (ls : lstate) : lsState (setState s ls) = s. Proof. reflexivity. Qed.
Lemma adjust_dec c (ls : lstate) : lsState (adjustIndent c ls) = SDec -> exists x, In x (lsStack (adjustIndent c ls)) /\ zlen x = zlen (lsCurrent (adjustIndent c ls)).
Proof.
  unfold adjustIndent. cbn [lsState lsStack lsCurrent]. set (cur := match lsCurrent ls with [] => c | _ => lsCurrent ls ++ c end).
  destruct (zlen (lsValid ls) <? zlen cur); [destruct (hasPrefix cur (lsValid ls)); discriminate|]. destruct (hasPrefix (lsValid ls) cur); [|discriminate]. destruct (zlen cur =? zlen (lsValid ls)); [discriminate|].
  destruct (existsb (fun x => zlen x =? zlen cur) (lsStack ls)) eqn:X; [|discriminate]. intros _. apply existsb_exists in X. destruct X as (x & I & E). apply Z.eqb_eq in E. eauto.
Qed.
Lemma adjust_ind c (ls : lstate) : lsState (adjustIndent c ls) <> SIndented /\ lsState (adjustIndent c ls) <> SSide.
Proof. unfold adjustIndent. cbn [lsState]. destruct (_ <? _); [destruct (hasPrefix _ _); split; discriminate|]. destruct (hasPrefix _ _); [|split; discriminate]. destruct (_ =? _); [split; discriminate|]. destruct (existsb _ _); split; discriminate. Qed.
Lemma step_pass t ls : good ls -> lsState ls = SIndented \/ isEmpty t = true -> stepOK t ls [t] ls.
Proof.
  intros G H. exists (keeps [t]). rewrite snd_keeps, walk_keeps, kept_keeps. split; [reflexivity|]. split; [apply honest_keeps|]. split; [exact G|]. split; [reflexivity|]. split; [|reflexivity]. destruct H as [H|H]; [rewrite (gd_ind _ G H), app_nil_r; reflexivity|]. cbn. rewrite H. cbn. rewrite app_nil_r. reflexivity.
Qed.
Lemma handle_ok t p ls em x ls' : good ls -> kind t <> REoi -> handle t p ls = Some (em, x, None, ls') -> stepOK t ls ((if em then [t] else []) ++ x) ls'.
Proof.
  intros G NE. unfold handle, Indent.handle. rewrite KN. cbn [obind]. destruct (kind t) eqn:K; intros H.
  - injection H as H. unfold handleCommon in H. destruct (lsState ls) eqn:S; try discriminate.
    + injection H as <- <- <-. cbn [app]. eapply gives_step; [exact G|apply gives_set, pad_gives|left; reflexivity|reflexivity|reflexivity].
    + injection H as <- <- <-. cbn [app]. change (setState SIndented _) with (setState SIndented (snd (indent indentTok [t] ls))). eapply gives_step; [exact G|apply gives_set, indent_gives|left; reflexivity|reflexivity|reflexivity].
    + destruct (dedent dedentTok [t] ls) as (y, l) eqn:D. injection H as <- <- <-. cbn [app]. pose proof (dedent_gives ls [t] (gd_dec _ G S)) as DG. rewrite D in DG. cbn [fst snd] in DG. eapply gives_step; [exact G|apply gives_set, DG|left; reflexivity|reflexivity|reflexivity].
    + injection H as <- <- <-. cbn [app]. apply step_pass; auto.
  - assert (ET : isEmpty t = false) by (unfold IndentSpec.isEmpty; rewrite K; reflexivity).
    unfold handleSpace in H. set (cl := match stripNl (lText t) with Some c => (c, mkLs (lsStack ls) (lsValid ls) [] (lsSpaces ls) (if zlen (lsValid ls) =? 0 then SValid else SDec)) | None => (lText t, ls) end) in H. destruct cl as (content, ls1) eqn:CL.
    assert (H1 : lsStack ls1 = lsStack ls /\ lsSpaces ls1 = lsSpaces ls /\ lsValid ls1 = lsValid ls /\ (lsState ls1 = SIndented -> ls1 = ls)).
    { unfold cl in CL. destruct (stripNl (lText t)); injection CL as <- <-; (split; [reflexivity|split; [reflexivity|split; [reflexivity|]]]); [|reflexivity]. cbn [lsState]. destruct (_ =? _); discriminate. }
    clear CL cl. destruct H1 as (E1 & E2 & E3 & E4). destruct (isIndented (lsState ls1)) eqn:II.
    { assert (SI : lsState ls1 = SIndented) by (destruct (lsState ls1); try discriminate; reflexivity). pose proof (E4 SI) as Q. injection H as <- <- <-. rewrite Q. cbn [app]. apply step_pass; [exact G|left; rewrite <- Q; exact SI]. }
    set (ls2 := if isSideState (lsState ls1) then ls1 else adjustIndent content ls1) in H.
    assert (H2 : lsStack ls2 = lsStack ls /\ lsSpaces ls2 = lsSpaces ls /\ (lsState ls2 = SDec -> exists x, In x (lsStack ls2) /\ zlen x = zlen (lsCurrent ls2)) /\ lsState ls2 <> SIndented).
    { unfold ls2. destruct (isSideState (lsState ls1)) eqn:SS.
      - repeat split; auto; [intros Q; rewrite Q in SS; discriminate|intros Q; rewrite Q in II; discriminate].
      - split; [exact E1|]. split; [exact E2|]. split; [apply adjust_dec|apply adjust_ind]. }
    clearbody ls2. destruct H2 as (F1 & F2 & F3 & F4). destruct p as ([next|], [e|]); [discriminate| |discriminate|discriminate]. rewrite KN in H. cbn [obind] in H.
    set (ls3 := mkLs (lsStack ls2) (lsValid ls2) (lsCurrent ls2) (lsSpaces ls2 ++ [t]) (lsState ls2)) in H.
    assert (NT : nonEmpty [t] = [t] /\ empties [t] = []) by (cbn; rewrite ET; auto). destruct NT as (NT & NT').
    assert (G3 : good ls3). { constructor; cbn [ls3 lsState lsStack lsCurrent lsSpaces]; [exact F3|contradiction|]. rewrite F2. intros y Y. apply in_app_or in Y. destruct Y as [Y|[<-|[]]]; [apply (gd_spaces _ G), Y|exact ET]. }
    assert (GV : forall o l, gives ls3 [] o l -> lsState l = SIndented -> stepOK t ls o l).
    { intros o l (a & A & B & C & D & E) S. exists a. split; [exact A|]. split; [exact B|]. split; [constructor; [rewrite S; discriminate|intros _; exact E|rewrite E; intros z []]|]. split; [rewrite <- F1; exact C|]. rewrite D, E, !app_nil_r. cbn [ls3 lsSpaces]. rewrite F2. destruct (held [t] ls (gd_spaces _ G)) as (-> & ->). rewrite NT. auto. }
    destruct (negb (isCommon (kind next))).
    + injection H as <- <- <-. cbn [app]. exists []. split; [reflexivity|]. split; [intros m z []|]. split; [exact G3|]. split; [cbn; rewrite F1; reflexivity|]. split; [|rewrite NT'; reflexivity]. rewrite NT. cbn [ls3 lsSpaces]. rewrite F2. reflexivity.
    + assert (SE : lsState ls3 = lsState ls2) by reflexivity. destruct (lsState ls3) eqn:S.
      * injection H as <- <- <-. cbn [app]. apply GV; [apply gives_set, (pad_gives ls3 [])|reflexivity].
      * injection H as <- <- <-. cbn [app]. apply GV; [apply (gives_set _ _ _ (snd (indent indentTok [] ls3))), (indent_gives ls3 [])|reflexivity].
      * destruct (dedent dedentTok [] ls3) as (y, l) eqn:D. injection H as <- <- <-. cbn [app]. pose proof (dedent_gives ls3 [] (gd_dec _ G3 S)) as DG. rewrite D in DG. cbn [fst snd] in DG. apply GV; [apply gives_set, DG|reflexivity].
      * discriminate.
      * discriminate.
      * rewrite <- SE in F4. contradiction.
  - unfold handleSide in H. destruct (isIndented (lsState ls)) eqn:II.
    { injection H as <- <- <-. cbn [app]. apply step_pass; [exact G|left]. destruct (lsState ls); try discriminate. reflexivity. }
    assert (PG : stepOK t ls (fst (pad [t] (setState SSide ls))) (snd (pad [t] (setState SSide ls)))) by (eapply gives_step; [exact G|apply (pad_gives (setState SSide ls) [t])|right; left; reflexivity|reflexivity|reflexivity]).
    destruct p as ([next|], [e|]); [discriminate| |discriminate|].
    + rewrite KN in H. cbn [obind] in H. destruct (negb (isCommon (kind next))); [|discriminate]. injection H as <- <- <-. exact PG.
    + injection H as <- <- <-. exact PG.
  - injection H as <- <- <-. cbn [app]. apply step_pass; [exact G|right]. unfold IndentSpec.isEmpty. rewrite K. reflexivity.
  - contradiction.
Qed.
Lemma layerStep_ok t p ls o ls' : good ls -> kind t <> REoi -> layerStep t p ls = Some (o, None, ls') -> stepOK t ls o ls'.
Proof.
  intros G NE. unfold layerStep, Indent.layerStep. destruct (Z.eqb_spec (lType t) Lexer.EofTokenType) as [E|E].
  - intros H. injection H as <- <-. apply step_pass; [exact G|right]. unfold IndentSpec.isEmpty. assert (K : kind t = REmpty) by (apply empty_kind; rewrite E; split; [discriminate|left; reflexivity]). rewrite K. reflexivity.
  - destruct (Indent.handle indentTok dedentTok roles t p ls) as [[[[em x] e] ls1]|] eqn:HH; [|discriminate]. cbn [obind]. intros H. injection H as H -> ->. subst o. pose proof HH as HO. apply handle_ok in HO; [|exact G|exact NE].
    destruct (lType t <? 0) eqn:L; [|rewrite andb_false_r; exact HO].
    assert (K : kind t = REmpty) by (apply empty_kind; split; [intros Q; apply NE, eoi_kind, Q|left; apply Z.ltb_lt, L]).
    unfold Indent.handle in HH. rewrite KN, K in HH. cbn [obind] in HH. injection HH as <- <- <-. exact HO.
Qed.
Theorem run_balanced : forall s e pe ls o ls', good ls -> (forall t p, In (t, p) s -> kind t <> REoi) -> kind e = REoi -> run (s ++ [(e, pe)]) ls = Some (o, None, ls') ->
  exists a, o = map snd a ++ [e] /\ honest a /\ walk (length (lsStack ls)) a = Some 0%nat /\ nonEmpty (kept a) = lsSpaces ls ++ nonEmpty (map fst s ++ [e]) /\ empties (kept a) = empties (map fst s).
Proof.
  induction s as [|(t, p) s IH]; intros e pe ls o ls' G NE KE H.
  - cbn [app run Indent.run] in H. assert (ET : lType e = Lexer.EoiTokenType) by (apply eoi_kind, KE). unfold layerStep, Indent.layerStep in H. rewrite ET in H. change (Lexer.EoiTokenType =? Lexer.EofTokenType) with false in H. cbv iota in H. unfold Indent.handle in H. rewrite KN, KE in H. cbn [obind handleEoi pad] in H.
    change (negb false && (Lexer.EoiTokenType <? 0)) with true in H. cbv iota in H.
    assert (EE : isEmpty e = false) by (unfold IndentSpec.isEmpty; rewrite KE; reflexivity).
    exists (downs (lsStack ls) ++ keeps (lsSpaces ls ++ [e])). rewrite (map_app snd), snd_downs, snd_keeps, walk_app, kept_app, kept_downs, kept_keeps.
    replace (length (lsStack ls)) with (length (lsStack ls) + 0)%nat at 1 by lia. rewrite walk_downs, walk_keeps. cbn [map app fst].
    destruct (held [e] ls (gd_spaces _ G)) as (-> & ->). split; [|split; [apply honest_app; [apply honest_downs|apply honest_keeps]|split; [reflexivity|split; [reflexivity|]]]].
    + destruct (map (fun _ => dedentTok) (lsStack ls) ++ (lsSpaces ls ++ []) ++ [e]) as [|y l] eqn:Q; [apply app_eq_nil in Q; destruct Q as (_ & Q); apply app_eq_nil in Q; destruct Q; discriminate|]. injection H as <- _. rewrite app_nil_r in Q. cbn [app] in Q |- *. rewrite Q, app_nil_r. reflexivity.
    + cbn. rewrite EE. reflexivity.
  - cbn [app run Indent.run] in H. destruct (Indent.layerStep indentTok dedentTok roles t p ls) as [[[o1 [er|]] ls1]|] eqn:S; cbn [obind] in H; [discriminate| |discriminate].
    destruct (Indent.run indentTok dedentTok roles (s ++ [(e, pe)]) ls1) as [[[o2 e2] ls2]|] eqn:R; cbn [obind] in H; [|discriminate]. injection H as <- -> <-.
    apply layerStep_ok in S; [|exact G|apply (NE t p); left; reflexivity]. destruct S as (a & -> & A2 & A3 & A4 & A5 & A6). destruct (IH e pe ls1 o2 ls2 A3 (fun t p I => NE t p (or_intror I)) KE R) as (a' & -> & B2 & B3 & B4 & B5).
    exists (a ++ a'). rewrite map_app, walk_app, A4, kept_app, nonEmpty_app, empties_app, B4, A6, B5. split; [rewrite app_assoc; reflexivity|]. split; [apply honest_app; assumption|]. split; [exact B3|]. cbn [map app fst]. split.
    + rewrite app_assoc, A5, <- app_assoc. f_equal. change (t :: map fst s ++ [e]) with ([t] ++ (map fst s ++ [e])). rewrite !nonEmpty_app. reflexivity.
    + change (t :: map fst s) with ([t] ++ map fst s). rewrite empties_app. reflexivity.
Qed.
End P.
