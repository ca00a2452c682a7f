(** Proofs about hook layer indent: lines and levels. *)
From Coq Require Import String ZArith List Bool Lia Arith.
From Verif Require Import Base BaseProofs Grammar LangTypes StdLayers StdLayersSpec Indent IndentSpec IndentProofs.
From Verif Require Lexer LangText LangTextTotal.
Import ListNotations.
Local Open Scope list_scope.
Open Scope Z_scope.

(** ** Prefixes, chains of levels *)
Lemma hasPrefix_ok p : forall s, hasPrefix s p = true <-> exists x, s = p ++ x.
Proof.
  induction p as [|c p IH]; intros s; [split; [intros _; exists s; reflexivity|destruct s; reflexivity]|]. destruct s as [|d s]; cbn [hasPrefix]; [split; [discriminate|intros (x & X); discriminate]|].
  rewrite andb_true_iff, Z.eqb_eq, IH. split; [intros (-> & x & ->); exists x; reflexivity|intros (x & X); injection X as -> ->; split; [reflexivity|exists x; reflexivity]].
Qed.
Lemma hasPrefix_no s p : hasPrefix s p = false <-> forall x, s <> p ++ x.
Proof. rewrite <- not_true_iff_false, hasPrefix_ok. split; [intros H x X; apply H; eauto|intros H (x & X); exact (H x X)]. Qed.
(** each level is longer than the next one and starts with it *)
Fixpoint chain (lv : list name) : Prop :=
  match lv with
  | [] => False
  | i :: r => match r with [] => i = [] | j :: _ => (exists x, x <> [] /\ i = j ++ x) /\ chain r end
  end.
Lemma chain_in i r : chain (i :: r) -> forall j, In j r -> exists x, x <> [] /\ i = j ++ x.
Proof.
  revert i. induction r as [|k r IH]; intros i H j J; [destruct J|]. cbn [chain] in H. destruct H as ((x & X & ->) & H). destruct J as [->|J]; [eauto|]. destruct (IH k H j J) as (y & Y & ->). exists (y ++ x). split; [destruct y; [contradiction|discriminate]|symmetry; apply app_assoc].
Qed.
Lemma chain_tail p i r : chain (p ++ i :: r) -> chain (i :: r).
Proof. induction p as [|j p IH]; [auto|]. intros H. apply IH. destruct p as [|k p]; cbn [app] in *; apply H. Qed.
Lemma zlen_app {A} (a c : list A) : zlen (a ++ c) = zlen a + zlen c.
Proof. unfold zlen. rewrite app_length. lia. Qed.
Lemma zlen_pos {A} (a : list A) : a <> [] -> 0 < zlen a.
Proof. destruct a; [contradiction|]. intros _. unfold zlen. cbn [length]. lia. Qed.
Lemma zlen_nonneg {A} (a : list A) : 0 <= zlen a. Proof. unfold zlen. lia. Qed.
Lemma app_same_len {A} (a c x y : list A) : a ++ x = c ++ y -> zlen a = zlen c -> a = c.
Proof. revert c. induction a as [|z a IH]; intros [|w c] E L; unfold zlen in L; cbn [length] in L; try reflexivity; try lia. cbn in E. injection E as -> E. f_equal. apply (IH c E). unfold zlen. lia. Qed.

Lemma split_unique {A} (i : A) p : forall q a c, p ++ i :: a = q ++ i :: c -> ~ In i p -> ~ In i q -> p = q /\ a = c.
Proof.
  induction p as [|x p IH]; intros [|y q] a c E P Q; cbn in E.
  - injection E as ->. auto.
  - injection E as -> _. exfalso. apply Q. left. reflexivity.
  - injection E as -> _. exfalso. apply P. left. reflexivity.
  - injection E as -> E. destruct (IH q a c E) as (-> & ->); [intros X; apply P; right; exact X|intros X; apply Q; right; exact X|]. auto.
Qed.
Lemma in_split_last (x : Z) l : In x l -> exists p q, l = p ++ x :: q /\ ~ In x q.
Proof.
  induction l as [|y l IH]; intros I; [destruct I|]. destruct (in_dec Z.eq_dec x l) as [J|J].
  - destruct (IH J) as (p & q & -> & N). exists (y :: p), q. auto.
  - destruct I as [->|I]; [|contradiction]. exists [], l. auto.
Qed.
Section L.
Context {Pos PE : Type}.
Notation tok := (ltok Pos).
Notation lstate := (lstate Pos).
Variable indentTok dedentTok : tok.
Variable roles : list role.
Variable kind : tok -> role.
Hypothesis KN : forall t, roleOf roles t = Some (kind t).
Variable space side : Z -> Prop.
Hypothesis KS : kinds space side kind.
Notation run := (run (PE := PE) indentTok dedentTok roles).
Notation layerStep := (layerStep (PE := PE) indentTok dedentTok roles).
Notation isEmpty := (isEmpty kind).
Notation move := (move indentTok dedentTok).
Notation layout := (layout kind indentTok dedentTok).
Notation newline := (newline kind).
Notation placed := (placed kind).
Notation indentation := (indentation kind).
Notation downs := (downs dedentTok).

(** ** Moves between levels *)
Definition stateOf (v : name) (st : list name) (cur : name) : istate :=
  if zlen v <? zlen cur then (if hasPrefix cur v then SInc else SInvalid)
  else if hasPrefix v cur then
    (if zlen cur =? zlen v then SValid else if existsb (fun x => zlen x =? zlen cur) st then SDec else SInvalid)
  else SInvalid.
Definition amove (lv : list name) (i : name) : option (list (mark * tok) * list name) :=
  match lv with
  | [] => None
  | v :: st =>
      match stateOf v st i with
      | SValid => Some ([], v :: st)
      | SInc => Some ([(Up, indentTok)], i :: v :: st)
      | SDec => match dedentLoop dedentTok (zlen i) st with (d, Some r) => Some (downs d, i :: r) | _ => None end
      | _ => None
      end
  end.
Lemma stateOf_valid v st i : stateOf v st i = SValid <-> i = v.
Proof.
  unfold stateOf. split.
  - destruct (zlen v <? zlen i); [destruct (hasPrefix i v); discriminate|]. destruct (hasPrefix v i) eqn:H; [|discriminate]. destruct (Z.eqb_spec (zlen i) (zlen v)) as [E|E]; [|match goal with |- context [existsb ?f ?l] => destruct (existsb f l) end; discriminate]. intros _. apply hasPrefix_ok in H. destruct H as (x & ->). apply (app_same_len i (i ++ x) x []); [rewrite app_nil_r; reflexivity|exact E].
  - intros ->. rewrite Z.ltb_irrefl, Z.eqb_refl. replace (hasPrefix v v) with true by (symmetry; apply hasPrefix_ok; exists []; symmetry; apply app_nil_r). reflexivity.
Qed.
Lemma stateOf_inc v st i : stateOf v st i = SInc <-> exists x, x <> [] /\ i = v ++ x.
Proof.
  unfold stateOf. split.
  - destruct (Z.ltb_spec (zlen v) (zlen i)) as [L|L]; [destruct (hasPrefix i v) eqn:H; [|discriminate]|destruct (hasPrefix v i); [destruct (_ =? _); [discriminate|match goal with |- context [existsb ?f ?l] => destruct (existsb f l) end; discriminate]|discriminate]]. intros _. apply hasPrefix_ok in H. destruct H as (x & ->). exists x. split; [|reflexivity]. intros ->. rewrite app_nil_r in L. lia.
  - intros (x & X & ->). apply zlen_pos in X. replace (zlen v <? zlen (v ++ x)) with true by (symmetry; apply Z.ltb_lt; rewrite zlen_app; lia). replace (hasPrefix (v ++ x) v) with true by (symmetry; apply hasPrefix_ok; eauto). reflexivity.
Qed.
Lemma stateOf_dec v st i : chain (v :: st) -> (stateOf v st i = SDec <-> In i st).
Proof.
  intros C. split.
  - unfold stateOf. destruct (zlen v <? zlen i); [destruct (hasPrefix i v); discriminate|]. destruct (hasPrefix v i) eqn:H; [|discriminate]. destruct (zlen i =? zlen v); [discriminate|]. match goal with |- context [existsb ?f ?l] => destruct (existsb f l) eqn:X end; [|discriminate]. intros _. apply existsb_exists in X. destruct X as (x & I & E). apply Z.eqb_eq in E. apply hasPrefix_ok in H. destruct H as (y & H). destruct (chain_in _ _ C x I) as (z & _ & Z). rewrite H in Z. rewrite (app_same_len i x y z); auto.
  - intros I. destruct (chain_in _ _ C i I) as (x & X & ->). unfold stateOf. apply zlen_pos in X. rewrite zlen_app. replace (zlen i + zlen x <? zlen i) with false by (symmetry; apply Z.ltb_ge; lia). replace (hasPrefix (i ++ x) i) with true by (symmetry; apply hasPrefix_ok; eauto). replace (zlen i =? zlen i + zlen x) with false by (symmetry; apply Z.eqb_neq; lia).
    match goal with |- context [existsb ?f ?l] => replace (existsb f l) with true; [reflexivity|] end. symmetry. apply existsb_exists. exists i. split; [exact I|apply Z.eqb_refl].
Qed.
Lemma move_chain lv i ins lv' : chain lv -> move lv i ins lv' -> chain lv' /\ exists st, lv' = i :: st.
Proof.
  intros C M. destruct M as [i lv|i x lv X|i d lv D N].
  - eauto.
  - split; [|eauto]. change (chain ((i ++ x) :: i :: lv)) with ((exists y, y <> [] /\ i ++ x = i ++ y) /\ chain (i :: lv)). eauto.
  - split; [|eauto]. apply (chain_tail d), C.
Qed.
Lemma chain_nodup i r : chain (i :: r) -> ~ In i r.
Proof. intros C I. destruct (chain_in _ _ C i I) as (x & X & E). apply X. apply (app_inv_head i). rewrite app_nil_r. auto. Qed.
Lemma dedentLoop_in l : forall st d r, dedentLoop dedentTok l st = (d, Some r) -> exists p x, st = p ++ x :: r /\ zlen x = l /\ d = map (fun _ => dedentTok) (p ++ [x]).
Proof.
  induction st as [|y st IH]; cbn [dedentLoop]; intros d r H; [discriminate|]. destruct (Z.eqb_spec (zlen y) l) as [E|E].
  - injection H as <- <-. exists [], y. auto.
  - destruct (dedentLoop dedentTok l st) as (d', o). injection H as <- ->. destruct (IH d' r eq_refl) as (p & x & -> & L & ->). exists (y :: p), x. auto.
Qed.
Lemma map_const {A B C} (f : C) (l : list A) (m : list B) : length l = length m -> map (fun _ => f) l = map (fun _ => f) m.
Proof. revert m. induction l as [|x l IH]; intros [|y m] H; cbn in H; try discriminate; [reflexivity|]. cbn. f_equal. apply IH. lia. Qed.
Lemma amove_ok lv i ins lv' : chain lv -> (amove lv i = Some (ins, lv') <-> move lv i ins lv').
Proof.
  intros C. destruct lv as [|v st]; [destruct C|]. cbn [amove]. split.
  - intros H. destruct (stateOf v st i) eqn:S; try discriminate.
    + apply stateOf_valid in S. subst v. injection H as <- <-. constructor.
    + apply stateOf_inc in S. destruct S as (x & X & ->). injection H as <- <-. constructor. exact X.
    + apply (stateOf_dec _ _ _ C) in S. destruct (dedentLoop dedentTok (zlen i) st) as (d, [r|]) eqn:D; [|discriminate]. injection H as <- <-. apply dedentLoop_in in D. destruct D as (p & x & -> & L & ->).
      assert (x = i). { destruct (chain_in _ _ C i S) as (z & _ & Z). destruct (chain_in _ _ C x) as (y & _ & Y); [apply in_or_app; right; left; reflexivity|]. rewrite Z in Y. rewrite (app_same_len i x z y); auto. } subst x.
      replace (downs (map (fun _ => dedentTok) (p ++ [i]))) with (map (fun _ => (Down, dedentTok)) (v :: p)) by (unfold IndentProofs.downs; rewrite map_map; apply map_const; rewrite app_length; cbn; lia).
      change (v :: p ++ i :: r) with ((v :: p) ++ i :: r). constructor; [discriminate|]. intros Q.
      clear - Q C. change (v :: p ++ i :: r) with ((v :: p) ++ i :: r) in C. apply in_split in Q. destruct Q as (a & c & Q). rewrite Q in C. rewrite <- app_assoc in C. apply chain_tail in C. apply chain_nodup in C. apply C. apply in_or_app. right. left. reflexivity.
  - intros M. inversion M; subst.
    + rewrite (proj2 (stateOf_valid _ _ _) eq_refl). reflexivity.
    + rewrite (proj2 (stateOf_inc v st (v ++ x))); [reflexivity|eauto].
    + destruct d as [|v' p]; [contradiction|]. cbn [app] in H. injection H as -> <-.
      rewrite (proj2 (stateOf_dec _ _ i C)); [|apply in_or_app; right; left; reflexivity].
      destruct (dedentLoop_ok dedentTok (zlen i) (p ++ i :: lv)) as (p2 & x & r & E & L & D & N); [exists i; split; [apply in_or_app; right; left; reflexivity|reflexivity]|]. rewrite D.
      assert (x = i). { destruct (chain_in _ _ C i) as (z & _ & Z); [apply in_or_app; right; left; reflexivity|]. destruct (chain_in _ _ C x) as (y & _ & Y); [rewrite E; apply in_or_app; right; left; reflexivity|]. rewrite Z in Y. symmetry. apply (app_same_len i x z y); auto. } subst x.
      assert (p2 = p /\ r = lv). { apply (split_unique i); auto. - intros Q. apply (N _ Q eq_refl). - intros Q. apply H1. right. exact Q. } 
      destruct H as (-> & ->). f_equal. f_equal. unfold IndentProofs.downs. rewrite map_map. apply map_const. rewrite app_length. cbn. rewrite Nat.add_1_r. reflexivity.
Qed.

(** ** The layer as a machine that does not look ahead *)
Lemma stripNl_some c s : stripNl c = Some s <-> exists p, c = p ++ 10 :: s /\ ~ In 10 s.
Proof.
  revert s. induction c as [|x c IH]; intros s; cbn [stripNl]; [split; [discriminate|intros ([|y p] & E & _); discriminate]|]. destruct (stripNl c) as [s'|] eqn:S.
  - split.
    + intros H. injection H as <-. destruct (proj1 (IH s') eq_refl) as (p & -> & N). exists (x :: p). auto.
    + intros (p & E & N). destruct p as [|y p]; cbn in E; injection E as -> E.
      * subst c. destruct (proj1 (IH s') eq_refl) as (p & -> & _). destruct N. apply in_or_app. right. left. reflexivity.
      * apply IH. eauto.
  - destruct (Z.eqb_spec x 10) as [->|X].
    + split.
      * intros H. injection H as <-. exists []. split; [reflexivity|]. intros I. apply (in_split_last 10) in I. destruct I as (p & q & E & N). discriminate (proj2 (IH q)). eauto.
      * intros (p & E & N). destruct p as [|y p]; cbn in E; inversion E; subst; [reflexivity|]. discriminate (proj2 (IH s)). eauto.
    + split; [discriminate|]. intros (p & E & N). destruct p as [|y p]; cbn in E; inversion E; subst; [congruence|]. apply IH. eauto.
Qed.
Lemma newline_ok t s : newline t s <-> kind t = RSpace /\ stripNl (lText t) = Some s.
Proof. unfold IndentSpec.newline. rewrite stripNl_some. tauto. Qed.
Inductive bstate := Quiet | Line (i : option name) (pend : list tok).
Definition pendOf (bs : bstate) : list tok := match bs with Quiet => [] | Line _ p => p end.
Definition bstep (bs : bstate) (t : tok) : list tok * bstate :=
  match kind t, bs with
  | RSpace, Quiet => match stripNl (lText t) with Some s => ([], Line (Some s) [t]) | None => ([t], Quiet) end
  | RSpace, Line i pend => ([], Line (match stripNl (lText t) with Some s => Some s | None => option_map (fun i => i ++ lText t) i end) (pend ++ [t]))
  | RSide, Line i pend => (pend ++ [t], Line None [])
  | _, _ => ([t], bs)
  end.
Definition acommon (lv : list name) (bs : bstate) : option (list (mark * tok) * list name) :=
  match bs with
  | Quiet => Some ([], lv)
  | Line (Some i) _ => amove lv i
  | Line None _ => None
  end.
Fixpoint arun (ts : list tok) (lv : list name) (bs : bstate) : option (list (mark * tok)) :=
  match ts with
  | [] => Some []
  | t :: r =>
      match kind t with
      | REoi => Some (downs (tl lv) ++ keeps (pendOf bs ++ [t]))
      | RCommon => do x <- acommon lv bs ; do a <- arun r (snd x) Quiet ; Some (fst x ++ keeps (pendOf bs ++ [t]) ++ a)
      | _ => do a <- arun r lv (snd (bstep bs t)) ; Some (keeps (fst (bstep bs t)) ++ a)
      end
  end.
Definition rel (ls : lstate) (lv : list name) (bs : bstate) : Prop :=
  lv = lsValid ls :: lsStack ls /\ lsSpaces ls = pendOf bs /\
  match bs with
  | Quiet => lsState ls = SIndented
  | Line (Some i) _ => lsCurrent ls = i /\ lsState ls = stateOf (lsValid ls) (lsStack ls) i
  | Line None _ => lsState ls = SSide
  end.
Lemma plain_type t : kind t <> REmpty -> kind t <> REoi -> 0 <= lType t.
Proof. intros A B. destruct (Z.lt_ge_cases (lType t) 0) as [L|L]; [|exact L]. exfalso. apply A, (empty_kind _ _ _ KS). split; [|left; exact L]. intros E. apply B, (eoi_kind _ _ _ KS), E. Qed.
Lemma layerStep_plain t p ls : kind t <> REmpty -> kind t <> REoi -> layerStep t p ls = do x <- handle indentTok dedentTok roles t p ls ; let '(emit, extra, e, ls) := x in Some ((if emit then [t] else []) ++ extra, e, ls).
Proof.
  intros A B. pose proof (plain_type t A B) as L. unfold Indent.layerStep. replace (lType t =? Lexer.EofTokenType) with false by (symmetry; apply Z.eqb_neq; unfold Lexer.EofTokenType; lia). replace (lType t <? 0) with false by (symmetry; apply Z.ltb_ge; lia).
  destruct (handle indentTok dedentTok roles t p ls) as [[[[em x] e] l]|]; [|reflexivity]. cbn [obind]. rewrite andb_false_r. reflexivity.
Qed.
Lemma step_empty t p ls : kind t = REmpty -> layerStep t p ls = Some ([t], None, ls).
Proof.
  intros K. unfold Indent.layerStep, handle. rewrite KN, K. destruct (lType t =? Lexer.EofTokenType); reflexivity.
Qed.
Definition common_ok (t : tok) (ls : lstate) (lv : list name) (bs : bstate) (pre : list tok) (r : option (list tok * option (indentError Pos PE) * lstate)) : Prop :=
  match acommon lv bs with
  | Some (ins, lv') => exists ls', r = Some (map snd ins ++ pre, None, ls') /\ rel ls' lv' Quiet
  | None => exists o ls', r = Some (o, Some (WrongToken t), ls')
  end.
(** giving out in a state that stands for a line *)
Definition flush (t : tok) (ts : list tok) (ls : lstate) : list tok * option (indentError Pos PE) * lstate :=
  match lsState ls with
  | SIndented => (ts, None, ls)
  | SValid => let (x, ls) := pad ts ls in (x, None, setState SIndented ls)
  | SInc => let (x, ls) := indent indentTok ts ls in (x, None, setState SIndented ls)
  | SDec => let (x, ls) := dedent dedentTok ts ls in (x, None, setState SIndented ls)
  | SInvalid | SSide => let (x, ls) := pad ts ls in (x, Some (WrongToken t), ls)
  end.
Lemma flush_ok t ts ls lv bs : chain lv -> rel ls lv bs -> common_ok t ls lv bs (pendOf bs ++ ts) (Some (flush t ts ls)).
Proof.
  intros C (-> & SP & R). unfold common_ok, acommon, flush. destruct bs as [|[i|] pend]; cbn [pendOf] in *.
  - rewrite R. cbn. exists ls. split; [reflexivity|]. repeat split; auto.
  - destruct R as (CU & ST). cbn [amove]. rewrite ST. destruct (stateOf (lsValid ls) (lsStack ls) i) eqn:S.
    + cbn. rewrite SP. eexists. split; [reflexivity|]. repeat split.
    + cbn. rewrite SP, CU. eexists. split; [reflexivity|]. repeat split.
    + unfold dedent. rewrite CU. apply (stateOf_dec _ _ _ C) in S. destruct (dedentLoop_ok dedentTok (zlen i) (lsStack ls)) as (p & x & r & E & L & D & N); [exists i; auto|]. rewrite D. cbn. rewrite SP. eexists. split; [unfold IndentProofs.downs; rewrite !map_map; reflexivity|repeat split].
    + destruct (pad ts ls) as (x, l). eauto.
    + destruct (pad ts ls) as (x, l). eauto.
    + exfalso. unfold stateOf in S. destruct (_ <? _); [destruct (hasPrefix _ _); discriminate|]. destruct (hasPrefix _ _); [|discriminate]. destruct (_ =? _); [discriminate|]. match goal with H : context [existsb ?f ?l] |- _ => destruct (existsb f l); discriminate end.
  - rewrite R. destruct (pad ts ls) as (x, l). eauto.
Qed.
Lemma step_common t p ls lv bs : kind t = RCommon -> chain lv -> rel ls lv bs -> common_ok t ls lv bs (pendOf bs ++ [t]) (layerStep t p ls).
Proof.
  intros K C R. rewrite layerStep_plain by congruence. unfold handle. rewrite KN, K. cbn [obind]. pose proof (flush_ok t [t] ls lv bs C R) as F. unfold flush in F. unfold handleCommon. destruct (lsState ls); try exact F.
  destruct (dedent dedentTok [t] ls). exact F.
Qed.
Lemma adjust_ok c (ls : lstate) : exists cur, cur = lsCurrent ls ++ c /\ adjustIndent c ls = mkLs (lsStack ls) (lsValid ls) cur (lsSpaces ls) (stateOf (lsValid ls) (lsStack ls) cur).
Proof. exists (lsCurrent ls ++ c). split; [reflexivity|]. unfold adjustIndent. destruct (lsCurrent ls); reflexivity. Qed.
Lemma stateOf_no v st i : stateOf v st i <> SIndented /\ stateOf v st i <> SSide.
Proof. unfold stateOf. destruct (_ <? _); [destruct (hasPrefix _ _); split; discriminate|]. destruct (hasPrefix _ _); [|split; discriminate]. destruct (_ =? _); [split; discriminate|]. match goal with |- context [existsb ?f ?l] => destruct (existsb f l); split; discriminate end. Qed.
Lemma rel_line ls lv i pend : rel ls lv (Line i pend) -> lsState ls <> SIndented /\ isSideState (lsState ls) = match i with Some _ => false | None => true end.
Proof.
  intros (_ & _ & H). destruct i as [i|].
  - destruct H as (_ & ->). destruct (stateOf_no (lsValid ls) (lsStack ls) i) as (A & B). split; [exact A|]. destruct (stateOf _ _ i); try reflexivity. contradiction.
  - rewrite H. split; [discriminate|reflexivity].
Qed.
Definition spaceEnd (t n : tok) (ls : lstate) : option (bool * list tok * option (indentError Pos PE) * lstate) :=
  let ls := mkLs (lsStack ls) (lsValid ls) (lsCurrent ls) (lsSpaces ls ++ [t]) (lsState ls) in
  do r <- roleOf roles n ;
  if negb (isCommon r) then Some (false, [], None, ls)
  else Some (match lsState ls with
  | SValid => let (x, ls) := pad [] ls in (false, x, None, setState SIndented ls)
  | SInvalid | SSide => let (x, ls) := pad [] ls in (false, x, Some (WrongToken t), ls)
  | SInc => let (x, ls) := indent indentTok [] ls in (false, x, None, setState SIndented ls)
  | SDec => let (x, ls) := dedent dedentTok [] ls in (false, x, None, setState SIndented ls)
  | SIndented => (false, [], None, ls)
  end).
Lemma spaceEnd_ok t n ls lv i pend : chain lv -> rel (mkLs (lsStack ls) (lsValid ls) (lsCurrent ls) (lsSpaces ls ++ [t]) (lsState ls)) lv (Line i pend) ->
  let r := do x <- spaceEnd t n ls ; let '(emit, extra, e, ls) := x in Some ((if emit then [t] else []) ++ extra, e, ls) in
  if isCommon (kind n) then common_ok t ls lv (Line i pend) pend r else exists ls', r = Some ([], None, ls') /\ rel ls' lv (Line i pend).
Proof.
  unfold spaceEnd. set (ls2 := mkLs (lsStack ls) (lsValid ls) (lsCurrent ls) (lsSpaces ls ++ [t]) (lsState ls)). intros C R. rewrite KN. cbn [obind]. destruct (isCommon (kind n)); cbn [negb obind app]; [|eauto].
  pose proof (flush_ok t [] ls2 _ _ C R) as F. pose proof (rel_line _ _ _ _ R) as (NI & _). unfold flush in F. unfold common_ok in *. cbn [pendOf] in F. rewrite app_nil_r in F. destruct (lsState ls2); try exact F.
  destruct (dedent dedentTok [] ls2). exact F.
Qed.
(** a space token, when the next one is common, when it is not *)
Lemma step_space t n ls lv bs : kind t = RSpace -> chain lv -> rel ls lv bs ->
  if isCommon (kind n) then common_ok t ls lv (snd (bstep bs t)) (fst (bstep bs t) ++ pendOf (snd (bstep bs t))) (layerStep t (Some n, None) ls)
  else exists ls', layerStep t (Some n, None) ls = Some (fst (bstep bs t), None, ls') /\ rel ls' lv (snd (bstep bs t)).
Proof.
  intros K C R. rewrite layerStep_plain by congruence. unfold handle. rewrite KN, K. cbn [obind]. unfold handleSpace, bstep. rewrite K.
  destruct (stripNl (lText t)) as [s|] eqn:NL.
  - cbn [lsState]. assert (Q : isIndented (if zlen (lsValid ls) =? 0 then SValid else SDec) = false /\ isSideState (if zlen (lsValid ls) =? 0 then SValid else SDec) = false) by (destruct (_ =? _); auto). destruct Q as (-> & ->).
    destruct (adjust_ok s (mkLs (lsStack ls) (lsValid ls) [] (lsSpaces ls) (if zlen (lsValid ls) =? 0 then SValid else SDec))) as (cur & EC & ->). cbn [lsStack lsValid lsCurrent lsSpaces app] in EC |- *. subst cur.
    destruct R as (-> & SP & _). match goal with |- context [roleOf roles n] => idtac end.
    assert (G : forall bs', snd bs' = Line (Some s) (pendOf bs ++ [t]) -> fst bs' = [] -> 
      if isCommon (kind n) then common_ok t ls (lsValid ls :: lsStack ls) (snd bs') (fst bs' ++ pendOf (snd bs')) (do x <- spaceEnd t n (mkLs (lsStack ls) (lsValid ls) s (lsSpaces ls) (stateOf (lsValid ls) (lsStack ls) s)) ; let '(emit, extra, e, ls) := x in Some ((if emit then [t] else []) ++ extra, e, ls))
      else exists ls', (do x <- spaceEnd t n (mkLs (lsStack ls) (lsValid ls) s (lsSpaces ls) (stateOf (lsValid ls) (lsStack ls) s)) ; let '(emit, extra, e, ls) := x in Some ((if emit then [t] else []) ++ extra, e, ls)) = Some (fst bs', None, ls') /\ rel ls' (lsValid ls :: lsStack ls) (snd bs')).
    { intros bs' -> ->. apply (spaceEnd_ok t n (mkLs (lsStack ls) (lsValid ls) s (lsSpaces ls) (stateOf (lsValid ls) (lsStack ls) s)) (lsValid ls :: lsStack ls) (Some s) (pendOf bs ++ [t]) C). cbn [lsStack lsValid lsCurrent lsSpaces lsState]. rewrite SP. repeat split. }
    destruct bs as [|i pend]; apply G; reflexivity.
  - destruct bs as [|i pend].
    + destruct R as (-> & SP & ST). rewrite ST. cbn [isIndented obind fst snd pendOf app]. destruct (isCommon (kind n)).
      * unfold common_ok. cbn. exists ls. split; [reflexivity|]. repeat split; auto.
      * exists ls. split; [reflexivity|]. repeat split; auto.
    + pose proof (rel_line _ _ _ _ R) as (NI & SS). replace (isIndented (lsState ls)) with false by (destruct (lsState ls); (reflexivity || contradiction)). rewrite SS. destruct R as (-> & SP & ST). cbn [pendOf] in SP. destruct i as [i|]; cbn [option_map fst snd pendOf].
      * destruct (adjust_ok (lText t) ls) as (cur & EC & ->). destruct ST as (CU & ST). rewrite CU in EC. subst cur.
        apply (spaceEnd_ok t n (mkLs (lsStack ls) (lsValid ls) (i ++ lText t) (lsSpaces ls) (stateOf (lsValid ls) (lsStack ls) (i ++ lText t))) (lsValid ls :: lsStack ls) (Some (i ++ lText t)) (pend ++ [t]) C). cbn [lsStack lsValid lsCurrent lsSpaces lsState]. rewrite SP. repeat split.
      * apply (spaceEnd_ok t n ls (lsValid ls :: lsStack ls) None (pend ++ [t]) C). rewrite SP. repeat split. exact ST.
Qed.
Lemma step_side t n ls lv bs : kind t = RSide -> rel ls lv bs ->
  if isCommon (kind n) then common_ok t ls lv (snd (bstep bs t)) (fst (bstep bs t) ++ pendOf (snd (bstep bs t))) (layerStep t (Some n, None) ls)
  else exists ls', layerStep t (Some n, None) ls = Some (fst (bstep bs t), None, ls') /\ rel ls' lv (snd (bstep bs t)).
Proof.
  intros K R. rewrite layerStep_plain by congruence. unfold handle. rewrite KN, K. cbn [obind]. unfold handleSide, bstep. rewrite K. destruct bs as [|i pend].
  - destruct R as (-> & SP & ST). rewrite ST. cbn. destruct (isCommon (kind n)); [unfold common_ok; cbn|]; exists ls; (split; [reflexivity|]; repeat split; auto).
  - pose proof (rel_line _ _ _ _ R) as (NI & SS). replace (isIndented (lsState ls)) with false by (destruct (lsState ls); (reflexivity || contradiction)). rewrite KN. cbn [obind fst snd]. destruct (isCommon (kind n)); cbn [negb].
    + unfold common_ok. cbn. eauto.
    + destruct R as (-> & SP & ST). cbn [pendOf] in SP. cbn. rewrite SP. eexists. split; [reflexivity|]. repeat split.
Qed.
(** ** The layer is the machine *)
Notation truePeeks := (truePeeks kind).
Definition machine_ok (s : list (tok * (option tok * option PE))) (e : tok) (pe : option tok * option PE) (ls : lstate) (lv : list name) (bs : bstate) : Prop :=
  match arun (map fst s ++ [e]) lv bs with
  | Some a => exists ls', run (s ++ [(e, pe)]) ls = Some (map snd a ++ [e], None, ls')
  | None => exists o t ls', run (s ++ [(e, pe)]) ls = Some (o, Some (WrongToken t), ls') /\ In t (map fst s)
  end.
Lemma machine_step t p s e pe ls lv bs o1 ls1 lv1 bs1 a1 : layerStep t p ls = Some (o1, None, ls1) -> o1 = map snd a1 ->
  arun (t :: map fst s ++ [e]) lv bs = (do a <- arun (map fst s ++ [e]) lv1 bs1 ; Some (a1 ++ a)) -> machine_ok s e pe ls1 lv1 bs1 -> machine_ok ((t, p) :: s) e pe ls lv bs.
Proof.
  intros S O A M. unfold machine_ok in *. cbn [map fst app Indent.run]. rewrite A, S. cbn [obind]. destruct (arun (map fst s ++ [e]) lv1 bs1) as [a|]; cbn [obind].
  - destruct M as (ls' & ->). cbn [obind]. exists ls'. rewrite map_app, <- app_assoc, O. reflexivity.
  - destruct M as (o & t' & ls' & -> & I). cbn [obind]. exists (o1 ++ o), t', ls'. split; [reflexivity|right; exact I].
Qed.
Lemma machine_end e pe ls lv bs : rel ls lv bs -> kind e = REoi -> machine_ok [] e pe ls lv bs.
Proof.
  intros (-> & SP & _) KE. unfold machine_ok. cbn [map app arun Indent.run]. rewrite KE. assert (ET : lType e = Lexer.EoiTokenType) by (apply (eoi_kind _ _ _ KS), KE). unfold Indent.layerStep, handle. rewrite ET, KN, KE. change (Lexer.EoiTokenType =? Lexer.EofTokenType) with false. cbn [obind handleEoi pad]. change (negb false && (Lexer.EoiTokenType <? 0)) with true. cbv iota.
  rewrite SP, app_nil_r. destruct (map (fun _ => dedentTok) (lsStack ls) ++ pendOf bs ++ [e]) as [|y l] eqn:Q; [apply app_eq_nil in Q; destruct Q as (_ & Q); apply app_eq_nil in Q; destruct Q; discriminate|].
  cbn [obind app tl]. eexists. rewrite (map_app snd), snd_downs, snd_keeps, app_nil_r, Q. reflexivity.
Qed.
(** a token that waits for a common one *)
Lemma machine_wait n t p s e pe ls lv bs : (forall s e pe ls lv bs, (length s <= n)%nat -> chain lv -> rel ls lv bs -> (forall t, In t (map fst s) -> kind t <> REoi) -> kind e = REoi -> truePeeks (s ++ [(e, pe)]) -> machine_ok s e pe ls lv bs) ->
  (length s <= n)%nat -> chain lv -> (forall t, In t (map fst s) -> kind t <> REoi) -> kind e = REoi -> truePeeks (s ++ [(e, pe)]) ->
  kind t = RSpace \/ kind t = RSide ->
  (exists n, p = (Some n, None) /\ (kind n = RCommon -> exists c pc r', s ++ [(e, pe)] = (c, pc) :: r' /\ kind c = RCommon)) ->
  (forall n, if isCommon (kind n) then common_ok t ls lv (snd (bstep bs t)) (fst (bstep bs t) ++ pendOf (snd (bstep bs t))) (layerStep t (Some n, None) ls)
    else exists ls', layerStep t (Some n, None) ls = Some (fst (bstep bs t), None, ls') /\ rel ls' lv (snd (bstep bs t))) -> machine_ok ((t, p) :: s) e pe ls lv bs.
Proof.
  intros IH LN C NEs KE TPr K (nx & -> & PK) ST. specialize (ST nx).
  assert (A : forall r, arun (t :: r) lv bs = do a <- arun r lv (snd (bstep bs t)) ; Some (keeps (fst (bstep bs t)) ++ a)) by (intros r; cbn [arun]; destruct K as [K|K]; rewrite K; reflexivity).
  destruct (isCommon (kind nx)) eqn:IC.
  - assert (KX : kind nx = RCommon) by (destruct (kind nx); try discriminate; reflexivity). destruct (PK KX) as (c & pc & r' & ES & KC). destruct s as [|(c', pc') s]; cbn [app] in ES; injection ES as -> -> ES; [congruence|]. cbn [length] in LN. cbn [app truePeeks] in TPr. destruct TPr as (_ & TPr).
    set (bs' := snd (bstep bs t)) in *. set (o := fst (bstep bs t)) in *. unfold common_ok in ST. destruct (acommon lv bs') as [(ins, lv')|] eqn:AC.
    + destruct ST as (ls' & ST & R'). assert (C' : chain lv') by (destruct bs' as [|[i|] pend]; cbn [acommon] in AC; [injection AC as <- <-; exact C| |discriminate]; apply (amove_ok _ _ _ _ C) in AC; apply (move_chain _ _ _ _ C AC)).
      assert (M : machine_ok ((c, pc) :: s) e pe ls' lv' Quiet).
      { apply IH; auto. cbn [app truePeeks]. split; [intros [Q|Q]; congruence|exact TPr]. }
      unfold machine_ok in *. cbn [map fst app Indent.run] in M |- *. rewrite A. fold bs' o. rewrite ST. cbn [obind].
      assert (A1 : arun (c :: map fst s ++ [e]) lv bs' = do a <- arun (map fst s ++ [e]) lv' Quiet ; Some (ins ++ keeps (pendOf bs' ++ [c]) ++ a)) by (cbn [arun]; rewrite KC, AC; reflexivity).
      assert (A2 : arun (c :: map fst s ++ [e]) lv' Quiet = do a <- arun (map fst s ++ [e]) lv' Quiet ; Some ((Kept, c) :: a)) by (cbn [arun]; rewrite KC; reflexivity).
      rewrite A1. rewrite A2 in M. destruct (arun (map fst s ++ [e]) lv' Quiet) as [a|]; cbn [obind] in M |- *.
      * destruct M as (l & ->). cbn [obind]. exists l. f_equal. f_equal. f_equal.
        assert (OP : o ++ pendOf bs' = pendOf bs' \/ ins = [] /\ pendOf bs' = []).
        { unfold o, bs'. unfold o, bs' in AC. unfold bstep in *. destruct K as [K|K]; rewrite K in *; destruct bs as [|i pend]; try (left; reflexivity).
          - destruct (stripNl (lText t)); [left; reflexivity|]. cbn in AC |- *. injection AC as <- <-. auto.
          - cbn in AC |- *. injection AC as <- <-. auto.
          - cbn in AC. discriminate. }
        assert (OI : map snd ins ++ o ++ pendOf bs' = o ++ map snd ins ++ pendOf bs').
        { destruct OP as [OP|(-> & ->)]; [|reflexivity]. assert (O : o = []) by (apply (app_inv_tail (pendOf bs')); exact OP). rewrite O. reflexivity. }
        rewrite OI, !map_app, !snd_keeps. cbn [map snd]. rewrite <- !app_assoc. reflexivity.
      * destruct M as (o2 & t' & l & -> & I). cbn [obind]. eexists _, t', l. split; [reflexivity|right; exact I].
    + destruct ST as (o1 & ls' & ST). unfold machine_ok. cbn [map fst app Indent.run]. rewrite A. fold bs' o. replace (arun (c :: map fst s ++ [e]) lv bs') with (@None (list (mark * tok))) by (cbn [arun]; rewrite KC, AC; reflexivity). rewrite ST. cbn [obind]. exists [], t, ls'. split; [reflexivity|left; reflexivity].
  - destruct ST as (ls' & ST & R'). eapply (machine_step _ _ _ _ _ _ _ _ _ ls' lv (snd (bstep bs t)) (keeps (fst (bstep bs t)))); [exact ST|symmetry; apply snd_keeps|apply A|apply IH; auto].
Qed.
Lemma machine n : forall s e pe ls lv bs, (length s <= n)%nat -> chain lv -> rel ls lv bs -> (forall t, In t (map fst s) -> kind t <> REoi) -> kind e = REoi -> truePeeks (s ++ [(e, pe)]) -> machine_ok s e pe ls lv bs.
Proof.
  induction n as [|n IH]; intros s e pe ls lv bs LN C R NE KE TP.
  all: destruct s as [|(t, p) s]; [apply machine_end; assumption|try (cbn [length] in LN; lia)].
  cbn [length] in LN. cbn [app truePeeks] in TP. destruct TP as (TP & TPr).
  assert (NEt : kind t <> REoi) by (apply NE; left; reflexivity). assert (NEs : forall t, In t (map fst s) -> kind t <> REoi) by (intros x X; apply NE; right; exact X).
  destruct (kind t) eqn:K; [| | | |contradiction].
  - pose proof (step_common t p ls lv bs K C R) as S. unfold common_ok in S. destruct (acommon lv bs) as [(ins, lv')|] eqn:AC.
    + destruct S as (ls' & S & R'). eapply (machine_step _ _ _ _ _ _ _ _ _ ls' lv' Quiet (ins ++ keeps (pendOf bs ++ [t]))); [exact S|rewrite map_app, snd_keeps; reflexivity| |apply IH; auto; [lia|]].
      * cbn [arun]. rewrite K, AC. cbn [obind fst snd]. destruct (arun (map fst s ++ [e]) lv' Quiet); cbn [obind]; [rewrite app_assoc|]; reflexivity.
      * destruct bs as [|[i|] pend]; cbn [acommon] in AC; [injection AC as <- <-; exact C| |discriminate]. apply (amove_ok _ _ _ _ C) in AC. apply (move_chain _ _ _ _ C AC).
    + destruct S as (o & ls' & S). unfold machine_ok. cbn [map fst app arun Indent.run]. rewrite K, AC, S. cbn [obind]. exists [], t, ls'. split; [reflexivity|left; reflexivity].
  - apply (machine_wait n); auto; try lia. intros nx. apply step_space; auto.
  - apply (machine_wait n); auto; try lia. intros nx. apply step_side; auto.
  - eapply (machine_step _ _ _ _ _ _ _ _ _ ls lv bs [(Kept, t)]); [apply step_empty, K|reflexivity| |apply IH; auto; lia]. cbn [arun]. unfold bstep. rewrite K. reflexivity.
Qed.

(** ** Tokens with no text change nothing *)
Notation solidb := (solidb kind).
Notation solid := (solid kind).
Notation nonEmpty := (nonEmpty kind).
Lemma solid_empty t a : isEmpty t = true -> solid ((Kept, t) :: a) = solid a.
Proof. intros E. unfold IndentSpec.solid. cbn [filter]. unfold IndentSpec.solidb at 1. cbn [snd isKept fst]. rewrite E. reflexivity. Qed.
Lemma solid_app a c : solid (a ++ c) = solid a ++ solid c. Proof. apply filter_app. Qed.
Lemma solid_keeps l : Forall (fun t => isEmpty t = false) l -> solid (keeps l) = keeps l.
Proof. induction 1 as [|t l H _ IH]; [reflexivity|]. cbn. unfold IndentSpec.solidb at 1. cbn. rewrite H. cbn. f_equal. exact IH. Qed.
Lemma solid_marks (a : list (mark * tok)) : Forall (fun p => fst p <> Kept) a -> solid a = a.
Proof. induction 1 as [|(m, t) a H _ IH]; [reflexivity|]. cbn. unfold IndentSpec.solidb at 1. destruct m; [destruct H; reflexivity| |]; cbn; f_equal; exact IH. Qed.
Lemma amove_marks lv i ins lv' : amove lv i = Some (ins, lv') -> Forall (fun p => fst p <> Kept) ins.
Proof.
  destruct lv as [|v st]; [discriminate|]. cbn [amove]. destruct (stateOf v st i); try discriminate.
  - intros H. injection H as <- <-. constructor.
  - intros H. injection H as <- <-. repeat constructor. discriminate.
  - destruct (dedentLoop dedentTok (zlen i) st) as (d, [r|]); [|discriminate]. intros H. injection H as <- <-. apply Forall_forall. intros (m, t) I. apply in_map_iff in I. destruct I as (y & E & _). injection E as <- _. discriminate.
Qed.
Lemma downs_marks {A} (l : list A) : Forall (fun p => fst p <> Kept) (downs l).
Proof. apply Forall_forall. intros (m, t) I. apply in_map_iff in I. destruct I as (y & E & _). injection E as <- _. discriminate. Qed.
Lemma bstep_full bs t : isEmpty t = false -> Forall (fun t => isEmpty t = false) (pendOf bs) -> Forall (fun t => isEmpty t = false) (fst (bstep bs t)) /\ Forall (fun t => isEmpty t = false) (pendOf (snd (bstep bs t))).
Proof.
  intros T P. unfold bstep. destruct (kind t), bs as [|i pend]; cbn [fst snd pendOf] in *; try (split; auto; fail).
  - destruct (stripNl (lText t)); cbn; split; auto.
  - split; [constructor|]. apply Forall_app. auto.
  - split; [apply Forall_app; auto|constructor].
Qed.
Lemma arun_solid ts : forall lv bs, Forall (fun t => isEmpty t = false) (pendOf bs) -> arun (nonEmpty ts) lv bs = option_map solid (arun ts lv bs).
Proof.
  assert (EK : forall t, isEmpty t = true <-> kind t = REmpty) by (intros t; unfold IndentSpec.isEmpty; destruct (kind t); split; (reflexivity || discriminate)).
  induction ts as [|t ts IH]; intros lv bs P; [reflexivity|]. unfold IndentSpec.nonEmpty in *. cbn [filter]. destruct (isEmpty t) eqn:E; cbn [negb].
  - pose proof (proj1 (EK t) E) as K. rewrite (IH lv bs P). cbn [arun]. unfold bstep. rewrite K. cbn [fst snd]. destruct (arun ts lv bs) as [a|]; [|reflexivity]. cbn [obind option_map app IndentProofs.keeps map]. rewrite (solid_empty _ _ E). reflexivity.
  - assert (PT : Forall (fun t => isEmpty t = false) (pendOf bs ++ [t])) by (apply Forall_app; auto). cbn [arun]. destruct (kind t) eqn:K.
    + destruct (acommon lv bs) as [(ins, lv')|] eqn:AC; [|reflexivity]. cbn [obind fst snd]. rewrite (IH lv' Quiet (Forall_nil _)). destruct (arun ts lv' Quiet) as [a|]; [|reflexivity]. cbn [option_map obind]. rewrite !solid_app, (solid_keeps _ PT), (solid_marks ins); [reflexivity|].
      destruct bs as [|[i|] pend]; cbn [acommon] in AC; [injection AC as <- <-; constructor|apply (amove_marks _ _ _ _ AC)|discriminate].
    + destruct (bstep_full bs t E P) as (Q1 & Q2). rewrite (IH lv _ Q2). destruct (arun ts lv (snd (bstep bs t))) as [a|]; [|reflexivity]. cbn [option_map obind]. rewrite solid_app, (solid_keeps _ Q1). reflexivity.
    + destruct (bstep_full bs t E P) as (Q1 & Q2). rewrite (IH lv _ Q2). destruct (arun ts lv (snd (bstep bs t))) as [a|]; [|reflexivity]. cbn [option_map obind]. rewrite solid_app, (solid_keeps _ Q1). reflexivity.
    + apply EK in K. congruence.
    + cbn [option_map]. rewrite solid_app, (solid_keeps _ PT), (solid_marks _ (downs_marks _)). reflexivity.
Qed.
(** ** Blocks of space and side tokens *)
Notation between := (between kind).
Notation noNewline := (noNewline kind).
Notation noSide := (noSide kind).
Notation newLine := (newLine kind).
Notation spacing := (spacing kind).
Fixpoint bfold (bs : bstate) (l : list tok) : list tok * bstate :=
  match l with
  | [] => ([], bs)
  | t :: r => let (o, bs1) := bstep bs t in let (o', bs2) := bfold bs1 r in (o ++ o', bs2)
  end.
Definition start (first : bool) : bstate := if first then Line (Some []) [] else Quiet.
Lemma bfold_snoc l t : forall bs, bfold bs (l ++ [t]) = (fst (bfold bs l) ++ fst (bstep (snd (bfold bs l)) t), snd (bstep (snd (bfold bs l)) t)).
Proof.
  induction l as [|x l IH]; intros bs; cbn [app bfold].
  - cbn [bfold fst snd app]. destruct (bstep bs t) as (o, bs1). cbn. rewrite app_nil_r. reflexivity.
  - destruct (bstep bs x) as (o, bs1). rewrite IH. destruct (bfold bs1 l) as (o', bs2). cbn [fst snd]. rewrite app_assoc. reflexivity.
Qed.
Lemma between_snoc l t : between (l ++ [t]) <-> between l /\ (kind t = RSpace \/ kind t = RSide).
Proof.
  split; [intros H; split; [intros x X; apply H, in_or_app; left; exact X|apply H, in_or_app; right; left; reflexivity]|]. intros (A & B) x X. apply in_app_or in X. destruct X as [X|[<-|[]]]; auto.
Qed.
Lemma noNewline_snoc l t : noNewline (l ++ [t]) <-> noNewline l /\ forall s, ~ newline t s.
Proof.
  split; [intros H; split; [intros x s X; apply H, in_or_app; left; exact X|intros s; apply H, in_or_app; right; left; reflexivity]|]. intros (A & B) x s X. apply in_app_or in X. destruct X as [X|[<-|[]]]; auto.
Qed.
Lemma noSide_snoc l t : noSide (l ++ [t]) <-> noSide l /\ kind t <> RSide.
Proof.
  split; [intros H; split; [intros x X; apply H, in_or_app; left; exact X|apply H, in_or_app; right; left; reflexivity]|]. intros (A & B) x X. apply in_app_or in X. destruct X as [X|[<-|[]]]; auto.
Qed.
Lemma spacing_snoc l t : kind t = RSpace -> spacing (l ++ [t]) = spacing l ++ lText t.
Proof. intros K. unfold IndentSpec.spacing. rewrite map_app, concat_app. cbn. rewrite K, app_nil_r. reflexivity. Qed.
Lemma newLine_more first l l' : newLine first l -> newLine first (l ++ l').
Proof. intros [H|H]; [left; exact H|right]. intros Q. apply H. intros t s I. apply Q, in_or_app. left. exact I. Qed.
Lemma snoc_cases {A} (p q : list A) l t : p ++ q = l ++ [t] -> (q = [] /\ p = l ++ [t]) \/ exists q', q = q' ++ [t] /\ l = p ++ q'.
Proof.
  intros E. destruct q as [|x q _] using rev_ind; [left; rewrite app_nil_r in E; auto|]. right. rewrite app_assoc in E. apply app_inj_tail in E. destruct E as (<- & ->). eauto.
Qed.
Lemma nl_space t s : newline t s -> kind t = RSpace. Proof. intros (A & _). exact A. Qed.
Lemma nl_unique t s s' : newline t s -> newline t s' -> s = s'.
Proof. rewrite !newline_ok. intros (_ & A) (_ & B). congruence. Qed.
Lemma indentation_side first l t j : kind t = RSide -> ~ indentation first (l ++ [t]) j.
Proof.
  intros K H. inversion H as [p n s q NL NN NS E|l' F NN NS E]; subst.
  - change (p ++ n :: q) with (p ++ [n] ++ q) in E. rewrite app_assoc in E. apply snoc_cases in E. destruct E as [(-> & E)|(q' & -> & E)].
    + apply app_inj_tail in E. destruct E as (_ & ->). apply nl_space in NL. congruence.
    + apply noSide_snoc in NS. tauto.
  - apply noSide_snoc in NS. tauto.
Qed.
Lemma indentation_nl first l t s j : newline t s -> (indentation first (l ++ [t]) j <-> j = s).
Proof.
  intros T. split.
  - intros H. inversion H as [p n s' q NL NN NS E|l' F NN NS E]; subst.
    + change (p ++ n :: q) with (p ++ [n] ++ q) in E. rewrite app_assoc in E. apply snoc_cases in E. destruct E as [(-> & E)|(q' & -> & E)].
      * apply app_inj_tail in E. destruct E as (_ & ->). cbn. rewrite app_nil_r. apply (nl_unique t); assumption.
      * apply noNewline_snoc in NN. destruct NN as (_ & NN). destruct (NN s T).
    + apply noNewline_snoc in NN. destruct NN as (_ & NN). destruct (NN s T).
  - intros ->. replace s with (s ++ spacing []) by apply app_nil_r. apply (in_line kind first l t s []); [exact T|intros ? ? []|intros ? []].
Qed.
Lemma indentation_more first l t j : kind t = RSpace -> (forall s, ~ newline t s) -> (indentation first (l ++ [t]) j <-> exists j0, indentation first l j0 /\ j = j0 ++ lText t).
Proof.
  intros K T. split.
  - intros H. inversion H as [p n s' q NL NN NS E|l' F NN NS E]; subst.
    + change (p ++ n :: q) with (p ++ [n] ++ q) in E. rewrite app_assoc in E. apply snoc_cases in E. destruct E as [(-> & E)|(q' & -> & E)].
      * apply app_inj_tail in E. destruct E as (_ & ->). destruct (T s' NL).
      * apply noNewline_snoc in NN. apply noSide_snoc in NS. rewrite (spacing_snoc _ _ K), app_assoc. eexists. split; [|reflexivity]. rewrite E, <- app_assoc. cbn. constructor; tauto.
    + apply noNewline_snoc in NN. apply noSide_snoc in NS. rewrite (spacing_snoc _ _ K). eexists. split; [|reflexivity]. apply in_first; tauto.
  - intros (j0 & H & ->). inversion H as [p n s' q NL NN NS E|l' F NN NS E]; subst.
    + rewrite <- !app_assoc, <- (spacing_snoc _ _ K). cbn. constructor; [exact NL|apply noNewline_snoc; auto|apply noSide_snoc; split; [exact NS|congruence]].
    + rewrite <- (spacing_snoc _ _ K). apply in_first; [reflexivity|apply noNewline_snoc; auto|apply noSide_snoc; split; [exact NS|congruence]].
Qed.
Definition blockOK (first : bool) (l : list tok) (o : list tok) (bs : bstate) : Prop :=
  o ++ pendOf bs = l /\
  match bs with
  | Quiet => first = false /\ noNewline l
  | Line i pend => newLine first l /\ (forall j, indentation first l j <-> i = Some j) /\ (forall ins ol, placed first l ins ol <-> ol = keeps o ++ ins ++ keeps pend)
  end.
Lemma keeps_app (a c : list tok) : keeps (a ++ c) = keeps a ++ keeps c. Proof. apply map_app. Qed.
Lemma block_ok first l : between l -> blockOK first l (fst (bfold (start first) l)) (snd (bfold (start first) l)).
Proof.
  induction l as [|t l IH] using rev_ind; intros B.
  - destruct first; cbn.
    + split; [reflexivity|]. split; [left; reflexivity|]. split.
      * intros j. split; [|intros H; injection H as <-; apply (in_first kind true []); [reflexivity|intros ? ? []|intros ? []]]. intros H. inversion H as [p n s q NL NN NS E|l' F NN NS E]; subst; [destruct p; discriminate|reflexivity].
      * intros ins ol. split; [intros H; inversion H as [p q i NS D E]; subst; apply app_eq_nil in E; destruct E as (-> & ->); reflexivity|]. intros ->. apply (pl kind true [] [] ins); [intros ? []|]. left. auto.
    + split; [reflexivity|]. split; [reflexivity|intros ? ? []].
  - apply between_snoc in B. destruct B as (B & KT). specialize (IH B). rewrite bfold_snoc. cbn [fst snd]. set (o := fst (bfold (start first) l)) in *. set (bs := snd (bfold (start first) l)) in *. clearbody o bs. destruct IH as (E & H).
    unfold bstep. destruct bs as [|i pend]; cbn [pendOf] in *.
    + rewrite app_nil_r in E. subst o. destruct H as (-> & NN). destruct KT as [K|K]; rewrite K.
      * destruct (stripNl (lText t)) as [s|] eqn:NL; cbn [fst snd].
        -- assert (T : newline t s) by (apply newline_ok; auto). split; [cbn; rewrite app_nil_r; reflexivity|]. split; [right; intros Q; apply noNewline_snoc in Q; destruct Q as (_ & Q); exact (Q s T)|]. split; [intros j; rewrite (indentation_nl _ _ _ _ _ T); split; congruence|].
           intros ins ol. rewrite app_nil_r. split.
           ++ intros P. inversion P as [p q i NS D E]; subst. apply snoc_cases in E. destruct E as [(-> & ->)|(q' & -> & ->)].
              ** exfalso. destruct D as [(_ & [D|(p' & t' & D & KSi)])|(_ & _ & n & s' & q' & D & _)]; [destruct l; discriminate| |discriminate]. apply app_inj_tail in D. destruct D as (_ & ->). congruence.
              ** destruct D as [([D|D] & _)|(_ & NP & n & s' & q & D & N)]; [discriminate|destruct D; intros x y X; apply NN, in_or_app; left; exact X|]. destruct q' as [|y q']; cbn in D; injection D as -> D; [rewrite app_nil_r; reflexivity|]. exfalso. eapply NN; [|exact N]. apply in_or_app. right. left. reflexivity.
           ++ intros ->. apply (pl kind false l [t] ins); [intros x [<-|[]]; congruence|]. right. split; [reflexivity|]. split; [exact NN|]. exists t, s, []. auto.
        -- split; [cbn; rewrite app_nil_r; reflexivity|]. split; [reflexivity|]. apply noNewline_snoc. split; [exact NN|]. intros s S. apply newline_ok in S. destruct S. congruence.
      * split; [cbn; rewrite app_nil_r; reflexivity|]. split; [reflexivity|]. apply noNewline_snoc. split; [exact NN|]. intros s S. apply nl_space in S. congruence.
    + destruct H as (NL & IN & PL). destruct KT as [K|K]; rewrite K; cbn [fst snd].
      * rewrite app_nil_r. split; [cbn; rewrite app_assoc, E; reflexivity|]. split; [apply newLine_more, NL|]. split.
        -- intros j. destruct (stripNl (lText t)) as [s|] eqn:N.
           ++ rewrite (indentation_nl first l t s j) by (apply newline_ok; auto). split; congruence.
           ++ rewrite (indentation_more first l t j K) by (intros s S; apply newline_ok in S; destruct S; congruence). split; [intros (j0 & J & ->); apply IN in J; subst i; reflexivity|]. destruct i as [i|]; [|discriminate]. cbn. intros H. injection H as <-. exists i. split; [apply IN; reflexivity|reflexivity].
        -- intros ins ol. split.
           ++ intros P. inversion P as [p q i' NS D E']; subst. apply snoc_cases in E'. destruct E' as [(-> & ->)|(q' & -> & EL)].
              ** exfalso. destruct D as [(_ & [D|(p' & t' & D & KSi)])|(_ & _ & n & s' & q' & D & _)]; [destruct (o ++ pend); discriminate| |discriminate]. apply app_inj_tail in D. destruct D as (_ & ->). congruence.
              ** assert (Q : placed first (o ++ pend) ins (keeps p ++ ins ++ keeps q')).
                 { rewrite EL. apply noSide_snoc in NS. constructor; [tauto|]. destruct D as [D|(F & NN & n & s' & q & D & N)]; [left; exact D|]. right. split; [exact F|]. split; [exact NN|]. destruct q' as [|y q']; [exfalso; rewrite app_nil_r in EL; destruct NL as [NL|NL]; [congruence|]; apply NL; rewrite EL; exact NN|]. cbn in D. injection D as -> D. eauto. }
                 apply PL in Q. change (map (pair Kept) p) with (keeps p). change (map (pair Kept) (q' ++ [t])) with (keeps (q' ++ [t])). rewrite !keeps_app, !app_assoc. rewrite !app_assoc in Q. rewrite Q. reflexivity.
           ++ intros ->. pose proof (proj2 (PL ins _) eq_refl) as P. inversion P as [p q i' NS D E' EI O]; subst i'. rewrite keeps_app. replace (keeps o ++ ins ++ keeps pend ++ keeps [t]) with ((keeps o ++ ins ++ keeps pend) ++ keeps [t]) by (rewrite <- !app_assoc; reflexivity). rewrite <- O.
              rewrite <- (app_assoc p q [t]). replace ((map (pair Kept) p ++ ins ++ map (pair Kept) q) ++ keeps [t]) with (map (pair Kept) p ++ ins ++ map (pair Kept) (q ++ [t])) by (rewrite map_app, <- !app_assoc; reflexivity). constructor; [apply noSide_snoc; split; [exact NS|congruence]|]. destruct D as [D|(F & NN & n & s' & q0 & -> & N)]; [left; exact D|]. right. split; [exact F|]. split; [exact NN|]. exists n, s', (q0 ++ [t]). auto.
      * cbn [pendOf]. split; [rewrite app_nil_r, app_assoc, E; reflexivity|]. split; [apply newLine_more, NL|]. split; [intros j; split; [intros J; destruct (indentation_side _ _ _ _ K J)|discriminate]|].
        rewrite app_assoc, E. intros ins ol. split.
        -- intros P. inversion P as [p q i' NS D E']; subst. apply snoc_cases in E'. destruct E' as [(-> & ->)|(q' & -> & EL)]; [rewrite app_nil_r; cbn; rewrite ?app_nil_r; reflexivity|]. apply noSide_snoc in NS. tauto.
        -- intros ->. pose proof (pl kind first (l ++ [t]) [] ins) as P. rewrite app_nil_r in P. apply P; [intros ? []|]. left. split; [|right; eauto]. apply (newLine_more first l [t]) in NL. destruct NL as [NL|NL]; auto.
Qed.
(** ** The machine is the layout *)
Lemma arun_block l r lv : forall bs, between l -> arun (l ++ r) lv bs = do a <- arun r lv (snd (bfold bs l)) ; Some (keeps (fst (bfold bs l)) ++ a).
Proof.
  induction l as [|t l IH]; intros bs B; cbn [app bfold].
  - cbn. destruct (arun r lv bs); reflexivity.
  - assert (A : arun (t :: l ++ r) lv bs = do a <- arun (l ++ r) lv (snd (bstep bs t)) ; Some (keeps (fst (bstep bs t)) ++ a)) by (cbn [arun]; destruct (B t (or_introl eq_refl)) as [K|K]; rewrite K; reflexivity). rewrite A, IH by (intros x X; apply B; right; exact X).
    destruct (bstep bs t) as (o, bs1). cbn [fst snd]. destruct (bfold bs1 l) as (o', bs2). cbn [fst snd]. destruct (arun r lv bs2); cbn [obind]; [rewrite keeps_app, app_assoc|]; reflexivity.
Qed.
Lemma layout_arun first lv ts a : layout first lv ts a -> chain lv -> arun ts lv (start first) = Some a.
Proof.
  induction 1 as [lv l c r o B KC NL _ IH|first lv l c i ins lv' ol r o B KC NL IN MV PL _ IH|first lv l e ol B KE P1 P2]; intros C.
  - rewrite (arun_block _ _ _ _ B). destruct (block_ok false l B) as (E & H). destruct (snd (bfold (start false) l)) as [|i pend]; [|destruct NL; apply H]. cbn [pendOf] in E. rewrite app_nil_r in E. rewrite E. cbn [arun]. rewrite KC. cbn [acommon obind fst snd]. cbn [start] in IH. rewrite (IH C). cbn [obind app pendOf]. rewrite map_app, <- app_assoc. reflexivity.
  - rewrite (arun_block _ _ _ _ B). destruct (block_ok first l B) as (E & H). destruct (snd (bfold (start first) l)) as [|i' pend]; [destruct H as (F & H); destruct NL as [NL|NL]; [congruence|contradiction]|]. destruct H as (_ & H1 & H2). apply H1 in IN. subst i'. apply H2 in PL. subst ol. destruct (move_chain _ _ _ _ C MV) as (C' & _). apply (amove_ok _ _ _ _ C) in MV.
    cbn [arun]. rewrite KC. cbn [acommon]. rewrite MV. cbn [obind fst snd]. cbn [start] in IH. rewrite (IH C'). cbn [obind pendOf]. rewrite keeps_app, <- !app_assoc. reflexivity.
  - rewrite (arun_block _ _ _ _ B). destruct (block_ok first l B) as (E & H). cbn [arun]. rewrite KE. cbn [obind]. destruct (snd (bfold (start first) l)) as [|i' pend]; cbn [pendOf] in *.
    + rewrite app_nil_r in E. rewrite E. rewrite P2; [cbn; rewrite <- app_assoc; reflexivity|]. destruct H as (F & H). intros [Q|Q]; [congruence|contradiction].
    + destruct H as (NL & _ & H2). specialize (P1 NL). apply H2 in P1. rewrite P1, keeps_app, <- !app_assoc. reflexivity.
Qed.
Lemma blocks ts : (forall t, In t ts -> kind t <> REmpty /\ kind t <> REoi) -> exists l, between l /\ (ts = l \/ exists c r, ts = l ++ c :: r /\ kind c = RCommon).
Proof.
  induction ts as [|t ts IH]; intros H; [exists []; split; [intros ? []|left; reflexivity]|].
  destruct IH as (l & B & D); [intros x X; apply H; right; exact X|]. destruct (H t (or_introl eq_refl)) as (H1 & H2). destruct (kind t) eqn:K; try contradiction.
  - exists []. split; [intros ? []|]. right. exists t, ts. auto.
  - exists (t :: l). split; [intros x [<-|X]; auto|]. destruct D as [->|(c & r & -> & KC)]; [left; reflexivity|]. right. exists c, r. auto.
  - exists (t :: l). split; [intros x [<-|X]; auto|]. destruct D as [->|(c & r & -> & KC)]; [left; reflexivity|]. right. exists c, r. auto.
Qed.
Lemma arun_layout n : forall ts e first lv a, (length ts <= n)%nat -> (forall t, In t ts -> kind t <> REmpty /\ kind t <> REoi) -> kind e = REoi -> chain lv -> arun (ts ++ [e]) lv (start first) = Some a -> layout first lv (ts ++ [e]) a.
Proof.
  induction n as [|n IH]; intros ts e first lv a LN TS KE C H.
  all: destruct (blocks ts TS) as (l & B & D).
  all: destruct D as [->|(c & r & -> & KC)]; [|try (rewrite app_length in LN; cbn [length] in LN; lia)].
  1, 2: rewrite (arun_block _ _ _ _ B) in H; cbn [arun] in H; rewrite KE in H; cbn [obind] in H; injection H as <-; pose proof (block_ok first l B) as (E & H); rewrite keeps_app, !app_assoc; apply lo_end; [exact B|exact KE| |];
    (destruct (snd (bfold (start first) l)) as [|i pend]; cbn [pendOf] in *; [destruct H as (F & H); rewrite app_nil_r in E; rewrite E; cbn [keeps map]; rewrite ?app_nil_r|destruct H as (NL & _ & H)]).
  1, 5: intros [Q|Q]; [congruence|contradiction].
  2, 5: intros _; reflexivity.
  1, 3: intros _; apply H; rewrite <- app_assoc; reflexivity.
  1, 2: contradiction.
  rewrite app_length in LN. cbn [length] in LN. rewrite <- app_assoc in H |- *. cbn [app] in H |- *. rewrite (arun_block _ _ _ _ B) in H. pose proof (block_ok first l B) as (E & HB). cbn [arun] in H. rewrite KC in H.
  assert (TR : forall t, In t r -> kind t <> REmpty /\ kind t <> REoi) by (intros t T; apply TS, in_or_app; right; right; exact T).
  destruct (snd (bfold (start first) l)) as [|[i|] pend]; cbn [pendOf acommon obind fst snd] in *; [| |discriminate].
  - destruct HB as (-> & NN). rewrite app_nil_r in E. rewrite E in H. destruct (arun (r ++ [e]) lv Quiet) as [o|] eqn:A; [|discriminate]. cbn in H. injection H as <-. replace (keeps l ++ (Kept, c) :: o) with (keeps (l ++ [c]) ++ o) by (rewrite keeps_app, <- app_assoc; reflexivity). apply lo_old; auto; [intros [Q|Q]; [discriminate|contradiction]|]. apply IH; auto; lia.
  - destruct HB as (NL & IN & PL). destruct (amove lv i) as [(ins, lv')|] eqn:AM; [|discriminate]. cbn [obind fst snd] in H. destruct (arun (r ++ [e]) lv' Quiet) as [o|] eqn:A; [|discriminate]. cbn [obind] in H. injection H as <-. apply (amove_ok _ _ _ _ C) in AM. destruct (move_chain _ _ _ _ C AM) as (C' & _).
    replace (keeps (fst (bfold (start first) l)) ++ ins ++ keeps (pend ++ [c]) ++ o) with ((keeps (fst (bfold (start first) l)) ++ ins ++ keeps pend) ++ (Kept, c) :: o) by (rewrite keeps_app, <- !app_assoc; reflexivity).
    eapply lo_new; [exact B|exact KC|exact NL|apply IN; reflexivity|exact AM|apply PL; reflexivity|]. apply IH; auto; lia.
Qed.
(** ** Together *)
Lemma rel_start : rel (initState (Pos := Pos)) [[]] (start true). Proof. repeat split. Qed.
Lemma chain_start : chain [[]]. Proof. reflexivity. Qed.
Lemma nonEmpty_end ts e : kind e = REoi -> nonEmpty (ts ++ [e]) = nonEmpty ts ++ [e].
Proof. intros K. unfold IndentSpec.nonEmpty. rewrite filter_app. cbn. unfold IndentSpec.isEmpty at 2. rewrite K. reflexivity. Qed.
Lemma run_layout s e pe : (forall t, In t (map fst s) -> kind t <> REoi) -> kind e = REoi -> truePeeks (s ++ [(e, pe)]) ->
  (exists a ls, run (s ++ [(e, pe)]) (initState (Pos := Pos)) = Some (map snd a ++ [e], None, ls) /\ layout true [[]] (nonEmpty (map fst s) ++ [e]) (solid a)) \/
  (exists o t ls, run (s ++ [(e, pe)]) (initState (Pos := Pos)) = Some (o, Some (WrongToken t), ls) /\ In t (map fst s) /\ forall a, ~ layout true [[]] (nonEmpty (map fst s) ++ [e]) a).
Proof.
  intros NE KE TP. pose proof (machine (length s) s e pe _ _ _ (le_n _) chain_start rel_start NE KE TP) as M. unfold machine_ok in M. pose proof (arun_solid (map fst s ++ [e]) [[]] (start true) (Forall_nil _)) as AS. rewrite (nonEmpty_end _ _ KE) in AS. destruct (arun (map fst s ++ [e]) [[]] (start true)) as [a|]; cbn [option_map] in AS.
  - left. destruct M as (ls & M). exists a, ls. split; [exact M|]. apply (arun_layout (length (nonEmpty (map fst s)))); auto; [|apply chain_start]. intros t I. apply filter_In in I. destruct I as (I & J). split; [|apply NE, I]. intros K. unfold IndentSpec.isEmpty in J. rewrite K in J. discriminate.
  - right. destruct M as (o & t & ls & M & I). exists o, t, ls. split; [exact M|]. split; [exact I|]. intros a A. pose proof (layout_arun _ _ _ _ A chain_start) as Y. congruence.
Qed.
Lemma layout_unique first lv ts a a' : chain lv -> layout first lv ts a -> layout first lv ts a' -> a = a'.
Proof. intros C A A'. pose proof (layout_arun _ _ _ _ A C). pose proof (layout_arun _ _ _ _ A' C). congruence. Qed.
End L.
