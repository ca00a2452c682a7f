(** Lemmas on the tree hook. *)
From Coq Require Import ZArith List Bool Lia Arith.
From Verif Require Import Base BaseProofs Grammar Parser ParserSpec ParserProofs ParserInv ParserWorld TreeSpec TreeProofs TreeNavSpec TreeNavProofs TreeHook TreeHookSpec Prop_Tree.
From Verif Require Tree.
Import ListNotations.
Open Scope nat_scope.

(** ** Elements *)
Section Elements.
Context {Tok : Type}.
Notation store := (store Tok).
Notation sz st := (Tree.size (sHeap st)).
Definition okS (st : store) (F : forest) : Prop := consistent (sHeap st) F.
(** Only new elements have been added, and children to [p]. *)
Record grows (st : store) (F : forest) (p : option Tree.id) (st' : store) (F' : forest) : Prop := mkGrows {
  gr_size : sz st <= sz st';
  gr_data : forall y, y < sz st -> Tree.isNode (sHeap st') y = Tree.isNode (sHeap st) y /\ sName st' y = sName st y /\ sTok st' y = sTok st y;
  gr_kids : forall y, y < sz st -> p <> Some y -> kids F' y = kids F y;
  gr_tops : forall y, In [y] (tops F) -> y < sz st -> In [y] (tops F') }.
Lemma grows_trans st F p st1 F1 q st2 F2 r : grows st F p st1 F1 -> grows st1 F1 q st2 F2 -> (forall y, y < sz st -> p = Some y \/ q = Some y -> r = Some y) -> grows st F r st2 F2.
Proof.
  intros [A1 A2 A3 A4] [B1 B2 B3 B4] Q. constructor; [lia| | |].
  - intros y Y. destruct (A2 y Y) as (<- & <- & <-). apply B2. lia.
  - intros y Y N. rewrite B3; [apply A3|lia|]; auto; intros E; apply N; apply Q; auto.
  - intros y I Y. apply B4; [auto|lia].
Qed.
Lemma grows_refl st F p : grows st F p st F. Proof. constructor; auto. Qed.
Lemma new_grows st F b st' x : okS st F -> Tree.newElement (sHeap st) b = (sHeap st', x) -> (forall y, y <> x -> sName st' y = sName st y /\ sTok st' y = sTok st y) ->
  okS st' (loose F x) /\ grows st F None st' (loose F x) /\ x = sz st /\ sz st' = S x /\ Tree.isNode (sHeap st') x = b /\ kids (loose F x) x = [] /\ In [x] (tops (loose F x)).
Proof.
  intros C E D. assert (X : x = sz st) by (unfold Tree.newElement in E; congruence). assert (H : sHeap st' = fst (Tree.newElement (sHeap st) b)) by (rewrite E; reflexivity).
  split; [unfold okS; rewrite H, X; apply consistent_nodes_ok, new_ok, consistent_nodes_ok, C|]. split.
  - constructor; rewrite ?H; cbn; auto; try lia. intros y Y. destruct (D y) as (-> & ->); [lia|]. unfold Tree.upd. destruct (Nat.eqb_spec y (sz st)); [lia|auto].
  - split; [exact X|]. rewrite H. cbn. split; [congruence|]. split; [rewrite X; unfold Tree.upd; rewrite Nat.eqb_refl; auto|]. split; [apply (c_fresh _ _ C); lia|left; auto].
Qed.
Lemma add_grows st0 F0 q st F p x : okS st F -> In [x] (tops F) -> x < sz st -> p < sz st -> Tree.isNode (sHeap st) p = true -> ~ reach F x p ->
  grows st0 F0 q st F -> sz st0 <= x -> q = None \/ q = Some p ->
  exists F', okS (addChild p x st) F' /\ grows st0 F0 (Some p) (addChild p x st) F' /\ sz (addChild p x st) = sz st /\ kids F' p = kids F p ++ [x] /\
    (forall y, y <> p -> kids F' y = kids F y) /\ Tree.isNode (sHeap (addChild p x st)) = Tree.isNode (sHeap st).
Proof.
  intros C T X P N R [G1 G2 G3 G4] L Q. destruct (tree_edit_consistent (sHeap st) F (EAddChild p (Some x) None) C) as (h & E & C' & S).
  { cbn. split; [exact P|]. split; [exact N|]. split; [exact X|]. split; [exact I|]. intros c' [= <-]. split; auto. }
  cbn [h_edit] in E. injection E as <-. set (F' := f_edit _ _ _) in C'. exists F'. cbn [news] in S. rewrite Nat.add_0_r in S. unfold okS. cbn [addChild sHeap].
  assert (K : forall y, without x (kids F y) = kids F y) by (intros y; apply consistent_iff in C; destruct C as (C1 & C2); apply (kids_without_loose (sHeap st) F); auto).
  destruct (addChild_size (sHeap st) p (Some x) None) as (S1 & S2).
  assert (TOPS : forall y, y <> x -> In [y] (tops F) -> In [y] (tops F')).
  { intros y NE I0. unfold F'; cbn [f_edit tops upd_kids on_lists]. apply in_map_iff. exists [y]. split; [|exact I0]. apply without_notin. intros [Q0|[]]. congruence. }
  assert (KIDS : forall y, y <> p -> kids F' y = kids F y) by (intros y NE; unfold F'; cbn [f_edit kids upd_kids on_lists]; rewrite upd_neq by exact NE; apply K).
  assert (KP : kids F' p = kids F p ++ [x]) by (unfold F'; cbn [f_edit kids upd_kids on_lists]; rewrite upd_eq, K; reflexivity).
  split; [exact C'|]. split; [|split; [exact S|split; [exact KP|split; [exact KIDS|exact S2]]]].
  constructor; cbn [addChild sHeap sName sTok]; rewrite ?S1, ?S2; auto.
  - intros y Y NE. rewrite KIDS by congruence. apply G3; [exact Y|]. destruct Q as [->| ->]; [discriminate|exact NE].
  - intros y I0 Y. apply TOPS; [lia|]. auto.
Qed.

(** ** Trees stay *)
Context {Inst R : Type}.
Notation tree := (tree Tok Inst R).
Definition within (lo hi : nat) (t : rtree) : Prop := forall y, In y (pre t) -> lo <= y < hi.
Lemma is_tree_stays F F' t : is_tree F t -> (forall y, In y (pre t) -> kids F' y = kids F y) -> is_tree F' t.
Proof.
  induction t as [x ts IH] using rtree_ind'. rewrite !is_tree_eq. intros (A & B) H. split; [rewrite H; [exact A|left; auto]|].
  rewrite Forall_forall in *. intros t I0. apply IH; auto. intros y Y. apply H. right. apply in_flat_map. eauto.
Qed.
Fixpoint mirrorsL (st : store) (ks : list tree) (ts : list rtree) : Prop :=
  match ks, ts with [], [] => True | k :: ks, t :: ts => mirrors st k t /\ mirrorsL st ks ts | _, _ => False end.
Lemma mirrors_node st node t0 hooks results ks x ts : mirrors st (Node node t0 hooks results ks : tree) (RT x ts) <->
  Tree.isNode (sHeap st) x = true /\ sName st x = node /\ sTok st x = t0 /\ mirrorsL st ks ts.
Proof.
  cbn [mirrors]. assert (E : forall ks ts, (fix all (ks : list tree) (ts : list rtree) : Prop := match ks, ts with [], [] => True | k :: ks, t :: ts => mirrors st k t /\ all ks ts | _, _ => False end) ks ts <-> mirrorsL st ks ts).
  { clear. induction ks as [|k ks IH]; intros [|t ts]; cbn; try tauto. rewrite IH. tauto. }
  rewrite E. reflexivity.
Qed.
Lemma mirrors_stays st st' : forall (T : tree) t, mirrors st T t -> (forall y, In y (pre t) -> Tree.isNode (sHeap st') y = Tree.isNode (sHeap st) y /\ sName st' y = sName st y /\ sTok st' y = sTok st y) -> mirrors st' T t.
Proof.
  fix IH 1. intros [k|node t0 hooks results ks] [x ts] M H.
  - cbn in M |- *. destruct (H x) as (-> & _ & ->); [left; auto|exact M].
  - apply mirrors_node in M. apply mirrors_node. destruct (H x) as (-> & -> & ->); [left; auto|]. destruct M as (M1 & M2 & M3 & M4). split; [exact M1|]. split; [exact M2|]. split; [exact M3|].
    assert (H' : forall t, In t ts -> forall y, In y (pre t) -> Tree.isNode (sHeap st') y = Tree.isNode (sHeap st) y /\ sName st' y = sName st y /\ sTok st' y = sTok st y).
    { intros t I0 y Y. apply H. right. apply in_flat_map. eauto. }
    clear H. revert ts M4 H'. induction ks as [|k ks IHk]; intros [|t ts] M4 H'; cbn in M4 |- *; auto. destruct M4 as (M5 & M6). split; [apply IH; [exact M5|apply H'; left; auto]|].
    apply IHk; [exact M6|]. intros t1 I1. apply H'. right. exact I1.
Qed.
Lemma mirrorsL_snoc st ks ts k t : mirrorsL st ks ts -> mirrors st k t -> mirrorsL st (ks ++ [k]) (ts ++ [t]).
Proof. revert ts. induction ks as [|k0 ks IH]; intros [|t0 ts] A B; cbn in *; try contradiction; auto. destruct A. split; auto. Qed.
Lemma mirrorsL_stays st st' ks : forall ts, mirrorsL st ks ts -> (forall t, In t ts -> forall y, In y (pre t) -> Tree.isNode (sHeap st') y = Tree.isNode (sHeap st) y /\ sName st' y = sName st y /\ sTok st' y = sTok st y) -> mirrorsL st' ks ts.
Proof.
  induction ks as [|k ks IH]; intros [|t ts] M H; cbn [mirrorsL] in *; auto. destruct M as (M1 & M2). split; [apply (mirrors_stays st); [exact M1|apply H; left; auto]|apply IH; [exact M2|intros t1 I1; apply H; right; exact I1]].
Qed.
Lemma mirrors_tokens st (T : tree) : forall t, mirrors st T t -> map (sTok st) (tokens (sHeap st) (pre t)) = map Some (leaves T).
Proof.
  revert T. fix IH 1. intros [k|node t0 hooks results ks] [x ts] M.
  - cbn in M. destruct M as (M1 & M2 & ->). cbn. rewrite M1. cbn. rewrite M2. reflexivity.
  - apply mirrors_node in M. destruct M as (M1 & _ & _ & M). cbn [pre]. unfold tokens. cbn [filter]. rewrite M1. cbn [negb leaves].
    revert ts M. induction ks as [|k ks IHk]; intros [|t ts] M; cbn in M; try contradiction; [reflexivity|]. destruct M as (M2 & M3). cbn [flat_map]. fold (tokens (sHeap st) (pre t ++ flat_map pre ts)). rewrite tokens_app, map_app, (IH k t M2), map_app. f_equal. apply IHk, M3.
Qed.
End Elements.

(** ** Events and elements *)
Section Events.
Context {Tok Src W E Inst R : Type}.
Variable notElement : Z -> E.
Variable c0 : config Tok Src W E Inst R.
Notation c := (withTree notElement c0).
Notation g := (cGrammar c0).
Notation store := (store Tok).
Notation inst := (inst Inst).
Notation result := (result R).
Notation event := (event Tok E inst result).
Notation tree := (tree Tok inst result).
Notation sz st := (Tree.size (sHeap st)).
Notation hooked := (hookedIn (cNodeHooks c)).
Notation trace := (trace (Tok := Tok) (E := E) (Inst := inst) (R := result) hooked).
Notation traceL := (traceL (Tok := Tok) (E := E) (Inst := inst) (R := result) hooked).
Definition other (i : option inst) : Prop := match i with Some (TreeInst _) => False | _ => True end.

Inductive eff : store -> event -> store -> Prop :=
| F_create st node t st' x : newNodeElement node t st = (st', x) -> eff st (EvCreate 0 node t (Some (TreeInst x))) st'
| F_createO st layer node t i : other i -> eff st (EvCreate (S layer) node t i) st
| F_new st layer i node t : zget (gNodes g) node <> None -> eff st (EvNewNode layer i node t) st
| F_token st layer n t st' x : newTokenElement t st = (st', x) -> eff st (EvToken layer (TreeInst n) t) (addChild n x st')
| F_tokenO st layer i t : eff st (EvToken layer (OtherInst i) t) st
| F_node st layer n node x : eff st (EvNode layer (TreeInst n) node (Some (Elem x))) (addChild n x st)
| F_nodeO st layer i node r : match i, r with TreeInst _, Some (Elem _) => False | _, _ => True end -> eff st (EvNode layer i node r) st
| F_end st layer n : eff st (EvEnd layer (TreeInst n) (Some (Elem n))) st
| F_endO st layer i r : eff st (EvEnd layer (OtherInst i) r) st
| F_none st ev : isNodeEvent ev = false -> eff st ev st.
Inductive ran : store -> list event -> store -> Prop :=
| N_nil st : ran st [] st
| N_cons st ev st1 l st2 : eff st ev st1 -> ran st1 l st2 -> ran st (ev :: l) st2.
Lemma ran_app a : forall b st st2, ran st (a ++ b) st2 <-> exists st1, ran st a st1 /\ ran st1 b st2.
Proof.
  induction a as [|ev a IH]; intros b st st2; cbn [app].
  - split; [exists st; split; [constructor|auto]|]. intros (st1 & A & B). inversion A; subst. exact B.
  - split.
    + intros A. inversion A as [|? ? st0 ? ? A1 A2]; subst. apply IH in A2. destruct A2 as (st1 & B1 & B2). exists st1. split; [econstructor; eauto|exact B2].
    + intros (st1 & A & B). inversion A as [|? ? st0 ? ? A1 A2]; subst. econstructor; [exact A1|]. apply IH. eauto.
Qed.
Lemma ran_one st ev st' : eff st ev st' -> ran st [ev] st'. Proof. intros A. econstructor; [exact A|constructor]. Qed.
Lemma ran_nodes l : forall st st', ran st l st' -> ran st (nodeEvents l) st'.
Proof.
  induction l as [|ev l IH]; intros st st' A; inversion A as [|? ? st1 ? ? A1 A2]; subst; [constructor|]. unfold nodeEvents. cbn [filter]. destruct (isNodeEvent ev) eqn:N; [econstructor; [exact A1|apply IH, A2]|].
  inversion A1; subst; try discriminate N. apply IH, A2.
Qed.

(** Every call does that to elements. *)
Definition stOf (x : world Src (W * store) * list event) : store := snd (snd (fst x)).
Lemma runHook_store above : forall p tc (w : world Src (W * store)) tc' w' r, runHook c above (liftProg p) tc w = (tc', w', r) -> snd (snd w') = snd (snd w).
Proof.
  induction p as [emit extra e|k IH|f k IH]; intros tc w tc' w' r H; cbn [liftProg runHook] in H.
  - congruence.
  - destruct (peekToken c above tc (fst w)) as ((tc1 & src1) & r1). apply IH in H. exact H.
  - apply IH in H. rewrite H. destruct w as (src & w & st). unfold lift. cbn. destruct (f (src, w)) as (src1 & w1). reflexivity.
Qed.
Lemma lift_store {A} (f : world Src W -> world Src W * A) (w : world Src (W * store)) : snd (snd (fst (lift f w))) = snd (snd w).
Proof. destruct w as (src & w & st). unfold lift. destruct (f (src, w)) as ((src1 & w1) & a). reflexivity. Qed.
Lemma lift_store' {A} (f : world Src W -> world Src W * A) (w w' : world Src (W * store)) a : lift f w = (w', a) -> snd (snd w') = snd (snd w).
Proof. intros H. pose proof (lift_store f w) as L. rewrite H in L. exact L. Qed.
Lemma lift_res {A} (f : world Src W -> world Src W * A) (w w' : world Src (W * store)) a : lift f w = (w', a) -> exists w0, f w0 = (fst (f w0), a).
Proof. destruct w as (src & w & st). unfold lift. destruct (f (src, w)) as ((src1 & w1) & a1) eqn:F. intros [= _ <-]. exists (src, w). rewrite F. reflexivity. Qed.
Lemma prim_eff x y : prim c x y -> exists ev, snd y = ev :: snd x /\ eff (stOf x) ev (stOf y).
Proof.
  intros P. inversion P; subst; unfold stOf; cbn [fst snd] in *; eexists; (split; [reflexivity|]).
  - match goal with H : mNewNode _ _ _ _ _ = _ |- _ => destruct i as [n|i]; cbn in H; [injection H as <- _; apply F_new; auto|apply lift_store' in H; rewrite H; apply F_new; auto] end.
  - match goal with H : mHandleToken _ _ _ _ = _ |- _ => destruct i as [n|i]; cbn in H end.
    + destruct w as (src & w & st). injection H as <- _. cbn [fst snd]. eapply F_token. reflexivity.
    + apply lift_store' in H. rewrite H. apply F_tokenO.
  - match goal with H : mHandleNode _ _ _ _ _ = _ |- _ => destruct i as [n|i]; cbn in H end.
    + destruct x0 as [[x0|x0]|]; [destruct w as (src & w & st); injection H as <- _; apply F_node|injection H as <- _; apply F_nodeO; exact I..].
    + apply lift_store' in H. rewrite H. apply F_nodeO. exact I.
  - match goal with H : mEndNode _ _ _ = _ |- _ => destruct i as [n|i]; cbn in H end.
    + injection H as <- <- _. apply F_end.
    + apply lift_store' in H. rewrite H. apply F_endO.
  - match goal with H : nth_error _ _ = _ |- _ => destruct layer as [|layer]; cbn in H end.
    + injection H as <-. destruct H0 as [H0|H0]; [|apply repeat_spec in H0; discriminate H0]. injection H0 as <-. unfold treeHook in H1. destruct w as (src & w & st). destruct (newNodeElement node t st) as (st' & x) eqn:N. injection H1 as <- <- _. apply F_create, N.
    + assert (exists h0, h = liftNodeHook h0).
      { apply nth_error_In in H. apply in_map_iff in H. destruct H as (t1 & <- & _). apply in_map_iff in H0. destruct H0 as ([h0|] & H0 & _); [|discriminate H0]. injection H0 as <-. eauto. }
      destruct H2 as (h0 & ->). unfold liftNodeHook in H1. rewrite (lift_store' _ _ _ _ H1). apply lift_res in H1. destruct H1 as (w0 & H1). destruct (h0 node t w0) as (w1 & i1 & e1). injection H1 as <- _. apply F_createO. destruct i1; exact I.
  - apply F_none; reflexivity.
  - apply F_none; reflexivity.
  - apply F_none; reflexivity.
  - match goal with H : cCtx _ _ = _ |- _ => cbn in H; apply lift_store' in H; rewrite H end. apply F_none; reflexivity.
  - apply F_none; reflexivity.
  - apply F_none; reflexivity.
  - apply F_none; reflexivity.
  - apply F_none; reflexivity.
  - assert (exists h0, hook = liftTokenHook h0).
    { cbn in H. apply in_map_iff in H. destruct H as (t1 & <- & _). apply in_map_iff in H0. destruct H0 as ([h0|] & H0 & _); [|discriminate H0]. injection H0 as <-. eauto. }
    destruct H3 as (h0 & ->). unfold liftTokenHook in H1. apply runHook_store in H1. unfold restore. destruct (tcSnap tc); cbn [snd]; rewrite H1; apply F_none; reflexivity.
  - assert (exists h0, hook = liftTokenHook h0).
    { cbn in H. apply in_map_iff in H. destruct H as (t1 & <- & _). apply in_map_iff in H0. destruct H0 as ([h0|] & H0 & _); [|discriminate H0]. injection H0 as <-. eauto. }
    destruct H2 as (h0 & ->). unfold liftTokenHook in H1. apply runHook_store in H1. unfold restore. destruct (tcSnap tc); cbn [snd]; rewrite H1; apply F_none; reflexivity.
  - apply F_none; reflexivity.
  - apply F_none; reflexivity.
Qed.
Lemma hist_ran x y : hist c x y -> exists l, rev (snd y) = rev (snd x) ++ l /\ ran (stOf x) l (stOf y).
Proof.
  induction 1 as [x|x y z H (l & A & B) P]; [exists []; split; [rewrite app_nil_r; auto|constructor]|]. apply prim_eff in P. destruct P as (ev & P1 & P2). exists (l ++ [ev]). split; [rewrite P1; cbn [rev]; rewrite A, app_assoc; reflexivity|].
  apply ran_app. exists (stOf y). split; [exact B|apply ran_one, P2].
Qed.

(** ** Building *)
Notation others := (Forall other).
Lemma ran_idle l : (forall ev, In ev l -> forall st st', eff st ev st' -> st' = st) -> forall st st', ran st l st' -> st' = st.
Proof.
  induction l as [|ev l IH]; intros H st st' A; inversion A as [|? ? st1 ? ? A1 A2]; subst; [reflexivity|]. apply H in A1; [|left; auto]. subst. apply IH; [|exact A2]. intros ev' I0. apply H. right. exact I0.
Qed.
Lemma in_calls f : forall (hooks : list (option inst)) layer ev, others hooks -> In ev (calls layer f hooks) -> exists l i, ev = f l (OtherInst i) :> event.
Proof.
  induction hooks as [|[i|] r IH]; intros layer ev O0 H; cbn in H; [destruct H| |]; inversion O0; subst; [|eauto]. destruct H as [<-|H]; [|eauto]. destruct i as [n|i]; [contradiction|eauto].
Qed.
Lemma in_callsR f : forall (hooks : list (option inst)) layer (rs : list (option result)) ev, others hooks -> In ev (callsR layer f hooks rs) -> exists l i x, ev = f l (OtherInst i) x :> event.
Proof.
  induction hooks as [|[i|] r IH]; intros layer rs ev O0 H; cbn in H; [destruct H| |]; inversion O0; subst; (destruct rs as [|x rs]; [destruct H|]); [|eauto]. destruct H as [<-|H]; [|eauto]. destruct i as [n|i]; [contradiction|eauto].
Qed.
Lemma idle_news up node t layer st st' : ran st (calls layer (fun l i => EvNewNode l i node t) up) st' -> st' = st.
Proof.
  apply ran_idle. revert layer. induction up as [|[i|] up IH]; intros layer ev H; cbn in H; [destruct H| |eauto]. destruct H as [<-|H]; [|eauto]. intros a b0 X. inversion X; subst; auto.
Qed.
Lemma idle_tokens rest t layer st st' : others rest -> ran st (calls layer (fun l i => EvToken l i t) rest) st' -> st' = st.
Proof. intros O0. apply ran_idle. intros ev H. apply in_calls in H; [|exact O0]. destruct H as (l & i & ->). intros a b0 X. inversion X; subst; auto. Qed.
Lemma idle_ends rest rs layer st st' : others rest -> ran st (callsR layer (fun l i x => EvEnd l i x) rest rs) st' -> st' = st.
Proof. intros O0. apply ran_idle. intros ev H. apply in_callsR in H; [|exact O0]. destruct H as (l & i & x & ->). intros a b0 X. inversion X; subst; auto. Qed.
Lemma idle_nodes rest node rs layer st st' : others rest -> ran st (callsR layer (fun l i x => EvNode l i node x) rest rs) st' -> st' = st.
Proof. intros O0. apply ran_idle. intros ev H. apply in_callsR in H; [|exact O0]. destruct H as (l & i & x & ->). intros a b0 X. inversion X; subst; auto. Qed.
Lemma creations_other node t0 : forall (bs : list bool) hooks layer st st', Forall2 (fun (b : bool) i => b = false -> i = None) bs hooks ->
  ran st (creations (S layer) bs node t0 hooks) st' -> st' = st /\ others hooks.
Proof.
  induction bs as [|b bs IH]; intros hooks layer st st' H A; inversion H; subst.
  - inversion A; subst. split; [reflexivity|constructor].
  - destruct b; cbn [creations] in A.
    + inversion A as [|? ? st1 ? ? A1 A2]; subst. inversion A1; subst; [|discriminate]. destruct (IH _ _ _ _ H4 A2) as (-> & O0). split; auto.
    + destruct (IH _ _ _ _ H4 A) as (-> & O0). split; auto. constructor; [|exact O0]. rewrite H2 by reflexivity. exact I.
Qed.
Lemma hooked_first node : zget (gNodes g) node <> None -> exists bs, hooked node = true :: bs.
Proof.
  intros N. unfold hookedIn. cbn [cNodeHooks withTree map]. eexists. f_equal. destruct (zget (gNodes g) node) as [d|] eqn:D; [|congruence]. apply zget_Some_inv in D. destruct D as (D1 & D2).
  assert (Z1 : zget (Some (treeHook (E := E) (Tok := Tok) (Src := Src) (W := W) (Inst := Inst)) :: repeat None (length (gNodes g))) (node + 1) = Some None).
  { unfold zget. destruct (Z.ltb_spec (node + 1) 0); [lia|]. replace (Z.to_nat (node + 1)) with (S (Z.to_nat node)) by lia. cbn. apply nth_error_repeat. unfold zlen in D2. lia. }
  rewrite Z1. reflexivity.
Qed.
Definition body (hooks : list (option inst)) node t0 (results : list (option result)) (ks : list tree) : list event :=
  creations 0 (hooked node) node t0 hooks ++ traceL hooks ks ++ callsR 0 (fun l i x => EvEnd l i x) hooks results.
Definition nodeBuilt (T : tree) : Prop :=
  match T with
  | Leaf _ => True
  | Node node t0 hooks results ks => forall st F st', okS st F -> zget (gNodes g) node <> None -> treeOk hooked T -> ran st (body hooks node t0 results ks) st' ->
      exists rest rr F' ts, let x := sz st in hooks = Some (TreeInst x) :: rest /\ others rest /\ results = Some (Elem x) :: rr /\
        okS st' F' /\ grows st F None st' F' /\ In [x] (tops F') /\ is_tree F' (RT x ts) /\ mirrors st' T (RT x ts) /\ within (sz st) (sz st') (RT x ts) /\ sz st < sz st'
  end.
Lemma in_root t : In (root t) (pre t). Proof. destruct t. left. reflexivity. Qed.
Lemma trace_builds T p rest st F st' : nodeBuilt T -> others rest -> okS st F -> p < sz st -> Tree.isNode (sHeap st) p = true -> treeOk hooked T ->
  ran st (trace (Some (TreeInst p) :: rest) T) st' ->
  exists F' t, okS st' F' /\ grows st F (Some p) st' F' /\ kids F' p = kids F p ++ [root t] /\ is_tree F' t /\ mirrors st' T t /\ within (sz st) (sz st') t.
Proof.
  intros B O0 C P N TK A. destruct T as [k|node t0 hooks results ks].
  - cbn [ParserSpec.trace calls] in A. inversion A as [|? ? st1 ? ? A1 A2]; subst. apply idle_tokens in A2; [|exact O0]. subst. inversion A1 as [| | |? ? ? ? st2 x E0| | | | | |]; subst; [|discriminate].
    assert (SH : sHeap st2 = fst (Tree.newElement (sHeap st) false) /\ x = sz st) by (unfold newTokenElement in E0; cbn in E0; injection E0 as <- <-; split; reflexivity). destruct SH as (SH & SX).
    destruct (new_grows st F false st2 x C) as (C1 & G1 & _ & S1 & N1 & K1 & T1).
    { rewrite SH, SX. reflexivity. }
    { intros y Y. unfold newTokenElement in E0; cbn in E0; injection E0 as <- <-. cbn. rewrite upd_neq by exact Y. auto. }
    destruct (gr_data _ _ _ _ _ G1 p P) as (ND & _). 
    destruct (add_grows st F None st2 (loose F x) p x) as (F' & C2 & G2 & S2 & K2 & K3 & N2); auto; try lia; [congruence| |].
    { intros Q. assert (TT : is_tree (loose F x) (RT x [])) by (apply is_tree_eq; split; [exact K1|constructor]). apply (in_pre_reach _ _ TT) in Q. destruct Q as [Q|[]]. cbn in Q. lia. }
    exists F', (RT x []). split; [exact C2|]. split; [exact G2|]. split; [exact K2|]. split; [|split].
    + apply is_tree_eq. split; [rewrite K3 by lia; exact K1|constructor].
    + cbn -[addChild]. rewrite N2, N1. split; [reflexivity|]. split; [|reflexivity]. cbn. unfold newTokenElement in E0; cbn in E0; injection E0 as <- <-. cbn. apply upd_eq.
    + intros y [<-|[]]. lia.
  - rewrite trace_Node in A. apply ran_app in A. destruct A as (st1 & A1 & A). cbn [calls] in A1. inversion A1 as [|? ? st1' ? ? A3 A4]; subst. apply idle_news in A4. subst st1'. inversion A3 as [| |? ? ? ? ? V| | | | | | |]; subst; [|discriminate].
    rewrite !app_assoc in A. apply ran_app in A. destruct A as (st2 & A5 & A6). rewrite <- app_assoc in A5. destruct (B st1 F st2 C V TK A5) as (rest' & rr & F2 & ts & -> & O1 & -> & C2 & G2 & T2 & I2 & M2 & W2 & S2).
    cbn [callsR] in A6. inversion A6 as [|? ? st3 ? ? A7 A8]; subst. apply idle_nodes in A8; [|exact O0]. subst st3. inversion A7; subst; [|contradiction|discriminate].
    destruct (gr_data _ _ _ _ _ G2 p P) as (ND & _).
    destruct (add_grows st1 F None st2 F2 p (sz st1)) as (F' & C3 & G3 & S3 & K2 & K3 & N2); auto; try lia; [congruence| |].
    { intros Q. apply (in_pre_reach _ _ I2) in Q. apply W2 in Q. lia. }
    exists F', (RT (sz st1) ts). split; [exact C3|]. split; [exact G3|]. split; [rewrite K2; f_equal; apply (gr_kids _ _ _ _ _ G2); [exact P|discriminate]|]. split; [|split].
    + apply (is_tree_stays F2); [exact I2|]. intros y Y. apply K3. apply W2 in Y. lia.
    + apply (mirrors_stays st2); [exact M2|]. intros y Y. rewrite N2. auto.
    + intros y Y. apply W2 in Y. lia.
Qed.
Lemma kids_build rest x : others rest -> forall ks, Forall nodeBuilt ks -> Forall (treeOk hooked) ks -> forall st F st' done ts, okS st F -> x < sz st -> Tree.isNode (sHeap st) x = true ->
  kids F x = map root ts -> Forall (is_tree F) ts -> mirrorsL st done ts -> (forall t, In t ts -> within (S x) (sz st) t) ->
  ran st (traceL (Some (TreeInst x) :: rest) ks) st' ->
  exists F' ts', okS st' F' /\ grows st F (Some x) st' F' /\ kids F' x = map root ts' /\ Forall (is_tree F') ts' /\ mirrorsL st' (done ++ ks) ts' /\ (forall t, In t ts' -> within (S x) (sz st') t).
Proof.
  intros O0. induction ks as [|k ks IH]; intros B TK st F st' done ts C X N K IT M WT A.
  - inversion A; subst. exists F, ts. rewrite app_nil_r. repeat (split; auto using grows_refl).
  - inversion B as [|? ? B1 B2]; inversion TK as [|? ? TK1 TK2]; subst. unfold ParserSpec.traceL in A. cbn [map concat] in A. apply ran_app in A. destruct A as (st1 & A1 & A2).
    destruct (trace_builds k x rest st F st1 B1 O0 C X N TK1 A1) as (F1 & t & C1 & G1 & K1 & I1 & M1 & W1).
    assert (D : forall t0, In t0 ts -> forall y, In y (pre t0) -> S x <= y < sz st) by (intros t0 I0 y Y; exact (WT t0 I0 y Y)).
    destruct (IH B2 TK2 st1 F1 st' (done ++ [k]) (ts ++ [t])) as (F' & ts' & C2 & G2 & K2 & I2 & M2 & W2).
    + exact C1.
    + destruct G1; lia.
    + destruct (gr_data _ _ _ _ _ G1 x X) as (-> & _). exact N.
    + rewrite K1, K, map_app. reflexivity.
    + apply Forall_app. split; [|constructor; auto]. rewrite Forall_forall in *. intros t0 I0. apply (is_tree_stays F); [auto|]. intros y Y. pose proof (D t0 I0 y Y). apply (gr_kids _ _ _ _ _ G1); [lia|]. intros [= ->]. lia.
    + apply mirrorsL_snoc; [|exact M1]. apply (mirrorsL_stays st); [exact M|]. intros t0 I0 y Y. apply (gr_data _ _ _ _ _ G1). pose proof (D t0 I0 y Y). lia.
    + intros t0 I0 y Y. apply in_app_or in I0. destruct I0 as [I0|[<-|[]]]; [pose proof (D t0 I0 y Y); destruct G1; lia|]. apply W1 in Y. lia.
    + exact A2.
    + exists F', ts'. split; [exact C2|]. split; [|rewrite <- app_assoc in M2; auto].
      apply (grows_trans st F (Some x) st1 F1 (Some x)); auto. intros y _ [Q|Q]; exact Q.
Qed.
Lemma node_built : forall T : tree, nodeBuilt T.
Proof.
  fix IHT 1. intros [k|node t0 hooks results ks]; [exact I|]. cbn [nodeBuilt]. intros st F st' C V TK A.
  assert (BK : Forall nodeBuilt ks) by (clear - IHT; induction ks as [|k ks IH]; constructor; auto). clear IHT.
  pose proof TK as TK'. apply treeOk_Node in TK'. destruct TK' as (IO & LR & TKS). unfold instOk in IO. destruct (hooked_first node V) as (bs & HB). unfold body in A. rewrite HB in IO, A.
  inversion IO as [|? i0 ? rest IO1 IO2]; subst. cbn [creations] in A. inversion A as [|? ? st1 ? ? A1 A2]; subst. inversion A1 as [? ? ? ? x E0| | | | | | | | |]; subst; [|discriminate].
  apply ran_app in A2. destruct A2 as (st2 & A2 & A3). destruct (creations_other _ _ _ _ _ _ _ IO2 A2) as (-> & OR). apply ran_app in A3. destruct A3 as (st3 & A3 & A4).
  assert (SH : sHeap st1 = fst (Tree.newElement (sHeap st) true) /\ x = sz st /\ sName st1 x = node /\ sTok st1 x = t0).
  { unfold newNodeElement in E0; cbn in E0; injection E0 as <- <-. cbn. rewrite !upd_eq. auto. }
  destruct SH as (SH & SX & SN & ST).
  destruct (new_grows st F true st1 x C) as (C1 & G1 & _ & S1 & N1 & K1 & T1).
  { rewrite SH, SX. reflexivity. }
  { intros y Y. unfold newNodeElement in E0; cbn in E0; injection E0 as <- <-. cbn. rewrite !upd_neq by exact Y. auto. }
  destruct results as [|r0 rr]; [discriminate LR|]. cbn [callsR] in A4. inversion A4 as [|? ? st4 ? ? A5 A6]; clear A4; subst. inversion A5; subst; [|discriminate]. apply idle_ends in A6; [|exact OR]. subst.
  destruct (kids_build rest (sz st) OR ks BK TKS st1 (loose F (sz st)) st4 [] []) as (F' & ts & C2 & G2 & K2 & I2 & M2 & W2); auto; try lia; try (intros t []); try exact I.
  exists rest, rr, F', ts. split; [reflexivity|]. split; [exact OR|]. split; [reflexivity|]. split; [exact C2|]. destruct (gr_data _ _ _ _ _ G2 (sz st)) as (D1 & D2 & D3); [lia|]. split; [|split; [|split; [|split; [|split]]]].
  - apply (grows_trans st F None st1 (loose F (sz st)) (Some (sz st))); auto. intros y Y [Q|Q]; [discriminate|]. injection Q as <-. lia.
  - apply (gr_tops _ _ _ _ _ G2); [exact T1|lia].
  - apply is_tree_eq. split; [exact K2|exact I2].
  - apply mirrors_node. rewrite D1, D2, D3. auto.
  - intros y [<-|Y]; [destruct G2; lia|]. apply in_flat_map in Y. destruct Y as (t & I0 & Y). apply (W2 t I0) in Y. lia.
  - destruct G2. lia.
Qed.
End Events.
