(** Invariants of the parsing process: the calls of node hooks follow a tree. *)
From Coq Require Import ZArith List Bool Lia.
From Verif Require Import Base BaseProofs Grammar Rules RulesSpec Prop_Rules Parser ParserSpec.
Import ListNotations.
Open Scope Z_scope.

Lemma filter_all {A} (f : A -> bool) l : forallb f l = true -> filter f l = l.
Proof. induction l as [|a l IH]; cbn; auto. destruct (f a); cbn; [|discriminate]. intros H. rewrite IH; auto. Qed.

Section P.
Context {Tok Src W E Inst R : Type}.
Variable c : config Tok Src W E Inst R.
Notation g := (cGrammar c).
Notation pstate := (pstate Tok Src W E Inst R).
Notation event := (event Tok E Inst R).
Notation res := (res Tok Src W E Inst R).
Notation tree := (tree Tok Inst R).
Notation nodeRec := (nodeRec Tok Inst).

(** Outcomes: value, or the state when it stopped *)
Definition post {A} (m : res A) (P : A -> pstate -> Prop) (Q : pstate -> Prop) : Prop :=
  match m with Done a s => P a s | Fail _ s => Q s | NoFuel s => Q s | Panic => True end.
Lemma post_bind {A B} (m : res A) (k : A -> pstate -> res B) P P' Q :
  post m P Q -> (forall a s, P a s -> post (k a s) P' Q) -> post (bind m k) P' Q.
Proof. destruct m; cbn; auto. Qed.
Lemma post_weak {A} (m : res A) (P P' : A -> pstate -> Prop) (Q Q' : pstate -> Prop) :
  post m P Q -> (forall a s, P a s -> P' a s) -> (forall s, Q s -> Q' s) -> post m P' Q'.
Proof. destruct m; cbn; auto. Qed.

Definition clog (s : pstate) : list event := rev (pLog s).
Lemma clog_log ev s : clog (log ev s) = clog s ++ [ev].
Proof. reflexivity. Qed.

(** States differing only in the world, the log and the last result *)
Record sameN (s s' : pstate) : Prop := mkSameN {
  sn_tokens : pTokens s' = pTokens s; sn_queues : pQueues s' = pQueues s; sn_applied : pApplied s' = pApplied s;
  sn_stack : pStack s' = pStack s; sn_lost : pLost s' = pLost s }.
Lemma sameN_refl s : sameN s s. Proof. constructor; auto. Qed.
Lemma sameN_trans s1 s2 s3 : sameN s1 s2 -> sameN s2 s3 -> sameN s1 s3.
Proof. intros [] []. constructor; congruence. Qed.

Lemma prefix_nil {A} (l : list A) : prefix [] l. Proof. exists l. auto. Qed.
Lemma prefix_refl {A} (l : list A) : prefix l l. Proof. exists []. rewrite app_nil_r. auto. Qed.
Lemma prefix_app {A} (l m n : list A) : prefix m n -> prefix (l ++ m) (l ++ n).
Proof. intros (r & ->). exists r. rewrite app_assoc. auto. Qed.
Lemma prefix_app_l {A} (l m n : list A) : prefix l m -> prefix l (m ++ n).
Proof. intros (r & ->). exists (r ++ n). rewrite app_assoc. auto. Qed.
Lemma prefix_cons {A} (x : A) m n : prefix m n -> prefix (x :: m) (x :: n).
Proof. intros (r & ->). exists r. auto. Qed.
Lemma prefix_trans {A} (l m n : list A) : prefix l m -> prefix m n -> prefix l n.
Proof. intros (r & ->) (q & ->). exists (r ++ q). rewrite app_assoc. auto. Qed.

(** Outcome of a batch of calls *)
Definition added (s : pstate) (l : list event) (s' : pstate) : Prop := sameN s s' /\ clog s' = clog s ++ l.
Definition stopped (s : pstate) (L : list event -> Prop) (s' : pstate) : Prop :=
  exists p e, L p /\ clog s' = clog s ++ p ++ [EvNodeFail e].
Lemma added_nil s : added s [] s.
Proof. split; [apply sameN_refl|rewrite app_nil_r; auto]. Qed.
Lemma added_trans s l s1 m s2 : added s l s1 -> added s1 m s2 -> added s (l ++ m) s2.
Proof. intros [A1 B1] [A2 B2]. split; [eapply sameN_trans; eauto|]. rewrite B2, B1, app_assoc. auto. Qed.
Lemma added_stopped s l s1 (L L' : list event -> Prop) s2 : added s l s1 -> stopped s1 L s2 -> (forall p, L p -> L' (l ++ p)) -> stopped s L' s2.
Proof.
  intros [A1 B1] (p & e & HL & HC) H. exists (l ++ p), e. split; auto. rewrite HC, B1, <- !app_assoc. auto.
Qed.

(** one call *)
Lemma call_ok (s : pstate) w ev e :
  post (nret e (log ev (setWorld s w))) (fun _ s' => added s [ev] s' /\ pLast s' = pLast s) (stopped s (fun p => p = [ev])).
Proof.
  destruct e as [e|]; cbn [nret post].
  - exists [ev], e. split; auto. rewrite !clog_log, <- app_assoc. reflexivity.
  - split; [split; [constructor|]|]; reflexivity.
Qed.

Lemma newNodes_ok hooks : forall layer node t s,
  post (newNodes c layer hooks node t s)
    (fun _ s' => added s (calls layer (fun l i => EvNewNode l i node t) hooks) s' /\ pLast s' = pLast s)
    (stopped s (fun p => prefix p (calls layer (fun l i => EvNewNode l i node t) hooks))).
Proof.
  induction hooks as [|[i|] r IH]; intros layer node t s; cbn [newNodes calls].
  - cbn. split; [apply added_nil|auto].
  - destruct (mNewNode (cMethods c) i node t (pWorld s)) as [w e].
    pose proof (call_ok s w (EvNewNode layer i node t) e) as H.
    destruct (nret e (log (EvNewNode layer i node t) (setWorld s w))) as [u s1|e' s1| |s1]; cbn [bind post] in *; auto.
    + destruct H as [H HL]. eapply post_weak; [apply IH| |].
      * intros _ s2 [H2 HL2]. split; [eapply (added_trans s [_]); eauto|congruence].
      * intros s2 H2. eapply (added_stopped s [_]); eauto. intros p. apply prefix_cons.
    + destruct H as (p & e2 & -> & H). exists [EvNewNode layer i node t], e2. split; auto. apply prefix_cons, prefix_nil.
    + destruct H as (p & e2 & -> & H). exists [EvNewNode layer i node t], e2. split; auto. apply prefix_cons, prefix_nil.
  - apply IH.
Qed.

Lemma handleTokens_ok hooks : forall layer t s,
  post (handleTokens c layer hooks t s)
    (fun _ s' => added s (calls layer (fun l i => EvToken l i t) hooks) s' /\ pLast s' = pLast s)
    (stopped s (fun p => prefix p (calls layer (fun l i => EvToken l i t) hooks))).
Proof.
  induction hooks as [|[i|] r IH]; intros layer t s; cbn [handleTokens calls].
  - cbn. split; [apply added_nil|auto].
  - destruct (mHandleToken (cMethods c) i t (pWorld s)) as [w e].
    pose proof (call_ok s w (EvToken layer i t) e) as H.
    destruct (nret e (log (EvToken layer i t) (setWorld s w))) as [u s1|e' s1| |s1]; cbn [bind post] in *; auto.
    + destruct H as [H HL]. eapply post_weak; [apply IH| |].
      * intros _ s2 [H2 HL2]. split; [eapply (added_trans s [_]); eauto|congruence].
      * intros s2 H2. eapply (added_stopped s [_]); eauto. intros p. apply prefix_cons.
    + destruct H as (p & e2 & -> & H). exists [EvToken layer i t], e2. split; auto. apply prefix_cons, prefix_nil.
    + destruct H as (p & e2 & -> & H). exists [EvToken layer i t], e2. split; auto. apply prefix_cons, prefix_nil.
  - apply IH.
Qed.

Notation hooked := (hookedIn (cNodeHooks c)).
Notation trace := (trace (E:=E) (R:=R) hooked).
Notation traceL := (traceL (E:=E) (R:=R) hooked).

Lemma handleTokenList_ok hooks : forall ts s,
  post (handleTokenList c hooks ts s)
    (fun _ s' => added s (traceL hooks (map Leaf ts)) s' /\ pLast s' = pLast s)
    (stopped s (fun p => prefix p (traceL hooks (map Leaf ts)))).
Proof.
  induction ts as [|t ts IH]; intros s; cbn [handleTokenList map].
  - cbn. split; [apply added_nil|auto].
  - unfold ParserSpec.traceL. cbn [map concat ParserSpec.trace]. fold (traceL hooks (map Leaf ts)).
    pose proof (handleTokens_ok hooks 0 t s) as H.
    destruct (handleTokens c 0 hooks t s) as [u s1|e' s1| |s1]; cbn [bind post] in *; auto.
    + destruct H as [H HL]. eapply post_weak; [apply IH| |].
      * intros _ s2 [H2 HL2]. split; [eapply added_trans; eauto|congruence].
      * intros s2 H2. eapply added_stopped; eauto. intros p. apply prefix_app.
    + destruct H as (p & e2 & HP & H). exists p, e2. split; auto. apply prefix_app_l. auto.
    + destruct H as (p & e2 & HP & H). exists p, e2. split; auto. apply prefix_app_l. auto.
Qed.

Lemma endNodes_ok hooks : forall layer s,
  post (endNodes c layer hooks s)
    (fun results s' => length results = length hooks /\ added s (callsR layer (fun l i x => EvEnd l i x) hooks results) s' /\
       pLast s' = (if (layer =? 0)%nat && cWatchNodes c then match hooks, results with Some _ :: _, x :: _ => x | _, _ => pLast s end else pLast s))
    (stopped s (fun p => exists results, length results = length hooks /\ prefix p (callsR layer (fun l i x => EvEnd l i x) hooks results))).
Proof.
  induction hooks as [|[i|] r IH]; intros layer s; cbn [endNodes].
  - cbn. split; auto. split; [apply added_nil|]. destruct ((layer =? 0)%nat && cWatchNodes c); auto.
  - destruct (mEndNode (cMethods c) i (pWorld s)) as [w [x e]].
    pose proof (call_ok s w (EvEnd layer i x) e) as H.
    destruct (nret e (log (EvEnd layer i x) (setWorld s w))) as [u s1|e' s1| |s1]; cbn [bind post] in *; auto.
    + destruct H as [H HL]. set (s2 := if (layer =? 0)%nat && cWatchNodes c then setLast s1 x else s1).
      assert (H2 : added s [EvEnd layer i x] s2).
      { destruct H as [[] HC]. unfold s2. destruct ((layer =? 0)%nat && cWatchNodes c); (split; [constructor|]); auto. }
      specialize (IH (S layer) s2). fold s2.
      destruct (endNodes c (S layer) r s2) as [l s3|e' s3| |s3]; cbn [bind post] in *; auto.
      * destruct IH as (L & A & PL). split; [cbn; congruence|]. split; [apply (added_trans s [_] s2); auto|].
        cbn in PL. rewrite PL. unfold s2. destruct ((layer =? 0)%nat && cWatchNodes c); cbn; auto.
      * destruct IH as (p & e2 & (results & L & HP) & HC). destruct H2 as [_ H2].
        exists (EvEnd layer i x :: p), e2. split; [exists (x :: results); split; [cbn; congruence|apply prefix_cons; auto]|].
        rewrite HC, H2, <- app_assoc. reflexivity.
      * destruct IH as (p & e2 & (results & L & HP) & HC). destruct H2 as [_ H2].
        exists (EvEnd layer i x :: p), e2. split; [exists (x :: results); split; [cbn; congruence|apply prefix_cons; auto]|].
        rewrite HC, H2, <- app_assoc. reflexivity.
    + destruct H as (p & e2 & -> & H). exists [EvEnd layer i x], e2. split; auto.
      exists (x :: repeat None (length r)). split; [cbn; rewrite repeat_length; auto|apply prefix_cons, prefix_nil].
    + destruct H as (p & e2 & -> & H). exists [EvEnd layer i x], e2. split; auto.
      exists (x :: repeat None (length r)). split; [cbn; rewrite repeat_length; auto|apply prefix_cons, prefix_nil].
  - specialize (IH (S layer) s). destruct (endNodes c (S layer) r s) as [l s3|e' s3| |s3]; cbn [bind post] in *; auto.
    + destruct IH as (L & A & PL). split; [cbn; congruence|]. split; [exact A|].
      cbn in PL. rewrite PL. destruct ((layer =? 0)%nat && cWatchNodes c); auto.
    + destruct IH as (p & e2 & (results & L & HP) & HC). exists p, e2. split; auto. exists (None :: results). split; [cbn; congruence|auto].
    + destruct IH as (p & e2 & (results & L & HP) & HC). exists p, e2. split; auto. exists (None :: results). split; [cbn; congruence|auto].
Qed.

Lemma handleNodes_ok hooks : forall layer node results s,
  length results = length hooks ->
  post (handleNodes c layer hooks node results s)
    (fun _ s' => added s (callsR layer (fun l i x => EvNode l i node x) hooks results) s' /\ pLast s' = pLast s)
    (stopped s (fun p => prefix p (callsR layer (fun l i x => EvNode l i node x) hooks results))).
Proof.
  induction hooks as [|[i|] r IH]; intros layer node results s HL; cbn [handleNodes].
  - cbn. split; [apply added_nil|auto].
  - destruct results as [|x xs]; [discriminate|]. injection HL as HL.
    destruct (mHandleNode (cMethods c) i node x (pWorld s)) as [w e].
    pose proof (call_ok s w (EvNode layer i node x) e) as H.
    destruct (nret e (log (EvNode layer i node x) (setWorld s w))) as [u s1|e' s1| |s1]; cbn [bind post callsR] in *; auto.
    + destruct H as [H HL1]. eapply post_weak; [apply IH; auto| |].
      * intros _ s2 [H2 HL2]. split; [eapply (added_trans s [_]); eauto|congruence].
      * intros s2 H2. eapply (added_stopped s [_]); eauto. intros p. apply prefix_cons.
    + destruct H as (p & e2 & -> & H). exists [EvNode layer i node x], e2. split; auto. apply prefix_cons, prefix_nil.
    + destruct H as (p & e2 & -> & H). exists [EvNode layer i node x], e2. split; auto. apply prefix_cons, prefix_nil.
  - destruct results as [|x xs]; [discriminate|]. injection HL as HL. apply IH; auto.
Qed.

Lemma getNodeHook_ok layer table node t s :
  post (getNodeHook layer table node t s)
    (fun i s' => let b := hd false (hookedIn [table] node) in
       (b = false -> i = None) /\ added s (creations layer [b] node t [i]) s' /\ pLast s' = pLast s)
    (stopped s (fun p => exists i, hd false (hookedIn [table] node) = true /\ p = [EvCreate layer node t i])).
Proof.
  unfold getNodeHook, hookedIn. cbn [map hd].
  destruct (zget table (node + 1)) as [h|]; [|exact I]. destruct (zget table 0) as [any|]; [|exact I].
  assert (D : (exists hk, match h with Some _ => h | None => any end = Some hk /\ match h with Some _ => true | None => match any with Some _ => true | None => false end end = true)
     \/ (match h with Some _ => h | None => any end = None /\ match h with Some _ => true | None => match any with Some _ => true | None => false end end = false)).
  { destruct h; [left; eauto|]. destruct any; [left; eauto|right; auto]. }
  replace (match h with Some _ => true | None => match any with Some _ => true | None => false end end)
    with (match h with Some _ => true | None => match any with Some _ => true | _ => false end end) in D by auto.
  assert (EB : (match h with Some _ => true | None => match any with Some _ => true | None => false end end) = match h, any with Some _, _ => true | None, Some _ => true | _, _ => false end) by (destruct h, any; auto).
  destruct D as [(hk & -> & HB)|[-> HB]].
  - destruct (hk node t (pWorld s)) as [w [i e]].
    pose proof (call_ok s w (EvCreate layer node t i) e) as H.
    destruct (nret e (log (EvCreate layer node t i) (setWorld s w))) as [u s1|e' s1| |s1]; cbn [bind post] in *; auto.
    + destruct H as [H HL]. cbn zeta. replace (match h with Some _ => true | None => match any with Some _ => true | None => false end end) with true by auto. split; [discriminate|]. split; [exact H|exact HL].
    + destruct H as (p & e2 & -> & H). exists [EvCreate layer node t i], e2. split; auto. exists i. split; auto; destruct h, any; auto; discriminate.
    + destruct H as (p & e2 & -> & H). exists [EvCreate layer node t i], e2. split; auto. exists i. split; auto; destruct h, any; auto; discriminate.
  - cbn [post]. destruct h; [discriminate|]. destruct any; [discriminate|]. split; auto. split; [apply added_nil|auto].
Qed.

Notation inst_ok := (Forall2 (fun (b : bool) (i : option Inst) => b = false -> i = None)).
Lemma inst_none l : inst_ok l (repeat None (length l)).
Proof. induction l; cbn; constructor; auto. Qed.

Lemma newHooks_ok tables : forall layer node t s,
  post (newHooks layer tables node t s)
    (fun hooks s' => inst_ok (hookedIn tables node) hooks /\ added s (creations layer (hookedIn tables node) node t hooks) s' /\ pLast s' = pLast s)
    (stopped s (fun p => exists hooks, inst_ok (hookedIn tables node) hooks /\ prefix p (creations layer (hookedIn tables node) node t hooks))).
Proof.
  induction tables as [|table r IH]; intros layer node t s; cbn [newHooks].
  - cbn. split; [constructor|]. split; [apply added_nil|auto].
  - pose proof (getNodeHook_ok layer table node t s) as H.
    change (hookedIn (table :: r) node) with (hd false (hookedIn [table] node) :: hookedIn r node).
    set (b := hd false (hookedIn [table] node)) in *.
    destruct (getNodeHook layer table node t s) as [i s1|e' s1| |s1]; cbn [bind post] in *; auto.
    + destruct H as (HI & HA & HL). specialize (IH (S layer) node t s1).
      destruct (newHooks (S layer) r node t s1) as [l s2|e' s2| |s2]; cbn [bind post] in *; auto.
      * destruct IH as (HI2 & HA2 & HL2). split; [constructor; auto|]. split; [|congruence].
        pose proof (added_trans _ _ _ _ _ HA HA2) as H3. cbn [creations] in *. destruct b; exact H3.
      * destruct IH as (p & e2 & (hooks & HI2 & HP) & HC). destruct HA as [_ HA].
        exists (creations layer [b] node t [i] ++ p), e2. split; [|rewrite HC, HA, <- !app_assoc; auto].
        exists (i :: hooks). split; [constructor; auto|]. cbn [creations]. destruct b; cbn; [apply prefix_cons|]; auto.
      * destruct IH as (p & e2 & (hooks & HI2 & HP) & HC). destruct HA as [_ HA].
        exists (creations layer [b] node t [i] ++ p), e2. split; [|rewrite HC, HA, <- !app_assoc; auto].
        exists (i :: hooks). split; [constructor; auto|]. cbn [creations]. destruct b; cbn; [apply prefix_cons|]; auto.
    + destruct H as (p & e2 & (i & HB & ->) & HC). exists [EvCreate layer node t i], e2. split; auto.
      exists (i :: repeat None (length (hookedIn r node))). split; [constructor; [congruence|apply inst_none]|].
      rewrite HB. cbn. apply prefix_cons, prefix_nil.
    + destruct H as (p & e2 & (i & HB & ->) & HC). exists [EvCreate layer node t i], e2. split; auto.
      exists (i :: repeat None (length (hookedIn r node))). split; [constructor; [congruence|apply inst_none]|].
      rewrite HB. cbn. apply prefix_cons, prefix_nil.
Qed.
End P.
