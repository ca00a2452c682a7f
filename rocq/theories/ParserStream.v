(** The stream of tokens: hook layers, their queues, the parser's own queue. *)
From Coq Require Import ZArith List Bool Lia Arith.
From Verif Require Import Base BaseProofs Grammar Rules RulesSpec Prop_Rules Parser ParserSpec ParserProofs.
Import ListNotations.
Open Scope Z_scope.

Section P.
Context {Tok Src W E Inst R : Type}.
Variable c : config Tok Src W E Inst R.
Notation g := (cGrammar c).
Notation pstate := (pstate Tok Src W E Inst R).
Notation event := (event Tok E Inst R).
Notation res := (res Tok Src W E Inst R).
Notation clog := (clog (Tok:=Tok) (Src:=Src) (W:=W) (E:=E) (Inst:=Inst) (R:=R)).

Definition isStream (ev : event) : bool :=
  match ev with EvCheck | EvPass _ _ | EvDecide _ _ _ _ | EvFail _ | EvWrong _ => true | _ => false end.
Definition allS (l : list event) : Prop := forallb isStream l = true.
Lemma allS_app a b : allS (a ++ b) <-> allS a /\ allS b.
Proof. unfold allS. rewrite forallb_app, andb_true_iff. tauto. Qed.
Lemma allS_nodeEvents l : allS l -> nodeEvents l = [].
Proof. unfold allS. induction l as [|e l IH]; cbn; auto. destruct e; cbn; try discriminate; auto. Qed.
Lemma allS_nexts l : allS l -> nexts l = [].
Proof. unfold allS. induction l as [|e l IH]; cbn; auto. destruct e; cbn; try discriminate; auto. Qed.
Lemma allS_rests l : allS l -> rests l = [].
Proof. unfold allS. induction l as [|e l IH]; cbn; auto. destruct e; cbn; try discriminate; auto. Qed.
Lemma passed_app k (a b : list event) : passed k (a ++ b) = passed k a ++ passed k b.
Proof. apply flat_map_app. Qed.
Lemma decisions_app k (a b : list event) : decisions k (a ++ b) = decisions k a ++ decisions k b.
Proof. apply flat_map_app. Qed.
Lemma nexts_app (a b : list event) : nexts (a ++ b) = nexts a ++ nexts b.
Proof. apply flat_map_app. Qed.
Lemma rests_app (a b : list event) : rests (a ++ b) = rests a ++ rests b.
Proof. apply flat_map_app. Qed.
Lemma somes_app {A} (a b : list (option A)) : somes (a ++ b) = somes a ++ somes b.
Proof. apply flat_map_app. Qed.

(** States differing only in the world, queues of hook layers and the log *)
Record str (s : pstate) (l : list event) (s' : pstate) : Prop := mkStr {
  str_tokens : pTokens s' = pTokens s; str_applied : pApplied s' = pApplied s; str_last : pLast s' = pLast s;
  str_stack : pStack s' = pStack s; str_lost : pLost s' = pLost s; str_len : length (pQueues s') = length (pQueues s);
  str_log : clog s' = clog s ++ l; str_all : allS l }.
Lemma str_refl s : str s [] s.
Proof. constructor; auto; try reflexivity. rewrite app_nil_r. auto. Qed.
Lemma str_trans s1 l s2 m s3 : str s1 l s2 -> str s2 m s3 -> str s1 (l ++ m) s3.
Proof.
  intros [] []. constructor; try congruence; [|apply allS_app; auto]. rewrite str_log1, str_log0, app_assoc. auto.
Qed.
Lemma str_world s w : str s [] (setWorld s w).
Proof. constructor; auto; try reflexivity. cbn. rewrite app_nil_r. auto. Qed.
Lemma str_queue s k q : str s [] (setQueue s k q).
Proof. constructor; auto; try reflexivity. - apply upd_length. - cbn. rewrite app_nil_r. auto. Qed.
Lemma str_ev s ev : isStream ev = true -> str s [ev] (log ev s).
Proof. intros H. constructor; auto; try reflexivity. unfold allS. cbn. rewrite H. auto. Qed.

Definition noFail (l : list event) : Prop := forallb (fun ev => negb (failed ev)) l = true.
Lemma noFail_app a b : noFail (a ++ b) <-> noFail a /\ noFail b.
Proof. unfold noFail. rewrite forallb_app, andb_true_iff. tauto. Qed.

Lemma ret_ok (e : option E) (s : pstate) :
  post (ret e s) (fun _ s' => s' = s) (fun s' => exists e', s' = log (EvFail e') s).
Proof. destruct e as [e|]; cbn; eauto. Qed.

Lemma checkCtx_ok s :
  post (checkCtx c s) (fun _ s' => str s [EvCheck] s' /\ pQueues s' = pQueues s)
    (fun s' => exists e, str s [EvCheck; EvFail e] s').
Proof.
  unfold checkCtx. destruct (cCtx c (pWorld s)) as [w e]. destruct e as [e|]; cbn [ret post].
  - exists e. apply (str_trans s [EvCheck] (log EvCheck (setWorld s w)) [EvFail e]).
    + apply (str_trans s [] (setWorld s w)); [apply str_world|apply str_ev; auto].
    + apply str_ev; auto.
  - split; [|reflexivity]. apply (str_trans s [] (setWorld s w)); [apply str_world|apply str_ev; auto].
Qed.

(** What a hook layer puts in place of a token. *)
Definition repl (d : Tok * (bool * list Tok)) : list Tok := (if fst (snd d) then [fst d] else []) ++ snd (snd d).

Lemma handleToken_ok t layer hooks s :
  post (handleToken c t layer hooks s)
    (fun r s' => exists l, str s l s' /\ pQueues s' = pQueues s /\ (forall k, passed k l = []) /\ noFail l /\
       (forall k, decisions k l = match t with Some tok => if (k =? layer)%nat then [(tok, r)] else [] | None => [] end) /\
       (t = None -> r = (true, [])))
    (fun s' => exists l, str s l s' /\ (forall k, passed k l = []) /\ ~ noFail l).
Proof.
  unfold handleToken. destruct t as [tok|].
  2:{ cbn [post]. exists []. split; [apply str_refl|]. repeat split; auto. }
  pose proof (checkCtx_ok s) as H. destruct (checkCtx c s) as [u s1|e s1| |s1]; cbn [bind post] in *; auto.
  2:{ destruct H as (e' & H). exists [EvCheck; EvFail e']. split; auto. split; auto. discriminate. }
  2:{ destruct H as (e' & H). exists [EvCheck; EvFail e']. split; auto. split; auto. discriminate. }
  destruct H as [H HQ]. destruct (hookFor c hooks tok) as [[hook|]|]; [| |exact I].
  - destruct (runHook c (skipn (S layer) (pQueues s1)) (hook tok) (mkTC 0 None) (pWorld s1)) as [[tc w] [[emit extra] e]].
    destruct e as [e|]; cbn [ret bind post].
    + exists ([EvCheck] ++ [] ++ [EvFail e]). split; [|split; [auto|discriminate]].
      eapply str_trans; [exact H|]. eapply str_trans; [apply str_world|]. apply str_ev; auto.
    + match goal with |- context [EvDecide layer tok ?a ?b] => set (em := a); set (ex := b) end.
      exists ([EvCheck] ++ [] ++ [EvDecide layer tok em ex]). split; [|split; [exact HQ|split; [reflexivity|split; [reflexivity|split; [|discriminate]]]]].
      * eapply str_trans; [exact H|]. eapply str_trans; [apply str_world|]. apply str_ev; auto.
      * intros k. cbn. rewrite Nat.eqb_sym. destruct (k =? layer)%nat; auto.
  - cbn [post]. exists ([EvCheck] ++ [EvDecide layer tok true []]). split; [|split; [exact HQ|split; [reflexivity|split; [reflexivity|split; [|discriminate]]]]].
    + eapply str_trans; [exact H|]. apply str_ev; auto.
    + intros k. cbn. rewrite Nat.eqb_sym. destruct (k =? layer)%nat; auto.
Qed.

Notation queue k s := (nth k (pQueues s) []).
Lemma queue_set (s : pstate) k q j : (k < length (pQueues s))%nat -> queue j (setQueue s k q) = if (j =? k)%nat then q else queue j s.
Proof.
  intros H. cbn [setQueue setQueues pQueues]. apply nth_upd. auto.
Qed.

Lemma appendExtra_ok layer : forall extra s, (layer < length (pQueues s))%nat ->
  post (appendExtra c layer extra s)
    (fun _ s' => str s [] s' /\ length (pQueues s') = length (pQueues s) /\
       forall k, queue k s' = queue k s ++ if (k =? layer)%nat then extra else [])
    (fun s' => exists l, str s l s' /\ (forall k, passed k l = []) /\ ~ noFail l).
Proof.
  induction extra as [|t r IH]; intros s HL; cbn [appendExtra].
  - cbn [post]. split; [apply str_refl|]. split; auto. intros k. destruct (k =? layer)%nat; rewrite app_nil_r; auto.
  - destruct (isValidType c (cType c t)); cbn [negb].
    + eapply post_weak; [apply IH| |].
      * cbn. rewrite upd_length. auto.
      * intros _ s' (A & B & C). split; [exact (str_trans _ _ _ _ _ (str_queue s layer _) A)|].
        split; [rewrite B; cbn; apply upd_length|]. intros k. rewrite C, queue_set; auto.
        destruct (Nat.eqb_spec k layer) as [->|]; auto. rewrite <- app_assoc. auto.
      * intros s' (l & A & B & C). exists l. split; auto. exact (str_trans _ _ _ _ _ (str_queue s layer _) A).
    + cbn [post]. exists [EvWrong t]. split; [apply str_ev; auto|]. split; auto. discriminate.
Qed.

(** ** Hook layers *)

(** For a piece of the log without errors: each layer from [layer] on decides exactly about the
    tokens given out by the layer above it, and gives out, in order, what it decided to put in their
    place; the rest is in its queue. *)
Definition flows (layer n : nat) (s : pstate) (l : list event) (s' : pstate) : Prop :=
  forall k, (layer <= k < n)%nat ->
    map fst (decisions k l) = somes (passed (S k) l) /\
    somes (passed k l) ++ queue k s' = queue k s ++ flat_map repl (decisions k l).

Lemma flows_trans layer n s1 l s2 m s3 : flows layer n s1 l s2 -> flows layer n s2 m s3 -> flows layer n s1 (l ++ m) s3.
Proof.
  intros H1 H2 k HK. destruct (H1 k HK) as [A1 B1]. destruct (H2 k HK) as [A2 B2].
  rewrite !decisions_app, !passed_app, !somes_app, map_app, flat_map_app. split; [congruence|].
  rewrite <- app_assoc, B2, app_assoc, B1, <- app_assoc. auto.
Qed.

Definition pulled (layer n : nat) (s : pstate) (t : option Tok) (s' : pstate) : Prop :=
  exists l, str s l s' /\ length (pQueues s') = length (pQueues s) /\
    (forall k, (k < layer)%nat -> passed k l = [] /\ decisions k l = [] /\ queue k s' = queue k s) /\
    passed layer l = [t] /\ (noFail (clog s) -> noFail l /\ flows layer n s l s').
Definition notPulled (layer : nat) (s s' : pstate) : Prop :=
  exists l, str s l s' /\ (forall k, (k <= layer)%nat -> passed k l = []).

Lemma np_trans layer s1 l s2 s3 : str s1 l s2 -> (forall k, (k <= layer)%nat -> passed k l = []) -> notPulled layer s2 s3 -> notPulled layer s1 s3.
Proof.
  intros A B (m & C & D). exists (l ++ m). split; [eapply str_trans; eauto|]. intros k HK. rewrite passed_app, B, D; auto.
Qed.

Lemma pullLoop_ok pull layer hooks n : (layer < n)%nat ->
  (forall s, length (pQueues s) = n -> post (pull s) (fun t s' => pulled (S layer) n s t s') (notPulled (S layer) s)) ->
  forall fuel s, length (pQueues s) = n -> queue layer s = [] ->
  post (pullLoop c pull layer hooks fuel s) (fun t s' => pulled layer n s t s') (notPulled layer s).
Proof.
  intros HN HP. induction fuel as [|f IH]; intros s HL HQ; cbn [pullLoop].
  { exists []. split; [apply str_refl|auto]. }
  specialize (HP s HL). destruct (pull s) as [t s1|e s1| |s1]; cbn [bind post] in *; auto.
  2:{ destruct HP as (l & A & B). exists l. split; [exact A|]. intros k HK. apply B. lia. }
  2:{ destruct HP as (l & A & B). exists l. split; [exact A|]. intros k HK. apply B. lia. }
  destruct HP as (l1 & A1 & B1 & C1 & D1 & F1).
  pose proof (handleToken_ok t layer hooks s1) as H.
  destruct (handleToken c t layer hooks s1) as [r s2|e s2| |s2]; cbn [bind post] in *; auto.
  2:{ destruct H as (l2 & A2 & B2 & _). apply (np_trans layer s l1 s1); [exact A1| |exists l2; auto]. intros k HK. apply C1. lia. }
  2:{ destruct H as (l2 & A2 & B2 & _). apply (np_trans layer s l1 s1); [exact A1| |exists l2; auto]. intros k HK. apply C1. lia. }
  destruct H as (l2 & A2 & B2 & C2 & D2 & F2 & G2). destruct r as [emit extra].
  assert (HL2 : length (pQueues s2) = n) by congruence.
  pose proof (appendExtra_ok layer extra s2 ltac:(lia)) as H.
  destruct (appendExtra c layer extra s2) as [u s3|e s3| |s3]; cbn [bind post] in *; auto.
  2:{ destruct H as (l3 & A3 & B3 & _). eapply (np_trans layer s (l1 ++ l2) s2).
      - eapply str_trans; eauto.
      - intros k HK. rewrite passed_app, C2, app_nil_r. apply C1. lia.
      - exists l3. auto. }
  2:{ destruct H as (l3 & A3 & B3 & _). eapply (np_trans layer s (l1 ++ l2) s2).
      - eapply str_trans; eauto.
      - intros k HK. rewrite passed_app, C2, app_nil_r. apply C1. lia.
      - exists l3. auto. }
  destruct H as (A3 & B3 & C3). rewrite HL2 in B3.
  assert (Q3 : forall k, queue k s3 = queue k s1 ++ (if (k =? layer)%nat then extra else [])) by (intros k; rewrite C3, B2; auto).
  (* what this round has done *)
  pose proof (str_trans _ _ _ _ _ A1 (str_trans _ _ _ _ _ A2 A3)) as A. rewrite app_nil_r in A.
  assert (LOW : forall k, (k < layer)%nat -> passed k (l1 ++ l2) = [] /\ decisions k (l1 ++ l2) = [] /\ queue k s3 = queue k s).
  { intros k HK. destruct (C1 k ltac:(lia)) as (X1 & X2 & X3). rewrite passed_app, decisions_app, X1, X2, C2, F2, Q3, X3.
    destruct (Nat.eqb_spec k layer); [lia|]. destruct t; rewrite !app_nil_r; auto. }
  assert (PL : passed layer (l1 ++ l2) = []).
  { rewrite passed_app, C2, app_nil_r. apply C1. lia. }
  assert (QL : queue layer s3 = extra).
  { rewrite Q3, Nat.eqb_refl. destruct (C1 layer ltac:(lia)) as (_ & _ & ->). rewrite HQ. auto. }
  assert (NF : noFail (clog s) -> noFail (l1 ++ l2)).
  { intros X. apply noFail_app. destruct (F1 X). auto. }
  assert (DL : decisions layer (l1 ++ l2) = match t with Some tok => [(tok, (emit, extra))] | None => [] end).
  { rewrite decisions_app, F2, Nat.eqb_refl. destruct (C1 layer ltac:(lia)) as (_ & -> & _). destruct t; auto. }
  assert (PS : passed (S layer) (l1 ++ l2) = [t]).
  { rewrite passed_app, D1, C2. auto. }
  assert (UPP : noFail (clog s) -> forall k, (S layer <= k < n)%nat ->
      map fst (decisions k (l1 ++ l2)) = somes (passed (S k) (l1 ++ l2)) /\
      somes (passed k (l1 ++ l2)) ++ queue k s3 = queue k s ++ flat_map repl (decisions k (l1 ++ l2))).
  { intros X k HK. destruct (F1 X) as [_ FL]. destruct (FL k HK) as [Y1 Y2].
    rewrite !passed_app, !decisions_app, !C2, F2, Q3. destruct (Nat.eqb_spec k layer); [lia|]. rewrite !app_nil_r.
    replace (match t with Some _ => [] | None => [] end) with (@nil (Tok * (bool * list Tok))) by (destruct t; auto).
    rewrite app_nil_r. auto. }
  remember (l1 ++ l2) as L eqn:EL. clear EL.
  destruct emit.
  - cbn [post]. exists (L ++ [EvPass layer t]).
    assert (DE : forall k, decisions k [@EvPass Tok E Inst R layer t] = []) by reflexivity.
    assert (PE : forall k, passed k [@EvPass Tok E Inst R layer t] = if (layer =? k)%nat then [t] else []) by (intros k; cbn; destruct (layer =? k)%nat; auto).
    split; [eapply str_trans; [exact A|apply str_ev; auto]|]. cbn [log pQueues]. split; [congruence|].
    split; [|split].
    + intros k HK. destruct (LOW k HK) as (X1 & X2 & X3). rewrite passed_app, decisions_app, X1, X2, PE, DE.
      destruct (Nat.eqb_spec layer k); [lia|]. auto.
    + rewrite passed_app, PL, PE, Nat.eqb_refl. auto.
    + intros X. split; [apply noFail_app; split; auto; reflexivity|].
      intros k HK. rewrite !passed_app, !decisions_app, !PE, !DE, !app_nil_r.
      destruct (Nat.eqb_spec layer (S k)); [lia|]. rewrite app_nil_r.
      destruct (Nat.eqb_spec layer k) as [<-|NE].
      * rewrite DL, PL, PS. cbn [app]. change (pQueues (log (EvPass layer t) s3)) with (pQueues s3). rewrite QL, HQ. cbn [app].
        destruct t as [tok|]; cbn; [rewrite app_nil_r; auto|]. rewrite (f_equal snd (G2 eq_refl) : extra = []). auto.
      * rewrite app_nil_r. apply (UPP X). lia.
  - assert (TS : exists tok, t = Some tok).
    { destruct t; eauto. specialize (G2 eq_refl). discriminate. }
    destruct TS as (tok & ->). rewrite QL.
    destruct extra as [|t' q].
    + (* nothing: another round *)
      assert (HL3 : length (pQueues s3) = n) by congruence.
      specialize (IH s3 HL3 QL).
      destruct (pullLoop c pull layer hooks f s3) as [t4 s4|e s4| |s4]; cbn [post] in *; auto.
      * destruct IH as (l4 & A4 & B4 & C4 & D4 & F4). exists (L ++ l4).
        split; [eapply str_trans; eauto|]. split; [congruence|]. split; [|split].
        -- intros k HK. destruct (LOW k HK) as (X1 & X2 & X3). destruct (C4 k HK) as (Y1 & Y2 & Y3).
           rewrite passed_app, decisions_app, X1, X2, Y1, Y2, Y3. auto.
        -- rewrite passed_app, PL, D4. auto.
        -- intros X. pose proof (NF X) as NF'. destruct F4 as [Y1 Y2].
           { destruct A. rewrite str_log0. apply noFail_app. auto. }
           split; [apply noFail_app; auto|]. eapply flows_trans; [|exact Y2].
           intros k HK. destruct (Nat.eq_dec k layer) as [->|NE]; [|apply (UPP X); lia].
           rewrite DL, PS, PL, QL, HQ. auto.
      * eapply np_trans; [exact A| |exact IH]. intros k HK. destruct (Nat.eq_dec k layer) as [->|]; [exact PL|]. apply LOW. lia.
      * eapply np_trans; [exact A| |exact IH]. intros k HK. destruct (Nat.eq_dec k layer) as [->|]; [exact PL|]. apply LOW. lia.
    + cbn [post]. exists (L ++ [] ++ [EvPass layer (Some t')]).
      assert (DE : forall k, decisions k [@EvPass Tok E Inst R layer (Some t')] = []) by reflexivity.
      assert (PE : forall k, passed k [@EvPass Tok E Inst R layer (Some t')] = if (layer =? k)%nat then [Some t'] else []) by (intros k; cbn; destruct (layer =? k)%nat; auto).
      split; [eapply str_trans; [exact A|]; eapply str_trans; [apply str_queue|apply str_ev; auto]|].
      cbn [app]. assert (QS : forall k, queue k (log (EvPass layer (Some t')) (setQueue s3 layer q)) = if (k =? layer)%nat then q else queue k s3).
      { intros k. apply queue_set. lia. }
      split; [cbn [log setQueue setQueues pQueues]; rewrite upd_length; congruence|].
      split; [|split].
      * intros k HK. destruct (LOW k HK) as (X1 & X2 & X3). rewrite passed_app, decisions_app, X1, X2, PE, DE, QS.
        destruct (Nat.eqb_spec layer k); [lia|]. destruct (Nat.eqb_spec k layer); [lia|]. auto.
      * rewrite passed_app, PL, PE, Nat.eqb_refl. auto.
      * intros X. split; [apply noFail_app; split; auto; reflexivity|].
        intros k HK. rewrite !passed_app, !decisions_app, !PE, !DE, !app_nil_r, QS.
        destruct (Nat.eqb_spec layer (S k)); [lia|]. rewrite app_nil_r.
        destruct (Nat.eqb_spec layer k) as [<-|NE].
        -- rewrite DL, PL, PS, HQ, Nat.eqb_refl. cbn. rewrite app_nil_r. auto.
        -- destruct (Nat.eqb_spec k layer); [lia|]. rewrite app_nil_r. apply (UPP X). lia.
Qed.

Lemma pullToken_ok fuel types n : forall hs layer s, (layer + length hs = n)%nat -> length (pQueues s) = n ->
  post (pullToken c fuel types hs layer s) (fun t s' => pulled layer n s t s') (notPulled layer s).
Proof.
  induction hs as [|hooks hs IH]; intros layer s HN HL; cbn [pullToken].
  - destruct (fetchToken c types (fst (pWorld s))) as [src [t e]]. destruct e as [e|]; cbn [ret bind post].
    + exists ([] ++ [EvFail e]). split; [eapply str_trans; [apply str_world|apply str_ev; auto]|]. auto.
    + exists ([] ++ [EvPass layer t]). split; [eapply str_trans; [apply str_world|apply str_ev; auto]|]. split; auto.
      cbn [app]. assert (PE : forall k, passed k [@EvPass Tok E Inst R layer t] = if (layer =? k)%nat then [t] else []) by (intros k; cbn; destruct (layer =? k)%nat; auto).
      split; [|split].
      * intros k HK. rewrite PE. destruct (Nat.eqb_spec layer k); [lia|]. auto.
      * rewrite PE, Nat.eqb_refl. auto.
      * intros _. split; [reflexivity|]. intros k HK. cbn in HN. lia.
  - cbn in HN. destruct (queue layer s) as [|t q] eqn:EQ.
    + apply (pullLoop_ok (pullToken c fuel types hs (S layer)) layer hooks n); auto; [lia|].
      intros s' HL'. apply IH; auto. lia.
    + cbn [post]. exists ([] ++ [EvPass layer (Some t)]).
      split; [eapply str_trans; [apply str_queue|apply str_ev; auto]|].
      cbn [app]. assert (PE : forall k, passed k [@EvPass Tok E Inst R layer (Some t)] = if (layer =? k)%nat then [Some t] else []) by (intros k; cbn; destruct (layer =? k)%nat; auto).
      assert (QS : forall k, queue k (log (EvPass layer (Some t)) (setQueue s layer q)) = if (k =? layer)%nat then q else queue k s).
      { intros k. apply queue_set. lia. }
      split; [cbn [log setQueue setQueues pQueues]; apply upd_length|].
      split; [|split].
      * intros k HK. rewrite PE, QS. destruct (Nat.eqb_spec layer k); [lia|]. destruct (Nat.eqb_spec k layer); [lia|]. auto.
      * rewrite PE, Nat.eqb_refl. auto.
      * intros _. split; [reflexivity|]. intros k HK. rewrite !PE, QS. destruct (Nat.eqb_spec layer (S k)); [lia|].
        split; [reflexivity|]. change (decisions k [@EvPass Tok E Inst R layer (Some t)]) with (@nil (Tok * (bool * list Tok))). cbn [flat_map]. rewrite app_nil_r.
        destruct (Nat.eqb_spec layer k) as [<-|NE].
        -- rewrite Nat.eqb_refl, EQ. auto.
        -- destruct (Nat.eqb_spec k layer); [lia|]. auto.
Qed.

(** ** The tokens the parser takes *)
Definition keep (t : option Tok) : bool :=
  match t with
  | None => true
  | Some t => negb (cType c t =? EofTokenType) && (negb (isSideType g (cType c t)) || cPassSides c)
  end.
Definition kept (l : list event) : list (option Tok) := filter keep (passed 0 l).
Lemma kept_app a b : kept (a ++ b) = kept a ++ kept b.
Proof. unfold kept. rewrite passed_app. apply filter_app. Qed.

Definition layersOk (s : pstate) : Prop := length (pQueues s) = length (cTokenHooks c).
Notation flowsAll := (flows 0 (length (cTokenHooks c))).

Lemma nextLoop_ok types : forall fuel s, layersOk s ->
  post (nextLoop c fuel types s)
    (fun t s' => keep t = true /\ exists l, str s l s' /\ layersOk s' /\ kept l = [t] /\ (noFail (clog s) -> noFail l /\ flowsAll s l s'))
    (fun s' => exists l, str s l s' /\ kept l = []).
Proof.
  induction fuel as [|f IH]; intros s HL; cbn [nextLoop].
  { exists []. split; [apply str_refl|auto]. }
  pose proof (pullToken_ok (S f) types (length (cTokenHooks c)) (cTokenHooks c) 0 s eq_refl HL) as H.
  destruct (pullToken c (S f) types (cTokenHooks c) 0 s) as [t s1|e s1| |s1]; cbn [bind post] in *; auto.
  2:{ destruct H as (l & A & B). exists l. split; auto. unfold kept. rewrite B; auto. }
  2:{ destruct H as (l & A & B). exists l. split; auto. unfold kept. rewrite B; auto. }
  destruct H as (l & A & B & _ & D & F).
  assert (EK : negb match t with Some t => cType c t =? EofTokenType | None => false end &&
     (negb match t with Some t => isSideType g (cType c t) | None => false end || cPassSides c) = keep t) by (destruct t; auto).
  rewrite EK. assert (HL1 : layersOk s1) by (unfold layersOk in *; congruence).
  destruct (keep t) eqn:KT; cbn [post].
  - split; auto. exists l. split; auto. split; auto. unfold kept. rewrite D. cbn. rewrite KT. auto.
  - eapply post_weak; [apply IH; auto| |].
    + intros t2 s2 (K2 & l2 & A2 & B2 & C2 & F2). split; auto. exists (l ++ l2). split; [eapply str_trans; eauto|]. split; auto.
      split; [rewrite kept_app, C2; unfold kept; rewrite D; cbn; rewrite KT; auto|].
      intros X. destruct (F X) as [X1 X2]. destruct F2 as [Y1 Y2]; [destruct A; rewrite str_log0; apply noFail_app; auto|].
      split; [apply noFail_app; auto|]. eapply flows_trans; eauto.
    + intros s2 (l2 & A2 & B2). exists (l ++ l2). split; [eapply str_trans; eauto|]. rewrite kept_app, B2. unfold kept. rewrite D. cbn. rewrite KT. auto.
Qed.

(** [nt s t s'] : the parser has taken [t]. *)
Record taken (s : pstate) (t : option Tok) (s' : pstate) : Prop := mkTaken {
  tk_applied : pApplied s' = pApplied s; tk_last : pLast s' = pLast s; tk_stack : pStack s' = pStack s; tk_lost : pLost s' = pLost s;
  tk_layers : layersOk s';
  tk_log : exists l, clog s' = clog s ++ l /\ allS l /\ (noFail (clog s) -> noFail l /\ flowsAll s l s');
  tk_tokens : forall A, kept (clog s) = A ++ pTokens s -> kept (clog s') = A ++ [t] ++ pTokens s'
}.
Definition notTaken (s s' : pstate) : Prop :=
  exists l, str s l s' /\ kept (clog s') = kept (clog s).

Lemma flows_refl layer n s : flows layer n s [] s.
Proof. intros k _. split; auto. cbn. rewrite app_nil_r. auto. Qed.

Lemma nextToken_ok fuel types s : layersOk s ->
  post (nextToken c fuel types s) (taken s) (fun s' => notTaken s s' /\ pTokens s = []).
Proof.
  intros HL. unfold nextToken. destruct (pTokens s) as [|t r] eqn:ET.
  - eapply post_weak; [apply nextLoop_ok; auto| |].
    + intros t s' (K & l & A & B & C & F). pose proof A as []. constructor; auto.
      * exists l. auto.
      * rewrite ET. intros A0 HA. rewrite app_nil_r in HA. rewrite str_log0, kept_app, HA, C, str_tokens0, ET. auto.
    + intros s' (l & A & B). split; auto. exists l. split; auto. pose proof A as []. rewrite str_log0, kept_app, B, app_nil_r. auto.
  - cbn [post]. constructor; auto.
    + exists []. split; [cbn; rewrite app_nil_r; auto|]. split; [reflexivity|]. intros _. split; [reflexivity|]. exact (flows_refl 0 _ s).
    + intros A HA. rewrite ET in HA. exact HA.
Qed.
End P.
