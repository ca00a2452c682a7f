(** C10 - C14: the lexer. *)
From Coq Require Import String ZArith List Lia Bool.
From Verif Require Import Base BaseProofs Utf8 Queue QueueProofs SourceQueue SourceQueueSpec Prop_SourceQueue
  Lexer LexerSpec LexerProofs.
Import ListNotations.
Open Scope Z_scope.

Section P.
Context {S : Type} (content : S -> list Z) (re : list Z -> list Z) (types : list (Z * string)).
Hypothesis HRE : re_contract re.
Notation L := (newLexer types).
Notation sl := (slen content).

Definition nothing_wanted (tts : Z) : Prop := Z.land tts (ltypeMask L) = 0.

(** Full description of one call. *)
Definition call_spec (o : lout S) : Prop :=
  match o with
  | LQ _ => True
  | LTok req before res after =>
      (exists tts, req = Some tts /\ nothing_wanted tts /\ res = (None, None) /\ after = before) \/
      ((forall tts, req = Some tts -> ~ nothing_wanted tts) /\
       ((before = (None, 0) /\ after = before /\ res = (Some eoiToken, None)) \/
       (exists s p sk p' f, before = (Some s, p) /\ 0 <= p <= p' /\ p' <= zlen (content s) /\
          scan content re types s (match req with Some t => t | None => AllTokenTypes end) p sk p' f /\
          res = finalRes content s p' f /\
          (f = FEof \/ after = (Some s, p')))))
  end.

Definition RB (n : nat) (st : @squeue S * list snapshot) (a : aq S * list (aq S)) : Prop :=
  R sl st a /\ (length (fst a) <= n)%nat /\ Forall (fun l => (length l <= n)%nat) (snd a).

Lemma filter_len {A} f (l : list A) : (length (filter f l) <= length l)%nat.
Proof. induction l as [|x l IH]; cbn [filter length]; [lia|]. destruct (f x); cbn [length]; lia. Qed.

Lemma a_append_len l (s : S) : (length (a_append sl l s) <= 1 + length l)%nat.
Proof.
  unfold a_append. pose proof (filter_len (has_text sl) l).
  destruct (has_text sl (s, 0)); [rewrite app_length; cbn [length]; lia|].
  destruct (filter (has_text sl) l); cbn [length] in *; lia.
Qed.
Lemma a_prepend_len l (s : S) : (length (a_prepend sl l s) <= 1 + length l)%nat.
Proof.
  unfold a_prepend. pose proof (filter_len (has_text sl) l).
  destruct (has_text sl (s, 0)); [cbn [length]; lia|].
  destruct (filter (has_text sl) l); cbn [length] in *; lia.
Qed.

Lemma RB_step n st a o : RB n st a -> Z.of_nat (added [o] + n) < 2 ^ 31 ->
  exists st' out a', lex_step content re L st o = Some (st', out) /\ RB (added [o] + n) st' a' /\ call_spec out.
Proof.
  intros (HR & HN & HS) HB. destruct o as [o| |tts]; cbn [lex_step].
  - assert (LEN : (length (fst (fst (a_step sl a o))) <= added [LQueue o] + n)%nat /\
                  Forall (fun l => (length l <= added [LQueue o] + n)%nat) (snd (fst (a_step sl a o)))).
    { destruct a as [l sn]. cbn [fst snd] in *.
      assert (HS' : forall m, Forall (fun l : aq S => (length l <= m + n)%nat) sn).
      { intros m. eapply Forall_impl; [|exact HS]. intros; cbn in *; lia. }
      assert (MV : forall f, length (a_move sl l f) = length l) by (intros; destruct l as [|[? ?] ?]; reflexivity).
      destruct o as [[s|]|[s|]| |k|k|k| |k|]; cbn [a_step added fst snd Nat.add].
      - split; [|apply (HS' 1%nat)]. pose proof (a_append_len l s). lia.
      - split; [lia|apply (HS' 1%nat)].
      - split; [|apply (HS' 1%nat)]. pose proof (a_prepend_len l s). lia.
      - split; [lia|apply (HS' 1%nat)].
      - split; [|apply (HS' 0%nat)]. destruct l; cbn [tl length] in *; lia.
      - split; [rewrite MV; lia|apply (HS' 0%nat)].
      - split; [rewrite MV; lia|apply (HS' 0%nat)].
      - split; [rewrite MV; lia|apply (HS' 0%nat)].
      - split; [lia|]. constructor; auto.
      - split; [|apply (HS' 0%nat)].
        destruct (Nat.lt_ge_cases k (length sn)).
        + rewrite Forall_forall in HS. apply HS. apply nth_In. auto.
        + rewrite nth_overflow by auto. auto.
      - split; [lia|apply (HS' 0%nat)]. }
    destruct LEN as [LEN1 LEN2].
    destruct (step_ok sl (sl_nonneg content) st a o HR) as (st' & E & HR').
    { unfold zlen. lia. }
    { unfold zlen. lia. }
    rewrite E. cbn [obind]. exists st', (LQ (snd (a_step sl a o))), (fst (a_step sl a o)).
    split; [reflexivity|]. split; [|exact I]. split; auto.
  - destruct HR as (HA & HO & HSn & HSb). destruct st as [q sn], a as [l asn]. cbn [fst snd added Nat.add] in *.
    assert (HQ : qok content q l) by (split; [auto|split; auto; unfold zlen; lia]).
    destruct l as [|(s, p) r].
    + rewrite lexNext_eoi by auto. cbn [obind]. exists (q, sn), (LTok None (seen q) (Some eoiToken, None) (seen q)), ([], asn).
      split; [reflexivity|]. split; [split; [exact (conj HA (conj HO (conj HSn HSb)))|split; auto]|].
      right. split; [congruence|]. left. destruct HA as (A1 & A2 & _). unfold seen. rewrite A1, A2. auto.
    + destruct (lexNext_spec content re types HRE q s p r HQ) as (q' & sk & p' & f & E & SC & HQ' & HP).
      rewrite E. cbn [obind]. destruct HA as (A1 & A2 & A3).
      exists (q', sn), (LTok None (seen q) (finalRes content s p' f) (seen q')), (afterQ s p' r f, asn).
      split; [reflexivity|]. destruct HQ' as (HA' & HO' & _). split; [split; [|split; auto]|].
      * exact (conj HA' (conj HO' (conj HSn HSb))).
      * cbn [fst]. destruct f; cbn [afterQ length] in *; lia.
      * right. split; [congruence|]. right. exists s, p, sk, p', f. unfold seen at 1. rewrite A1, A2.
        assert (0 <= p) by (destruct HO as [HF _]; inversion HF; cbn [fst snd] in *; lia).
        unfold slen in HP. repeat split; auto; try lia.
        destruct f; auto; right; destruct HA' as (B1 & B2 & _); unfold seen; rewrite B1, B2; reflexivity.
  - destruct HR as (HA & HO & HSn & HSb). destruct st as [q sn], a as [l asn]. cbn [fst snd added Nat.add] in *.
    assert (HQ : qok content q l) by (split; [auto|split; auto; unfold zlen; lia]).
    destruct (Z.eq_dec (Z.land tts (ltypeMask L)) 0) as [HM|HM].
    { rewrite lexNextOf_zero by auto. cbn [obind].
      exists (q, sn), (LTok (Some tts) (seen q) (None, None) (seen q)), (l, asn).
      split; [reflexivity|]. split; [split; [exact (conj HA (conj HO (conj HSn HSb)))|split; auto]|]. left. exists tts. auto. }
    destruct l as [|(s, p) r].
    + rewrite lexNextOf_eoi by auto. cbn [obind].
      exists (q, sn), (LTok (Some tts) (seen q) (Some eoiToken, None) (seen q)), ([], asn).
      split; [reflexivity|]. split; [split; [exact (conj HA (conj HO (conj HSn HSb)))|split; auto]|].
      right. split; [intros ? [= <-]; auto|]. left. destruct HA as (A1 & A2 & _). unfold seen. rewrite A1, A2. auto.
    + destruct (lexNextOf_spec content re types HRE q s p r tts HQ HM) as (q' & sk & p' & f & E & SC & HQ' & HP).
      rewrite E. cbn [obind]. destruct HA as (A1 & A2 & A3).
      exists (q', sn), (LTok (Some tts) (seen q) (finalRes content s p' f) (seen q')), (afterQ s p' r f, asn).
      split; [reflexivity|]. destruct HQ' as (HA' & HO' & _). split; [split; [|split; auto]|].
      * exact (conj HA' (conj HO' (conj HSn HSb))).
      * cbn [fst]. destruct f; cbn [afterQ length] in *; lia.
      * right. split; [intros ? [= <-]; auto|]. right. exists s, p, sk, p', f. unfold seen at 1. rewrite A1, A2.
        assert (0 <= p) by (destruct HO as [HF _]; inversion HF; cbn [fst snd] in *; lia).
        unfold slen in HP. repeat split; auto; try lia.
        destruct f; auto; right; destruct HA' as (B1 & B2 & _); unfold seen; rewrite B1, B2; reflexivity.
Qed.

Lemma added_cons o r : added (o :: r) = (added [o] + @added S r)%nat.
Proof. destruct o as [[]| |]; cbn [added]; lia. Qed.

Lemma RB_run ops : forall n st a, RB n st a -> Z.of_nat (added ops + n) < 2 ^ 31 ->
  exists st' outs a', lex_run content re L st ops = Some (st', outs) /\ RB (added ops + n) st' a' /\ Forall call_spec outs.
Proof.
  induction ops as [|o r IH]; intros n st a HR HB; cbn [lex_run].
  - exists st, [], a. auto.
  - rewrite added_cons in HB.
    destruct (RB_step n st a o HR ltac:(lia)) as (st1 & x & a1 & -> & HR1 & HC). cbn [obind].
    destruct (IH _ _ _ HR1 ltac:(lia)) as (st2 & y & a2 & -> & HR2 & HC2). cbn [obind].
    exists st2, (x :: y), a2. split; [reflexivity|]. split; [|constructor; auto].
    rewrite added_cons. replace (added [o] + added r + n)%nat with (added r + (added [o] + n))%nat by lia. exact HR2.
Qed.

Lemma RB_new : exists q, sqNew = Some q /\ RB 0 (q, []) ([], []).
Proof.
  destruct (@new_ok S sl) as (q & E & HR). exists q. split; [exact E|]. split; [exact HR|]. split; [apply Nat.le_0_l|constructor].
Qed.

(** facts about one scan *)
Lemma scan_token_inv s tts p sk p' t lx : 0 <= p -> scan content re types s tts p sk p' (FToken t lx) ->
  exists p0 n k a b, p <= p0 /\ matched content re types s tts p0 n k a b /\ 0 <= a <= b /\ b <= n /\ 0 < n /\
    p' = p0 + n /\ (exists nm, group_type types k = Some (tokType t, nm)) /\ Z.testbit tts (tokType t) = true /\ 0 <= tokType t <= 63 /\
    tokSource t = Some s /\ tokPos t = p0 + a /\ tokContent t = sub (content s) (p0 + a) (b - a) /\
    zlen (tokContent t) = b - a.
Proof.
  intros HP H. remember (FToken t lx) as f eqn:EF. revert HP.
  induction H as [pos HE|pos HE HN|pos HE HN|pos n k a b HE HM HG|pos n k a b t0 nm HE HM HG|pos n sk p' f HE HI HS IH];
    try discriminate; intros HP.
  - injection EF as <- <-. pose proof HM as (gs & ER & Hn & PK).
    assert (PT : Z.testbit tts t0 = true /\ captured (a, b) = true /\ In (a, b) gs).
    { clear -PK HG. revert PK. generalize 0%nat. induction gs as [|g gs IH]; intros j PK; cbn [pick] in PK; [discriminate|].
      destruct (captured g) eqn:C; cbn [andb] in PK.
      - match type of PK with (if ?X then _ else _) = _ => destruct X eqn:EX end.
        + injection PK as -> ->. rewrite HG in EX. repeat split; auto. left; auto.
        + destruct (IH _ PK) as (A & B & D). repeat split; auto. right; auto.
      - destruct (IH _ PK) as (A & B & D). repeat split; auto. right; auto. }
    destruct PT as (PT & PC & PI).
    destruct (HRE (skipn (Z.to_nat pos) (content s))) as [X|(m0 & m1 & gs' & X & B0 & B & F)]; [congruence|].
    rewrite ER in X. injection X as <- <- X.
    assert (gs' = gs) as ->.
    { clear -X. revert gs' X. induction gs as [|[u v] gs IH]; intros [|[u' v'] gs'] X; cbn in X; try discriminate; auto.
      injection X as <- <- X. f_equal. auto. }
    rewrite Forall_forall in F. specialize (F _ PI). cbn [fst snd] in F. unfold captured in PC. cbn [fst] in PC.
    apply Z.leb_le in PC. destruct F as [F|F]; [injection F; lia|].
    pose proof (group_lookup types k) as GL. rewrite HG in GL. cbn [tokType tokSource tokPos tokContent].
    exists pos, n, k, a, b. repeat split; auto; try lia; eauto.
    unfold sub, zlen. rewrite firstn_length, skipn_length. unfold zlen in *. rewrite skipn_length in B. lia.
  - assert (0 < n) by (destruct HI as (gs & _ & ? & _); auto).
    destruct (IH EF ltac:(lia)) as (p0 & n0 & k & a & b & X & Y). exists p0, n0, k, a, b. split; [lia|exact Y].
Qed.

Lemma scan_mono s tts p sk p' f : scan content re types s tts p sk p' f -> p <= p'.
Proof.
  induction 1 as [| | | |pos n k a b t0 nm HE HM HG|pos n sk p' f HE HI HS IH]; try lia.
  - destruct HM as (gs & _ & ? & _); lia.
  - destruct HI as (gs & _ & ? & _); lia.
Qed.

End P.

(** The theorems below speak about any history of queue and lexer calls that
    starts with an empty queue, for any regexp behaviour within its contract,
    any type table, any kind of source. *)

(** C11 (no call hangs or panics). *)
Theorem lexer_total :
  forall (S : Type) (content : S -> list Z) (re : list Z -> list Z) (types : list (Z * string)) (ops : list (lop S)),
  re_contract re -> Z.of_nat (added ops) < 2 ^ 31 ->
  exists q st outs, sqNew = Some q /\ lex_run content re (newLexer types) (q, []) ops = Some (st, outs).
Proof.
  intros S content re types ops HRE HB. destruct (RB_new content) as (q & E & HR).
  destruct (RB_run content re types HRE ops 0 _ _ HR ltac:(lia)) as (st & outs & a & E2 & _). eauto.
Qed.
Print Assumptions lexer_total.

Lemma history_calls (S : Type) (content : S -> list Z) re types (ops : list (lop S)) q st outs :
  re_contract re -> Z.of_nat (added ops) < 2 ^ 31 -> sqNew = Some q ->
  lex_run content re (newLexer types) (q, []) ops = Some (st, outs) ->
  Forall (call_spec content re types) outs.
Proof.
  intros HRE HB HN HE. destruct (RB_new content) as (q0 & E & HR). rewrite HN in E. injection E as <-.
  destruct (RB_run content re types HRE ops 0 _ _ HR ltac:(lia)) as (st' & outs' & a & E2 & _ & HC).
  rewrite HE in E2. injection E2 as _ <-. exact HC.
Qed.

(** C10.  A token with a type >= 0 comes from the source that was current,
    and still is; its content is the bytes of that source at its position; it lies
    between the old and the new position, and the new position is the end of the
    regexp match it was found in.  C11: the position has moved by at least one byte. *)
Theorem lexer_token_exact :
  forall (S : Type) (content : S -> list Z) re types (ops : list (lop S)) q st outs req before t err after,
  re_contract re -> Z.of_nat (added ops) < 2 ^ 31 -> sqNew = Some q ->
  lex_run content re (newLexer types) (q, []) ops = Some (st, outs) ->
  In (LTok req before (Some t, err) after) outs -> 0 <= tokType t ->
  exists s p p', before = (Some s, p) /\ after = (Some s, p') /\ err = None /\ p < p' <= zlen (content s) /\
    tokSource t = Some s /\ p <= tokPos t /\ tokPos t + zlen (tokContent t) <= p' /\
    tokContent t = sub (content s) (tokPos t) (zlen (tokContent t)) /\
    exists p0 n gs, p <= p0 <= tokPos t /\ p' = p0 + n /\
      re (skipn (Z.to_nat p0) (content s)) = 0 :: n :: flat gs.
Proof.
  intros S content re types ops q st outs req before t err after HRE HB HN HE HI HT.
  pose proof (history_calls _ _ _ _ _ _ _ _ HRE HB HN HE) as HC. rewrite Forall_forall in HC. specialize (HC _ HI).
  destruct HC as [(tts & _ & _ & HX & _)|(_ & [(_ & _ & HX)|(s & p & sk & p' & f & -> & HP & HP' & SC & HX & HA)])].
  - discriminate.
  - injection HX as -> _. cbn in HT. unfold EoiTokenType in HT. lia.
  - destruct f as [| r | t0 | | t0 lx]; cbn [finalRes] in HX; try discriminate.
    + injection HX as -> _. cbn in HT. unfold EofTokenType in HT. lia.
    + injection HX as <- ->. destruct HA as [HA|HA]; [discriminate|].
      destruct (scan_token_inv content re types HRE s _ p sk p' t lx ltac:(lia) SC)
        as (p0 & n & k & a & b & H0 & HM & H1 & H2 & H3 & -> & _ & _ & _ & HS & HPo & HCo & HLe).
      exists s, p, (p0 + n). rewrite HPo, HLe. repeat split; auto; try lia.
      destruct HM as (gs & HM & _). exists p0, n, gs. repeat split; auto; lia.
Qed.
Print Assumptions lexer_token_exact.

(** C10 for the special tokens: EoF reports the source that has just ended (and
    everything up to its end was insignificant), EoI an empty queue, which stays empty. *)
Theorem lexer_special_tokens :
  forall (S : Type) (content : S -> list Z) re types (ops : list (lop S)) q st outs req before t err after,
  re_contract re -> Z.of_nat (added ops) < 2 ^ 31 -> sqNew = Some q ->
  lex_run content re (newLexer types) (q, []) ops = Some (st, outs) ->
  In (LTok req before (Some t, err) after) outs -> tokType t < 0 ->
  err = None /\ tokContent t = [] /\
  ((tokType t = EoiTokenType /\ before = (None, 0) /\ after = (None, 0) /\ tokSource t = None) \/
   (tokType t = EofTokenType /\ exists s p sk, before = (Some s, p) /\ tokSource t = Some s /\
      tokPos t = zlen (content s) /\ 0 <= p <= zlen (content s) /\
      scan content re types s (match req with Some x => x | None => AllTokenTypes end) p sk (zlen (content s)) FEof /\
      concat sk = skipn (Z.to_nat p) (content s))).
Proof.
  intros S content re types ops q st outs req before t err after HRE HB HN HE HI HT.
  pose proof (history_calls _ _ _ _ _ _ _ _ HRE HB HN HE) as HC. rewrite Forall_forall in HC. specialize (HC _ HI).
  destruct HC as [(tts & _ & _ & HX & _)|(_ & [(HBf & HAf & HX)|(s & p & sk & p' & f & -> & HP & HP' & SC & HX & HA)])].
  - discriminate.
  - injection HX as -> ->. repeat split; auto. left. subst. auto.
  - destruct f as [| r | t0 | | t0 lx]; cbn [finalRes] in HX; try discriminate.
    + injection HX as -> ->. split; [reflexivity|]. split; [reflexivity|]. right. split; [reflexivity|].
      assert (p' = zlen (content s)).
      { clear -SC HP'. remember FEof as f. revert HP'. induction SC; intros; try discriminate; try lia. auto. }
      subst p'. exists s, p, sk. repeat split; auto; try lia.
      destruct (scan_prefix content re types HRE s _ p sk _ _ SC ltac:(lia)) as [E1 E2].
      rewrite app_nil_r in *. rewrite E2. unfold sub. apply firstn_all2. rewrite skipn_length. unfold zlen. lia.
    + exfalso. injection HX as <- ->.
      destruct (scan_token_inv content re types HRE s _ p sk p' t lx ltac:(lia) SC)
        as (p0 & n & k & a & b & H0 & HM & H1 & H2 & H3 & E4 & _ & _ & HTy & _). lia.
Qed.
Print Assumptions lexer_special_tokens.

(** C12, one call.  From the old position, [skipped] insignificant lexemes follow
    one another up to the point where the call ends: the text between the old and the
    new position is exactly these lexemes followed by that of the token (none for
    errors, nothing found and end of source). *)
Theorem lexer_call_loses_nothing :
  forall (S : Type) (content : S -> list Z) re types (ops : list (lop S)) q st outs req s p res s' p',
  re_contract re -> Z.of_nat (added ops) < 2 ^ 31 -> sqNew = Some q ->
  lex_run content re (newLexer types) (q, []) ops = Some (st, outs) ->
  In (LTok req (Some s, p) res (Some s', p')) outs ->
  (forall t, fst res = Some t -> tokType t <> EofTokenType) ->
  s' = s /\ exists skipped lexeme,
    sub (content s) p (p' - p) = concat skipped ++ lexeme /\
    (forall t, fst res = Some t -> exists a, 0 <= a /\ tokContent t = sub lexeme a (zlen (tokContent t)) /\
       a + zlen (tokContent t) <= zlen lexeme /\ tokPos t = p' - zlen lexeme + a) /\
    (fst res = None -> lexeme = []) /\
    (* each skipped lexeme is a match without captured groups, in sequence *)
    (fix chain (at_ : Z) (l : list (list Z)) : Prop :=
       match l with
       | [] => at_ = p' - zlen lexeme
       | x :: r => insignificant content re s at_ (zlen x) /\ x = sub (content s) at_ (zlen x) /\ chain (at_ + zlen x) r
       end) p skipped.
Proof.
  intros S content re types ops q st outs req s p res s' p' HRE HB HN HE HI HT.
  pose proof (history_calls _ _ _ _ _ _ _ _ HRE HB HN HE) as HC. rewrite Forall_forall in HC. specialize (HC _ HI).
  destruct HC as [(tts & _ & _ & -> & HX)|(_ & [(HX & _)|(s0 & p0 & sk & p1 & f & HBf & HP & HP' & SC & -> & HA)])].
  - injection HX as -> ->. split; auto. exists [], []. rewrite Z.sub_diag. cbn.
    split; [reflexivity|]. split; [discriminate|]. split; [auto|]. unfold zlen; cbn. lia.
  - discriminate.
  - injection HBf as <- <-. destruct HA as [->|HA].
    { exfalso. cbn [finalRes fst] in HT. apply (HT _ eq_refl). reflexivity. }
    injection HA as -> <-. split; auto.
    destruct (scan_prefix content re types HRE s _ p sk p' f SC ltac:(lia)) as [E1 E2].
    set (lx := match f with FToken _ lx => lx | _ => [] end) in *.
    exists sk, lx. split; [auto|]. split; [|split].
    + intros t Ht. destruct f as [| r | t0 | | t0 lx0]; cbn [finalRes fst] in Ht; try discriminate.
      { exfalso. injection Ht as <-. cbn [finalRes fst] in HT. apply (HT _ eq_refl). reflexivity. }
      injection Ht as ->. cbn in lx. subst lx.
      assert (SC' := SC).
      remember (FToken t lx0) as f eqn:EF. clear E1 E2 HI HT HP' SC'. destruct HP as [HP _]. revert HP.
      induction SC as [pos HE'|pos HE' HN'|pos HE' HN'|pos n k a b HE' HM HG|pos n k a b t1 nm HE' HM HG|pos n sk p' f HE' HI' HS IH];
        try discriminate; intros HP.
      * injection EF as <- <-.
        cbn [tokPos tokContent]. pose proof HM as (gs & ER & Hn & PK).
        destruct (pick_group types _ _ _ _ _ PK) as [GI GC].
        destruct (HRE (skipn (Z.to_nat pos) (content s))) as [X|(m0 & m1 & gs' & X & B0 & B & F)]; [congruence|].
        rewrite ER in X. injection X as <- <- X.
        assert (gs' = gs) as ->.
        { clear -X. revert gs' X. induction gs as [|[u v] gs IH]; intros [|[u' v'] gs'] X; cbn in X; try discriminate; auto.
          injection X as <- <- X. f_equal. auto. }
        rewrite Forall_forall in F. specialize (F _ GI). cbn [fst snd] in F. unfold captured in GC. cbn [fst] in GC.
        apply Z.leb_le in GC. destruct F as [F|F]; [injection F; lia|].
        assert (LX : zlen (sub (content s) pos n) = n).
        { unfold sub, zlen in *. rewrite firstn_length. rewrite skipn_length in *. lia. }
        assert (LT : zlen (sub (content s) (pos + a) (b - a)) = b - a).
        { unfold sub, zlen in *. rewrite firstn_length. rewrite skipn_length in *. lia. }
        exists a. rewrite LT, LX. repeat split; try lia.
        unfold sub. 
        replace (Z.to_nat (pos + a)) with (Z.to_nat pos + Z.to_nat a)%nat by lia.
        rewrite <- skipn_skipn'. rewrite skipn_firstn_comm, firstn_firstn. f_equal. lia.
      * assert (0 < n) by (destruct HI' as (gs & _ & ? & _); auto). apply IH; auto. lia.
    + intros Hf. destruct f; cbn [finalRes fst] in Hf; try discriminate; reflexivity.
    + assert (E1' : p + zlen (concat sk) = p' - zlen lx) by (rewrite app_length in E1; unfold zlen; lia).
      generalize (p' - zlen lx) E1'. destruct HP as [HP _]. revert HP.
      clear -SC HRE. induction SC; intros HP z E; try (cbn in E; unfold zlen in E; cbn in E; lia).
      assert (NN : 0 < n) by (destruct H0 as (gs & _ & ? & _); auto).
      assert (LX : zlen (sub (content s) pos n) = n).
      { destruct H0 as (gs & ER & _ & _).
        destruct (HRE (skipn (Z.to_nat pos) (content s))) as [X|(m0 & m1 & gs' & X & B0 & B & F)]; [congruence|].
        rewrite ER in X. injection X as _ <- _.
        unfold sub, zlen in *. rewrite firstn_length. rewrite skipn_length in *. lia. }
      rewrite LX. split; auto. split; auto. apply IHSC; [lia|].
      cbn [concat] in E. rewrite zlen_app, LX in E. lia.
Qed.
Print Assumptions lexer_call_loses_nothing.

(** C12, a whole source: give a source to an empty queue and call Next; as long as
    tokens come back (all but the last have type >= 0), the source is cut into lexemes whose tokens
    are, in order, exactly the tokens returned; when EoF comes, the lexemes
    make up the whole source. *)
Fixpoint all_tokens {S} (outs : list (lout S)) : option (list (token S)) :=
  match outs with
  | [] => Some []
  | LTok _ _ (Some t, None) _ :: r => if 0 <=? tokType t then option_map (cons t) (all_tokens r) else None
  | _ => None
  end.

Lemma concat_cut {S} (content : S -> list Z) re types (HRE : re_contract re) s p l p' : cut content re types s p l p' -> 0 <= p ->
  p <= p' /\ concat (map fst l) = sub (content s) p (p' - p).
Proof.
  assert (SS : forall c p n m, 0 <= p -> 0 <= n -> 0 <= m -> sub c p n ++ sub c (p + n) m = sub c p (n + m)).
  { intros c q n m Hq Hn Hm. unfold sub.
    replace (Z.to_nat (q + n)) with (Z.to_nat q + Z.to_nat n)%nat by lia. rewrite <- skipn_skipn'.
    replace (Z.to_nat (n + m)) with (Z.to_nat n + Z.to_nat m)%nat by lia.
    generalize (skipn (Z.to_nat q) c). intros d. generalize (Z.to_nat n) (Z.to_nat m). clear. intros n.
    revert d. induction n; intros d m; [reflexivity|]. destruct d; cbn; [destruct m; reflexivity|]. f_equal. apply IHn. }
  induction 1 as [p|p n l p' HI HC IH|p n k a b t nm l p' HM HG HA HB HC IH]; intros HP.
  - split; [lia|]. rewrite Z.sub_diag. reflexivity.
  - assert (0 < n) by (destruct HI as (gs & _ & ? & _); auto). destruct (IH ltac:(lia)) as [I1 I2].
    split; [lia|]. cbn [map fst concat]. rewrite I2, SS by lia. f_equal. lia.
  - assert (0 < n) by (destruct HM as (gs & _ & ? & _); auto). destruct (IH ltac:(lia)) as [I1 I2].
    split; [lia|]. cbn [map fst concat]. rewrite I2, SS by lia. f_equal. lia.
Qed.

Lemma scan_cut {S} (content : S -> list Z) re types (HRE : re_contract re) s p sk p' f :
  0 <= p -> scan content re types s AllTokenTypes p sk p' f ->
  (match f with FToken _ _ => True | FEof => True | _ => False end) ->
  exists l, tokens_of l = match f with FToken t _ => [t] | _ => [] end /\
    forall l2 p2, cut content re types s p' l2 p2 -> cut content re types s p (l ++ l2) p2.
Proof.
  intros HP H. revert HP. induction H as [pos HE|pos HE HN|pos HE HN|pos n k a b HE HM HG|pos n k a b t0 nm HE HM HG|pos n sk p' f HE HI HS IH];
    intros HP HF; try contradiction.
  - exists []. split; auto.
  - pose proof HM as (gs & ER & Hn & PK). destruct (pick_group types _ _ _ _ _ PK) as [GI GC].
    destruct (HRE (skipn (Z.to_nat pos) (content s))) as [X|(m0 & m1 & gs' & X & B0 & B & F)]; [congruence|].
    rewrite ER in X. injection X as <- <- X.
    assert (gs' = gs) as ->.
    { clear -X. revert gs' X. induction gs as [|[u v] gs IH]; intros [|[u' v'] gs'] X; cbn in X; try discriminate; auto.
      injection X as <- <- X. f_equal. auto. }
    rewrite Forall_forall in F. specialize (F _ GI). cbn [fst snd] in F. unfold captured in GC. cbn [fst] in GC.
    apply Z.leb_le in GC. destruct F as [F|F]; [injection F; lia|].
    exists [(sub (content s) pos n, Some (mkToken t0 nm (sub (content s) (pos + a) (b - a)) (Some s) (pos + a)))].
    split; [reflexivity|]. intros l2 p2 H5. cbn [app]. eapply cut_token; eauto; lia.
  - assert (0 < n) by (destruct HI as (gs & _ & ? & _); auto).
    destruct (IH ltac:(lia) HF) as (l & E & C). exists ((sub (content s) pos n, None) :: l).
    split; [exact E|]. intros l2 p2 H5. cbn [app]. apply cut_skip; auto.
Qed.

Lemma next_chain {S} (content : S -> list Z) re types (HRE : re_contract re) m : forall q s p r st outs sn toks,
  qok content q ((s, p) :: r) ->
  lex_run content re (newLexer types) (q, sn) (repeat LNext m) = Some (st, outs) ->
  all_tokens outs = Some toks ->
  exists l p', cut content re types s p l p' /\ tokens_of l = toks /\ qok content (fst st) ((s, p') :: r) /\ p <= p'.
Proof.
  induction m as [|m IH]; intros q s p r st outs sn toks HQ HE HA; cbn [repeat lex_run lex_step] in HE.
  - injection HE as <- <-. injection HA as <-. exists [], p. split; [constructor|]. split; [reflexivity|]. split; auto. lia.
  - destruct (lexNext_spec content re types HRE q s p r HQ) as (q' & sk & p' & f & E & SC & HQ' & HP).
    cbn [fst snd] in HE. rewrite E in HE. cbn [obind] in HE.
    destruct (lex_run content re (newLexer types) (q', sn) (repeat LNext m)) as [[st2 outs2]|] eqn:ER; [|discriminate].
    cbn [obind] in HE. injection HE as <- <-. cbn [all_tokens] in HA.
    assert (P0 : 0 <= p) by (destruct HQ as (_ & [HF _] & _); inversion HF; cbn [fst snd] in *; lia).
    destruct f as [| r0 | t0 | | t lx]; cbn [finalRes] in HA; try discriminate.
    destruct (0 <=? tokType t); [|discriminate].
    destruct (all_tokens outs2) as [toks2|] eqn:EA; [|discriminate]. cbn [option_map] in HA. injection HA as <-.
    destruct (IH q' s p' r st2 outs2 sn toks2 HQ' ER EA) as (l & p2 & C & T & HQ2 & HP2).
    destruct (scan_cut content re types HRE s p sk p' _ P0 SC I) as (l1 & T1 & C1).
    exists (l1 ++ l), p2. split; [apply C1; auto|]. split; [|split; auto; lia].
    assert (TA : forall a b : list (list Z * option (token S)), tokens_of (a ++ b) = tokens_of a ++ tokens_of b).
    { induction a as [|[x [y|]] a IHa]; intros b; cbn [app tokens_of]; rewrite ?IHa; reflexivity. }
    rewrite TA, T1, T. reflexivity.
Qed.

Lemma lex_run_app {S} (content : S -> list Z) re l ops1 : forall ops2 st,
  lex_run content re l st (ops1 ++ ops2) =
  do (st1, r1) <- lex_run content re l st ops1; do (st2, r2) <- lex_run content re l st1 ops2; Some (st2, r1 ++ r2).
Proof.
  induction ops1 as [|o r IH]; intros ops2 st; cbn [app lex_run obind].
  - destruct (lex_run content re l st ops2) as [[]|]; reflexivity.
  - destruct (lex_step content re l st o) as [[st1 x]|]; cbn [obind]; auto. rewrite IH.
    destruct (lex_run content re l st1 r) as [[st2 y]|]; cbn [obind]; auto.
    destruct (lex_run content re l st2 ops2) as [[st3 z]|]; cbn [obind]; auto.
Qed.

Theorem lexer_source_loses_nothing :
  forall (S : Type) (content : S -> list Z) re types (s : S) (m : nat) q st outs toks,
  re_contract re -> sqNew = Some q ->
  lex_run content re (newLexer types) (q, []) (LQueue (SqAppend (Some s)) :: repeat LNext m)
    = Some (st, LQ RNone :: outs) ->
  all_tokens outs = Some toks ->
  (exists lexemes p, cut content re types s 0 lexemes p /\ tokens_of lexemes = toks /\
     concat (map fst lexemes) = firstn (Z.to_nat p) (content s) /\ seen (fst st) = (Some s, p)) /\
  (forall q' t, lexNext content re (newLexer types) (fst st) = Some (q', (Some t, None)) -> tokType t = EofTokenType ->
     exists lexemes, cut content re types s 0 lexemes (zlen (content s)) /\ tokens_of lexemes = toks /\
       concat (map fst lexemes) = content s).
Proof.
  intros S content re types s m q st outs toks HRE HN HE HA.
  destruct (RB_new content) as (q0 & E0 & HR). rewrite HN in E0. injection E0 as <-.
  cbn [lex_run] in HE.
  destruct (RB_step content re types HRE 0 (q, []) ([], []) (LQueue (SqAppend (Some s))) HR) as (st1 & x & a1 & E1 & HR1 & _).
  { cbn. lia. }
  rewrite E1 in HE. cbn [obind] in HE.
  destruct (step_ok (slen content) (sl_nonneg content) (q, []) ([], []) (SqAppend (Some s)) (proj1 HR)) as (st1' & E1' & HR1').
  { reflexivity. }
  { cbn [a_step fst]. pose proof (a_append_len content [] s). unfold zlen. cbn [length] in *. lia. }
  cbn [lex_step] in E1. rewrite E1' in E1. cbn [obind] in E1. injection E1 as <- <-.
  assert (HQ : qok content (fst st1') [(s, 0)]).
  { destruct HR1' as (A & B & _). cbn [a_step fst] in A, B.
    assert (EQ : a_append (slen content) [] s = [(s, 0)]) by (unfold a_append; destruct (has_text (slen content) (s, 0)); reflexivity).
    rewrite EQ in A, B. split; [exact A|]. split; [exact B|]. reflexivity. }
  destruct (lex_run content re (newLexer types) st1' (repeat LNext m)) as [[st2 outs2]|] eqn:ER; [|discriminate].
  cbn [obind] in HE. injection HE as <- <-. destruct st1' as [q1 sn1].
  destruct (next_chain content re types HRE m q1 s 0 [] st2 outs2 sn1 toks HQ ER HA) as (l & p' & C & T & HQ2 & HP).
  destruct (concat_cut content re types HRE s 0 l p' C ltac:(lia)) as [_ CC].
  split.
  - exists l, p'. split; auto. split; auto. split; [rewrite CC; unfold sub; cbn; f_equal; f_equal; lia|].
    destruct HQ2 as ((A1 & A2 & _) & _). unfold seen. rewrite A1, A2. reflexivity.
  - intros q' t EN HT.
    destruct (lexNext_spec content re types HRE (fst st2) s p' [] HQ2) as (q2 & sk & p2 & f & E & SC & HQ' & HP2).
    rewrite EN in E. injection E as -> EF.
    destruct f as [| r0 | t0 | | t0 lx]; cbn [finalRes] in EF; try discriminate.
    2:{ exfalso. injection EF as <-. 
        destruct (scan_token_inv content re types HRE s _ p' sk p2 t lx ltac:(lia) SC)
        as (p0 & n & k & a & b & H0 & HM & H1 & H2 & H3 & E4 & _ & _ & HTy & _). unfold EofTokenType in HT. lia. }
    destruct (scan_cut content re types HRE s p' sk p2 FEof ltac:(lia) SC I) as (l1 & T1 & C1).
    assert (p2 = zlen (content s)).
    { clear -SC HP2. unfold slen in HP2. destruct HP2 as [_ HP2]. remember FEof as f. revert HP2. induction SC; intros; try discriminate; try lia. auto. }
    subst p2. exists (l ++ l1).
    assert (CA : forall p l p1, cut content re types s p l p1 -> forall l2 p2, cut content re types s p1 l2 p2 -> cut content re types s p (l ++ l2) p2).
    { clear. induction 1; intros l2 p2 HH; cbn [app]; auto; [apply cut_skip; auto|eapply cut_token; eauto]. }
    pose proof (C1 [] _ (cut_nil content re types s (zlen (content s)))) as C2. rewrite app_nil_r in C2.
    pose proof (CA _ _ _ C _ _ C2) as C3. split; [exact C3|].
    assert (TA : forall a b : list (list Z * option (token S)), tokens_of (a ++ b) = tokens_of a ++ tokens_of b).
    { induction a as [|[x [y|]] a IHa]; intros b; cbn [app tokens_of]; rewrite ?IHa; reflexivity. }
    split; [rewrite TA, T, T1, app_nil_r; reflexivity|].
    destruct (concat_cut content re types HRE s 0 _ _ C3 ltac:(lia)) as [_ CC3]. rewrite CC3.
    unfold sub. cbn [Z.to_nat skipn]. apply firstn_all2. unfold zlen. lia.
Qed.
Print Assumptions lexer_source_loses_nothing.

(** C11.  After any history, finitely many calls of Next reach the end of input
    or an error. *)
Theorem lexer_reaches_end :
  forall (S : Type) (content : S -> list Z) re types (ops : list (lop S)),
  re_contract re -> Z.of_nat (added ops) < 2 ^ 31 ->
  exists n q st outs, sqNew = Some q /\
    lex_run content re (newLexer types) (q, []) (ops ++ repeat LNext n) = Some (st, outs) /\
    exists before res after, nth_error outs (length ops + n - 1) = Some (LTok None before res after) /\
      (snd res <> None \/ fst res = Some eoiToken).
Proof.
  intros S content re types ops HRE HB.
  destruct (RB_new content) as (q & E & HR).
  destruct (RB_run content re types HRE ops 0 _ _ HR ltac:(lia)) as (st & outs & a & E2 & HR2 & _).
  set (left := fun l : aq S => fold_right (fun x n => Z.to_nat (slen content (fst x) - snd x) + 1 + n)%nat 1%nat l).
  assert (LR : forall ops st st' outs, lex_run content re (newLexer types) st ops = Some (st', outs) -> length outs = length ops).
  { clear. induction ops as [|o r IH]; intros st st' outs H; cbn [lex_run] in H; [injection H as <- <-; reflexivity|].
    destruct (lex_step content re (newLexer types) st o) as [[s1 x]|]; [|discriminate]. cbn [obind] in H.
    destruct (lex_run content re (newLexer types) s1 r) as [[s2 y]|] eqn:E; [|discriminate]. cbn [obind] in H.
    injection H as <- <-. cbn. f_equal. eauto. }
  assert (G : forall k l q sn, qok content q l -> (left l <= k)%nat ->
     exists n st' outs', (1 <= n)%nat /\ lex_run content re (newLexer types) (q, sn) (repeat LNext n) = Some (st', outs') /\
       exists before res after, nth_error outs' (n - 1) = Some (LTok None before res after) /\
      (snd res <> None \/ fst res = Some eoiToken)).
  { clear E E2 HR HR2 HB. induction k as [|k IH]; intros l q' sn HQ HK.
    - exfalso. destruct l as [|x l]; cbn [left fold_right] in HK; lia.
    - destruct l as [|(s, p) r].
      + exists 1%nat. cbn [repeat lex_run lex_step fst snd]. rewrite lexNext_eoi by auto. cbn [obind].
        do 2 eexists. split; [lia|]. split; [reflexivity|]. cbn. do 3 eexists. split; [reflexivity|]. right. reflexivity.
      + destruct (lexNext_spec content re types HRE q' s p r HQ) as (q2 & sk & p' & f & E & SC & HQ' & HP).
        assert (ERR : snd (finalRes content s p' f) <> None -> 
          exists n st' outs', (1 <= n)%nat /\ lex_run content re (newLexer types) (q', sn) (repeat LNext n) = Some (st', outs') /\
          exists before res after, nth_error outs' (n - 1) = Some (LTok None before res after) /\
          (snd res <> None \/ fst res = Some eoiToken)).
        { intros HX. exists 1%nat. cbn [repeat lex_run lex_step fst snd]. rewrite E. cbn [obind].
          do 2 eexists. split; [lia|]. split; [reflexivity|]. cbn. do 3 eexists. split; [reflexivity|]. left. exact HX. }
        assert (REC : (left (afterQ s p' r f) < left ((s, p) :: r))%nat ->
          exists n st' outs', (1 <= n)%nat /\ lex_run content re (newLexer types) (q', sn) (repeat LNext n) = Some (st', outs') /\
          exists before res after, nth_error outs' (n - 1) = Some (LTok None before res after) /\
          (snd res <> None \/ fst res = Some eoiToken)).
        { intros HX. destruct (IH _ q2 sn HQ' ltac:(lia)) as (n & st' & outs' & N1 & ER & bf & res & af & NE & F).
          exists (Datatypes.S n). cbn [repeat lex_run lex_step fst snd]. rewrite E. cbn [obind]. rewrite ER. cbn [obind].
          do 2 eexists. split; [lia|]. split; [reflexivity|]. exists bf, res, af. split; [|auto].
          destruct n; [lia|]. cbn [Nat.sub] in *. rewrite Nat.sub_0_r in *. exact NE. }
        assert (P0 : 0 <= p) by (destruct HQ as (_ & [HF _] & _); inversion HF; cbn [fst snd] in *; lia).
        destruct f as [| r0 | t0 | | t lx].
        * apply REC. cbn [afterQ left fold_right fst snd]. unfold left. lia.
        * apply ERR. discriminate.
        * apply ERR. discriminate.
        * exfalso. clear -SC. remember FNothing as f. induction SC; try discriminate; auto.
          destruct H0 as (n & gs & _ & _ & (g & G1 & G2) & PK). rewrite (pick_all types _ _ PK g G1) in G2. discriminate.
        * apply REC. destruct (scan_token_inv content re types HRE s _ p sk p' t lx ltac:(lia) SC)
            as (p0 & n & k0 & a0 & b & H0 & HM & H1 & H2 & H3 & E4 & _).
          cbn [afterQ left fold_right fst snd]. unfold slen in *. lia. }
  destruct HR2 as ((HA & HO & _) & HL & _). destruct st as [q1 sn1], a as [l1 asn1]. cbn [fst snd] in *.
  destruct (G (left l1) l1 q1 sn1) as (n & st' & outs' & N1 & ER & bf & res & af & NE & F).
  { split; auto. split; auto. unfold zlen. lia. }
  { lia. }
  exists n, q, st', (outs ++ outs'). split; auto. rewrite lex_run_app, E2. cbn [obind]. rewrite ER. cbn [obind].
  split; [reflexivity|]. exists bf, res, af. split; auto.
  rewrite nth_error_app2; rewrite (LR _ _ _ _ E2); [|lia].
  replace (length ops + n - 1 - length ops)%nat with (n - 1)%nat by lia. exact NE.
Qed.
Print Assumptions lexer_reaches_end.

(** C13.  NextOf returns only tokens of the requested types or EoF/EoI; when it
    returns neither token nor error, only insignificant text has been passed, and
    either no token type of the lexer was requested or an unwanted lexeme follows. *)
Theorem lexer_next_of_filter :
  forall (S : Type) (content : S -> list Z) re types (ops : list (lop S)) q st outs tts before res after,
  re_contract re -> Z.of_nat (added ops) < 2 ^ 31 -> sqNew = Some q -> 0 <= tts ->
  lex_run content re (newLexer types) (q, []) ops = Some (st, outs) ->
  In (LTok (Some tts) before res after) outs ->
  (forall t, fst res = Some t ->
     (0 <= tokType t <= 63 /\ Z.testbit tts (tokType t) = true) \/
     tokType t = EofTokenType \/ tokType t = EoiTokenType) /\
  (res = (None, None) ->
     (after = before /\ forall k t n, group_type types k = Some (t, n) -> Z.testbit tts t = false) \/
     exists s p p' sk, before = (Some s, p) /\ after = (Some s, p') /\ p <= p' /\
       concat sk = sub (content s) p (p' - p) /\
       scan content re types s tts p sk p' FNothing /\ unwanted content re types s tts p').
Proof.
  intros S content re types ops q st outs tts before res after HRE HB HN HT HE HI.
  pose proof (history_calls _ _ _ _ _ _ _ _ HRE HB HN HE) as HC. rewrite Forall_forall in HC. specialize (HC _ HI).
  destruct HC as [(tts' & [= <-] & HZ & -> & ->)|(HZ & [(-> & -> & ->)|(s & p & sk & p' & f & -> & HP & HP' & SC & -> & HA)])].
  - split; [discriminate|]. intros _. left. split; auto.
    apply (mask_zero types tts HT). exact HZ.
  - split; [intros t [= <-]; auto|discriminate].
  - split.
    + intros t Ht. destruct f as [| r0 | t0 | | t0 lx]; cbn [finalRes fst] in Ht; try discriminate.
      * injection Ht as <-. auto.
      * injection Ht as <-. left.
        destruct (scan_token_inv content re types HRE s _ p sk p' t0 lx ltac:(lia) SC)
            as (p0 & n & k0 & a0 & b & H0 & HM & H1 & H2 & H3 & E4 & _ & HB' & HT' & _). auto.
    + intros Hr. destruct f as [| r0 | t0 | | t0 lx]; cbn [finalRes fst] in Hr; try discriminate.
      destruct HA as [HA|HA]; [discriminate|]. right. exists s, p, p', sk.
      destruct (scan_prefix content re types HRE s _ p sk p' _ SC ltac:(lia)) as [E1 E2]. rewrite app_nil_r in E2.
      repeat split; auto; try lia.
      clear -SC. remember FNothing as f. induction SC; try discriminate; auto.
Qed.
Print Assumptions lexer_next_of_filter.

(** ** C14: the documented "makes no changes" does not hold. *)

(** A regexp like [\s+|([0-9]+)|([a-z]+)] on the texts used below: one space, or
    one digit (group 1), or one letter (group 2). *)
Definition demo_re (c : list Z) : list Z :=
  match c with
  | [] => []
  | b :: _ => if b =? 32 then 0 :: 1 :: flat [(-1, -1); (-1, -1)]
              else if (48 <=? b) && (b <=? 57) then 0 :: 1 :: flat [(0, 1); (-1, -1)]
              else if (97 <=? b) && (b <=? 122) then 0 :: 1 :: flat [(-1, -1); (0, 1)]
              else []
  end.
Lemma demo_re_contract : re_contract demo_re.
Proof.
  intros c. unfold demo_re. destruct c as [|b r]; [auto|]. 
  assert (1 <= zlen (b :: r)) by (rewrite zlen_cons; pose proof (zlen_nonneg r); lia).
  assert (G : forall gs, Forall (fun g => g = (-1, -1) \/ g = (0, 1)) gs ->
    Forall (fun g => g = (-1, -1) \/ 0 <= fst g <= snd g /\ snd g <= 1) gs).
  { intros gs H0. eapply Forall_impl; [|exact H0]. intros g [->| ->]; [left; reflexivity|right; cbn; lia]. }
  assert (K : forall gs, Forall (fun g => g = (-1, -1) \/ g = (0, 1)) gs ->
    exists m0 m1 gs', 0 :: 1 :: flat gs = m0 :: m1 :: flat gs' /\ 0 <= m0 <= m1 /\ m1 <= zlen (b :: r) /\
    Forall (fun g => g = (-1, -1) \/ (m0 <= fst g <= snd g /\ snd g <= m1)) gs').
  { intros gs H0. exists 0, 1, gs. split; [reflexivity|]. split; [lia|]. split; [lia|]. exact (G gs H0). }
  destruct (b =? 32); [right; apply K; auto|].
  destruct ((48 <=? b) && (b <=? 57)); [right; apply K; auto|].
  destruct ((97 <=? b) && (b <=? 122)); [right; apply K; auto|auto].
Qed.
Definition demo_types : list (Z * string) := [(0, "num"%string); (1, "name"%string)].

(** C14 refuted: on " a" NextOf({num}) returns nil, nil but the position has moved
    over the space. *)
Theorem next_of_makes_no_changes_refuted :
  exists (re : list Z -> list Z) (types : list (Z * string)) (text : list Z) (tts : Z) outs st q,
    re_contract re /\ sqNew = Some q /\
    lex_run (fun t => t) re (newLexer types) (q, []) [LQueue (SqAppend (Some text)); LNextOf tts] = Some (st, outs) /\
    exists p, nth_error outs 1 = Some (LTok (Some tts) (Some text, 0) (None, None) (Some text, p)) /\ p <> 0.
Proof.
  exists demo_re, demo_types, [32; 97], 1.
  assert (E : exists q st outs, @sqNew (list Z) = Some q /\
     lex_run (fun t => t) demo_re (newLexer demo_types) (q, []) [LQueue (SqAppend (Some [32; 97])); LNextOf 1] = Some (st, outs) /\
     nth_error outs 1 = Some (LTok (Some 1) (Some [32; 97], 0) (None, None) (Some [32; 97], 1))).
  { do 3 eexists. split; [vm_compute; reflexivity|]. split; vm_compute; reflexivity. }
  destruct E as (q & st & outs & E1 & E2 & E3). exists outs, st, q.
  split; [apply demo_re_contract|]. split; auto. split; auto. exists 1. split; auto. lia.
Qed.
Print Assumptions next_of_makes_no_changes_refuted.

(** The same for errors: on " ?" Next reports the error but has moved. *)
Theorem next_error_makes_no_changes_refuted :
  exists (re : list Z -> list Z) (types : list (Z * string)) (text : list Z) outs st q,
    re_contract re /\ sqNew = Some q /\
    lex_run (fun t => t) re (newLexer types) (q, []) [LQueue (SqAppend (Some text)); LNext] = Some (st, outs) /\
    exists e p, nth_error outs 1 = Some (LTok None (Some text, 0) (None, Some e) (Some text, p)) /\ p <> 0.
Proof.
  exists demo_re, demo_types, [32; 63].
  assert (E : exists q st outs, @sqNew (list Z) = Some q /\
     lex_run (fun t => t) demo_re (newLexer demo_types) (q, []) [LQueue (SqAppend (Some [32; 63])); LNext] = Some (st, outs) /\
     nth_error outs 1 = Some (LTok None (Some [32; 63], 0) (None, Some (WrongChar [32; 63] 1 63)) (Some [32; 63], 1))).
  { do 3 eexists. split; [vm_compute; reflexivity|]. split; vm_compute; reflexivity. }
  destruct E as (q & st & outs & E1 & E2 & E3). exists outs, st, q.
  split; [apply demo_re_contract|]. split; auto. split; auto. do 2 eexists. split; eauto. lia.
Qed.
Print Assumptions next_error_makes_no_changes_refuted.

(** And NextOf on an empty queue does not always return EoI. *)
Theorem next_of_eoi_refuted :
  exists (re : list Z -> list Z) (types : list (Z * string)) (tts : Z) (outs : list (lout (list Z))) st q,
    re_contract re /\ sqNew = Some q /\
    lex_run (fun t => t) re (newLexer types) (q, []) [LNextOf tts] = Some (st, outs) /\
    nth_error outs 0 = Some (LTok (Some tts) (None, 0) (None, None) (None, 0)).
Proof.
  exists demo_re, demo_types, 4.
  assert (E : exists q st outs, @sqNew (list Z) = Some q /\
     lex_run (fun t => t) demo_re (newLexer demo_types) (q, []) [LNextOf 4] = Some (st, outs) /\
     nth_error outs 0 = Some (LTok (Some 4) (None, 0) (None, None) (None, 0))).
  { do 3 eexists. split; [vm_compute; reflexivity|]. split; vm_compute; reflexivity. }
  destruct E as (q & st & outs & E1 & E2 & E3). exists outs, st, q.
  split; [apply demo_re_contract|]. auto.
Qed.
Print Assumptions next_of_eoi_refuted.

(** What remains true of C14: no token, no error, and no byte of a lexeme with
    captured groups consumed; if a token type of the lexer is requested the queue
    still has its source. *)
Theorem next_of_no_changes_partial :
  forall (S : Type) (content : S -> list Z) re types (ops : list (lop S)) q st outs tts before after,
  re_contract re -> Z.of_nat (added ops) < 2 ^ 31 -> sqNew = Some q -> 0 <= tts ->
  lex_run content re (newLexer types) (q, []) ops = Some (st, outs) ->
  In (LTok (Some tts) before (None, None) after) outs ->
  after = before \/
  exists s p p' n, before = (Some s, p) /\ after = (Some s, p') /\ p < p' /\ insignificant content re s p n.
Proof.
  intros S content re types ops q st outs tts before after HRE HB HN HT HE HI.
  destruct (lexer_next_of_filter S content re types ops q st outs tts before (None, None) after HRE HB HN HT HE HI) as [_ H].
  destruct (H eq_refl) as [[H1 _]|(s & p & p' & sk & -> & -> & HP & _ & SC & _)]; [left; auto|].
  inversion SC; subst; [left; auto|right]. pose proof (scan_mono content re types _ _ _ _ _ _ H2).
  destruct H1 as (gs & A & B & C). exists s, p, p', n. repeat split; auto; [lia|]. exists gs. auto.
Qed.
Print Assumptions next_of_no_changes_partial.

(** Non-vacuity of the history theorems: a run over "a 1" with every kind of answer. *)
Example lexer_demo : exists q st outs, @sqNew (list Z) = Some q /\
  lex_run (fun t => t) demo_re (newLexer demo_types) (q, [])
    [LQueue (SqAppend (Some [97; 32; 49])); LNextOf 1; LNext; LNextOf 1; LNext; LNextOf 2; LNext] = Some (st, outs) /\
  map (fun o => match o with LTok _ _ (Some t, _) _ => tokType t | _ => -9 end) outs = [-9; -9; 1; 0; -2; -3; -3] /\
  all_tokens [nth 2 outs (LQ RNone); nth 3 outs (LQ RNone)] <> None.
Proof.
  do 3 eexists. split; [vm_compute; reflexivity|]. split; [vm_compute; reflexivity|]. split; [vm_compute; reflexivity|]. discriminate.
Qed.
