(** C61 - C63: lexers of a parser. *)
From Coq Require Import String ZArith List Lia Bool.
From Verif Require Import Base BaseProofs Utf8 Grammar Queue SourceQueue SourceQueueSpec Prop_SourceQueue
  Lexer LexerSpec LexerProofs Prop_Lexer ParserNew ParserNewSpec ParserNewProofs.
Import ListNotations.
Open Scope Z_scope.

Section P.
Context {S : Type} (content : S -> list Z).
Variable prefers : name -> list Z -> option Z.
Variable compilesAll : list name -> bool.
Hypothesis PO : regexpsOk prefers.
Variable g : grammar.
Variable ls : list plexer.
Hypothesis MADE : newParser prefers compilesAll g = NewLexers ls.
Notation sl := (slen content).

Lemma padded_cons o r : padded (o :: r) = (padded [o] + @padded S r)%nat.
Proof. destruct o as [[]|]; cbn [padded]; lia. Qed.
Lemma pl_step_ok n st a o : RB content n st a -> usable (zlen ls) o -> Z.of_nat (padded [o] + n) < 2 ^ 31 ->
  exists st' out a', pl_step content ls st o = Some (st', out) /\ RB content (padded [o] + n) st' a' /\ outcomeOk content prefers (gTokens g) (o, out).
Proof.
  intros HR U HB. destruct o as [o|k tts]; cbn [pl_step].
  - destruct (RB_step content (fun _ => []) [] ltac:(intros c; left; reflexivity) n st a (LQueue o) HR) as (st' & out & a' & E & HR' & _).
    { destruct o; exact HB. }
    cbn [lex_step] in E. destruct (sq_step (slen content) st o) as [[st1 r]|]; cbn [obind] in *; [|discriminate]. injection E as <- <-.
    exists st1, (LQ r), a'. split; [reflexivity|]. split; [|exact I]. destruct o; exact HR'.
  - cbn [usable] in U. destruct U as [U T0]. destruct (newParser_lexers prefers compilesAll g ls MADE) as [_ GL].
    destruct (zget ls k) as [l|] eqn:ZL; cbn [obind]; [|exfalso; rewrite (zget_Some ls k (mkPlexer [] (fun _ => [])) U) in ZL; discriminate].
    pose proof (GL _ _ ZL) as ->. destruct HR as ((HA & HO & HSn & HSb) & HN & HS). destruct st as [q sn], a as [l asn]. cbn [fst snd padded Nat.add] in *.
    assert (HQ : qok content q l) by (split; [auto|split; auto; unfold zlen; lia]).
    destruct (lexer_call prefers PO (gTokens g) k content q l tts HQ T0) as (q' & res & E & CL & HQ').
    unfold plLexer. cbn [groupLexer plTypes plRe]. rewrite E. cbn [obind]. exists (q', sn), (LTok (Some tts) (seen q) res (seen q')), (afterRes l res, asn).
    split; [reflexivity|]. split; [|exact CL]. destruct HQ' as (HA' & HO' & _). split; [exact (conj HA' (conj HO' (conj HSn HSb)))|]. split; [|exact HS].
    cbn [fst]. destruct l as [|[s p] r]; cbn [afterRes]; [exact HN|]. destruct res as [[t|] e]; [|exact HN]. cbn [length] in *. destruct (tokType t =? EofTokenType); cbn [length]; lia.
Qed.

(** C61: every call of every lexer of a parser, in every history of calls and queue operations, gives a token of the first type, in the
    order of definitions, that matches there, if it is wanted and has something to give; no byte is skipped; nothing panics. *)
Theorem lexers_first_type : forall ops q, sqNew = Some q -> Forall (usable (zlen ls)) ops -> Z.of_nat (padded ops) < 2 ^ 31 ->
  exists st outs, pl_run content ls (q, []) ops = Some (st, outs) /\ Forall (outcomeOk content prefers (gTokens g)) outs.
Proof.
  assert (RUN : forall ops n st a, RB content n st a -> Forall (usable (zlen ls)) ops -> Z.of_nat (padded ops + n) < 2 ^ 31 ->
    exists st' outs a', pl_run content ls st ops = Some (st', outs) /\ RB content (padded ops + n) st' a' /\ Forall (outcomeOk content prefers (gTokens g)) outs).
  { induction ops as [|o r IH]; intros n st a HR U HB; cbn [pl_run].
    - exists st, [], a. auto.
    - inversion U as [|x y U1 U2]; subst. rewrite padded_cons in HB.
      destruct (pl_step_ok n st a o HR U1 ltac:(lia)) as (st1 & x & a1 & -> & HR1 & HC). cbn [obind].
      destruct (IH _ _ _ HR1 U2 ltac:(lia)) as (st2 & y & a2 & -> & HR2 & HC2). cbn [obind].
      exists st2, ((o, x) :: y), a2. split; [reflexivity|]. split; [|constructor; auto].
      rewrite padded_cons. replace (padded [o] + padded r + n)%nat with (padded r + (padded [o] + n))%nat by lia. exact HR2. }
  intros ops q E U HB. destruct (RB_new content) as (q0 & E0 & HR). rewrite E in E0. injection E0 as <-.
  destruct (RUN ops 0%nat _ _ HR U ltac:(lia)) as (st & outs & _ & X & _ & Y). eauto.
Qed.
End P.
Print Assumptions lexers_first_type.

(** The description of a call leaves nothing open. *)
Theorem call_determined {S} (content : S -> list Z) prefers ts k tts b r a r' a' :
  called content prefers ts k tts b r a -> called content prefers ts k tts b r' a' -> r = r' /\ (a = a' \/ exists s, b = (Some s, zlen (content s))).
Proof.
  assert (FU := firstType_unique prefers ts k).
  assert (NF : forall text i d n, noType prefers ts k text -> firstType prefers ts k text i d n -> False).
  { intros text i d n N [A B _]. rewrite (N _ _ A) in B. discriminate. }
  assert (WF : forall i d n text, firstType prefers ts k text i d n -> i < 64 -> Z.testbit tts i = true -> someWanted ts k tts).
  { intros i d n text [A _ _] L B. exists i, d. auto. }
  intros H H'.
  destruct H as [at_ W|W|s x W|s p i d n R F N I B|s p i d n W R F N I B|s p i d n W R F N I|s p W R F];
  inversion H' as [at_' W' E1|W' E1|s' x' W' E1|s' p' i' d' n' R' F' N' I' B' E1|s' p' i' d' n' W' R' F' N' I' B' E1|s' p' i' d' n' W' R' F' N' I' E1|s' p' W' R' F' E1]; subst;
  try contradiction; try lia; try (split; [reflexivity|left; reflexivity]); try (split; [reflexivity|right; eauto; fail]);
  try (exfalso; eapply W; eapply WF; eassumption); try (exfalso; eapply W'; eapply WF; eassumption);
  try (destruct (FU _ _ _ _ _ _ _ F F') as (-> & -> & ->); auto; first [lia | congruence]);
  try (exfalso; destruct F' as [F'|(i2 & d2 & F')]; [exact (NF _ _ _ _ F' F)|]; destruct (FU _ _ _ _ _ _ _ F F') as (_ & _ & ->); lia);
  try (exfalso; destruct F as [F|(i2 & d2 & F)]; [exact (NF _ _ _ _ F F')|]; destruct (FU _ _ _ _ _ _ _ F F') as (_ & _ & Z); lia).
Qed.
Print Assumptions call_determined.


(** What parser.New needs, and how many lexers it makes. *)
Definition patternsOf (k : Z) (ts : list gtoken) : list name :=
  map gtRe (filter (fun t => match gtRe t with [] => false | _ => gtGroup t =? k end) ts).
Lemma patterns_group k ts : forall i, map (fun x => gtRe (snd x)) (groupTypes k i ts) = patternsOf k ts.
Proof.
  unfold patternsOf. induction ts as [|t r IH]; intros i; [reflexivity|]. cbn [groupTypes filter]. destruct (gtRe t) eqn:RE; [apply IH|].
  destruct (gtGroup t =? k); [|apply IH]. cbn [map snd]. rewrite RE, IH. reflexivity.
Qed.
Theorem new_makes_lexers : forall prefers compilesAll g,
  (forall t, In t (gTokens g) -> gtRe t <> [] -> 0 <= gtGroup t /\ hasFlag (gtFlags t) LiteralToken = false) ->
  exists count, 0 < count /\ (forall t, In t (gTokens g) -> hasFlag (gtFlags t) LiteralToken = false -> gtGroup t < count) /\
    (count = 1 \/ exists t, In t (gTokens g) /\ hasFlag (gtFlags t) LiteralToken = false /\ gtGroup t = count - 1) /\
    ((exists ls, newParser prefers compilesAll g = NewLexers ls /\ zlen ls = count /\ forall k, 0 <= k < count -> compilesAll (patternsOf k (gTokens g)) = true) \/
     (newParser prefers compilesAll g = NewError /\ exists k, 0 <= k < count /\ compilesAll (patternsOf k (gTokens g)) = false)).
Proof.
  intros prefers compilesAll g H. exists (maxGroup (gTokens g) 0 + 1). pose proof (maxGroup_ge (gTokens g) 0) as M. split; [lia|].
  split; [intros t Ht F; pose proof (maxGroup_In (gTokens g) 0 t Ht F); lia|]. split.
  { assert (X : forall ts m, maxGroup ts m = m \/ exists t, In t ts /\ hasFlag (gtFlags t) LiteralToken = false /\ gtGroup t = maxGroup ts m).
    { induction ts as [|t r IH]; intros m; cbn [maxGroup]; [auto|]. destruct (hasFlag (gtFlags t) LiteralToken) eqn:F.
      - destruct (IH m) as [E|(t' & A & B)]; [auto|right; exists t'; split; [right; exact A|exact B]].
      - destruct (IH (if m <? gtGroup t then gtGroup t else m)) as [E|(t' & A & B)]; [|right; exists t'; split; [right; exact A|exact B]].
        rewrite E. destruct (m <? gtGroup t); [|auto]. right. exists t. split; [left; reflexivity|auto]. }
    destruct (X (gTokens g) 0) as [E|(t & A & B & C)]; [left; lia|right]. exists t. repeat split; auto. lia. }
  pose proof (newParser_no_panic prefers compilesAll g H) as NP. unfold newParser in *.
  destruct (fillRecs _ _ _) as [lrs|] eqn:F; [|congruence]. destruct (fillRecs_spec _ _ _ _ F) as [FL FG].
  unfold zlen at 2 in FL. rewrite repeat_length in FL.
  assert (GET : forall k, 0 <= k < maxGroup (gTokens g) 0 + 1 -> exists r, zget lrs k = Some r /\ lrPatterns r = patternsOf k (gTokens g)).
  { intros k R. eexists. split; [apply FG; apply zget_repeat; lia|]. cbn. apply patterns_group. }
  destruct (newLexers prefers compilesAll lrs) as [ls|] eqn:N.
  - left. exists ls. split; [reflexivity|]. destruct (newLexers_get _ _ _ _ N) as [NL _]. split; [lia|]. intros k R. destruct (GET k R) as (r & ZG & <-).
    assert (IN : In r lrs). { unfold zget in ZG. destruct (k <? 0); [discriminate|]. eapply nth_error_In; eauto. }
    clear -N IN. revert ls N. induction lrs as [|r0 rest IH]; intros ls N; [destruct IN|]. cbn [newLexers] in N. destruct (compilesAll (lrPatterns r0)) eqn:C; [|discriminate].
    destruct (newLexers _ _ rest); [|discriminate]. destruct IN as [->|IN]; [exact C|]. eapply IH; eauto.
  - right. split; [reflexivity|].
    assert (X : forall rs, newLexers prefers compilesAll rs = None -> exists k r, zget rs k = Some r /\ compilesAll (lrPatterns r) = false).
    { induction rs as [|r0 rest IH]; intros E; cbn [newLexers] in E; [discriminate|]. destruct (compilesAll (lrPatterns r0)) eqn:C; [|exists 0, r0; auto].
      destruct (newLexers _ _ rest); [discriminate|]. destruct (IH eq_refl) as (k & r & ZG & CF). exists (k + 1), r. split; [|exact CF].
      unfold zget in *. destruct (Z.ltb_spec k 0); [discriminate|]. destruct (Z.ltb_spec (k + 1) 0); [lia|].
      replace (Z.to_nat (k + 1)) with (Datatypes.S (Z.to_nat k)) by lia. exact ZG. }
    destruct (X lrs N) as (k & r & ZG & CF). pose proof (zget_range _ _ _ ZG) as R. exists k. split; [lia|].
    destruct (GET k ltac:(lia)) as (r' & ZG' & <-). rewrite ZG in ZG'. injection ZG' as <-. exact CF.
Qed.
Print Assumptions new_makes_lexers.

(** ** whole texts *)
Theorem split_unique : forall prefers ts k text l l', regexpsOk prefers -> splitInto prefers ts k text l -> splitInto prefers ts k text l' ->
  l = l' /\ concat (map snd l) = text.
Proof.
  intros prefers ts k text l l' PO H. revert l'. induction H as [|text i d n l F N I HS IH]; intros l' H'.
  - split; [|reflexivity]. inversion H' as [|t0 i d n l0 F N I HS]; subst; [reflexivity|].
    pose proof (PO _ _ _ (ft_match _ _ _ _ _ _ _ F)) as R. cbn in R. lia.
  - inversion H' as [|t0 i' d' n' l0 F' N' I' HS']; subst.
    + pose proof (PO _ _ _ (ft_match _ _ _ _ _ _ _ F)) as R. cbn in R. lia.
    + destruct (firstType_unique _ _ _ _ _ _ _ _ _ _ F F') as (-> & -> & ->). destruct (IH _ HS') as [-> E]. split; [reflexivity|].
      cbn [map snd concat]. rewrite E. apply firstn_skipn.
Qed.
Print Assumptions split_unique.

(** C61: tokens of a whole text, one call after another *)
Theorem text_is_split : forall {S} (content : S -> list Z) prefers compilesAll g ls k (s : S) l q, regexpsOk prefers ->
  newParser prefers compilesAll g = NewLexers ls -> 0 <= k < zlen ls -> sqNew = Some q -> l <> [] ->
  splitInto prefers (gTokens g) k (content s) l ->
  exists st outs, pl_run content ls (q, []) (PQueue (SqAppend (Some s)) :: repeat (PNextOf k AllTokenTypes) (Datatypes.S (List.length l))) = Some (st, outs) /\
    resultsOf outs = map (fun t => (Some t, None)) (tokensAt (gTokens g) s 0 l ++ [eofToken content s]).
Proof.
  intros S content prefers compilesAll g ls k s l q PO MADE K Q L0 SP.
  destruct (newParser_lexers prefers compilesAll g ls MADE) as [_ GL].
  destruct (zget ls k) as [lx|] eqn:ZL; [|exfalso; rewrite (zget_Some ls k (mkPlexer [] (fun _ => [])) K) in ZL; discriminate].
  pose proof (GL _ _ ZL) as ->.
  destruct (@new_ok S (slen content)) as (q0 & E0 & HR). rewrite Q in E0. injection E0 as <-.
  assert (X : a_append (slen content) [] s = [(s, 0)]) by (unfold a_append; cbn [filter app]; destruct (has_text (slen content) (s, 0)); reflexivity).
  destruct (step_ok (slen content) (sl_nonneg content) (q, []) ([], []) (SqAppend (Some s)) HR) as (st1 & E1 & HR1); [reflexivity|cbn [a_step fst]; rewrite X; reflexivity|].
  cbn [pl_run pl_step]. rewrite E1. cbn [obind]. destruct st1 as [q1 sn1]. clear E1.
  assert (HQ : qok content q1 [(s, 0)]).
  { destruct HR1 as (A & B & _). cbn [a_step fst] in A, B. rewrite X in A, B. split; [exact A|]. split; [exact B|reflexivity]. }
  clear HR1 HR X.
  assert (W0 : someWanted (gTokens g) k AllTokenTypes).
  { inversion SP as [X|t0 i d n l0 F N I HS X Y]; subst; [congruence|]. exists i, d. split; [apply F|]. split; [exact I|].
    destruct (ft_type _ _ _ _ _ _ _ F) as [Z _]. apply zget_range in Z. unfold AllTokenTypes. rewrite Z.testbit_ones_nonneg by lia. apply Z.ltb_lt. lia. }
  clear L0.
  assert (GO : forall l p q, 0 <= p <= zlen (content s) -> qok content q [(s, p)] -> splitInto prefers (gTokens g) k (skipn (Z.to_nat p) (content s)) l ->
    exists st outs, pl_run content ls (q, sn1) (repeat (PNextOf k AllTokenTypes) (Datatypes.S (List.length l))) = Some (st, outs) /\
      resultsOf outs = map (fun t => (Some t, None)) (tokensAt (gTokens g) s p l ++ [eofToken content s])).
  { clear q1 HQ q Q l SP. induction l as [|[i t] l IH]; intros p q R HQ SP.
    - assert (E : p = zlen (content s)). { inversion SP as [X|]; subst. symmetry in X. apply (f_equal (@List.length Z)) in X. rewrite skipn_length in X. cbn in X. unfold zlen in *. lia. }
      cbn [List.length repeat pl_run pl_step]. rewrite ZL. cbn [obind].
      destruct (lexer_call prefers PO (gTokens g) k content q _ AllTokenTypes HQ ltac:(vm_compute; discriminate)) as (q' & res & EC & CL & HQ').
      unfold plLexer. cbn [groupLexer plTypes plRe]. cbn [fst]. rewrite EC. cbn [obind]. eexists _, _. split; [reflexivity|]. cbn [resultsOf tokensAt app map].
      assert (SQ : seen q = (Some s, p)) by (destruct HQ as ((A1 & A2 & _) & _); unfold seen; rewrite A1, A2; reflexivity). rewrite SQ in CL.
      inversion CL; subst; try contradiction; try lia. reflexivity.
    - inversion SP as [|t0 i0 d n l0 F N I HS]; subst. remember (repeat (PNextOf k AllTokenTypes) (Datatypes.S (List.length l))) as ops eqn:EO.
      cbn [List.length]. change (repeat (PNextOf k AllTokenTypes) (Datatypes.S (Datatypes.S (List.length l)))) with (@PNextOf S k AllTokenTypes :: repeat (PNextOf k AllTokenTypes) (Datatypes.S (List.length l))).
      rewrite <- EO. cbn [pl_run pl_step]. rewrite ZL. cbn [obind].
      destruct (lexer_call prefers PO (gTokens g) k content q _ AllTokenTypes HQ ltac:(vm_compute; discriminate)) as (q' & res & EC & CL & HQ').
      unfold plLexer. cbn [groupLexer plTypes plRe]. cbn [fst snd]. rewrite EC. cbn [obind].
      assert (SQ : seen q = (Some s, p)) by (destruct HQ as ((A1 & A2 & _) & _); unfold seen; rewrite A1, A2; reflexivity). rewrite SQ in CL.
      pose proof (PO _ _ _ (ft_match _ _ _ _ _ _ _ F)) as RN.
      assert (ZR : zlen (skipn (Z.to_nat p) (content s)) = zlen (content s) - p) by (unfold zlen in *; rewrite skipn_length; lia).
      assert (LT : p < zlen (content s)) by lia.
      assert (TB : Z.testbit AllTokenTypes i = true).
      { destruct (ft_type _ _ _ _ _ _ _ F) as [Z _]. apply zget_range in Z. unfold AllTokenTypes. rewrite Z.testbit_ones_nonneg by lia. apply Z.ltb_lt. lia. }
      assert (CT : called content prefers (gTokens g) k AllTokenTypes (Some s, p)
         (Some (mkToken i (nameText (gtName d)) (firstn (Z.to_nat n) (rest content s p)) (Some s) p), None) (Some s, p + n)) by (eapply C_token; eauto; lia).
      destruct (call_determined _ _ _ _ _ _ _ _ _ _ CL CT) as [-> _].
      cbn [afterRes tokType tokContent] in HQ'. destruct (Z.eqb_spec i EofTokenType) as [X|_].
      { destruct (ft_type _ _ _ _ _ _ _ F) as [Z _]. apply zget_range in Z. unfold EofTokenType in X. lia. }
      assert (LN : zlen (firstn (Z.to_nat n) (rest content s p)) = n) by (unfold rest, zlen in *; rewrite firstn_length; lia).
      rewrite LN in HQ'. destruct (IH (p + n) q' ltac:(lia) HQ') as (st & outs & ER & RR).
      { replace (Z.to_nat (p + n)) with (Z.to_nat p + Z.to_nat n)%nat by lia. rewrite <- skipn_skipn'. exact HS. }
      rewrite ER. cbn [obind]. eexists _, _. split; [reflexivity|]. cbn [resultsOf tokensAt app map].
      change (skipn (Z.to_nat p) (content s)) with (rest content s p). rewrite LN, RR. destruct (ft_type _ _ _ _ _ _ _ F) as [Z _]. rewrite Z. reflexivity. }
  destruct (GO l 0 q1) as (st & outs & E & RR); [pose proof (zlen_nonneg (content s)); lia|exact HQ|exact SP|].
  rewrite E. cbn [obind]. eexists _, _. split; [reflexivity|]. exact RR.
Qed.
Print Assumptions text_is_split.

(** ** Regular expressions as trees: what [prefers] stands for *)
From Verif Require Import Regexp RegexpProofs ParserRegexp ParserRegexpProofs.

(** The regexp of a lexer, "^(?s:(re)|(re)...)", finds what [joined] says, if regular expressions have no capturing groups. *)
Theorem regexp_of_lexer : forall (tree : name -> rx) patterns text, (forall re, In re patterns -> noGroups (tree re) = true) ->
  findAtStart (alternatives 0 (map tree patterns)) (List.length patterns) text = joined (fun re => treePrefers (tree re)) patterns text.
Proof. exact findAtStart_joined. Qed.
Print Assumptions regexp_of_lexer.
Theorem trees_ok : forall tree : name -> rx, regexpsOk (fun re => treePrefers (tree re)).
Proof. intros tree re text n. apply treePrefers_range. Qed.
Print Assumptions trees_ok.
(** A text that was matched is matched again when nothing follows it. *)
Theorem trees_cut : forall r text n, treePrefers r text = Some n -> treePrefers r (firstn (Z.to_nat n) text) = Some n.
Proof. exact treePrefers_cut. Qed.
Print Assumptions trees_cut.

(** C62: langdef/docs.go:109, "a lexer returns the first defined token type it can match" *)
Definition canMatch (r : rx) (text : list Z) : Prop := exists s, In s (ways r (mkAt 0 text [])) /\ 0 < rPos s.
Definition firstThatCan (tree : name -> rx) (ts : list gtoken) (k : Z) (text : list Z) (i : Z) (d : gtoken) : Prop :=
  inGroup ts k i d /\ canMatch (tree (gtRe d)) text /\ forall j d', j < i -> inGroup ts k j d' -> ~ canMatch (tree (gtRe d')) text.
Definition firstReturned (tree : name -> rx) (ts : list gtoken) (S : Type) (content : S -> list Z) : Prop :=
  forall k tts s p r after i d, called content (fun re => treePrefers (tree re)) ts k tts (Some s, p) r after -> 0 <= p < zlen (content s) ->
    firstThatCan tree ts k (rest content s p) i d -> i < 64 -> Z.testbit tts i = true ->
    exists n, 0 < n /\ r = (Some (mkToken i (nameText (gtName d)) (firstn (Z.to_nat n) (rest content s p)) (Some s) p), None).
(** It does, if no type prefers to match nothing. *)
Theorem first_that_can_partial : forall tree ts S content,
  (forall k i d text, inGroup ts k i d -> treePrefers (tree (gtRe d)) text <> Some 0) -> @firstReturned tree ts S content.
Proof.
  intros tree ts S content NE k tts s p r after i d C P (IG & (w & W1 & W2) & FI) I B.
  destruct (treePrefers (tree (gtRe d)) (rest content s p)) as [n|] eqn:E.
  2:{ unfold treePrefers in E. destruct (ways (tree (gtRe d)) (mkAt 0 (rest content s p) [])) as [|w0 l]; [destruct W1|discriminate E]. }
  pose proof (treePrefers_range _ _ _ E) as R.
  assert (0 < n). { destruct (Z.eq_dec n 0) as [->|]; [|lia]. exfalso. eapply NE; eauto. }
  exists n. split; [assumption|]. eapply (proj1 (call_determined _ _ _ _ _ _ _ _ _ _ C (C_token _ _ _ _ _ s p i d n P _ H I B))).
  Unshelve. constructor; [exact IG|exact E|]. intros j d' L IG'. destruct (treePrefers (tree (gtRe d')) (rest content s p)) as [m|] eqn:E'; [|reflexivity].
  exfalso. apply (FI j d' L IG'). pose proof (treePrefers_range _ _ _ E') as R'. assert (m <> 0) by (intros ->; eapply NE; eauto).
  unfold treePrefers in E'. destruct (ways (tree (gtRe d')) (mkAt 0 (rest content s p) [])) as [|x l] eqn:X; [discriminate E'|]. injection E' as <-. exists x. rewrite X. split; [left; reflexivity|lia].
Qed.
Print Assumptions first_that_can_partial.

(** $a = /x*/; $b = /y/; *)
Definition nmX : name := [120; 42].
Definition nmY : name := [121].
Definition treeXY (re : name) : rx := if (hd 0 re =? 120) then RStar true (RRune 120) else RRune 121.
Definition tokensXY : list gtoken := [mkTok [97] nmX 0 0; mkTok [98] nmY 0 0].
Definition grammarXY : grammar := mkGrammar tokensXY [] [] [] [] [].
Definition lexersXY : list plexer := match newParser (fun re => treePrefers (treeXY re)) (fun _ => true) grammarXY with NewLexers ls => ls | _ => [] end.
Definition runXY {S} (content : S -> list Z) (s : S) : option (list (@lexResult S)) :=
  do q <- sqNew; do (_, outs) <- pl_run content lexersXY (q, []) [PQueue (SqAppend (Some s)); PNextOf 0 AllTokenTypes]; Some (resultsOf outs).
(** A type that prefers nothing hides the types after it: "y" is $b, but the lexer calls it a wrong char. *)
Theorem first_that_can_refuted : exists tree g ls, newParser (fun re => treePrefers (tree re)) (fun _ => true) g = NewLexers ls /\
  ~ @firstReturned tree (gTokens g) (list Z) (fun s => s).
Proof.
  exists treeXY, grammarXY, lexersXY. split; [reflexivity|]. intros H.
  destruct (H 0 AllTokenTypes [121] 0 (None, Some (WrongChar [121] 0 121)) (Some [121], 0) 1 (mkTok [98] nmY 0 0)) as (n & _ & X); [| | | |reflexivity|discriminate X].
  - change 121 with (fst (decodeRune (rest (fun s : list Z => s) [121] 0))) at 3. apply C_wrong.
    + exists 1, (mkTok [98] nmY 0 0). repeat split; discriminate.
    + cbn. lia.
    + right. exists 0, (mkTok [97] nmX 0 0). constructor; [repeat split; discriminate|reflexivity|]. intros j d' L [Z _]. apply zget_range in Z. lia.
  - cbn. lia.
  - split; [repeat split; discriminate|]. split.
    + exists (mkAt 1 [] []). split; [left; reflexivity|cbn; lia].
    + intros j d' L [Z _] (w & W & G). pose proof (zget_range _ _ _ Z). replace j with 0 in Z by lia. injection Z as <-. cbn in W. destruct W as [<-|[]]. cbn in G. lia.
  - lia.
Qed.
Print Assumptions first_that_can_refuted.
Example hidden_type : runXY (fun s : list Z => s) [121] = Some [(None, Some (WrongChar [121] 0 121))]. Proof. vm_compute. reflexivity. Qed.
Example shown_type : runXY (fun s : list Z => s) [120; 120; 121] = Some [(Some (mkToken 0 "a" [120; 120] (Some [120; 120; 121]) 0), None)]. Proof. vm_compute. reflexivity. Qed.

(** C63: grammar.go:73-75, langdef/docs.go:156, "Lexer returns an error containing the token text when it matches an error token" *)
Definition errorsGiven (prefers : name -> list Z -> option Z) (ts : list gtoken) (S : Type) (content : S -> list Z) (isError : Z -> gtoken -> Prop) : Prop :=
  forall k s p r after i d n, called content prefers ts k AllTokenTypes (Some s, p) r after -> someWanted ts k AllTokenTypes -> 0 <= p < zlen (content s) ->
    firstType prefers ts k (rest content s p) i d n -> 0 < n -> isError i d ->
    exists t, r = (None, Some (BadToken t)) /\ tokContent t = firstn (Z.to_nat n) (rest content s p) /\ tokName t = nameText (gtName d).
(** True of types that lexers cannot know, from the 65th on. *)
Theorem error_types_partial : forall prefers ts S content, @errorsGiven prefers ts S content (fun i _ => 64 <= i).
Proof.
  intros prefers ts S content k s p r after i d n C W P F N I. eexists. split; [|split].
  - eapply (proj1 (call_determined _ _ _ _ _ _ _ _ _ _ C (C_bad _ _ _ _ _ s p i d n W P F N I))).
  - reflexivity.
  - reflexivity.
Qed.
Print Assumptions error_types_partial.
(** $a = /x*/; $b = /y/; !error $b; *)
Definition tokensErr : list gtoken := [mkTok [98] nmY 0 ErrorToken].
Definition grammarErr : grammar := mkGrammar tokensErr [] [] [] [] [].
(** Types marked as errors are not: the lexer gives a token. *)
Theorem error_types_refuted : exists tree g ls, newParser (fun re => treePrefers (tree re)) (fun _ => true) g = NewLexers ls /\
  ~ @errorsGiven (fun re => treePrefers (tree re)) (gTokens g) (list Z) (fun s => s) (fun _ d => hasFlag (gtFlags d) ErrorToken = true).
Proof.
  exists treeXY, grammarErr, (match newParser (fun re => treePrefers (treeXY re)) (fun _ => true) grammarErr with NewLexers ls => ls | _ => [] end).
  split; [reflexivity|]. intros H.
  assert (F : firstType (fun re => treePrefers (treeXY re)) tokensErr 0 (rest (fun s : list Z => s) [121] 0) 0 (mkTok [98] nmY 0 ErrorToken) 1).
  { constructor; [repeat split; discriminate|reflexivity|]. intros j d' L [Z _]. apply zget_range in Z. lia. }
  destruct (H 0 [121] 0 _ _ 0 (mkTok [98] nmY 0 ErrorToken) 1 (C_token (fun s : list Z => s) (fun re => treePrefers (treeXY re)) tokensErr 0 AllTokenTypes [121] 0 0 (mkTok [98] nmY 0 ErrorToken) 1 ltac:(cbn; lia) F ltac:(lia) ltac:(lia) eq_refl))
    as (t & X & _); [|cbn; lia|exact F|lia|reflexivity|discriminate X].
  exists 0, (mkTok [98] nmY 0 ErrorToken). repeat split; discriminate.
Qed.
Print Assumptions error_types_refuted.

(** ** Hypotheses of C61 are met: two groups, texts *)
(** $a = /x+/; $b = /y/ (group 1); $c = /[ ]/ *)
Definition treeDemo (re : name) : rx :=
  if (hd 0 re =? 120) then RPlus (RRune 120) else if (hd 0 re =? 121) then RRune 121 else RRune 32.
Definition grammarDemo : grammar := mkGrammar [mkTok [97] [120; 43] 0 0; mkTok [98] [121] 1 0; mkTok [99] [32] 0 0; mkTok [120] [] 0 LiteralToken] [] [] [] [] [].
Definition prefersDemo (re : name) := treePrefers (treeDemo re).
Definition lexersDemo : list plexer := match newParser prefersDemo (fun _ => true) grammarDemo with NewLexers ls => ls | _ => [] end.
Example demo_made : newParser prefersDemo (fun _ => true) grammarDemo = NewLexers lexersDemo /\ zlen lexersDemo = 2. Proof. split; reflexivity. Qed.
Definition runDemo (text : list Z) (ops : list (plop (list Z))) : option (list (@lexResult (list Z))) :=
  do q <- sqNew; do (_, outs) <- pl_run (fun s => s) lexersDemo (q, []) (PQueue (SqAppend (Some text)) :: ops); Some (resultsOf outs).
Example demo_run : let text := [120; 120; 32; 121; 120] in
  runDemo text [PNextOf 0 4; PNextOf 0 5; PNextOf 1 2; PNextOf 0 AllTokenTypes; PNextOf 0 AllTokenTypes; PNextOf 1 2; PNextOf 1 5; PNextOf 0 1; PNextOf 0 1; PNextOf 0 1] =
  Some [(None, None); (Some (mkToken 0 "a" [120; 120] (Some text) 0), None); (None, Some (WrongChar text 2 32)); (Some (mkToken 2 "c" [32] (Some text) 2), None);
        (None, Some (WrongChar text 3 121)); (Some (mkToken 1 "b" [121] (Some text) 3), None); (None, None);
        (Some (mkToken 0 "a" [120] (Some text) 4), None); (Some (eofToken (fun s => s) text), None); (Some eoiToken, None)].
Proof. vm_compute. reflexivity. Qed.
Example demo_split : splitInto prefersDemo (gTokens grammarDemo) 0 [120; 120; 32; 120] [(0, [120; 120]); (2, [32]); (0, [120])].
Proof.
  assert (F0 : forall t n, prefersDemo [120; 43] t = Some n -> firstType prefersDemo (gTokens grammarDemo) 0 t 0 (mkTok [97] [120; 43] 0 0) n).
  { intros t n E. constructor; [repeat split; discriminate|exact E|]. intros j d L [Z _]. apply zget_range in Z. lia. }
  eapply (SI_token _ _ 0 _ 0 _ 2 _ (F0 [120; 120; 32; 120] 2 eq_refl)); [lia|lia|].
  eapply (SI_token prefersDemo (gTokens grammarDemo) 0 [32; 120] 2 (mkTok [99] [32] 0 0) 1 [(0, [120])]).
  { constructor; [repeat split; discriminate|reflexivity|]. intros j d L [Z [R G]]. pose proof (zget_range _ _ _ Z) as RG.
    assert (J : j = 0 \/ j = 1) by lia. destruct J as [->| ->]; injection Z as <-; [reflexivity|discriminate G]. }
  { lia. } { lia. }
  eapply (SI_token _ _ 0 _ 0 _ 1 _ (F0 [120] 1 eq_refl)); [lia|lia|]. constructor.
Qed.
(** none of those types prefers to match nothing *)
Example demo_never_empty : forall k i d text, inGroup (gTokens grammarDemo) k i d -> treePrefers (treeDemo (gtRe d)) text <> Some 0.
Proof.
  assert (C : forall p r text, treePrefers (RCat (RClass p) r) text <> Some 0 /\ treePrefers (RClass p) text <> Some 0).
  { intros p r text. assert (A : forall s, In s (ways (RClass p) (mkAt 0 text [])) -> 0 < rPos s) by (intros s H; exact (class_goes p _ _ H)).
    split; unfold treePrefers.
    - destruct (ways (RCat (RClass p) r) (mkAt 0 text [])) as [|s l] eqn:E; [discriminate|]. intros [= X].
      assert (I : In s (ways (RCat (RClass p) r) (mkAt 0 text []))) by (rewrite E; left; reflexivity). cbn [ways] in I. apply in_flat_map in I as (s1 & I1 & I2).
      change (In s1 (ways (RClass p) (mkAt 0 text []))) in I1. apply A in I1. destruct (ways_adv r s1 s I2) as (a & Y & _). lia.
    - destruct (ways (RClass p) (mkAt 0 text [])) as [|s l] eqn:E; [discriminate|]. intros [= X]. specialize (A s (or_introl eq_refl)). lia. }
  intros k i d text [Z [R _]]. pose proof (zget_range _ _ _ Z) as RG. assert (J : i = 0 \/ i = 1 \/ i = 2 \/ i = 3) by (cbn in RG; lia).
  destruct J as [->|[->|[->| ->]]]; injection Z as <-.
  - apply (C (Z.eqb 120) (RStar true (RRune 120)) text).
  - apply (C (Z.eqb 121) RNone text).
  - apply (C (Z.eqb 32) RNone text).
  - exfalso. apply R. reflexivity.
Qed.
