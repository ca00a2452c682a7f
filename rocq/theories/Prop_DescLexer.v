(** Texts of descriptions: how they are split into tokens (C59), what the whole of ParseBytes does (C60). *)
From Coq Require Import String ZArith List Bool Lia Permutation.
From Verif Require Import Base BaseProofs Utf8 Queue QueueProofs SourceQueue SourceQueueSpec Prop_SourceQueue Lexer LexerSpec LexerProofs Prop_Lexer Grammar Regexp RegexpProofs
  LangBuild LangNodes LangTypes LangCompile LangStringSpec LangText LangTextSpec Prop_LangCompile Prop_LangText TablesSpec LangDescSpec LangDescWrong Prop_LangDesc DescLexer DescLexerSpec DescLexerProofs DescLexerRun.
Import ListNotations.
Open Scope Z_scope.
Notation qok := (LexerProofs.qok contentOf).

Lemma taken_lexed t : taken t -> lexed t.
Proof.
  assert (B : forall s, quoted 34 s -> body s) by (induction 1; constructor; assumption).
  intros (D & _). destruct D; first [exact LX_end|constructor; auto].
Qed.

(** ** One way to split *)
Lemma taken_same t t' : taken t -> taken t' -> tText t = tText t' -> t = t'.
Proof.
  intros A B E. destruct (taken_kind t A) as (_ & N). destruct (tText t) as [|b s] eqn:ET; [contradiction|].
  assert (LN : forall x, letter x -> x <> 34 /\ x <> 39 /\ x <> 33 /\ x <> 36 /\ x <> 47 /\ ~ In x ops) by (intros x X; destruct (letter_other x X) as (_ & _ & ? & ? & ? & ? & ? & ? & _); auto 10).
  assert (OPN : forall x, In x ops -> x <> 34 /\ x <> 39 /\ x <> 33 /\ x <> 36 /\ x <> 47) by (intros x X; destruct (ops_other x X) as (_ & _ & ? & ? & ? & ? & ? & _); auto 10).
  assert (E1 : b :: s = tText t ++ []) by (rewrite app_nil_r, ET; reflexivity). assert (E2 : b :: s = tText t' ++ []) by (rewrite app_nil_r; exact E).
  enough (K : tKind t = tKind t') by (destruct t, t'; cbn in *; congruence).
  destruct (taken_cases t [] b s A E1) as [(B1 & a & _ & _ & X1)|[(B1 & a & _ & _ & _ & X1)|[(B1 & a & _ & _ & X1)|[(B1 & c & a & _ & _ & S1 & X1)|[(B1 & c & a & L1 & _ & S1 & X1)|[(B1 & c & a & L1 & _ & S1 & X1)|[(B1 & S1 & X1)|[(B1 & a & _ & _ & _ & X1)|(B1 & S1 & X1)]]]]]]]];
  (destruct (taken_cases t' [] b s B E2) as [(B2 & a' & _ & _ & X2)|[(B2 & a' & _ & _ & _ & X2)|[(B2 & a' & _ & _ & X2)|[(B2 & c' & a' & _ & _ & S2 & X2)|[(B2 & c' & a' & L2 & _ & S2 & X2)|[(B2 & c' & a' & L2 & _ & S2 & X2)|[(B2 & S2 & X2)|[(B2 & a' & _ & _ & _ & X2)|(B2 & S2 & X2)]]]]]]]];
   rewrite X1, X2; cbn [tKind]; try reflexivity; exfalso; try subst b; try discriminate;
   try (destruct (LN _ B1) as (? & ? & ? & ? & ? & ?)); try (destruct (OPN _ B1) as (? & ? & ? & ? & ?)); try (destruct (LN _ B2) as (? & ? & ? & ? & ? & ?)); try (destruct (OPN _ B2) as (? & ? & ? & ? & ?)); try congruence; try contradiction;
   try (rewrite S1 in S2; injection S2 as S2; subst; first [unfold letter in L1; lia|unfold letter in L2; lia])).
Qed.
Lemma token_start t b s r : taken t -> b :: s = tText t ++ r -> ~ spaceByte b /\ b <> 35.
Proof.
  intros A E. destruct (taken_cases t r b s A E) as [(X & _)|[(X & _)|[(X & _)|[(X & _)|[(X & _)|[(X & _)|[(X & _)|[(X & _)|(X & _)]]]]]]]]; try (subst b; unfold spaceByte; lia); [unfold letter, spaceByte in *; lia|unfold ops, spaceByte in *; cbn [In] in X; lia].
Qed.
Lemma token_nonempty t : taken t -> exists b s, tText t = b :: s.
Proof. intros A. destruct (taken_kind t A) as (_ & N). destruct (tText t); [contradiction|eauto]. Qed.
Lemma line_unique c : forall s c' s', ~ In 10 c -> ~ In 10 c' -> (s = [] \/ hd_error s = Some 10) -> (s' = [] \/ hd_error s' = Some 10) -> c ++ s = c' ++ s' -> s = s'.
Proof.
  induction c as [|x c IH]; intros s [|x' c'] s' A B H H' E; cbn [app] in E.
  - exact E.
  - subst s. destruct H as [H|H]; [discriminate|]. injection H as ->. destruct B. left. reflexivity.
  - subst s'. destruct H' as [H'|H']; [discriminate|]. injection H' as ->. destruct A. left. reflexivity.
  - injection E as <- E. apply (IH s c' s'); auto; intros X; [apply A|apply B]; right; exact X.
Qed.
Lemma prefix_same {A} (a : list A) : forall a' r r', a ++ r = a' ++ r' -> length a = length a' -> a = a'.
Proof. induction a as [|x a IH]; intros [|x' a'] r r' E L; try discriminate; [reflexivity|]. cbn [app] in E. injection E as <- E. f_equal. apply (IH a' r r' E). cbn in L. lia. Qed.
(** There is one way to split a text, *)
Theorem split_unique text l left l' left' : splits taken text l left -> splits taken text l' left' -> l = l' /\ left = left'.
Proof.
  intros H. revert l' left'. induction H as [|b s l left SB _ IH|c s l left NC ST _ IH|t s l left TT LG _ IH|b s N1 N2 NT]; intros l' left' H'.
  - remember [] as text eqn:E. destruct H' as [| | |t s l left TT LG H'|]; try discriminate; [auto|]. destruct (token_nonempty t TT) as (b & r & ET). rewrite ET in E. discriminate.
  - remember (b :: s) as text eqn:E. destruct H' as [|b' s' l' left' SB' H'|c s' l' left' NC ST H'|t s' l' left' TT LG H'|b' s' N1 N2 NT]; try discriminate.
    + injection E as -> ->. auto.
    + injection E as <- _. unfold spaceByte in SB. lia.
    + destruct (token_start t b s s' TT (eq_sym E)) as (X & _). contradiction.
    + injection E as -> ->. contradiction.
  - remember (35 :: c ++ s) as text eqn:E. destruct H' as [|b' s' l' left' SB' H'|c' s' l' left' NC' ST' H'|t s' l' left' TT LG H'|b' s' N1 N2 NT]; try discriminate.
    + injection E as -> _. unfold spaceByte in SB'. lia.
    + injection E as E. rewrite (line_unique _ _ _ _ NC' NC ST' ST E) in H'. auto.
    + destruct (token_start t 35 (c ++ s) s' TT (eq_sym E)) as (_ & X). contradiction.
    + injection E as -> _. contradiction.
  - remember (tText t ++ s) as text eqn:E. destruct (token_nonempty t TT) as (b & r & ET). pose proof (token_start t b (r ++ s) s TT) as X. rewrite ET in X. specialize (X eq_refl). destruct X as (X1 & X2).
    destruct H' as [|b' s' l' left' SB' H'|c' s' l' left' NC' ST' H'|t' s' l' left' TT' LG' H'|b' s' N1 N2 NT].
    + rewrite ET in E. discriminate.
    + rewrite ET in E. injection E as -> _. contradiction.
    + rewrite ET in E. injection E as E _. congruence.
    + pose proof (LG t' s' TT' (eq_sym E)) as A. pose proof (LG' t s TT E) as B. pose proof (prefix_same _ _ _ _ E ltac:(lia)) as P. pose proof (taken_same _ _ TT' TT P) as ->. apply app_inv_head in E. subst s'. destruct (IH _ _ H') as (-> & ->). auto.
    + destruct (NT t s TT E).
  - remember (b :: s) as text eqn:E. destruct H' as [|b' s' l' left' SB' H'|c' s' l' left' NC' ST' H'|t' s' l' left' TT' LG' H'|b' s' N1' N2' NT']; try discriminate; try (injection E as E0 _; congruence).
    + destruct (NT t' s' TT' eq_refl).
    + auto.
Qed.

(** ** Calls *)
Lemma start_queue text : exists q, startQueue text = Some q /\ qok q [(text, 0)].
Proof.
  destruct (@Prop_Lexer.RB_new (list Z) contentOf) as (q & E & ((A1 & A2 & A3) & B & _) & _). cbn [fst] in *. unfold startQueue. rewrite E. cbn [obind]. unfold sqAppend, curEmpty. rewrite A1. rewrite andb_false_r. eexists. split; [reflexivity|].
  split; [split; [reflexivity|split; [reflexivity|exact A3]]|]. split; [|reflexivity].
  pose proof (append_OK (slen contentOf) (sl_nonneg contentOf) [] text B) as X. unfold a_append in X. destruct (has_text (slen contentOf) (text, 0)); exact X.
Qed.
(** one call *)
Lemma next_is q text p : qok q [(text, p)] -> 0 <= p <= zlen text -> exists q' r, descNext q = Some (q', r) /\
  ((r = (Some (eofToken contentOf text), None) /\ splits taken (restAt text p) [] [] /\ qok q' []) \/
   (exists t tk p' gap, r = (Some tk, None) /\ isCall text t tk /\ qok q' [(text, p')] /\ p < p' <= zlen text /\ taken t /\
      tokPos tk = p + zlen gap /\ restAt text p = gap ++ tText t ++ restAt text p' /\ splits taken gap [] [] /\
      (forall s u l left, restAt text p' = s ++ u -> splits taken s l left -> splits taken (gap ++ tText t ++ s) (t :: l) left)) \/
   (exists e p', r = (None, Some e) /\ qok q' [(text, p')] /\ p <= p' <= zlen text /\ restAt text p' <> [] /\ splits taken (restAt text p) [] (restAt text p') /\ splits taken (restAt text p') [] (restAt text p') /\ reported text (restAt text p') e)).
Proof.
  intros Q P. destruct (lexNext_spec contentOf descRe descTypes desc_contract q text p [] Q) as (q' & sk & p' & f & E & SC & Q' & PP). exists q', (finalRes contentOf text p' f). split; [exact E|].
  change (slen contentOf text) with (zlen text) in PP. destruct (scan_means _ _ _ _ _ SC P) as [(-> & SL)|[(t & tk & lx & -> & TT & IC & P2 & TP & gap & RE & SG & SL)|(e & FE & NE & P2 & SL & SL' & RP)]].
  - left. cbn [finalRes afterQ] in *. auto.
  - right. left. exists t, tk, p', gap. cbn [finalRes afterQ] in *. split; [reflexivity|]. split; [exact IC|]. split; [exact Q'|]. split; [lia|]. split; [exact TT|]. split; [|split; [exact RE|split; [exact SG|exact SL]]].
    pose proof (f_equal zlen RE) as L. rewrite !zlen_pre, !rest_len in L by lia. lia.
  - right. right. exists e, p'. split; [|split; [|split; [lia|auto]]].
    + destruct FE as [(-> & ->)|(t & -> & ->)]; reflexivity.
    + destruct FE as [(-> & _)|(t & -> & _)]; exact Q'.
Qed.
(** every text can be split *)
Lemma split_some q text : forall n p, qok q [(text, p)] -> 0 <= p <= zlen text -> zlen text - p < Z.of_nat n -> exists l left, splits taken (restAt text p) l left.
Proof.
  intros n. revert q. induction n as [|n IH]; intros q p Q P N; [lia|]. destruct (next_is q text p Q P) as (q' & r & _ & [(_ & SL & _)|[(t & tk & p' & gap & _ & _ & Q' & P' & _ & _ & RE & _ & SL)|(e & p' & _ & _ & _ & _ & SL & _)]]).
  - eauto.
  - destruct (IH q' p' Q' ltac:(lia) ltac:(lia)) as (l & left & S1). exists (t :: l), left. rewrite RE. apply (SL _ []); [rewrite app_nil_r; reflexivity|exact S1].
  - eauto.
Qed.
(** What the [i]-th call returns if the tokens are [l] and then [left] follows: a token with its place; after the last one an
    end-of-file token, then end-of-input tokens, or, if something is left, errors *)
Definition answers (text : list Z) (p : Z) (l : list tok) (left : list Z) (i : nat) (r : option (token (list Z)) * option (lexError (list Z))) : Prop :=
  match nth_error l i with
  | Some t => exists tk before after, r = (Some tk, None) /\ isCall text t tk /\ tokPos tk = p + zlen before /\
      restAt text p = before ++ tText t ++ after /\ splits taken before (firstn i l) [] /\ splits taken after (skipn (S i) l) left
  | None =>
      match left with
      | [] => r = (Some (if (i =? length l)%nat then eofToken contentOf text else eoiToken), None)
      | _ => exists e, r = (None, Some e) /\ reported text left e
      end
  end.
Lemma eoi_calls n : forall q, qok q [] -> exists rs, descCalls n q = Some rs /\ length rs = n /\ forall i r, nth_error rs i = Some r -> r = (Some eoiToken, None).
Proof.
  induction n as [|n IH]; intros q Q; [exists []; split; [reflexivity|]; split; [reflexivity|]; intros [|i] r; discriminate|].
  cbn [descCalls]. unfold descNext, descLexer. rewrite lexNext_eoi by exact Q. cbn [obind]. destruct (IH q Q) as (rs & -> & L & A). cbn [obind]. eexists. split; [reflexivity|]. split; [cbn; lia|]. intros [|i] r E; [injection E as <-; reflexivity|exact (A i r E)].
Qed.
Lemma run_answers text n : forall q p l left, qok q [(text, p)] -> 0 <= p <= zlen text -> splits taken (restAt text p) l left ->
  exists rs, descCalls n q = Some rs /\ length rs = n /\ forall i r, nth_error rs i = Some r -> answers text p l left i r.
Proof.
  induction n as [|n IH]; intros q p l left Q P SP; [exists []; split; [reflexivity|]; split; [reflexivity|]; intros [|i] r; discriminate|].
  cbn [descCalls]. destruct (next_is q text p Q P) as (q' & r0 & -> & [(-> & SL & Q')|[(t & tk & p' & gap & -> & IC & Q' & P' & TT & TP & RE & SG & SL)|(e & p' & -> & Q' & P' & NE & SL & SL' & RP)]]); cbn [obind].
  - destruct (split_unique _ _ _ _ _ SP SL) as (-> & ->). destruct (eoi_calls n q' Q') as (rs & -> & L & A). cbn [obind]. eexists. split; [reflexivity|]. split; [cbn; lia|]. intros [|i] r E; [injection E as <-; reflexivity|]. rewrite (A i r E). reflexivity.
  - destruct (split_some q' text (S (Z.to_nat (zlen text - p'))) p' Q' ltac:(lia) ltac:(lia)) as (l' & left' & S1).
    assert (S2 : splits taken (restAt text p) (t :: l') left') by (rewrite RE; apply (SL _ []); [rewrite app_nil_r; reflexivity|exact S1]). destruct (split_unique _ _ _ _ _ SP S2) as (-> & ->). clear SP.
    destruct (IH q' p' l' left' Q' ltac:(lia) S1) as (rs & -> & L & A). cbn [obind]. eexists. split; [reflexivity|]. split; [cbn; lia|]. intros [|i] r E.
    + injection E as <-. exists tk, gap, (restAt text p'). split; [reflexivity|]. split; [exact IC|]. split; [exact TP|]. split; [exact RE|]. split; [exact SG|exact S1].
    + specialize (A i r E). unfold answers in *. cbn [nth_error]. destruct (nth_error l' i) as [t'|].
      * destruct A as (tk' & before & after & -> & IC' & TP' & RE' & SB & SA). exists tk', (gap ++ tText t ++ before), after. split; [reflexivity|]. split; [exact IC'|]. split.
        { pose proof (f_equal zlen RE) as Z1. rewrite !zlen_pre, !rest_len in Z1 by lia. rewrite !zlen_pre. lia. }
        split; [rewrite RE, RE', <- !app_assoc; reflexivity|]. split; [|exact SA]. cbn [firstn]. exact (SL _ _ _ _ RE' SB).
      * destruct left'; [|exact A]. exact A.
  - destruct (split_unique _ _ _ _ _ SP SL) as (-> & ->). destruct (IH q' p' _ _ Q' ltac:(lia) SL') as (rs & -> & L & A). cbn [obind]. eexists. split; [reflexivity|]. split; [cbn; lia|].
    unfold answers in *. destruct (restAt text p') as [|b s] eqn:RS; [contradiction|]. intros j r E. destruct j as [|j]; [injection E as <-; cbn; eauto|]. cbn [nth_error]. specialize (A j r E). destruct j; exact A.
Qed.

(** *** C59 *)
(** Calls of the lexer on a text return the tokens of its only split, then the end, or an error at what is left. *)
Theorem description_tokens_partial text : exists q l left, startQueue text = Some q /\ splits taken text l left /\
  (forall l' left', splits taken text l' left' -> l' = l /\ left' = left) /\
  forall n, exists rs, descCalls n q = Some rs /\ length rs = n /\ forall i r, nth_error rs i = Some r -> answers text 0 l left i r.
Proof.
  destruct (start_queue text) as (q & E & Q). pose proof (zlen_nonneg text). destruct (split_some q text (S (length text)) 0 Q ltac:(lia) ltac:(unfold zlen; lia)) as (l & left & SP). exists q, l, left. split; [exact E|]. split; [exact SP|]. split.
  - intros l' left' SP'. exact (split_unique _ _ _ _ _ SP' SP).
  - intros n. apply run_answers; [exact Q|lia|exact SP].
Qed.
(** The documentation says the same, but for line feeds in strings in single quotes and after backslashes. *)
Theorem documented_split_partial text l left : splits documented text l left -> Forall inLine l -> splits taken text l left.
Proof.
  intros H. induction H as [|b s l left SB _ IH|c s l left NC ST _ IH|t s l left TT LG _ IH|b s N1 N2 NT]; intros F.
  - constructor.
  - apply SP_space; auto.
  - apply SP_comment; auto.
  - inversion F as [|? ? F1 F2]; subst. apply SP_token; [split; assumption| |apply IH, F2]. intros t' r' (TT' & _). apply LG, TT'.
  - apply SP_wrong; [exact N1|exact N2|]. intros t r (TT & _). apply NT, TT.
Qed.
(** A string with a line feed is documented; the first call returns an error. *)
Theorem description_tokens_refuted : exists text t q e, splits documented text [t] [] /\ startQueue text = Some q /\ descCalls 1 q = Some [(None, Some e)].
Proof.
  exists [39; 10; 39], (mkT KString [39; 10; 39]). eexists _, _. split; [|split; [vm_compute; reflexivity|vm_compute; reflexivity]].
  change [39; 10; 39] with (tText (mkT KString [39; 10; 39]) ++ []) at 1. apply SP_token; [|intros t r _ E; rewrite app_nil_r in E; rewrite E, app_length; lia|constructor].
  apply (DC_single [10]). intros [X|[]]. discriminate.
Qed.

(** ** Texts with spaces between tokens *)
Lemma runs_meet (P : Z -> Prop) : forall a a' r r' b s, Forall P a -> Forall P a' -> ~ P b -> r = b :: s -> a ++ r = a' ++ r' -> (length a' <= length a)%nat.
Proof.
  induction a as [|x a IH]; intros [|x' a'] r r' b s F F' NB -> E; cbn [length]; try lia; cbn [app] in E.
  - injection E as -> _. inversion F'; subst. contradiction.
  - injection E as _ E. inversion F; inversion F'; subst. pose proof (IH a' (b :: s) r' b s). intuition lia.
Qed.
Lemma not_in_all q (a : list Z) : ~ In q a -> Forall (fun y => y <> q) a.
Proof. intros N. apply Forall_forall. intros y I0 ->. exact (N I0). Qed.
Lemma longest_space t b s : taken t -> spaceByte b -> longest taken t (b :: s).
Proof.
  intros A SB t' r' A' E. destruct (token_nonempty t A) as (x & a0 & ET). assert (E1 : x :: (a0 ++ b :: s) = tText t ++ b :: s) by (rewrite ET; reflexivity). assert (E2 : x :: (a0 ++ b :: s) = tText t' ++ r') by (rewrite E1; exact E).
  assert (NB : ~ nameByte b) by (unfold nameByte, letter, spaceByte in *; lia). assert (NL : ~ 97 <= b <= 122) by (unfold spaceByte in *; lia).
  assert (LN : forall x, letter x -> x <> 34 /\ x <> 39 /\ x <> 33 /\ x <> 36 /\ x <> 47 /\ ~ In x ops) by (intros y X; destruct (letter_other y X) as (_ & _ & ? & ? & ? & ? & ? & ? & _); auto 10).
  assert (OPN : forall x, In x ops -> x <> 34 /\ x <> 39 /\ x <> 33 /\ x <> 36 /\ x <> 47) by (intros y X; destruct (ops_other y X) as (_ & _ & ? & ? & ? & ? & ? & _); auto 10).
  clear E. set (rest := a0 ++ b :: s) in *.
  destruct (taken_cases t _ x rest A E1) as [(B1 & a & I1 & S1 & X1)|[(B1 & a & I1 & J1 & S1 & X1)|[(B1 & a & I1 & S1 & X1)|[(B1 & c & a & L1 & I1 & S1 & X1)|[(B1 & c & a & L1 & I1 & S1 & X1)|[(B1 & c & a & L1 & I1 & S1 & X1)|[(B1 & S1 & X1)|[(B1 & a & M1 & I1 & S1 & X1)|(B1 & S1 & X1)]]]]]]]];
  (destruct (taken_cases t' r' x rest A' E2) as [(B2 & a' & I2 & S2 & X2)|[(B2 & a' & I2 & J2 & S2 & X2)|[(B2 & a' & I2 & S2 & X2)|[(B2 & c' & a' & L2 & I2 & S2 & X2)|[(B2 & c' & a' & L2 & I2 & S2 & X2)|[(B2 & c' & a' & L2 & I2 & S2 & X2)|[(B2 & S2 & X2)|[(B2 & a' & M2 & I2 & S2 & X2)|(B2 & S2 & X2)]]]]]]]];
   rewrite X1, X2; cbn [tText]; rewrite S1 in S2; clearbody rest;
   try (exfalso; clear - B1 B2 LN OPN; try subst x; try discriminate; try (destruct (LN _ B1) as (? & ? & ? & ? & ? & ?)); try (destruct (OPN _ B1) as (? & ? & ? & ? & ?)); try (destruct (LN _ B2) as (? & ? & ? & ? & ? & ?)); try (destruct (OPN _ B2) as (? & ? & ? & ? & ?)); try congruence; try contradiction; fail);
   cbn [length]; rewrite ?app_length; cbn [length]; try lia).
  - rewrite (inside_unique 34 ltac:(lia) a I1 a' _ _ I2 S2). lia.
  - pose proof (runs_meet (fun y => y <> 39) a a' _ _ 39 (b :: s) (not_in_all 39 a I1) (not_in_all 39 a' I2) ltac:(auto) eq_refl S2). lia.
  - pose proof (runs_meet nameByte a a' _ _ b s I1 I2 NB eq_refl S2). lia.
  - injection S2 as _ S2. pose proof (runs_meet _ a a' _ _ b s I1 I2 NL eq_refl S2). lia.
  - injection S2 as _ S2. pose proof (runs_meet nameByte a a' _ _ b s I1 I2 NB eq_refl S2). lia.
  - injection S2 as <- _. exfalso. unfold letter in L2. lia.
  - injection S2 as -> _. exfalso. unfold letter in L1. lia.
  - injection S2 as _ S2. pose proof (runs_meet nameByte a a' _ _ b s I1 I2 NB eq_refl S2). lia.
  - injection S2 as -> _. exfalso. unfold spaceByte in SB. lia.
  - injection S2 as -> _. exfalso. unfold spaceByte in SB. unfold letter in L2. lia.
  - rewrite (inside_unique 47 ltac:(lia) a I1 a' _ _ I2 S2). lia.
Qed.
(** Tokens with spaces after each are split as expected. *)
Theorem spaced_tokens l : Forall (fun x => taken (fst x) /\ snd x <> [] /\ Forall spaceByte (snd x)) l ->
  splits taken (concat (map (fun x => tText (fst x) ++ snd x) l)) (map fst l) [].
Proof.
  induction l as [|(t, sp) l IH]; intros F; cbn [map concat fst snd]; [constructor|]. inversion F as [|? ? (A & N & SP) F2]; subst. cbn [fst snd] in *. rewrite <- app_assoc. destruct sp as [|b sp]; [contradiction|]. apply SP_token; [exact A|inversion SP; subst; apply longest_space; assumption|].
  specialize (IH F2). revert SP. generalize (b :: sp). clear - IH. intros m SP. induction SP as [|y m Y _ IH2]; cbn [app]; [exact IH|]. apply SP_space; assumption.
Qed.

(** ** Whole texts of descriptions *)
Lemma readAll_is text n : forall q p l left, qok q [(text, p)] -> 0 <= p <= zlen text -> zlen text - p < Z.of_nat n -> splits taken (restAt text p) l left -> readAll n q = Some (l, tailOf left).
Proof.
  induction n as [|n IH]; intros q p l left Q P N SP; [lia|]. cbn [readAll]. destruct (next_is q text p Q P) as (q' & r0 & -> & [(-> & SL & Q')|[(t & tk & p' & gap & -> & IC & Q' & P' & TT & TP & RE & SG & SL)|(e & p' & -> & Q' & P' & NE & SL & SL' & RP)]]); cbn [obind].
  - destruct (split_unique _ _ _ _ _ SP SL) as (-> & ->). reflexivity.
  - destruct (split_some q' text (S (Z.to_nat (zlen text - p'))) p' Q' ltac:(lia) ltac:(lia)) as (l' & left' & S1).
    assert (S2 : splits taken (restAt text p) (t :: l') left') by (rewrite RE; apply (SL _ []); [rewrite app_nil_r; reflexivity|exact S1]). destruct (split_unique _ _ _ _ _ SP S2) as (-> & ->). clear SP.
    rewrite (IH q' p' l' left' Q' ltac:(lia) ltac:(lia) S1). destruct IC as (TY & _ & CO & _). rewrite TY, CO. destruct (taken_kind t TT) as (K7 & _). destruct t as (k, x). cbn [tKind tText] in *. destruct k; try reflexivity; cbn in K7; lia.
  - destruct (split_unique _ _ _ _ _ SP SL) as (-> & ->). destruct (restAt text p'); [contradiction|reflexivity].
Qed.
Section Bytes.
Variable compiles : name -> bool.
Variable fullMatch : name -> name -> bool.
Variable toUpper : name -> name.
Variable orders : nat -> list Z * list Z * list Z.
Notation parseB fuel text := (parseBytes compiles fullMatch toUpper fuel orders text).
(** Reading a text is reading the tokens of its split *)
Theorem text_read fuel text l left : splits taken text l left -> parseB fuel text = parseText compiles fullMatch toUpper fuel orders l (tailOf left).
Proof.
  intros SP. destruct (start_queue text) as (q & E & Q). pose proof (zlen_nonneg text). unfold parseBytes. rewrite E. cbn [obind]. rewrite (readAll_is text (S (length text)) q 0 l left Q ltac:(lia) ltac:(unfold zlen; lia) SP). reflexivity.
Qed.
Lemma split_taken text l left : splits taken text l left -> Forall taken l.
Proof. induction 1; auto. Qed.
Lemma split_lexed text l left : splits taken text l left -> Forall lexed l.
Proof. intros H. apply split_taken in H. eapply Forall_impl; [exact taken_lexed|exact H]. Qed.
Hypothesis anyOrders : forall n, let '(o1, o2, o3) := orders n in Permutation o1 (indexes n) /\ Permutation o2 (indexes n) /\ Permutation o3 (indexes n).
Notation compile fuel rs res := (let '(o1, o2, o3) := orders (length (nodeNames rs)) in
  compileDescription fullMatch toUpper fuel o1 o2 o3 (tokensOf rs res) (layersOf rs) (nodeNames rs) (map (definition rs) (nodeNames rs))).

(** *** C60 *)
(** Reading of a text ends, unless it is cut within a record; the answer does not depend on [fuel]. *)
Theorem text_reading_ends_partial text l left : splits taken text l left -> left <> [] \/ l = [] \/ (exists l' t, l = l' ++ [t] /\ closing t) ->
  exists n, forall fuel, (n <= fuel)%nat ->
  match parseB fuel text with
  | AGrammar g => tablesSound g
  | AReadError _ | ALiteralError _ | ANodesError _ => True
  | ANever | APanic => False
  end.
Proof.
  intros SP EW. destruct (reading_ends_partial compiles fullMatch toUpper orders anyOrders l (tailOf left) (split_lexed _ _ _ SP)) as (n & H).
  { destruct EW as [EW|EW]; [left; destruct left; [contradiction|reflexivity]|right; exact EW]. }
  exists n. intros fuel F. rewrite (text_read _ _ _ _ SP). exact (H fuel F).
Qed.
Notation compileNow fuel rs res := (let '(o1, o2, o3) := orders (length (nodeNames rs)) in
  compileDescription fullMatch toUpper fuel o1 o2 o3 (tokensNow rs res) (layersOf rs) (nodeNames rs) (map (definition rs) (nodeNames rs))).
(** Any order of directives. *)
Theorem text_accepted_any_order_partial fuel text l left g : splits taken text l left -> (forall t, In t l -> tKind t = KString -> exists s, stringOf t s) -> plainArguments l ->
  parseB fuel text = AGrammar g -> left = [] /\ exists rs res, spells l rs /\ groupsKept rs /\ valid compiles rs res /\
     gTokens g = tokensNow rs res /\ gLayers g = layersOf rs /\ map gnName (gNodes g) = nodeNames rs /\ compileNow fuel rs res = Compiled g.
Proof.
  intros SP ST PA E. rewrite (text_read _ _ _ _ SP) in E. destruct (accepted_any_order_partial compiles fullMatch toUpper orders anyOrders fuel l (tailOf left) g (conj (split_lexed _ _ _ SP) ST) PA E) as (NW & X). split; [|exact X]. destruct left; [reflexivity|]. destruct NW. reflexivity.
Qed.
Theorem text_correct_any_order text l rs : splits taken text l [] -> spells l rs ->
  (forall res, valid compiles rs res -> groupsKept rs -> exists n, forall fuel, (n <= fuel)%nat -> parseB fuel text = answerOf (compileNow fuel rs res)) /\
  (~ (groupsKept rs /\ exists res, valid compiles rs res) -> exists n, forall fuel, (n <= fuel)%nat -> exists e, parseB fuel text = AReadError e).
Proof.
  intros SP S1. destruct (correct_any_order compiles fullMatch toUpper orders l rs (split_lexed _ _ _ SP) S1) as (A & B). split.
  - intros res V KP. destruct (A res V KP) as (n & H). exists n. intros fuel F. rewrite (text_read _ _ _ _ SP). exact (H fuel F).
  - intros V. destruct (B V) as (n & H). exists n. intros fuel F. rewrite (text_read _ _ _ _ SP). exact (H fuel F).
Qed.
(** A text that is accepted has no wrong characters, is records, they are correct and the grammar is the one they define. *)
Theorem text_accepted_partial fuel text l left g : splits taken text l left -> (forall t, In t l -> tKind t = KString -> exists s, stringOf t s) -> plainArguments l ->
  parseB fuel text = AGrammar g -> left = [] /\ exists rs, spells l rs /\
  (groupsApart rs -> reservedFirst rs -> exists res, valid compiles rs res /\
     gTokens g = tokensOf rs res /\ gLayers g = layersOf rs /\ map gnName (gNodes g) = nodeNames rs /\ compile fuel rs res = Compiled g).
Proof.
  intros SP ST PA E. rewrite (text_read _ _ _ _ SP) in E. destruct (accepted_description_partial compiles fullMatch toUpper orders anyOrders fuel l (tailOf left) g (conj (split_lexed _ _ _ SP) ST) PA E) as (NW & X). split; [|exact X]. destruct left; [reflexivity|]. destruct NW. reflexivity.
Qed.
(** A text of correct records is compiled; a text of records that are not correct is refused with an error. *)
Theorem text_correct_partial text l rs : splits taken text l [] -> spells l rs -> groupsApart rs -> reservedFirst rs ->
  (forall res, valid compiles rs res -> exists n, forall fuel, (n <= fuel)%nat -> parseB fuel text = answerOf (compile fuel rs res)) /\
  ((forall res, ~ valid compiles rs res) -> exists n, forall fuel, (n <= fuel)%nat -> exists e, parseB fuel text = AReadError e).
Proof.
  intros SP S1 G1 G2. destruct (correct_description_partial compiles fullMatch toUpper orders l rs (split_lexed _ _ _ SP) S1 G1 G2) as (A & B). split.
  - intros res V. destruct (A res V) as (n & H). exists n. intros fuel F. rewrite (text_read _ _ _ _ SP). exact (H fuel F).
  - intros V. destruct (B V) as (n & H). exists n. intros fuel F. rewrite (text_read _ _ _ _ SP). exact (H fuel F).
Qed.
(** A text is refused if something is left after its tokens. *)
Theorem wrong_text_refused fuel text l left g : splits taken text l left -> left <> [] -> parseB fuel text <> AGrammar g.
Proof.
  intros SP NE E. rewrite (text_read _ _ _ _ SP) in E. destruct left; [contradiction|]. cbn [tailOf] in E. unfold parseText in E. destruct (readDescription compiles fuel (newContext l TWrong)) as [u c|e c| |] eqn:R; try discriminate. exact (wrong_never compiles _ _ _ _ (split_lexed _ _ _ SP) R).
Qed.
End Bytes.
(** a split, computably *)
Lemma split_computed text q l : startQueue text = Some q -> readAll (S (length text)) q = Some (l, TEnd) -> splits taken text l [].
Proof.
  intros E R. destruct (start_queue text) as (q' & E' & Q). rewrite E in E'. injection E' as <-. pose proof (zlen_nonneg text). destruct (split_some q text (S (length text)) 0 Q ltac:(lia) ltac:(unfold zlen; lia)) as (l' & left & SP). rewrite (readAll_is text (S (length text)) q 0 l' left Q ltac:(lia) ltac:(unfold zlen; lia) SP) in R.
  destruct left; [|discriminate R]. injection R as <-. exact SP.
Qed.

(** A text that ends within a directive is read for ever. *)
Theorem text_reading_ends_refuted compiles fullMatch toUpper orders : exists text l, splits taken text l [] /\ forall fuel, parseBytes compiles fullMatch toUpper fuel orders text = ANever.
Proof.
  exists (bytes "!side $a"), cutDirective. assert (SP : splits taken (bytes "!side $a") cutDirective []) by (eapply split_computed; [vm_compute; reflexivity|vm_compute; reflexivity]). split; [exact SP|]. intros fuel. rewrite (text_read _ _ _ _ _ _ _ _ SP). unfold parseText. cbn [tailOf]. rewrite cut_hangs. reflexivity.
Qed.

(** A text with comments: the records of [Prop_LangDesc.Example2] *)
Module Example1.
  Definition nl : string := String (Ascii.ascii_of_nat 10) EmptyString.
  Definition text : list Z := Eval vm_compute in bytes (
    "# types of tokens" ++ nl ++ "!side $space; !extern $indent;  !reserved 'if'; !literal 'if' '+' 'then'; # '" ++ nl ++
    "$$letter=/[a-z]/; $space=/ +/; $name = letter/+/; !caseless $name; $op = /[+-]/; !group $name $op;" ++ nl ++
    "@cmd one('a','b') two(); # /" ++ nl ++ nl ++
    "root = statement, {$indent, statement}, [$];" ++ nl ++ "statement = ('if', value, 'then', value) | value; value = $name, ['+', $name];@other;#end")%string.
  Definition rs := Prop_LangDesc.Example2.rs.
  Example split : splits taken text (wAll rs) [].
  Proof. destruct (start_queue text) as (q & E & _). eapply split_computed; [vm_compute; reflexivity|vm_compute; reflexivity]. Qed.
  Example correct : spells (wAll rs) rs /\ groupsApart rs /\ reservedFirst rs /\ exists res, valid (fun _ => true) rs res.
  Proof. split; [exact Prop_LangDesc.Example2.spelled|]. split; [exact Prop_LangDesc.Example2.apart|]. split; [exact Prop_LangDesc.Example2.first|]. exact Prop_LangDesc.Example2.is_valid. Qed.
  Notation parse text := (parseBytes (fun _ => true) (fun _ _ => true) (fun t => t) 400 Prop_LangText.Example1.orders text).
  Example accepted : match parse text with AGrammar g => map gnName (gNodes g) = [bytes "root"; bytes "statement"; bytes "value"] | _ => False end.
  Proof. vm_compute. reflexivity. Qed.
  (** the same with "%" at the end is refused *)
  Example refused : exists e, parse (text ++ [10; 37]) = AReadError e.
  Proof. eexists. vm_compute. reflexivity. Qed.
  (** "$a, /b c" is tokens $a and "," and an error at "/b c" *)
  Example calls : exists q tk1 tk2 tk3, startQueue (bytes "$a, /b c") = Some q /\ descCalls 4 q = Some [(Some tk1, None); (Some tk2, None); (None, Some (BadToken tk3)); (None, Some (BadToken tk3))] /\
    tokContent tk1 = bytes "$a" /\ tokPos tk2 = 2 /\ tokContent tk3 = bytes "/b c" /\ tokPos tk3 = 4.
  Proof. eexists _, _, _, _. split; [vm_compute; reflexivity|]. split; [vm_compute; reflexivity|]. vm_compute. auto. Qed.
End Example1.
Print Assumptions description_tokens_partial.
Print Assumptions description_tokens_refuted.
Print Assumptions documented_split_partial.
Print Assumptions split_unique.
Print Assumptions spaced_tokens.
Print Assumptions text_read.
Print Assumptions text_reading_ends_partial.
Print Assumptions text_reading_ends_refuted.
Print Assumptions text_accepted_any_order_partial.
Print Assumptions text_correct_any_order.
Print Assumptions text_accepted_partial.
Print Assumptions text_correct_partial.
Print Assumptions wrong_text_refused.
