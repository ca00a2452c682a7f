(** Calls to the lexer of descriptions. *)
From Coq Require Import String ZArith List Bool Lia.
From Verif Require Import Base BaseProofs Utf8 Queue QueueProofs SourceQueue SourceQueueSpec Prop_SourceQueue Lexer LexerSpec LexerProofs Grammar Regexp RegexpProofs LangText LangTextSpec DescLexer DescLexerSpec DescLexerProofs.
Import ListNotations.
Open Scope Z_scope.

Lemma offsets_flat gs : offsets gs = LexerSpec.flat gs.
Proof. induction gs as [|(a, b) gs IH]; cbn; [reflexivity|]. rewrite IH. reflexivity. Qed.
Lemma zlen_pre {A} (a b : list A) : zlen (a ++ b) = zlen a + zlen b. Proof. unfold zlen. rewrite app_length. lia. Qed.
Lemma upd_group k n : (k < 8)%nat -> 0 <= n -> Forall (fun g => g = (-1, -1) \/ 0 <= fst g <= snd g /\ snd g <= n) (upd none8 k (0, n)).
Proof. intros K N. do 8 (destruct k as [|k]; [cbn; repeat (constructor; [first [left; reflexivity|right; cbn [fst snd]; lia]|]); constructor|]). lia. Qed.
Lemma desc_contract : re_contract descRe.
Proof.
  intros [|b s]; [left; reflexivity|]. destruct (descRe_at b s) as [a rest E NE H|t rest E TT LG|u rest N1 N2 NT IB E NU LU ST|N1 N2 NT IB].
  - right. eexists 0, _, none8. rewrite offsets_flat. split; [reflexivity|]. rewrite E, zlen_pre. pose proof (zlen_nonneg a). pose proof (zlen_nonneg rest). split; [lia|]. split; [lia|]. repeat (constructor; [left; reflexivity|]). constructor.
  - right. eexists 0, _, _. rewrite offsets_flat. split; [reflexivity|]. rewrite E, zlen_pre. pose proof (zlen_nonneg (tText t)). pose proof (zlen_nonneg rest). split; [lia|]. split; [lia|]. apply upd_group; [destruct (tKind t); cbn; lia|lia].
  - right. eexists 0, _, _. rewrite offsets_flat. split; [reflexivity|]. rewrite E. change (b :: u ++ rest) with ((b :: u) ++ rest). rewrite zlen_pre. pose proof (zlen_nonneg (b :: u)). pose proof (zlen_nonneg rest). split; [lia|]. split; [lia|]. apply upd_group; lia.
  - left. reflexivity.
Qed.

(** ** Kinds of tokens *)
Definition typeOfKind (k : kind) : Z := Z.of_nat (groupOf k) + 1.
Lemma taken_kind t : taken t -> (groupOf (tKind t) < 7)%nat /\ tText t <> [].
Proof. intros (D & _). destruct D; cbn; split; try lia; try discriminate. destruct H as (b & r & -> & _). discriminate. Qed.
Lemma kind_type k : (groupOf k < 7)%nat -> kindOf (typeOfKind k) = Some k.
Proof. destruct k; cbn; intros; try reflexivity; lia. Qed.
Lemma pick_token k n : (k < 8)%nat -> 0 <= n -> pick descTypes AllTokenTypes 0 (upd none8 k (0, n)) = Some (k, (0, n)).
Proof. intros K N. do 8 (destruct k as [|k]; [cbn; destruct n; try reflexivity; lia|]). lia. Qed.
Lemma pick_none : pick descTypes AllTokenTypes 0 none8 = None. Proof. reflexivity. Qed.
Lemma type_of_kind k : (groupOf k < 7)%nat -> exists nm, group_type descTypes (groupOf k) = Some (typeOfKind k, nm) /\ bytes nm = typeName k.
Proof. destruct k; cbn [groupOf]; intros K; try lia; (eexists; split; [reflexivity|vm_compute; reflexivity]). Qed.
Lemma same_flat gs : forall gs', LexerSpec.flat gs = LexerSpec.flat gs' -> gs = gs'.
Proof. induction gs as [|(a, b) gs IH]; intros [|(a', b') gs'] E; try discriminate; [reflexivity|]. cbn in E. injection E as -> -> E. f_equal. auto. Qed.

Lemma cons2 {A} (a b a' b' : A) l l' : a :: b :: l = a' :: b' :: l' -> b = b' /\ l = l'.
Proof. intros E. injection E as _ -> ->. auto. Qed.
(** ** One call *)
Notation qok := (LexerProofs.qok contentOf).
Notation scanD := (scan contentOf descRe descTypes).
Definition restAt (text : list Z) (p : Z) : list Z := skipn (Z.to_nat p) text.
Lemma rest_move text p a rest : 0 <= p -> restAt text p = a ++ rest -> restAt text (p + zlen a) = rest.
Proof.
  intros P E. unfold restAt in *. unfold zlen. replace (Z.to_nat (p + Z.of_nat (length a))) with (Z.to_nat p + length a)%nat by lia. rewrite <- skipn_skipn', E, skipn_app, skipn_all, Nat.sub_diag. reflexivity.
Qed.
Lemma rest_some text p : 0 <= p < zlen text -> exists b s, restAt text p = b :: s.
Proof. intros P. unfold restAt. destruct (skipn (Z.to_nat p) text) as [|b s] eqn:E; [|eauto]. apply (f_equal (@length Z)) in E. rewrite skipn_length in E. unfold zlen in P. cbn in E. lia. Qed.
(** what is reported about [left]: a rune that starts no token, or a piece of line that starts as a string, a regular expression or a directive *)
Inductive reported (text left : list Z) : lexError (list Z) -> Prop :=
| RP_char : ~ In (hd 0 left) [39; 34; 47; 33] -> reported text left (WrongChar text (zlen text - zlen left) (fst (decodeRune left)))
| RP_token t rest : In (hd 0 left) [39; 34; 47; 33] -> left = tokContent t ++ rest -> tokSource t = Some text -> tokPos t = zlen text - zlen left ->
    ~ In 10 (tokContent t) -> 1 <= zlen (tokContent t) <= 41 -> rest = [] \/ hd_error rest = Some 10 \/ 11 <= zlen (tokContent t) -> reported text left (BadToken t).
Definition isCall (text : list Z) (t : tok) (tk : token (list Z)) : Prop :=
  tokType tk = typeOfKind (tKind t) /\ bytes (tokName tk) = typeName (tKind t) /\ tokContent tk = tText t /\ tokSource tk = Some text.

Lemma rest_len text p : 0 <= p <= zlen text -> zlen (restAt text p) = zlen text - p.
Proof. intros P. unfold restAt, zlen in *. rewrite skipn_length. lia. Qed.
Lemma scan_means text p sk p' f : scanD text AllTokenTypes p sk p' f -> 0 <= p <= zlen text ->
  (f = FEof /\ splits taken (restAt text p) [] []) \/
  (exists t tk lx, f = FToken tk lx /\ taken t /\ isCall text t tk /\ p < p' <= zlen text /\ tokPos tk = p' - zlen (tText t) /\ exists gap, restAt text p = gap ++ tText t ++ restAt text p' /\ splits taken gap [] [] /\ (forall s u l left, restAt text p' = s ++ u -> splits taken s l left -> splits taken (gap ++ tText t ++ s) (t :: l) left)) \/
  (exists e, (f = FWrong (fst (decodeRune (restAt text p'))) /\ e = WrongChar text p' (fst (decodeRune (restAt text p'))) \/ exists t, f = FBad t /\ e = BadToken t) /\
     restAt text p' <> [] /\ p <= p' < zlen text /\ splits taken (restAt text p) [] (restAt text p') /\ splits taken (restAt text p') [] (restAt text p') /\ reported text (restAt text p') e).
Proof.
  intros SC. induction SC as [pos HE|pos HE HN|pos HE HN|pos n k a b HE HM HG|pos n k a b t nm HE HM HG|pos n sk p' f HE HI HS IH]; intros P.
  - left. split; [reflexivity|]. unfold contentOf in HE. assert (E : restAt text pos = []) by (apply skipn_all2; unfold zlen in *; lia). rewrite E. constructor.
  - right. right. unfold contentOf in *. destruct (rest_some text pos ltac:(lia)) as (b & s & E). unfold no_match in HN. fold (restAt text pos) in HN |- *. rewrite E in HN |- *.
    destruct (descRe_at b s) as [a rest EQ NE H|t rest EQ TT LG|u rest N1 N2 NT IB EQ NU LU ST|N1 N2 NT IB].
    + exfalso. destruct a; [contradiction|]. rewrite zlen_cons in HN. pose proof (zlen_nonneg a). lia.
    + exfalso. destruct (taken_kind t TT) as (_ & X). destruct (tText t) as [|x y]; [contradiction|]. rewrite zlen_cons in HN. pose proof (zlen_nonneg y). lia.
    + exfalso. rewrite zlen_cons in HN. pose proof (zlen_nonneg u). lia.
    + assert (SW : splits taken (b :: s) [] (b :: s)) by (apply SP_wrong; assumption). eexists. split; [left; auto|]. split; [discriminate|]. split; [lia|]. split; [exact SW|]. split; [exact SW|]. rewrite <- E. assert (X : pos = zlen text - zlen (restAt text pos)) by (rewrite rest_len by lia; lia). rewrite X at 2. constructor. rewrite E. exact IB.
  - exfalso. destruct HN as (n & gs & ER & Hn & (g & G1 & G2) & PK). rewrite (pick_all descTypes _ _ PK g G1) in G2. discriminate.
  - right. right. unfold contentOf in *. destruct HM as (gs & ER & Hn & PK). fold (restAt text pos) in ER. destruct (rest_some text pos ltac:(lia)) as (x & s & E). rewrite E in ER.
    destruct (descRe_at x s) as [a0 rest EQ NE H|t rest EQ TT LG|u rest N1 N2 NT IB EQ NU LU ST|N1 N2 NT IB]; try discriminate ER; rewrite offsets_flat in ER; apply cons2 in ER; destruct ER as (EN & EG); apply same_flat in EG; subst gs.
    + rewrite pick_none in PK. discriminate.
    + destruct (taken_kind t TT) as (K7 & _). rewrite pick_token in PK by (try lia; apply zlen_nonneg). injection PK as <- _ _. destruct (type_of_kind _ K7) as (nm & GT & _). congruence.
    + rewrite pick_token in PK by (try lia; apply zlen_nonneg). injection PK as <- <- <-. assert (SW : splits taken (restAt text pos) [] (restAt text pos)) by (rewrite E; apply SP_wrong; assumption).
      eexists. split; [right; eexists; split; reflexivity|]. split; [rewrite E; discriminate|]. split; [lia|]. split; [exact SW|]. split; [exact SW|].
      assert (SUB : sub text (pos + 0) (zlen (x :: u) - 0) = x :: u). { unfold sub. rewrite Z.add_0_r, Z.sub_0_r. fold (restAt text pos). rewrite E, EQ. unfold zlen. rewrite Nat2Z.id. change (x :: u ++ rest) with ((x :: u) ++ rest). rewrite firstn_app, firstn_all, Nat.sub_diag. cbn [firstn]. rewrite app_nil_r. reflexivity. }
      apply (RP_token _ _ _ rest); cbn [tokContent tokSource tokPos]; rewrite ?SUB.
      * rewrite E. exact IB.
      * rewrite E, EQ. reflexivity.
      * reflexivity.
      * rewrite rest_len by lia. lia.
      * intros [X|X]; [subst x; apply N1; unfold spaceByte; auto|contradiction].
      * unfold zlen. cbn [length]. lia.
      * destruct ST as [ST|[ST|ST]]; [auto|auto|]. right. right. unfold zlen. cbn [length]. lia.
  - right. left. unfold contentOf in *. destruct HM as (gs & ER & Hn & PK). fold (restAt text pos) in ER. destruct (rest_some text pos ltac:(lia)) as (x & s & E). rewrite E in ER.
    destruct (descRe_at x s) as [a0 rest EQ NE H|t0 rest EQ TT LG|u rest N1 N2 NT IB EQ NU LU ST|N1 N2 NT IB]; try discriminate ER; rewrite offsets_flat in ER; apply cons2 in ER; destruct ER as (EN & EG); apply same_flat in EG; subst gs n.
    + rewrite pick_none in PK. discriminate.
    + destruct (taken_kind t0 TT) as (K7 & NE). rewrite pick_token in PK by (try lia; apply zlen_nonneg). injection PK as <- <- <-. destruct (type_of_kind _ K7) as (nm' & GT & BN). rewrite GT in HG. injection HG as <- <-.
      rewrite EQ in E. pose proof (rest_len text pos ltac:(lia)) as RL. rewrite E, zlen_pre in RL. pose proof (zlen_nonneg rest) as RN.
      assert (SUB : sub text (pos + 0) (zlen (tText t0) - 0) = tText t0). { unfold sub. rewrite Z.add_0_r, Z.sub_0_r. fold (restAt text pos). rewrite E. unfold zlen. rewrite Nat2Z.id. rewrite firstn_app, firstn_all, Nat.sub_diag. cbn [firstn]. rewrite app_nil_r. reflexivity. }
      eexists t0, _, _. split; [reflexivity|]. split; [exact TT|]. split; [split; [reflexivity|split; [exact BN|split; [exact SUB|reflexivity]]]|]. split; [lia|]. cbn [tokPos]. split; [lia|].
      rewrite (rest_move text pos (tText t0) rest) by (assumption || lia). exists []. split; [exact E|]. split; [constructor|]. intros s1 u l left E1 SL. apply SP_token; [exact TT| |exact SL]. intros t' r' TT' E'. apply (LG t' (r' ++ u) TT'). rewrite E1, !app_assoc. f_equal. exact E'.
    + rewrite pick_token in PK by (try lia; apply zlen_nonneg). injection PK as <- _ _. discriminate HG.
  - unfold contentOf in *. destruct HI as (gs & ER & Hn & NC). fold (restAt text pos) in ER. destruct (rest_some text pos ltac:(lia)) as (x & s & E). rewrite E in ER.
    destruct (descRe_at x s) as [a0 rest EQ NE H|t0 rest EQ TT LG|u rest N1 N2 NT IB EQ NU LU ST|N1 N2 NT IB]; try discriminate ER; rewrite offsets_flat in ER; apply cons2 in ER; destruct ER as (EN & EG); apply same_flat in EG; subst gs n.
    + rewrite EQ in E. pose proof (rest_len text pos ltac:(lia)) as RL. rewrite E, zlen_pre in RL. pose proof (zlen_nonneg rest) as RN. specialize (IH ltac:(lia)). rewrite (rest_move text pos a0 rest) in IH by (assumption || lia).
      assert (SKIP : forall l left, splits taken rest l left -> splits taken (restAt text pos) l left).
      { intros l left SL. rewrite E. destruct H as [F|(c & -> & NC0 & ST)].
        - clear - F SL. induction F as [|y a0 Y F IH]; cbn [app]; [exact SL|]. apply SP_space; assumption.
        - cbn [app]. apply SP_comment; assumption. }
      destruct IH as [(-> & SL)|[(t & tk & lx & -> & TT & IC & PP & TP & gap & RE & SG & SL)|(e & FE & NE' & PP & SL & SL' & RP)]].
      * left. auto.
      * right. left. exists t, tk, lx. split; [reflexivity|]. split; [exact TT|]. split; [exact IC|]. split; [lia|]. split; [exact TP|]. exists (a0 ++ gap). rewrite <- !app_assoc, <- RE. split; [exact E|]. split.
        { destruct H as [F|(c & -> & NC0 & ST)].
          - clear - F SG. induction F as [|y a0 Y F IH]; cbn [app]; [exact SG|]. apply SP_space; assumption.
          - cbn [app]. apply SP_comment; [exact NC0| |exact SG]. destruct gap as [|y gap]; [left; reflexivity|]. right. rewrite RE in ST. cbn [app hd_error] in *. destruct ST as [ST|ST]; [discriminate|exact ST]. }
        intros s1 u l left E1 SL0. pose proof (SL s1 u l left E1 SL0) as SL1. rewrite <- app_assoc. destruct H as [F|(c & -> & NC0 & ST)].
        -- clear - F SL1. induction F as [|y a0 Y F IH]; cbn [app]; [exact SL1|]. apply SP_space; assumption.
        -- cbn [app]. apply SP_comment; [exact NC0| |exact SL1]. right. destruct (taken_kind t TT) as (_ & NT). rewrite RE in ST. destruct gap as [|y gap]; [destruct (tText t) as [|y z]; [contradiction|]|]; cbn [app hd_error] in *; (destruct ST as [ST|ST]; [discriminate|exact ST]).
      * right. right. exists e. split; [exact FE|]. split; [exact NE'|]. split; [lia|]. auto.
    + exfalso. destruct (taken_kind t0 TT) as (K7 & _). pose proof (pick_token (groupOf (tKind t0)) (zlen (tText t0)) ltac:(lia) (zlen_nonneg _)) as PK. apply pick_group in PK. destruct PK as (I0 & C). rewrite (NC _ I0) in C. discriminate.
    + exfalso. pose proof (pick_token 7 (zlen (x :: u)) ltac:(lia) (zlen_nonneg _)) as PK. apply pick_group in PK. destruct PK as (I0 & C). rewrite (NC _ I0) in C. discriminate.
Qed.
