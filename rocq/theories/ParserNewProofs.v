From Coq Require Import String ZArith List Lia Bool.
From Verif Require Import Base BaseProofs Utf8 Grammar Queue SourceQueue SourceQueueSpec Prop_SourceQueue
  Lexer LexerSpec LexerProofs Prop_Lexer ParserNew ParserNewSpec.
Import ListNotations.
Open Scope Z_scope.

(** types of a group with their indexes *)
Fixpoint groupTypes (k i : Z) (ts : list gtoken) : list (Z * gtoken) :=
  match ts with
  | [] => []
  | t :: r => match gtRe t with
              | [] => groupTypes k (i + 1) r
              | _ => if gtGroup t =? k then (i, t) :: groupTypes k (i + 1) r else groupTypes k (i + 1) r
              end
  end.
Lemma groupTypes_In k ts : forall i j d, In (j, d) (groupTypes k i ts) <-> i <= j /\ zget ts (j - i) = Some d /\ gtRe d <> [] /\ gtGroup d = k.
Proof.
  induction ts as [|t r IH]; intros i j d.
  - cbn. split; [tauto|]. intros (H & Z & _). unfold zget in Z. destruct (j - i <? 0); [discriminate|]. destruct (Z.to_nat _); discriminate.
  - assert (ST : i + 1 <= j /\ zget r (j - (i + 1)) = Some d /\ gtRe d <> [] /\ gtGroup d = k <->
                 i < j /\ zget (t :: r) (j - i) = Some d /\ gtRe d <> [] /\ gtGroup d = k).
    { destruct (Z_lt_ge_dec i j); [|split; intros (? & _); lia].
      assert (zget (t :: r) (j - i) = zget r (j - (i + 1))) as ->.
      { unfold zget. destruct (Z.ltb_spec (j - i) 0), (Z.ltb_spec (j - (i + 1)) 0); try lia.
        replace (Z.to_nat (j - i)) with (S (Z.to_nat (j - (i + 1)))) by lia. reflexivity. }
      split; intros (? & ? & ? & ?); repeat split; auto; lia. }
    assert (Z0 : zget (t :: r) (i - i) = Some t) by (rewrite Z.sub_diag; reflexivity).
    cbn [groupTypes]. destruct (gtRe t) eqn:RE.
    + rewrite IH, ST. split; intros (A & B & C & D); repeat split; auto; [lia|].
      destruct (Z.eq_dec i j); [|lia]. subst j. rewrite Z0 in B. injection B as <-. congruence.
    + destruct (Z.eqb_spec (gtGroup t) k).
      * cbn [In]. rewrite IH, ST. split.
        -- intros [[= <- <-]|(A & B & C & D)]; repeat split; auto; try lia. congruence.
        -- intros (A & B & C & D). destruct (Z.eq_dec i j); [left|right; repeat split; auto; lia]. subst j. rewrite Z0 in B. congruence.
      * rewrite IH, ST. split; intros (A & B & C & D); repeat split; auto; [lia|].
        destruct (Z.eq_dec i j); [|lia]. subst j. rewrite Z0 in B. congruence.
Qed.
Lemma groupTypes_In0 k ts j d : In (j, d) (groupTypes k 0 ts) <-> inGroup ts k j d.
Proof.
  rewrite groupTypes_In, Z.sub_0_r. unfold inGroup. split; [tauto|]. intros (A & B & C). repeat split; auto.
  unfold zget in A. destruct (Z.ltb_spec j 0); [discriminate|lia].
Qed.
Lemma groupTypes_sorted k ts : forall i pre x post, groupTypes k i ts = pre ++ x :: post ->
  (forall y, In y pre -> fst y < fst x) /\ (forall y, In y post -> fst x < fst y).
Proof.
  induction ts as [|t r IH]; intros i pre x post E; cbn [groupTypes] in E; [destruct pre; discriminate|].
  destruct (gtRe t) eqn:RE; [eapply IH; eauto|]. destruct (gtGroup t =? k) eqn:G; [|eapply IH; eauto].
  destruct pre as [|y0 pre]; cbn [app] in E.
  - injection E as <- E. split; [intros ? []|]. intros [j d] Hy. rewrite <- E in Hy. apply groupTypes_In in Hy. cbn [fst]. lia.
  - injection E as <- E. destruct (IH _ _ _ _ E) as [A B]. split; [|exact B]. intros y [<-|Hy]; [|auto].
    destruct x as [j d]. assert (Hx : In (j, d) (groupTypes k (i + 1) r)) by (rewrite E; apply in_or_app; right; left; reflexivity).
    apply groupTypes_In in Hx. cbn [fst]. lia.
Qed.

Definition typePair (x : Z * gtoken) : Z * string := (fst x, nameText (gtName (snd x))).
Definition recOf (k : Z) (ts : list gtoken) (i : Z) (lr : lexerRec) : lexerRec :=
  mkRec (lrPatterns lr ++ map (fun x => gtRe (snd x)) (groupTypes k i ts)) (lrTypes lr ++ map typePair (groupTypes k i ts)).
Lemma zset_zlen {A} (l l' : list A) i x : zset l i x = Some l' -> zlen l' = zlen l.
Proof. intros H. destruct (zset_inv _ _ _ _ H) as [_ ->]. unfold zlen. rewrite upd_length. reflexivity. Qed.
Lemma zget_zset {A} (l l' : list A) i x k : zset l i x = Some l' -> zget l' k = if k =? i then Some x else zget l k.
Proof.
  intros H. destruct (zset_inv _ _ _ _ H) as [R ->]. unfold zlen in R. unfold zget. destruct (Z.ltb_spec k 0).
  - destruct (Z.eqb_spec k i); [lia|reflexivity].
  - rewrite nth_error_upd by lia. destruct (Nat.eqb_spec (Z.to_nat k) (Z.to_nat i)), (Z.eqb_spec k i); try reflexivity; lia.
Qed.
Lemma zget_range {A} (l : list A) k x : zget l k = Some x -> 0 <= k < zlen l.
Proof.
  unfold zget. destruct (Z.ltb_spec k 0); [discriminate|]. intros H1. assert (N : nth_error l (Z.to_nat k) <> None) by congruence.
  apply nth_error_Some in N. unfold zlen. lia.
Qed.
Lemma recOf_nil k i lr : recOf k [] i lr = lr.
Proof. unfold recOf. cbn [groupTypes map]. rewrite !app_nil_r. destruct lr; reflexivity. Qed.
Lemma fillRecs_spec ts : forall i lrs lrs', fillRecs i ts lrs = Some lrs' ->
  zlen lrs' = zlen lrs /\ forall k lr, zget lrs k = Some lr -> zget lrs' k = Some (recOf k ts i lr).
Proof.
  induction ts as [|t r IH]; intros i lrs lrs' E; cbn [fillRecs] in E.
  - injection E as <-. split; [reflexivity|]. intros k lr H. rewrite recOf_nil. exact H.
  - destruct (gtRe t) as [|b re] eqn:RE.
    + destruct (IH _ _ _ E) as [A B]. split; [exact A|]. intros k lr H. rewrite (B _ _ H). unfold recOf. cbn [groupTypes]. rewrite RE. reflexivity.
    + destruct (zget lrs (gtGroup t)) as [lr0|] eqn:G; [|discriminate]. cbn [obind] in E.
      match type of E with obind ?X _ = _ => destruct X as [lrs1|] eqn:ZS end; [|discriminate]. cbn [obind] in E.
      destruct (IH _ _ _ E) as [A B].
      assert (ZR := zget_range _ _ _ G).
      pose proof (fun k => zget_zset _ _ _ _ k ZS) as ZG. pose proof (zset_zlen _ _ _ _ ZS) as L.
      split; [congruence|]. intros k lr H. destruct (Z.eq_dec k (gtGroup t)) as [->|NE].
      * rewrite G in H. injection H as <-. rewrite (B (gtGroup t) _ ltac:(rewrite ZG, Z.eqb_refl; reflexivity)). f_equal. unfold recOf.
        cbn [groupTypes lrPatterns lrTypes]. rewrite RE, Z.eqb_refl. cbn [map snd]. rewrite RE, <- !app_assoc. reflexivity.
      * rewrite (B k lr). { unfold recOf. cbn [groupTypes]. rewrite RE. destruct (Z.eqb_spec (gtGroup t) k); [congruence|reflexivity]. }
        rewrite ZG. destruct (Z.eqb_spec k (gtGroup t)); [congruence|exact H].
Qed.

Lemma fillRecs_total ts : forall i lrs, (forall t, In t ts -> gtRe t <> [] -> 0 <= gtGroup t < zlen lrs) -> exists lrs', fillRecs i ts lrs = Some lrs'.
Proof.
  induction ts as [|t r IH]; intros i lrs H; cbn [fillRecs]; [eauto|].
  assert (Hr : forall lrs' : list lexerRec, zlen lrs' = zlen lrs -> forall t, In t r -> gtRe t <> [] -> 0 <= gtGroup t < zlen lrs')
    by (intros lrs' -> t' Ht; apply H; right; exact Ht).
  destruct (gtRe t) eqn:RE; [apply IH; apply Hr; reflexivity|].
  assert (G : 0 <= gtGroup t < zlen lrs) by (apply H; [left; reflexivity|congruence]).
  rewrite (zget_Some lrs _ (mkRec [] []) G). cbn [obind]. rewrite zset_Some by exact G. cbn [obind].
  apply IH. apply Hr. unfold zlen. rewrite upd_length. reflexivity.
Qed.
Lemma maxGroup_ge ts : forall m, m <= maxGroup ts m.
Proof. induction ts as [|t r IH]; intros m; cbn [maxGroup]; [lia|]. destruct (hasFlag _ _); [apply IH|]. specialize (IH (if m <? gtGroup t then gtGroup t else m)). destruct (Z.ltb_spec m (gtGroup t)); lia. Qed.
Lemma maxGroup_In ts : forall m t, In t ts -> hasFlag (gtFlags t) LiteralToken = false -> gtGroup t <= maxGroup ts m.
Proof.
  induction ts as [|t0 r IH]; intros m t H F; [destruct H|]; destruct H as [->|H]; cbn [maxGroup].
  - rewrite F. pose proof (maxGroup_ge r (if m <? gtGroup t then gtGroup t else m)). destruct (Z.ltb_spec m (gtGroup t)); lia.
  - apply IH; auto.
Qed.

Section P.
Variable prefers : name -> list Z -> option Z.
Variable compilesAll : list name -> bool.
Hypothesis PO : regexpsOk prefers.

Lemma newLexers_get lrs : forall ls, newLexers prefers compilesAll lrs = Some ls ->
  zlen ls = zlen lrs /\ forall k, zget ls k = option_map (recLexer prefers) (zget lrs k).
Proof.
  induction lrs as [|r rest IH]; intros ls E; cbn [newLexers] in E.
  - injection E as <-. split; [reflexivity|]. intros k. unfold zget. destruct (k <? 0); [reflexivity|]. destruct (Z.to_nat k); reflexivity.
  - destruct (compilesAll _); [|discriminate]. destruct (newLexers _ _ rest) as [ls'|]; [|discriminate]. injection E as <-.
    destruct (IH _ eq_refl) as [A B]. split; [unfold zlen in *; cbn [length]; lia|]. intros k. specialize (B (k - 1)). unfold zget in *.
    destruct (Z.ltb_spec k 0); [reflexivity|]. destruct (Z.eq_dec k 0) as [->|N]; [reflexivity|]. destruct (Z.ltb_spec (k - 1) 0); [lia|].
    replace (Z.to_nat k) with (S (Z.to_nat (k - 1))) by lia. exact B.
Qed.
Lemma zget_repeat {A} (x : A) n k : 0 <= k < Z.of_nat n -> zget (repeat x n) k = Some x.
Proof.
  intros H. unfold zget. destruct (Z.ltb_spec k 0); [lia|]. rewrite (nth_error_nth' _ x) by (rewrite repeat_length; lia). f_equal. apply nth_repeat.
Qed.
(** the lexers made *)
Definition groupLexer (ts : list gtoken) (k : Z) : plexer :=
  mkPlexer (map typePair (groupTypes k 0 ts)) (joined prefers (map (fun x => gtRe (snd x)) (groupTypes k 0 ts))).
Lemma newParser_lexers g ls : newParser prefers compilesAll g = NewLexers ls ->
  zlen ls = maxGroup (gTokens g) 0 + 1 /\ forall k l, zget ls k = Some l -> l = groupLexer (gTokens g) k.
Proof.
  unfold newParser. destruct (fillRecs _ _ _) as [lrs|] eqn:F; [|discriminate]. destruct (newLexers _ _ lrs) as [ls'|] eqn:N; [|discriminate]. intros [= <-].
  destruct (fillRecs_spec _ _ _ _ F) as [FL FG]. destruct (newLexers_get _ _ N) as [NL NG]. pose proof (maxGroup_ge (gTokens g) 0) as M.
  unfold zlen at 2 in FL. rewrite repeat_length in FL. split; [lia|]. intros k l H. pose proof (zget_range _ _ _ H) as R. rewrite NG in H.
  rewrite (FG k (mkRec [] [])) in H by (apply zget_repeat; lia). cbn in H. injection H as <-. reflexivity.
Qed.
Lemma newParser_no_panic g : (forall t, In t (gTokens g) -> gtRe t <> [] -> 0 <= gtGroup t /\ hasFlag (gtFlags t) LiteralToken = false) ->
  newParser prefers compilesAll g <> NewPanic.
Proof.
  intros H. unfold newParser. pose proof (maxGroup_ge (gTokens g) 0) as M.
  destruct (fillRecs_total (gTokens g) 0 (repeat (mkRec [] []) (Z.to_nat (maxGroup (gTokens g) 0 + 1)))) as (lrs & ->).
  - intros t Ht Hr. destruct (H t Ht Hr) as [A B]. pose proof (maxGroup_In (gTokens g) 0 t Ht B). unfold zlen. rewrite repeat_length. lia.
  - destruct (newLexers _ _ _); discriminate.
Qed.

(** ** what the regexp finds *)
Definition unmatched (n : nat) : list (Z * Z) := repeat (-1, -1) n.
Lemma flat_unmatched n : flat (unmatched n) = repeat (-1) (n + n).
Proof. induction n as [|n IH]; [reflexivity|]. cbn [unmatched repeat flat]. change (repeat (-1, -1) n) with (unmatched n). rewrite IH. cbn [Nat.add repeat]. rewrite Nat.add_succ_r. reflexivity. Qed.
Lemma captures_flat count : forall k n, (k < count)%nat -> captures count k n = flat (unmatched k ++ (0, n) :: unmatched (count - k - 1)).
Proof.
  induction count as [|c IH]; intros k n H; [lia|]. destruct k as [|k]; cbn [captures].
  - cbn [unmatched repeat app flat]. rewrite Nat.sub_0_r. cbn [Nat.sub]. rewrite Nat.sub_0_r. rewrite flat_unmatched. reflexivity.
  - rewrite IH by lia. reflexivity.
Qed.
Lemma firstMatch_spec text l : forall k0,
  match firstMatch prefers k0 l text with
  | Some (k, n) => exists pre re post, l = pre ++ re :: post /\ k = (k0 + length pre)%nat /\ prefers re text = Some n /\ Forall (fun r => prefers r text = None) pre
  | None => Forall (fun r => prefers r text = None) l
  end.
Proof.
  induction l as [|re r IH]; intros k0; cbn [firstMatch]; [constructor|].
  destruct (prefers re text) as [n|] eqn:E.
  - exists [], re, r. repeat split; auto; cbn; lia.
  - specialize (IH (S k0)). destruct (firstMatch prefers (S k0) r text) as [[k n]|]; [|constructor; auto].
    destruct IH as (pre & re' & post & -> & -> & A & B). exists (re :: pre), re', post. repeat split; auto. cbn [length]. lia.
Qed.

Section G.
Variable ts : list gtoken.
Variable k : Z.
Notation G := (groupTypes k 0 ts).
Notation re := (joined prefers (map (fun x => gtRe (snd x)) G)).
Notation types := (map typePair G).

Lemma map_split {A B} (f : A -> B) l : forall pre x post, map f l = pre ++ x :: post -> exists p y q, l = p ++ y :: q /\ pre = map f p /\ x = f y /\ post = map f q.
Proof.
  induction l as [|a l IH]; intros pre x post E; destruct pre as [|b pre]; cbn [map app] in E; try discriminate.
  - injection E as <- <-. exists [], a, l. auto.
  - injection E as <- E. destruct (IH _ _ _ E) as (p & y & q & -> & -> & -> & ->). exists (a :: p), y, q. auto.
Qed.
Lemma joined_spec text :
  (noType prefers ts k text /\ (re text = [] \/ re text = [0; 0])) \/
  (exists i d n pre post, firstType prefers ts k text i d n /\ G = pre ++ (i, d) :: post /\
     re text = 0 :: n :: flat (unmatched (length pre) ++ (0, n) :: unmatched (length post))).
Proof.
  unfold joined. pose proof (firstMatch_spec text (map (fun x => gtRe (snd x)) G) 0) as F.
  destruct (firstMatch prefers 0 _ text) as [[j n]|] eqn:E.
  - right. destruct F as (pre & r & post & EL & -> & PR & NP). destruct (map_split _ _ _ _ _ EL) as (p & [i d] & q & EG & -> & -> & ->).
    exists i, d, n, p, q. pose proof (groupTypes_sorted k ts 0 _ _ _ EG) as [SA SB].
    split; [|split; [exact EG|]].
    + constructor.
      * apply groupTypes_In0. rewrite EG. apply in_or_app. right. left. reflexivity.
      * exact PR.
      * intros j d' LT IG. apply groupTypes_In0 in IG. rewrite EG in IG. apply in_app_or in IG as [IG|[[= <- <-]|IG]]; [|lia|].
        -- rewrite Forall_forall in NP. apply NP. change (gtRe d') with ((fun x : Z * gtoken => gtRe (snd x)) (j, d')). apply in_map. exact IG.
        -- apply SB in IG. cbn [fst] in IG. lia.
    + assert (LG : length (map (fun x : Z * gtoken => gtRe (snd x)) G) = (length p + S (length q))%nat) by (rewrite map_length, EG, app_length; reflexivity).
      rewrite LG, captures_flat by (rewrite map_length; lia). rewrite map_length.
      replace (length p + S (length q) - (0 + length p) - 1)%nat with (length q) by lia. cbn [Nat.add].
      destruct (map _ G) eqn:X; [destruct p; discriminate EL|]. reflexivity.
  - left. split.
    + intros i d IG. apply groupTypes_In0 in IG. rewrite Forall_forall in F. apply F. change (gtRe d) with ((fun x : Z * gtoken => gtRe (snd x)) (i, d)). apply in_map. exact IG.
    + destruct (map _ G); auto.
Qed.
Lemma joined_contract : re_contract re.
Proof.
  intros c. destruct (joined_spec c) as [[_ [E|E]]|(i & d & n & pre & post & F & _ & E)].
  - left. exact E.
  - right. exists 0, 0, []. rewrite E. repeat split; try lia; [apply zlen_nonneg|constructor].
  - right. pose proof (PO _ _ _ (ft_match _ _ _ _ _ _ _ F)) as R. eexists 0, n, _. split; [exact E|]. repeat split; try lia.
    apply Forall_app. split; [apply Forall_forall; intros x Hx; apply repeat_spec in Hx; auto|]. constructor; [right; cbn; lia|].
    apply Forall_forall; intros x Hx; apply repeat_spec in Hx; auto.
Qed.
Lemma pick_unmatched tt tts n : forall j gs, pick tt tts j (unmatched n ++ gs) = pick tt tts (j + n) gs.
Proof. induction n as [|n IH]; intros j gs; [cbn; f_equal; lia|]. cbn. change (repeat (-1, -1) n) with (unmatched n). rewrite IH. f_equal. lia. Qed.
Lemma group_at pre i d post : G = pre ++ (i, d) :: post -> 0 <= i /\
  group_type types (length pre) = (if i <? 64 then Some (i, nameText (gtName d)) else None) /\ error_name types (length pre) = nameText (gtName d).
Proof.
  intros E. assert (0 <= i).
  { assert (H : In (i, d) G) by (rewrite E; apply in_or_app; right; left; reflexivity). apply groupTypes_In in H. lia. }
  unfold group_type, error_name. rewrite E, map_app. cbn [map]. rewrite nth_error_app2 by (rewrite map_length; lia).
  rewrite map_length, Nat.sub_diag. cbn [nth_error typePair fst snd]. repeat split; auto.
  destruct (Z.leb_spec 0 i); [|lia]. destruct (Z.leb_spec i 63), (Z.ltb_spec i 64); try lia; reflexivity.
Qed.
Lemma pick_found pre i d post tts n : G = pre ++ (i, d) :: post -> 0 <= n ->
  pick types tts 0 (unmatched (length pre) ++ (0, n) :: unmatched (length post)) =
  (if (i <? 64) && negb (Z.testbit tts i) then None else Some (length pre, (0, n))).
Proof.
  intros E Hn. rewrite pick_unmatched. cbn [Nat.add pick captured fst]. destruct (group_at _ _ _ _ E) as (I0 & GT & _). rewrite GT.
  change (0 <=? 0) with true. cbn [andb]. destruct (i <? 64); cbn [andb]; [|reflexivity]. destruct (Z.testbit tts i); cbn [negb]; [reflexivity|].
  rewrite <- (app_nil_r (unmatched (length post))). rewrite pick_unmatched. reflexivity.
Qed.

Context {S : Type} (content : S -> list Z).
Notation L := (newLexer types).
Lemma firstType_unique text i d n i' d' n' : firstType prefers ts k text i d n -> firstType prefers ts k text i' d' n' -> i = i' /\ d = d' /\ n = n'.
Proof.
  intros [A1 A2 A3] [B1 B2 B3]. assert (i = i').
  { destruct (Z.lt_trichotomy i i') as [H|[H|H]]; auto; [rewrite (B3 _ _ H A1) in A2|rewrite (A3 _ _ H B1) in B2]; discriminate. }
  subst i'. destruct A1 as [A1 _], B1 as [B1 _]. rewrite A1 in B1. injection B1 as <-. rewrite A2 in B2. injection B2 as <-. auto.
Qed.
Lemma flat_inj a : forall b, flat a = flat b -> a = b.
Proof. induction a as [|[x y] a IH]; intros [|[u v] b] E; try discriminate; [reflexivity|]. injection E as <- <- E. f_equal. auto. Qed.
(** one scan *)
Lemma scan_called s tts p sk p' f : 0 <= p -> someWanted ts k tts -> scan content re types s tts p sk p' f -> p' <= zlen (content s) ->
  sk = [] /\ (f = FEof \/ called content prefers ts k tts (Some s, p) (finalRes content s p' f) (Some s, p')) /\ (f = FEof -> p' = p /\ zlen (content s) <= p).
Proof.
  intros HP HS SC LE. induction SC as [pos HE|pos HE HN|pos HE HN|pos n j a b HE HM HG|pos n j a b t0 nm HE HM HG|pos n sk p' f HE HI HSc IH].
  - auto.
  - split; [reflexivity|]. split; [|discriminate]. right. cbn [finalRes]. unfold no_match in HN.
    apply C_wrong; auto. change (skipn (Z.to_nat pos) (content s)) with (rest content s pos) in *.
    destruct (joined_spec (rest content s pos)) as [[N _]|(i & d & n & pre & post & F & _ & E)]; [left; exact N|]. rewrite E in HN.
    destruct HN as [HN|HN]; [congruence|]. pose proof (PO _ _ _ (ft_match _ _ _ _ _ _ _ F)). replace n with 0 in F by lia. right. eauto.
  - split; [reflexivity|]. split; [|discriminate]. right. cbn [finalRes]. destruct HN as (n & gs & E & Hn & _ & PK).
    change (skipn (Z.to_nat pos) (content s)) with (rest content s pos) in *.
    destruct (joined_spec (rest content s pos)) as [[_ [X|X]]|(i & d & n' & pre & post & F & EG & E')]; try (rewrite X in E; discriminate).
    { rewrite X in E. injection E as <- _. lia. }
    rewrite E' in E. injection E as <- E. apply flat_inj in E. subst gs. rewrite (pick_found _ _ _ _ _ _ EG) in PK by lia.
    destruct (i <? 64) eqn:I; cbn [andb] in PK; [|discriminate]. destruct (Z.testbit tts i) eqn:B; [discriminate|]. apply Z.ltb_lt in I.
    eapply C_unwanted; eauto.
  - split; [reflexivity|]. split; [|discriminate]. right. cbn [finalRes]. destruct HM as (gs & E & Hn & PK).
    change (skipn (Z.to_nat pos) (content s)) with (rest content s pos) in *.
    destruct (joined_spec (rest content s pos)) as [[_ [X|X]]|(i & d & n' & pre & post & F & EG & E')]; try (rewrite X in E; discriminate).
    { rewrite X in E. injection E as <- _. lia. }
    rewrite E' in E. injection E as <- E. apply flat_inj in E. subst gs. rewrite (pick_found _ _ _ _ _ _ EG) in PK by lia.
    destruct ((i <? 64) && negb (Z.testbit tts i)); [discriminate|]. injection PK as <- <- <-.
    destruct (group_at _ _ _ _ EG) as (I0 & GT & EN). rewrite GT in HG. destruct (Z.ltb_spec i 64); [discriminate|].
    rewrite EN, Z.add_0_r, Z.sub_0_r. eapply C_bad; eauto.
  - split; [reflexivity|]. split; [|discriminate]. right. cbn [finalRes]. destruct HM as (gs & E & Hn & PK).
    change (skipn (Z.to_nat pos) (content s)) with (rest content s pos) in *.
    destruct (joined_spec (rest content s pos)) as [[_ [X|X]]|(i & d & n' & pre & post & F & EG & E')]; try (rewrite X in E; discriminate).
    { rewrite X in E. injection E as <- _. lia. }
    rewrite E' in E. injection E as <- E. apply flat_inj in E. subst gs. rewrite (pick_found _ _ _ _ _ _ EG) in PK by lia.
    destruct ((i <? 64) && negb (Z.testbit tts i)) eqn:W; [discriminate|]. injection PK as <- <- <-.
    destruct (group_at _ _ _ _ EG) as (I0 & GT & EN). rewrite GT in HG. destruct (Z.ltb_spec i 64); [|discriminate]. injection HG as <- <-.
    cbn [andb] in W. apply negb_false_iff in W. rewrite Z.add_0_r, Z.sub_0_r. eapply C_token; eauto.
  - exfalso. destruct HI as (gs & E & Hn & NC). change (skipn (Z.to_nat pos) (content s)) with (rest content s pos) in *.
    destruct (joined_spec (rest content s pos)) as [[_ [X|X]]|(i & d & n' & pre & post & F & EG & E')]; try (rewrite X in E; discriminate).
    { rewrite X in E. injection E as <- _. lia. }
    rewrite E' in E. injection E as <- E. apply flat_inj in E. subst gs. specialize (NC (0, n')). discriminate NC.
    apply in_or_app. right. left. reflexivity.
Qed.
Lemma someWanted_mask tts : 0 <= tts -> Z.land tts (ltypeMask L) <> 0 <-> someWanted ts k tts.
Proof.
  intros Ht. rewrite (mask_zero types tts Ht). split.
  - intros H. destruct (Exists_dec (fun x : Z * gtoken => fst x < 64 /\ Z.testbit tts (fst x) = true) G) as [X|X].
    { intros x. destruct (Z_lt_dec (fst x) 64), (Z.testbit tts (fst x)); tauto || (right; intros []; congruence). }
    + apply Exists_exists in X as ([i d] & I & A & B). exists i, d. rewrite <- groupTypes_In0. auto.
    + exfalso. apply H. intros j t n GT. destruct (Z.testbit tts t) eqn:B; [|reflexivity]. exfalso. apply X. apply Exists_exists.
      unfold group_type in GT. destruct (nth_error types j) as [[t' n']|] eqn:N; [|discriminate]. apply nth_error_In in N. apply in_map_iff in N as ([i d] & [= <- <-] & IN).
      destruct (_ && _) eqn:R; [|discriminate]. injection GT as <- <-. exists (i, d). cbn [fst]. apply andb_prop in R as [_ R]. apply Z.leb_le in R. repeat split; auto; lia.
  - intros (i & d & IG & LT & B) H. apply groupTypes_In0 in IG. apply in_split in IG as (pre & post & EG). destruct (group_at _ _ _ _ EG) as (_ & GT & _).
    destruct (Z.ltb_spec i 64); [|lia]. rewrite (H _ _ _ GT) in B. discriminate.
Qed.
(** one call *)
Definition afterRes (l : aq S) (r : @lexResult S) : aq S :=
  match l, r with
  | (s, p) :: rest, (Some t, _) => if tokType t =? EofTokenType then rest else (s, p + zlen (tokContent t)) :: rest
  | _, _ => l
  end.
Lemma lexer_call q l tts : qok content q l -> 0 <= tts ->
  exists q' res, lexNextOf content re L q tts = Some (q', res) /\ called content prefers ts k tts (seen q) res (seen q') /\ qok content q' (afterRes l res).
Proof.
  intros HQ Ht. destruct (Z.eq_dec (Z.land tts (ltypeMask L)) 0) as [M|M].
  - exists q, (None, None). rewrite lexNextOf_zero by auto. split; [reflexivity|]. split.
    + apply C_unknown. intros X. apply (someWanted_mask tts Ht) in X. contradiction.
    + destruct l as [|[s p] r]; exact HQ.
  - pose proof (proj1 (someWanted_mask tts Ht) M) as W. destruct l as [|[s p] r].
    + exists q, (Some eoiToken, None). rewrite lexNextOf_eoi by auto. split; [reflexivity|]. split; [|exact HQ].
      destruct HQ as ((A1 & A2 & _) & _). unfold seen. rewrite A1, A2. apply C_eoi. exact W.
    + destruct (lexNextOf_spec content re types joined_contract q s p r tts HQ M) as (q' & sk & p' & f & E & SC & HQ' & HP).
      assert (P0 : 0 <= p) by (destruct HQ as (_ & [HF _] & _); inversion HF; cbn [fst snd] in *; lia).
      destruct (scan_called s tts p sk p' f P0 W SC) as (SK & CL & EF); [unfold slen in HP; lia|]. subst sk.
      exists q', (finalRes content s p' f). split; [exact E|].
      assert (SQ : seen q = (Some s, p)) by (destruct HQ as ((A1 & A2 & _) & _); unfold seen; rewrite A1, A2; reflexivity). rewrite SQ.
      destruct CL as [->|CL].
      * destruct (EF eq_refl) as [-> LE]. cbn [finalRes]. unfold slen in HP. replace p with (zlen (content s)) by lia.
        split; [apply C_eof; exact W|]. exact HQ'.
      * destruct f as [|c|t| |t lx]; cbn [finalRes afterQ] in *.
        -- destruct (EF eq_refl) as [-> LE]. unfold slen in HP. replace p with (zlen (content s)) by lia. split; [apply C_eof; exact W|exact HQ'].
        -- assert (SQ' : seen q' = (Some s, p')) by (destruct HQ' as ((A1 & A2 & _) & _); unfold seen; rewrite A1, A2; reflexivity). rewrite SQ'.
           split; [exact CL|]. inversion CL; subst. exact HQ'.
        -- assert (SQ' : seen q' = (Some s, p')) by (destruct HQ' as ((A1 & A2 & _) & _); unfold seen; rewrite A1, A2; reflexivity). rewrite SQ'.
           split; [exact CL|]. inversion CL; subst. exact HQ'.
        -- assert (SQ' : seen q' = (Some s, p')) by (destruct HQ' as ((A1 & A2 & _) & _); unfold seen; rewrite A1, A2; reflexivity). rewrite SQ'.
           split; [exact CL|]. inversion CL; subst; exact HQ'.
        -- assert (SQ' : seen q' = (Some s, p')) by (destruct HQ' as ((A1 & A2 & _) & _); unfold seen; rewrite A1, A2; reflexivity). rewrite SQ'.
           split; [exact CL|]. inversion CL as [|W1|s1 a1 W1|s1 p1 i d n HR FT Hn I64 B| | |]; subst.
           ++ exfalso. inversion SC as [| | | |pos n kk a b t0 nm HE HM HG|]; subst. pose proof (group_lookup types kk) as GL. rewrite HG in GL. unfold EofTokenType in GL. lia.
           ++ cbn [afterRes tokType tokContent]. destruct (Z.eqb_spec i EofTokenType) as [X|X].
              { destruct (ft_type _ _ _ _ _ _ _ FT) as [Z _]. apply zget_range in Z. unfold EofTokenType in X. lia. }
              replace (zlen (firstn (Z.to_nat n) (rest content s p))) with n; [exact HQ'|].
              pose proof (PO _ _ _ (ft_match _ _ _ _ _ _ _ FT)) as R. unfold zlen in *. rewrite firstn_length. lia.
Qed.
End G.
End P.
