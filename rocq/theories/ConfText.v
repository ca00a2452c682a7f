(** The text around edited entries. *)
From Coq Require Import List Bool String Ascii Arith Lia.
From Verif Require Import Base Conf ConfSpec ConfProofs ConfInv ConfOps ConfEdits ConfAll.
Import ListNotations.
Open Scope string_scope.
Open Scope nat_scope.
Open Scope list_scope.

Definition topToks (t : top) : list tok := match t with TTok t => [t] | TNode _ _ ps => flat_map tokensOfPart ps end.
Definition textOf (l : list tok) : string := String.concat "" (map ttext l).
Lemma serialize_text root : serialize root = textOf (flat_map topToks root).
Proof. reflexivity. Qed.
Lemma text_cons t l : textOf (t :: l) = (ttext t ++ textOf l)%string.
Proof. unfold textOf. cbn. destruct (map ttext l) eqn:E; [destruct l; [cbn|discriminate]|reflexivity]. induction (ttext t) as [|c s IH]; [reflexivity|cbn; rewrite <- IH; reflexivity]. Qed.
Lemma str_assoc a b c : ((a ++ b) ++ c = a ++ b ++ c)%string.
Proof. induction a as [|x a IH]; cbn; [reflexivity|rewrite IH; reflexivity]. Qed.
Lemma str_nil a : (a ++ "" = a)%string.
Proof. induction a as [|x a IH]; cbn; [reflexivity|rewrite IH; reflexivity]. Qed.
Lemma text_app l m : textOf (l ++ m) = (textOf l ++ textOf m)%string.
Proof. induction l as [|t l IH]; [reflexivity|]. cbn [app]. rewrite !text_cons, IH, str_assoc. reflexivity. Qed.
Lemma toks_at A j ty P l Q B : flat_map topToks (A ++ TNode j ty (P ++ l ++ Q) :: B) = (flat_map topToks A ++ flat_map tokensOfPart P) ++ flat_map tokensOfPart l ++ (flat_map tokensOfPart Q ++ flat_map topToks B).
Proof. rewrite flat_map_app. cbn [flat_map topToks]. rewrite !flat_map_app, <- !app_assoc. reflexivity. Qed.
Lemma text_at A j ty P Q B : exists a b, forall l', serialize (A ++ TNode j ty (P ++ l' ++ Q) :: B) = (a ++ textOf (flat_map tokensOfPart l') ++ b)%string.
Proof. exists (textOf (flat_map topToks A ++ flat_map tokensOfPart P)), (textOf (flat_map tokensOfPart Q ++ flat_map topToks B)). intros l'. rewrite serialize_text, toks_at, !(text_app (_ ++ flat_map tokensOfPart P)), (text_app (flat_map tokensOfPart l')). reflexivity. Qed.

Section P.
Variable trim : string -> string.
Hypothesis trim_empty : trim "" = "".
Hypothesis trim_twice : forall x, trim (trim x) = trim x.
Notation inv := (inv trim).
Notation says := (says trim).

Theorem set_known_text s n value root secs u f sc e c' : inv root secs f -> get s secs = Some sc -> get n (sEntries sc) = Some e -> sectionSetEntry trim s n value (mkConf root secs u f) = Some c' ->
  exists a x y b, serialize root = (a ++ x ++ b)%string /\ serialize (cRoot c') = (a ++ y ++ b)%string /\ says root s n (trim x) /\ (y = value \/ y = x /\ trim x = trim value).
Proof.
  intros I G GE H. destruct (found trim _ _ _ _ _ I G) as (A & i & ty & hd & ps & B & -> & S & F & K & SN & EO & HD).
  pose proof (EO n) as EN. rewrite GE in EN. destruct EN as (ks & HI & V). pose proof (valueOk_entry trim trim_empty _ _ _ V) as EK.
  assert (SY : says (A ++ TNode i ty (hd ++ ps) :: B) s n (trim (eValue e))) by (exists (TNode i ty (hd ++ ps)), ps; split; [apply in_elt|]; split; [exact S|]; exists (eNode e), ks; auto).
  apply in_split in HI as (P & Q & ->). change (PNode (eNode e) "entry" ks :: Q) with ([PNode (eNode e) "entry" ks] ++ Q) in *. rewrite app_assoc in *. destruct (text_at A i ty (hd ++ P) Q B) as (a0 & b0 & TX).
  assert (GO : forall a x b, ks = a ++ x ++ b -> trim (textOf x) = trim (eValue e) -> forall x' r, r = A ++ TNode i ty ((hd ++ P) ++ [PNode (eNode e) "entry" (a ++ x' ++ b)] ++ Q) :: B -> textOf x' = value \/ x' = x /\ trim (textOf x) = trim value ->
    exists a' x0 y b', serialize (A ++ TNode i ty ((hd ++ P) ++ [PNode (eNode e) "entry" ks] ++ Q) :: B) = (a' ++ x0 ++ b')%string /\ serialize r = (a' ++ y ++ b')%string /\ says (A ++ TNode i ty ((hd ++ P) ++ [PNode (eNode e) "entry" ks] ++ Q) :: B) s n (trim x0) /\ (y = value \/ y = x0 /\ trim x0 = trim value)).
  { intros a x b EK' ET x' r -> C. exists (a0 ++ textOf a)%string, (textOf x), (textOf x'), (textOf b ++ b0)%string. rewrite !TX. cbn [flat_map tokensOfPart]. rewrite !app_nil_r. rewrite EK' at 1. rewrite !text_app, !str_assoc. split; [reflexivity|]. split; [reflexivity|]. split; [rewrite ET; exact SY|]. destruct C as [C|[-> C]]; auto. }
  revert H. unfold sectionSetEntry. cbn [cSections cFresh cRoot cUpdated]. rewrite G. cbn [obind]. rewrite GE.
  destruct (i_num _ _ _ _ I) as (ND1 & ND2 & ND3 & ND4).
  assert (TV : textOf (if negb (String.eqb value "") then [Tk f "value" value] else []) = value) by (destruct (String.eqb_spec value "") as [->|]; [reflexivity|cbn [negb]; rewrite text_cons; apply str_nil]).
  destruct (eValueNode e) as [k|] eqn:EVN; unfold valueOk in V; rewrite EVN in V.
  - destruct V as (x & i0 & s1 & j & s2 & rest & F1 & F2 & F3 & EQ & TE). set (a := Tk i0 "name" n :: s1 ++ Tk j "op" "=" :: s2) in *. assert (EQ' : ks = a ++ [Tk k "value" x] ++ rest) by (rewrite EQ; unfold a; cbn; rewrite <- app_assoc; reflexivity).
    assert (TX1 : textOf [Tk k "value" x] = x) by (rewrite text_cons; apply str_nil). destruct (String.eqb_spec (eValue e) value) as [EV|NV]; intros [= <-]; cbn [cRoot].
    + eapply GO; [exact EQ'|rewrite TX1; congruence|rewrite <- EQ'; reflexivity|right; split; [reflexivity|rewrite TX1; congruence]].
    + eapply GO; [exact EQ'|rewrite TX1; congruence| |left; exact TV]. clear GO TX. rewrite EQ' in *. cbn [app] in ND3 |- *. rewrite (onTok_at _ A i ty (hd ++ P) (eNode e) "entry" a (Tk k "value" x) rest Q B ND3 : onTok k _ _ = _). reflexivity.
  - destruct V as (EV & i0 & s1 & j & rest & F1 & F3 & EQ). assert (EQ' : ks = (Tk i0 "name" n :: s1 ++ [Tk j "op" "="]) ++ [] ++ rest) by (rewrite EQ; cbn; rewrite <- app_assoc; reflexivity).
    destruct (String.eqb_spec (eValue e) value) as [EV'|NV].
    + intros [= <-]; cbn [cRoot]. eapply GO; [exact EQ'|rewrite EV; reflexivity|rewrite <- EQ'; reflexivity|right; split; [reflexivity|cbn; congruence]].
    + pose proof (findPart_at (eNode e) A i ty (hd ++ P) "entry" _ Q B ND2) as FP. cbn [app] in FP |- *. rewrite FP. cbn [obind]. rewrite EQ at 1. rewrite (afterOp_at _ _ _ _ F1). cbn [obind]. intros [= <-]. cbn [cRoot].
      eapply GO; [exact EQ'|rewrite EV; reflexivity| |left; exact TV]. rewrite (onPart_at (eNode e) _ A i ty (hd ++ P) "entry" _ Q B ND2). cbn [app]. do 4 f_equal. rewrite <- app_assoc. reflexivity.
Qed.
Theorem set_new_text s n value root secs u f sc c' : inv root secs f -> get s secs = Some sc -> get n (sEntries sc) = None -> sectionSetEntry trim s n value (mkConf root secs u f) = Some c' ->
  exists a b, serialize root = (a ++ b)%string /\ serialize (cRoot c') = (a ++ (n ++ "=" ++ value ++ String "010"%char "") ++ b)%string /\ forall w, ~ says root s n w.
Proof.
  intros I G GE H. destruct (found trim _ _ _ _ _ I G) as (A & i & ty & hd & ps & B & -> & S & F & K & SN & EO & HD). destruct (i_num _ _ _ _ I) as (ND1 & _).
  assert (NS : forall w, ~ says (A ++ TNode i ty (hd ++ ps) :: B) s n w).
  { pose proof (EO n) as EN. rewrite GE in EN. intros w X. destruct (change_says trim _ _ _ _ _ _ _ (i_rep _ _ _ _ I) S S) as (_ & _ & Y3 & _). apply Y3 in X. exact (EN w X). }
  revert H. unfold sectionSetEntry. cbn [cSections cFresh cRoot cUpdated]. rewrite G. cbn [obind]. rewrite GE, SN. cbn [last_ rev app nth_error obind]. rewrite (findTop_at _ _ _ _ _ ND1). cbn [obind].
  set (vs := if negb (String.eqb value "") then [Tk (3 + f) "value" value] else []). set (ks := Tk (1 + f) "name" n :: Tk (2 + f) "op" "=" :: vs ++ [nlNode (4 + f)]). set (node := PNode f "entry" ks).
  rewrite (onTop_at _ _ _ _ _ _ ND1). cbn [app].
  assert (PL : exists P Q, ps = P ++ Q /\ match insertAfterLast (hd ++ ps) node with Some r => r | None => node :: hd ++ ps end = hd ++ P ++ [node] ++ Q).
  { pose proof (insert_spec ps node) as X. destruct HD as [(-> & _)|(h & hk & -> & _)]; cbn [app insertAfterLast]; destruct (insertAfterLast ps node) as [r|].
    - destruct X as (P & Q & -> & ->). exists P, Q. auto.
    - exists [], ps. auto.
    - destruct X as (P & Q & -> & ->). exists P, Q. auto.
    - exists [], ps. auto. }
  destruct PL as (P & Q & -> & ->). unfold addEntryNode. cbn [cSections cRoot cUpdated cFresh]. rewrite get_put, String.eqb_refl. cbn [obind sEntries sNodes sUpdated].
  assert (E1 : nth_error (searchIn "name" ks) 0 = Some (Tk (1 + f) "name" n)) by (unfold ks, vs; destruct (negb (String.eqb value "")); reflexivity). rewrite E1. cbn [obind ttext]. rewrite GE.
  destruct (text_at A i ty (hd ++ P) Q B) as (a & b & TX).
  assert (TK : textOf ks = (n ++ "=" ++ value ++ String "010"%char "")%string).
  { unfold ks. rewrite !text_cons, text_app. cbn [ttext]. do 2 f_equal. unfold vs. destruct (String.eqb_spec value "") as [->|]; cbn [negb]; [reflexivity|]. rewrite (text_cons (Tk _ _ value)). cbn [ttext]. change (textOf []) with "". rewrite str_nil. reflexivity. }
  intros H. exists a, b. split; [|split; [|exact NS]].
  - rewrite (app_assoc hd). change ((hd ++ P) ++ Q) with ((hd ++ P) ++ [] ++ Q). rewrite TX. reflexivity.
  - assert (R : cRoot c' = A ++ TNode i ty (hd ++ P ++ [node] ++ Q) :: B) by (destruct (nth_error (searchIn "value" ks) 0); injection H as <-; reflexivity). rewrite R, (app_assoc hd), TX. cbn [flat_map tokensOfPart node]. rewrite app_nil_r, TK. reflexivity.
Qed.
Theorem remove_text s n root secs f sc e : inv root secs f -> get s secs = Some sc -> get n (sEntries sc) = Some e ->
  exists a ks b w, serialize root = (a ++ textOf ks ++ b)%string /\ serialize (onPart (eNode e) (fun _ => []) root) = (a ++ b)%string /\ entryOf trim n w ks /\ says root s n w.
Proof.
  intros I G GE. destruct (found trim _ _ _ _ _ I G) as (A & i & ty & hd & ps & B & -> & S & F & K & SN & EO & HD). destruct (i_num _ _ _ _ I) as (_ & ND2 & _).
  pose proof (EO n) as EN. rewrite GE in EN. destruct EN as (ks & HI & V). pose proof (valueOk_entry trim trim_empty _ _ _ V) as EK.
  assert (SY : says (A ++ TNode i ty (hd ++ ps) :: B) s n (trim (eValue e))) by (exists (TNode i ty (hd ++ ps)), ps; split; [apply in_elt|]; split; [exact S|]; exists (eNode e), ks; auto).
  apply in_split in HI as (P & Q & ->). destruct (text_at A i ty (hd ++ P) Q B) as (a & b & TX). exists a, ks, b, (trim (eValue e)). rewrite app_assoc in *. rewrite (onPart_at _ _ _ _ _ _ _ _ _ _ ND2).
  split; [|split; [|auto]].
  - change (PNode (eNode e) "entry" ks :: Q) with ([PNode (eNode e) "entry" ks] ++ Q). rewrite TX. cbn [flat_map tokensOfPart]. rewrite app_nil_r. reflexivity.
  - cbn [app]. change ((hd ++ P) ++ Q) with ((hd ++ P) ++ [] ++ Q). rewrite TX. reflexivity.
Qed.

Lemma text_top A B : exists a b, forall l, serialize (A ++ l ++ B) = (a ++ textOf (flat_map topToks l) ++ b)%string.
Proof. exists (textOf (flat_map topToks A)), (textOf (flat_map topToks B)). intros l. rewrite serialize_text, !flat_map_app, !text_app. reflexivity. Qed.
Lemma node_root i ty ps c s c' : addSectionNode i ty ps c = Some (s, c') -> cRoot c' = cRoot c.
Proof. unfold addSectionNode. destruct (if String.eqb ty "def-section" then _ else _) as [n|]; [|discriminate]. cbn [obind]. destruct (get n (cSections c)); intros [= <- <-]; reflexivity. Qed.
Definition nlText : string := String "010"%char "".
Lemma header_text i s : textOf (flat_map tokensOfPart [PNode (1 + i) "header" [Tk (2 + i) "op" "["; Tk (3 + i) "sec-name" s; Tk (4 + i) "op" "]"; nlNode (5 + i)]]) = ("[" ++ s ++ "]" ++ nlText)%string.
Proof. cbn [flat_map tokensOfPart app]. rewrite !text_cons. reflexivity. Qed.
Theorem add_text s root secs u f s' c' : numbered root f -> addSection s (mkConf root secs u f) = Some (s', c') ->
  exists a y b, serialize root = (a ++ b)%string /\ serialize (cRoot c') = (a ++ y ++ b)%string /\
    (y = "" \/ y = nlText \/ y = "[" ++ s ++ "]" ++ nlText \/ y = nlText ++ "[" ++ s ++ "]" ++ nlText)%string.
Proof.
  intros (ND1 & _) H. unfold addSection in H. cbn [cSections cRoot cFresh cUpdated] in H.
  assert (SAME : cRoot c' = root -> exists a y b, serialize root = (a ++ b)%string /\ serialize (cRoot c') = (a ++ y ++ b)%string /\ (y = "" \/ y = nlText \/ y = "[" ++ s ++ "]" ++ nlText \/ y = nlText ++ "[" ++ s ++ "]" ++ nlText)%string) by (intros ->; exists (serialize root), "", ""; cbn; rewrite str_nil; auto).
  assert (END : forall l y, cRoot c' = root ++ l -> y = textOf (flat_map topToks l) -> (y = "" \/ y = nlText \/ y = "[" ++ s ++ "]" ++ nlText \/ y = nlText ++ "[" ++ s ++ "]" ++ nlText)%string -> exists a y b, serialize root = (a ++ b)%string /\ serialize (cRoot c') = (a ++ y ++ b)%string /\ (y = "" \/ y = nlText \/ y = "[" ++ s ++ "]" ++ nlText \/ y = nlText ++ "[" ++ s ++ "]" ++ nlText)%string).
  { intros l y -> EY Y. exists (serialize root), y, "". rewrite !str_nil. split; [reflexivity|]. split; [|exact Y]. rewrite !serialize_text, flat_map_app, text_app, EY. reflexivity. }
  destruct (get s secs); [injection H as <- <-; apply SAME; reflexivity|].
  destruct (String.eqb s "").
  - pose proof (last_spec root) as LS. destruct (last_ root) as [l|].
    + destruct (negb _).
      * destruct (find _ root) as [t|] eqn:FD.
        -- apply find_some in FD as [HI FT]. destruct t as [t|j ty qs]; [discriminate|]. apply in_split in HI as (A & B & ->). apply node_root in H. cbn [cRoot] in H. rewrite (onTop_at _ _ _ _ _ _ ND1) in H. cbn [app] in H. rewrite H.
           destruct (text_top A (TNode j ty qs :: B)) as (a & b & TX). exists a, nlText, b. pose proof (TX []) as T0. pose proof (TX [TNode f "def-section" [sepNode (1 + f)]]) as T1. cbn [app] in T0, T1. rewrite T0, T1. auto.
        -- apply node_root in H. eapply END; [exact H|reflexivity|left; reflexivity].
      * apply node_root in H. apply SAME, H.
    + subst root. apply node_root in H. apply (END [TNode f "def-section" []] ""); [exact H|reflexivity|auto].
  - set (ps := [PNode (1 + f) "header" _]) in H.
    assert (HT : textOf (flat_map topToks [TNode f "section" ps]) = ("[" ++ s ++ "]" ++ nlText)%string) by (cbn [flat_map topToks]; rewrite app_nil_r; apply header_text).
    pose proof (last_spec root) as LS. destruct (last_ root) as [[t|j ty qs]|]; cbn [obind] in H.
    + apply node_root in H. eapply END; [exact H|reflexivity|rewrite HT; auto].
    + destruct LS as (m & ->). destruct (last_ qs) as [lp|]; [|discriminate]. cbn [obind] in H. apply node_root in H. cbn [cRoot] in H. destruct (negb _).
      * rewrite (onTop_at _ _ _ _ _ _ ND1) in H. cbn [app] in H. exists (serialize (m ++ [TNode j ty qs])), (nlText ++ "[" ++ s ++ "]" ++ nlText)%string, "". rewrite !str_nil. split; [reflexivity|]. split; [|auto]. rewrite H, !serialize_text, !flat_map_app, !text_app, HT. cbn [flat_map topToks]. rewrite !app_nil_r, flat_map_app, text_app, !str_assoc. reflexivity.
      * eapply END; [exact H|reflexivity|rewrite HT; auto].
    + apply node_root in H. eapply END; [exact H|reflexivity|rewrite HT; auto].
Qed.

Theorem remove_section_text s root secs u f c' : inv root secs f -> removeSection s (mkConf root secs u f) = Some c' ->
  (~ hasSection trim root s /\ cRoot c' = root) \/
  (exists a ks t ps b, serialize root = (a ++ textOf ks ++ textOf (topToks t) ++ b)%string /\ serialize (cRoot c') = (a ++ b)%string /\ sectionOf trim s ps t /\ In t root /\ Forall plain ks).
Proof.
  intros I H. unfold removeSection in H. cbn [cSections cRoot cFresh] in H. destruct (get s secs) as [sc|] eqn:G.
  2:{ injection H as <-. left. split; [|reflexivity]. pose proof (i_rec _ _ _ _ I s) as C. rewrite G in C. exact C. }
  right. destruct (found trim _ _ _ _ _ I G) as (A & i & ty & hd & ps & B & -> & S & F & K & SN & EO & HD). rewrite SN in H. destruct (i_num _ _ _ _ I) as (ND1 & ND2 & _). rewrite (prevOf_at _ _ _ _ _ ND1) in H. set (t := TNode i ty (hd ++ ps)) in *.
  assert (PLAIN : cRoot c' = onTop i (fun _ => []) (A ++ t :: B) -> exists a ks t0 ps0 b, serialize (A ++ t :: B) = (a ++ textOf ks ++ textOf (topToks t0) ++ b)%string /\ serialize (cRoot c') = (a ++ b)%string /\ sectionOf trim s ps0 t0 /\ In t0 (A ++ t :: B) /\ Forall plain ks).
  { intros E. unfold t in E. rewrite (onTop_at _ _ _ _ _ _ ND1) in E. cbn [app] in E. fold t in E. destruct (text_top A B) as (a & b & TX). exists a, [], t, ps, b. pose proof (TX [t]) as T1. pose proof (TX []) as T0. cbn [app flat_map] in T0, T1. rewrite app_nil_r in T1. rewrite T1, E, T0. split; [reflexivity|]. split; [reflexivity|]. split; [exact S|]. split; [apply in_elt|constructor]. }
  pose proof (last_spec A) as LS. destruct (last_ A) as [[x|j jty qs]|]; cbn [obind] in H; [discriminate| |injection H as <-; apply PLAIN; reflexivity].
  destruct LS as (m & ->). pose proof (last_spec qs) as LQ. destruct (last_ qs) as [[x|k kty ks]|]; cbn [obind] in H; [injection H as <-; apply PLAIN; reflexivity| |injection H as <-; apply PLAIN; reflexivity].
  destruct (String.eqb_spec kty "sep") as [->|NE]; cbn [obind] in H; [|injection H as <-; apply PLAIN; reflexivity]. clear PLAIN. injection H as <-. cbn [cRoot]. destruct LQ as (P & EP). rewrite <- !app_assoc in *. cbn [app] in *. rewrite EP in *.
  pose proof (i_doc _ _ _ _ I) as DO. apply Forall_app in DO as [_ DO]. inversion DO as [|? ? IT _]; subst. destruct (item_node trim _ _ _ IT) as (s0 & hd0 & ps0 & EQ & S0 & F0 & K0 & HD0).
  rewrite (onPart_at k _ m j jty P "sep" ks [] (t :: B) ND2). cbn [app].
  assert (ND : NoDup (topIds ((m ++ [TNode j jty (P ++ [])]) ++ t :: B))) by (rewrite <- app_assoc; rewrite topIds_app in ND1 |- *; exact ND1).
  pose proof (onTop_at i (fun _ => []) (m ++ [TNode j jty (P ++ [])]) ty (hd ++ ps) B ND) as OT. rewrite <- !app_assoc in OT. cbn [app] in OT. unfold t at 2. rewrite OT.
  exists (textOf (flat_map topToks m) ++ textOf (flat_map tokensOfPart P))%string, ks, t, ps, (textOf (flat_map topToks B)). rewrite !serialize_text, !flat_map_app. cbn [flat_map topToks]. rewrite !flat_map_app. cbn [flat_map tokensOfPart]. rewrite !app_nil_r, !text_app, !str_assoc.
  split; [reflexivity|]. split; [reflexivity|]. split; [exact S|]. split; [apply in_or_app; right; right; left; reflexivity|].
  assert (X : exists P0, ps0 = P0 ++ [PNode k "sep" ks]).
  { pose proof (last_spec ps0) as L0. destruct (last_ ps0) as [x|]; [destruct L0 as (P0 & ->); exists P0; rewrite app_assoc in EQ; apply app_inj_tail in EQ as [_ ->]; reflexivity|].
    subst ps0. rewrite app_nil_r in EQ. destruct HD0 as [(-> & _)|(h & hk & -> & _)]; [destruct P; discriminate|]. change [PNode h "header" hk] with ([] ++ [PNode h "header" hk]) in EQ. apply app_inj_tail in EQ as [_ EQ]. discriminate. }
  destruct X as (P0 & ->). apply Forall_app in F0 as [_ F0]. inversion F0 as [|? ? PC _]; subst. inversion PC; subst. assumption.
Qed.
End P.
