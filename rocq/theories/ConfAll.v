(** Sections put in and taken out, loading, histories of edits. *)
From Coq Require Import List Bool String Ascii Arith Lia.
From Verif Require Import Base BaseProofs Conf ConfSpec ConfProofs ConfInv ConfOps ConfEdits.
Import ListNotations.
Open Scope string_scope.
Open Scope nat_scope.
Open Scope list_scope.

Section P.
Variable trim : string -> string.
Hypothesis trim_empty : trim "" = "".
Hypothesis trim_twice : forall x, trim (trim x) = trim x.
Notation entryOf := (entryOf trim).
Notation piece := (piece trim).
Notation sectionOf := (sectionOf trim).
Notation saysIn := (saysIn trim).
Notation says := (says trim).
Notation hasSection := (hasSection trim).
Notation document := (document trim).
Notation noRepeats := (noRepeats trim).
Notation entryNamed := (entryNamed trim).
Notation sectionNamed := (sectionNamed trim).
Notation inv := (inv trim).
Notation entriesOk := (entriesOk trim).
Notation valueOk := (valueOk trim).
Notation distinctParts := (distinctParts trim).
Notation outcome := (outcome trim).
Notation item := (item trim).

Lemma item_node i ty qs : item (TNode i ty qs) -> exists s hd ps, qs = hd ++ ps /\ sectionOf s ps (TNode i ty (hd ++ ps)) /\ Forall piece ps /\ (forall ps', Forall piece ps' -> sectionOf s ps' (TNode i ty (hd ++ ps'))) /\
  (hd = [] /\ s = "" /\ ty = "def-section" \/ exists h ks, hd = [PNode h "header" ks] /\ s <> "" /\ ty = "section").
Proof.
  intros H. inversion H as [|s ps t S]; subst. destruct (section_shape _ _ _ _ S) as (j & ty' & hd & E & F & K & X). injection E as <- <- ->. exists s, hd, ps. auto 10.
Qed.
Lemma sep_numbered A i ty P B f x : numbered (A ++ TNode i ty P :: B) f -> f <= x -> numbered (A ++ TNode i ty (P ++ [sepNode x]) :: B) (2 + x).
Proof.
  intros N L. pose proof (numbered_parts A i ty P [] [sepNode x] [] B f (2 + x)) as H. cbn [app] in H. rewrite app_nil_r in H. apply H; [exact N|lia| | | |].
  - repeat constructor. intros [].
  - repeat constructor. intros [].
  - cbn. intros k [<-|[]]. right. lia.
  - cbn. intros k [<-|[]]. right. lia.
Qed.

(** the new section stands for the one that was asked for *)
Definition added (root : list top) (s : string) (r : option (string * conf)) : Prop :=
  match r with
  | Some (s', c') => s' = s /\ inv (cRoot c') (cSections c') (cFresh c') /\ (forall s' n v, says (cRoot c') s' n v <-> says root s' n v) /\ exists sc, get s (cSections c') = Some sc
  | None => s <> "" /\ ~ hasSection root s /\ exists A i, root = A ++ [TNode i "def-section" []]
  end.
Lemma node_added root secs u f s i ty qs : inv root (put s (mkSec [i] [] false) secs) f -> get s secs = None -> (if String.eqb ty "def-section" then Some "" else do t <- secNameOf qs; Some (ttext t)) = Some s ->
  forall root0, (forall s' n v, says root s' n v <-> says root0 s' n v) -> added root0 s (addSectionNode i ty qs (mkConf root secs u f)).
Proof.
  intros I G N root0 E. unfold addSectionNode. rewrite N. cbn [obind cSections cRoot cUpdated cFresh]. rewrite G. cbn. split; [reflexivity|]. split; [exact I|]. split; [exact E|]. eexists. rewrite String.eqb_refl. reflexivity.
Qed.

Theorem add_section s root secs u f : inv root secs f -> added root s (addSection s (mkConf root secs u f)).
Proof.
  intros I. unfold addSection. cbn [cSections cRoot cFresh]. destruct (get s secs) as [sc|] eqn:G; [split; [reflexivity|]; split; [exact I|]; split; [reflexivity|]; exists sc; exact G|].
  pose proof (i_rec _ _ _ _ I s) as NH. rewrite G in NH. pose proof (i_num _ _ _ _ I) as NU. pose proof (i_doc _ _ _ _ I) as DO.
  destruct (String.eqb_spec s "") as [->|NS].
  - pose proof (last_spec root) as LS. destruct (last_ root) as [l|].
    + destruct LS as (m & EM). assert (NT : String.eqb (topType l) "def-section" = false).
      { apply String.eqb_neq. intros E. assert (HI : In l root) by (rewrite EM; apply in_or_app; right; left; reflexivity). pose proof (proj1 (Forall_forall _ _) DO l HI) as IL. inversion IL as [t PT|s0 ps t S]; subst.
        - cbn in E. destruct PT as [[PT|PT]|PT]; congruence.
        - apply NH. exists l. destruct S as [i ps0 F|i h ks1 k n ks2 ps0 N F1 F2 F]; [|discriminate]. exists ps0. split; [exact HI|constructor; exact F]. }
      rewrite NT. cbn [negb]. destruct (find _ root) as [[t|j ty qs]|] eqn:EF.
      * apply find_some in EF. destruct EF as [_ EF]. discriminate.
      * apply find_some in EF as [HI _]. apply in_split in HI as (A & B & ER). rewrite ER in *. destruct NU as (ND1 & _). rewrite (onTop_at _ _ _ _ _ _ ND1).
        assert (S : sectionOf "" [sepNode (1 + f)] (TNode f "def-section" [sepNode (1 + f)])) by (constructor; constructor; [apply sep_piece|constructor]).
        destruct (insert_inv trim A (TNode f "def-section" [sepNode (1 + f)]) (TNode j ty qs :: B) "" [sepNode (1 + f)] secs f (3 + f) false I S NH) as [X1 X2].
        { intros p n [<-|[]]. apply sep_no_entry. }
        { apply (numbered_tops A [] [TNode f "def-section" [sepNode (1 + f)]] (TNode j ty qs :: B) f (3 + f) (i_num _ _ _ _ I)); [lia| | | | | |].
          1-3: cbn; repeat constructor; intros [].
          all: cbn; intros k [<-|[]]; right; lia. }
        eapply node_added; [exact X1|exact G|reflexivity|exact X2].
      * assert (S : sectionOf "" [] (TNode f "def-section" [])) by (constructor; constructor). rewrite <- (app_nil_r root) in I, NH, NU.
        destruct (insert_inv trim root (TNode f "def-section" []) [] "" [] secs f (1 + f) false I S NH) as [X1 X2]; [intros p n []| |].
        { apply (numbered_tops root [] [TNode f "def-section" []] [] f (1 + f) NU); [lia| | | | | |].
          1-3: cbn; repeat constructor; intros [].
          1: cbn; intros k [<-|[]]; right; lia.
          all: intros ? []. }
        rewrite (app_nil_r root) in X2. eapply node_added; [exact X1|exact G|reflexivity|exact X2].
    + subst root. assert (S : sectionOf "" [] (TNode f "def-section" [])) by (constructor; constructor).
      destruct (insert_inv trim [] (TNode f "def-section" []) [] "" [] secs f (1 + f) false I S NH) as [X1 X2]; [intros p n []| |].
      { apply (numbered_tops [] [] [TNode f "def-section" []] [] f (1 + f) NU); [lia| | | | | |].
        1-3: cbn; repeat constructor; intros [].
        1: cbn; intros k [<-|[]]; right; lia.
        all: intros ? []. }
      eapply node_added; [exact X1|exact G|reflexivity|exact X2].
  - set (ps := [PNode (1 + f) "header" [Tk (2 + f) "op" "["; Tk (3 + f) "sec-name" s; Tk (4 + f) "op" "]"; nlNode (5 + f)]]).
    assert (S : sectionOf s [] (TNode f "section" ps)).
    { unfold ps. apply (Named trim f (1 + f) [Tk (2 + f) "op" "["] (3 + f) s [Tk (4 + f) "op" "]"; nlNode (5 + f)] []); [exact NS| | |constructor].
      - constructor; [right; reflexivity|constructor].
      - constructor; [right; reflexivity|]. constructor; [left; right; reflexivity|constructor]. }
    assert (FIN : forall root' f', f <= f' -> f' <= 8 + f -> inv root' secs f' -> numbered (root' ++ [TNode f "section" ps]) (8 + f) -> (forall s' n v, says root' s' n v <-> says root s' n v) -> ~ hasSection root' s -> added root s (addSectionNode f "section" ps (mkConf (root' ++ [TNode f "section" ps]) secs true (8 + f)))).
    { intros root' f' L1 L2 I' NU' E NH'. rewrite <- (app_nil_r root') in I', NH'.
      destruct (insert_inv trim root' (TNode f "section" ps) [] s [] secs f' (8 + f) false I' S NH') as [X1 X2]; [intros p n []|exact NU'|].
      eapply node_added; [exact X1|exact G|reflexivity|]. intros s' n v. rewrite X2, app_nil_r. apply E. }
    assert (NEW : forall root', numbered root' f -> numbered (root' ++ [TNode f "section" ps]) (6 + f)).
    { intros root' N'. rewrite <- (app_nil_r root') in N'. apply (numbered_tops root' [] [TNode f "section" ps] [] f (6 + f) N'); [lia| | | | | |].
      1-3: cbn; repeat constructor; cbn; intuition lia.
      all: cbn; intros k HK; right; intuition lia. }
    assert (BIG : forall root' a b, numbered root' a -> a <= b -> numbered root' b).
    { intros root' a b (N1 & N2 & N3 & N4) L. repeat split; try assumption. eapply Forall_impl; [|exact N4]. cbn. intros; lia. }
    pose proof (last_spec root) as LS. destruct (last_ root) as [[t|j ty qs]|].
    + cbn [obind]. apply (FIN root f); auto; [lia|apply (BIG _ (6 + f)); [apply NEW, NU|lia]|reflexivity].
    + destruct LS as (m & ->). apply Forall_app in DO as [_ DO]. inversion DO as [|? ? IT _]; subst. destruct (item_node _ _ _ IT) as (s0 & hd & ps0 & -> & S0 & F0 & K0 & HD0).
      pose proof (last_spec (hd ++ ps0)) as LQ. destruct (last_ (hd ++ ps0)) as [lp|]; cbn [obind].
      * destruct (String.eqb (partType lp) "sep") eqn:ES; cbn [negb].
        -- apply (FIN _ f); auto; [lia|apply (BIG _ (6 + f)); [apply NEW, NU|lia]|reflexivity].
        -- destruct NU as (ND1 & _). rewrite (onTop_at _ _ _ _ _ _ ND1). cbn [app]. rewrite <- (app_assoc hd).
           assert (NUM : numbered (m ++ TNode j ty (hd ++ ps0 ++ [sepNode (6 + f)]) :: []) (8 + f)) by (rewrite app_assoc; apply (sep_numbered m j ty (hd ++ ps0) [] f (6 + f)); [exact (i_num _ _ _ _ I)|lia]).
           pose proof (quiet_inv trim trim_empty m j ty hd [] s0 ps0 [] [sepNode (6 + f)] [] secs f (8 + f)) as Q. cbn [app] in Q. rewrite (app_nil_r ps0) in Q. destruct Q as (Q1 & Q2 & Q3); try assumption.
           { apply K0. apply Forall_app. split; [exact F0|]. constructor; [apply sep_piece|constructor]. }
           { intros p n [[]|[<-|[]]]. apply sep_no_entry. }
           { lia. }
           apply (FIN _ (8 + f)); [lia|lia|exact Q1| |exact Q2|rewrite Q3; exact NH].
           rewrite <- app_assoc. cbn [app]. pose proof (NEW _ (i_num _ _ _ _ I)) as X. rewrite <- app_assoc in X. cbn [app] in X. rewrite app_assoc. apply (sep_numbered m j ty (hd ++ ps0) [TNode f "section" ps] (6 + f) (6 + f)); [exact X|lia].
      * split; [exact NS|]. split; [exact NH|]. destruct HD0 as [(-> & _ & ->)|(h & ks & -> & _)]; [|discriminate]. cbn in LQ. subst ps0. exists m, j. reflexivity.
    + subst root. cbn [obind]. apply (FIN [] f); auto; [lia|apply (BIG _ (6 + f)); [apply NEW, NU|lia]|reflexivity].
Qed.

Theorem remove_section s root secs u f : inv root secs f ->
  match removeSection s (mkConf root secs u f) with
  | Some c' => inv (cRoot c') (cSections c') (cFresh c') /\ (forall s' n v, says (cRoot c') s' n v <-> s' <> s /\ says root s' n v)
  | None => exists A t i ty qs B, root = A ++ TTok t :: TNode i ty qs :: B /\ sectionNamed s (TNode i ty qs)
  end.
Proof.
  intros I. unfold removeSection. cbn [cSections cRoot cFresh]. destruct (get s secs) as [sc|] eqn:G.
  2:{ cbn. split; [exact I|]. intros s' n v. split; [|tauto]. intros (t & ps & HI & S & X). split; [|exists t, ps; auto]. intros ->. pose proof (i_rec _ _ _ _ I s) as C. rewrite G in C. apply C. exists t, ps. auto. }
  destruct (found trim _ _ _ _ _ I G) as (A & i & ty & hd & ps & B & -> & S & F & K & SN & EO & HD). rewrite SN. destruct (i_num _ _ _ _ I) as (ND1 & ND2 & _). rewrite (prevOf_at _ _ _ _ _ ND1).
  assert (PLAIN : forall A', inv (A' ++ TNode i ty (hd ++ ps) :: B) secs f -> (forall s' n v, says (A' ++ TNode i ty (hd ++ ps) :: B) s' n v <-> says (A ++ TNode i ty (hd ++ ps) :: B) s' n v) ->
    inv (onTop i (fun _ => []) (A' ++ TNode i ty (hd ++ ps) :: B)) (del s secs) f /\ (forall s' n v, says (onTop i (fun _ => []) (A' ++ TNode i ty (hd ++ ps) :: B)) s' n v <-> s' <> s /\ says (A ++ TNode i ty (hd ++ ps) :: B) s' n v)).
  { intros A' I' E. destruct (i_num _ _ _ _ I') as (ND & _). rewrite (onTop_at _ _ _ _ _ _ ND). cbn [app]. destruct (drop_inv trim _ _ _ _ _ _ _ I' S) as [X1 X2]. split; [exact X1|]. intros s' n v. rewrite X2, E. reflexivity. }
  pose proof (last_spec A) as LS. destruct (last_ A) as [[t|j jty qs]|].
  - destruct LS as (m & ->). cbn [obind]. exists m, t, i, ty, (hd ++ ps), B. rewrite <- app_assoc. split; [reflexivity|]. exists ps. exact S.
  - destruct LS as (m & ->). pose proof (last_spec qs) as LQ. destruct (last_ qs) as [[t|k kty ks]|]; cbn [obind cRoot cSections cFresh]; try (apply PLAIN; [exact I|reflexivity]).
    destruct (String.eqb_spec kty "sep") as [->|NE]; cbn [obind cRoot cSections cFresh]; [|apply PLAIN; [exact I|reflexivity]].
    destruct LQ as (P & EP). rewrite <- app_assoc in *. cbn [app] in *.
    pose proof (i_doc _ _ _ _ I) as DO. apply Forall_app in DO as [_ DO]. inversion DO as [|? ? IT _]; subst. destruct (item_node _ _ _ IT) as (s0 & hd0 & ps0 & EQ & S0 & F0 & K0 & HD0).
    assert (X : exists P0, ps0 = P0 ++ [PNode k "sep" ks] /\ P = hd0 ++ P0).
    { pose proof (last_spec ps0) as L0. destruct (last_ ps0) as [x|]; [destruct L0 as (P0 & ->); exists P0; rewrite app_assoc in EQ; apply app_inj_tail in EQ as [-> ->]; auto|].
      subst ps0. rewrite app_nil_r in EQ. destruct HD0 as [(-> & _)|(h & hk & -> & _)]; [destruct P; discriminate|]. change [PNode h "header" hk] with ([] ++ [PNode h "header" hk]) in EQ. apply app_inj_tail in EQ as [_ EQ]. discriminate. }
    destruct X as (P0 & -> & ->).
    rewrite (onPart_at k _ m j jty (hd0 ++ P0) "sep" ks [] (TNode i ty (hd ++ ps) :: B) ND2). cbn [app].
    rewrite <- (app_assoc hd0) in *. rewrite (app_nil_r P0).
    pose proof (quiet_inv trim trim_empty m j jty hd0 (TNode i ty (hd ++ ps) :: B) s0 P0 [PNode k "sep" ks] [] [] secs f f) as Q. cbn [app] in Q. rewrite (app_nil_r P0) in Q. destruct Q as (Q1 & Q2 & _); try assumption.
    + apply K0. apply Forall_app in F0 as [F0 _]. exact F0.
    + intros p n [[<-|[]]|[]]. intros (? & ? & ? & X & _). discriminate.
    + pose proof (numbered_parts m j jty (hd0 ++ P0) [PNode k "sep" ks] [] [] (TNode i ty (hd ++ ps) :: B) f f) as X. cbn [app] in X. rewrite (app_nil_r (hd0 ++ P0)) in X. apply X; [rewrite <- (app_assoc hd0); exact (i_num _ _ _ _ I)|lia|apply NoDup_nil|apply NoDup_nil|intros ? []|intros ? []].
    + lia.
    + pose proof (PLAIN (m ++ [TNode j jty (hd0 ++ P0)])) as X. rewrite <- !app_assoc in X. cbn [app] in X. rewrite <- (app_assoc hd0). exact (X Q1 Q2).
  - subst A. cbn [obind cRoot cSections cFresh]. apply PLAIN; [exact I|reflexivity].
Qed.

(** ** Loading *)
Lemma load_parts s i root f u secs0 b Q : forall P es secs, Forall piece Q -> distinctParts (P ++ Q) -> entriesOk P es -> (forall x, get x secs = get x (put s (mkSec [i] es b) secs0)) ->
  exists secs' es', fold_left (fun o p => match p with PNode j pty ks => if String.eqb pty "entry" then do c <- o; addEntryNode trim s j ks c else o | _ => o end) Q (Some (mkConf root secs u f)) = Some (mkConf root secs' u f) /\
    entriesOk (P ++ Q) es' /\ (forall x, get x secs' = get x (put s (mkSec [i] es' b) secs0)).
Proof.
  induction Q as [|q Q IH]; intros P es secs F D EO GE; cbn [fold_left].
  - exists secs, es. rewrite app_nil_r. auto.
  - inversion F as [|? ? F1 F2]; subst. change (q :: Q) with ([q] ++ Q) in D |- *. rewrite app_assoc in D |- *.
    assert (QUIET : (forall n, ~ entryNamed n q) -> entriesOk (P ++ [q]) es).
    { intros NE. unfold distinctParts in D. apply fop_app in D as (D & _ & _). pose proof (parts_quiet trim trim_empty P [] [q] [] es) as X. cbn [app] in X. rewrite app_nil_r in X. destruct X as (_ & X & _); [apply fop_app in D; apply D|intros p n [[]|[<-|[]]]; apply NE|exact EO|exact X]. }
    destruct F1 as [t PT|j ks PT|j n v ks E].
    + apply (IH (P ++ [PTok t]) es secs); auto. apply QUIET. intros n (? & ? & ? & X & _). discriminate.
    + apply (IH (P ++ [PNode j "sep" ks]) es secs); auto. apply QUIET. intros n (? & ? & ? & X & _). discriminate.
    + cbn [String.eqb Ascii.eqb Bool.eqb]. change (String.eqb "entry" "entry") with true. cbn [obind].
      assert (NP : entryNamed n (PNode j "entry" ks)) by (exists j, ks, v; auto).
      assert (OH : forall p, In p P \/ In p [] -> ~ entryNamed n p) by (intros p [HI|[]] X; unfold distinctParts in D; apply fop_app in D as (D & _ & _); apply fop_app in D as (_ & _ & D); exact (D p _ HI (or_introl eq_refl) n X NP)).
      assert (GN : get n es = None).
      { pose proof (EO n) as EN. destruct (get n es) as [e|]; [|reflexivity]. destruct EN as (ks' & HI & V). exfalso. apply (valueOk_entry trim trim_empty) in V. apply (OH _ (or_introl HI)). exists (eNode e), ks', (trim (eValue e)). auto. }
      set (vn := match nth_error (searchIn "value" ks) 0 with Some t => Some (tid t) | None => None end). set (w := match nth_error (searchIn "value" ks) 0 with Some t => trim (ttext t) | None => "" end).
      assert (V : valueOk n ks (mkEntry j vn w)).
      { unfold valueOk, vn, w. cbn [eValueNode eValue]. destruct E as [i0 s1 j0 rest F1 F3 _|i0 s1 j0 s2 k x rest F1 F3 F4 _].
        - assert (X : searchIn "value" (Tk i0 "name" n :: s1 ++ Tk j0 "op" "=" :: rest) = []) by (rewrite search_cons; cbn; rewrite search_app, search_cons; cbn; rewrite (side_none _ _ F1), (plain_none _ _ F3) by discriminate; reflexivity). rewrite X. cbn. split; [reflexivity|]. exists i0, s1, j0, rest. auto.
        - assert (X : searchIn "value" (Tk i0 "name" n :: s1 ++ Tk j0 "op" "=" :: s2 ++ Tk k "value" x :: rest) = [Tk k "value" x]) by (rewrite search_cons; cbn; rewrite search_app, search_cons; cbn; rewrite search_app, search_cons; cbn; rewrite (side_none _ _ F1), (side_none _ _ F3), (plain_none _ _ F4) by discriminate; reflexivity). rewrite X. cbn. exists x, i0, s1, j0, s2, rest. rewrite trim_twice. auto 10. }
      assert (AE : exists secs1, addEntryNode trim s j ks (mkConf root secs u f) = Some (mkConf root secs1 u f) /\ forall x, get x secs1 = get x (put s (mkSec [i] (put n (mkEntry j vn w) es) b) secs0)).
      { unfold addEntryNode. cbn [cSections cRoot cUpdated cFresh]. rewrite (GE s), get_put, String.eqb_refl. cbn [obind]. destruct (entry_name trim _ _ _ E) as (i0 & EN). rewrite EN. change (nth_error [Tk i0 "name" n] 0) with (Some (Tk i0 "name" n)). cbn [obind ttext sEntries sNodes sUpdated]. rewrite GN. unfold vn, w. destruct (nth_error (searchIn "value" ks) 0) as [t|]; (eexists; split; [reflexivity|]; intros x; rewrite !get_put; destruct (String.eqb_spec x s) as [->|NE]; [reflexivity|]; rewrite GE, get_put; destruct (String.eqb_spec x s); [contradiction|reflexivity]). }
      destruct AE as (secs1 & -> & G1). apply (IH (P ++ [PNode j "entry" ks]) (put n (mkEntry j vn w) es) secs1); auto.
      pose proof (parts_change trim trim_empty n P [] [PNode j "entry" ks] [] es (put n (mkEntry j vn w) es)) as X. cbn [app] in X. rewrite (app_nil_r P) in X. destruct X as (_ & X & _); auto.
      * unfold distinctParts in D. apply fop_app in D as (D & _ & _). apply fop_app in D. apply D.
      * intros p [].
      * intros p [<-|[]]. exact NP.
      * intros n' NE. rewrite get_put. destruct (String.eqb_spec n' n); [contradiction|reflexivity].
      * rewrite get_put, String.eqb_refl. exists ks. auto.
Qed.

Theorem load_inv root f : document root -> numbered root f -> noRepeats root -> exists secs, load trim root f = Some (mkConf root secs false f) /\ inv root secs f.
Proof.
  intros D N R.
  assert (GO : forall B A secs, root = A ++ B -> recordsOk trim A secs -> exists secs', fold_left (fun o t => do c <- o; loadTop trim c t) B (Some (mkConf root secs false f)) = Some (mkConf root secs' false f) /\ recordsOk trim root secs').
  { induction B as [|t B IH]; intros A secs E C; cbn [fold_left]; [exists secs; rewrite app_nil_r in E; subst A; auto|].
    assert (HI : In t root) by (rewrite E; apply in_elt). cbn [obind]. assert (ES : root = (A ++ [t]) ++ B) by (rewrite <- app_assoc; exact E).
    pose proof (proj1 (Forall_forall _ _) D t HI) as IT. destruct IT as [x PT|s ps t S].
    - cbn [loadTop]. apply (IH _ secs ES). intros s. specialize (C s). destruct (get s secs) as [sc|].
      + destruct C as (t & ps & H1 & X). exists t, ps. split; [apply in_or_app; auto|exact X].
      + intros (t & ps & H1 & X). apply in_app_or in H1 as [H1|[<-|[]]]; [apply C; exists t, ps; auto|inversion X].
    - destruct (section_shape _ _ _ _ S) as (i & ty & hd & -> & F & K & HD). cbn [loadTop]. unfold addSectionNode. rewrite (section_name trim _ _ _ _ _ S). cbn [obind cSections cRoot cUpdated cFresh].
      assert (NA : forall u qs, In u A -> ~ sectionOf s qs u).
      { intros u qs HU X. destruct R as [R1 _]. rewrite E in R1. apply fop_app in R1 as (_ & _ & R1). eapply (R1 u _ HU (or_introl eq_refl) s); eexists; eassumption. }
      assert (GN : get s secs = None) by (pose proof (C s) as CS; destruct (get s secs) as [sc|]; [destruct CS as (u & qs & HU & X & _); exfalso; exact (NA u qs HU X)|reflexivity]).
      rewrite GN. cbn [obind fst snd]. pose proof (proj2 R _ _ _ HI S) as DP.
      assert (HQ : fold_left (fun o p => match p with PNode j pty ks => if String.eqb pty "entry" then do c <- o; addEntryNode trim s j ks c else o | _ => o end) (hd ++ ps) (Some (mkConf root (put s (mkSec [i] [] false) secs) false f))
        = fold_left (fun o p => match p with PNode j pty ks => if String.eqb pty "entry" then do c <- o; addEntryNode trim s j ks c else o | _ => o end) ps (Some (mkConf root (put s (mkSec [i] [] false) secs) false f))) by (destruct HD as [(-> & _)|(h & ks & -> & _)]; reflexivity).
      rewrite HQ. destruct (load_parts s i root f false secs false ps [] [] (put s (mkSec [i] [] false) secs) F DP) as (secs' & es' & EQ & EO & GE).
      { intros n v (? & ? & [] & _). }
      { reflexivity. }
      rewrite EQ. apply (IH _ secs' ES). intros x. rewrite GE, get_put. destruct (String.eqb_spec x s) as [->|NE].
      + exists (TNode i ty (hd ++ ps)), ps. split; [apply in_elt|]. auto.
      + specialize (C x). destruct (get x secs) as [sc|].
        * destruct C as (u & qs & HU & X). exists u, qs. split; [apply in_or_app; auto|exact X].
        * intros (u & qs & HU & X). apply in_app_or in HU as [HU|[<-|[]]]; [apply C; exists u, qs; auto|]. apply NE. eapply section_det; eassumption. }
  destruct (GO root [] [] eq_refl) as (secs & E & C); [intros s (t & ps & [] & _)|]. exists secs. split; [exact E|]. constructor; assumption.
Qed.

(** ** Histories *)
Definition meaning (secs : list (string * section)) (s n : string) : option string :=
  match get s secs with Some sc => match get n (sEntries sc) with Some e => Some (trim (eValue e)) | None => None end | None => None end.
Lemma inv_means root secs f : inv root secs f -> means trim root (meaning secs).
Proof.
  intros I s n v. unfold meaning. pose proof (i_rec _ _ _ _ I s) as C. destruct (get s secs) as [sc|].
  - destruct C as (t & ps & HI & S & _ & EO). specialize (EO n). pose proof (i_rep _ _ _ _ I) as R.
    assert (X : says root s n v <-> saysIn ps n v).
    { split; [|intros H; exists t, ps; auto]. intros (u & qs & HU & S' & H). pose proof (unique_section trim _ _ _ _ _ _ R HU HI S' S) as ->. destruct (section_det trim _ _ _ _ _ S S') as [_ <-]. exact H. }
    rewrite X. destruct (get n (sEntries sc)) as [e|]; [|split; [intros H; exfalso; exact (EO _ H)|discriminate]]. destruct EO as (ks & HK & V). apply (valueOk_entry trim trim_empty) in V.
    pose proof (proj2 R _ _ _ HI S) as D. split.
    + intros (i & ks' & HI' & E). assert (NP : entryNamed n (PNode (eNode e) "entry" ks)) by (eexists _, _, _; eauto). assert (NP' : entryNamed n (PNode i "entry" ks')) by (eexists _, _, _; eauto).
      destruct (fop_in _ _ _ _ D HK HI') as [Q|[Q|Q]]; [|exfalso; exact (Q n NP NP')|exfalso; exact (Q n NP' NP)]. injection Q as _ <-. f_equal. exact (proj2 (entry_det trim _ _ _ _ _ V E)).
    + intros E. injection E as <-. exists (eNode e), ks. auto.
  - split; [|discriminate]. intros (t & ps & HI & S & _). exfalso. apply C. exists t, ps. auto.
Qed.
Lemma means_unique root m m' : means trim root m -> means trim root m' -> forall s n, m s n = m' s n.
Proof. intros M M' s n. destruct (m s n) as [v|] eqn:E; [apply M, M' in E; congruence|]. destruct (m' s n) as [v|] eqn:E'; [apply M', M in E'; congruence|reflexivity]. Qed.

Lemma opt_iff (a b : option string) : (forall w, a = Some w <-> b = Some w) -> b = a.
Proof. intros Q. destruct b as [w|]; [symmetry; apply Q; reflexivity|]. destruct a as [w|]; [apply Q; reflexivity|reflexivity]. Qed.

(** panics that remain *)
Definition stuck (e : edit) (root : list top) : Prop :=
  match e with
  | AddSection s => s <> "" /\ ~ hasSection root s /\ exists A i, root = A ++ [TNode i "def-section" []]
  | SetEntry name _ => exists s n, dotted name s n /\ s <> "" /\ ~ hasSection root s /\ exists A i, root = A ++ [TNode i "def-section" []]
  | RemoveEntry _ => False
  | RemoveSection s => exists A t i ty qs B, root = A ++ TTok t :: TNode i ty qs :: B /\ sectionNamed s (TNode i ty qs)
  end.
Theorem perform_ok e root secs u f : inv root secs f ->
  match perform trim e (mkConf root secs u f) with
  | Some c' => inv (cRoot c') (cSections c') (cFresh c') /\ forall m, means trim root m -> edited trim e m (meaning (cSections c'))
  | None => stuck e root
  end.
Proof.
  intros I. destruct e as [name v|name|s|s]; cbn [perform].
  - unfold setEntry. pose proof (splitName_ok name) as DN. destruct (splitName name) as [s n]. cbn [fst snd] in DN. pose proof (add_section s root secs u f I) as AD. destruct (addSection s (mkConf root secs u f)) as [[s' [r1 secs1 u1 f1]]|]; cbn [obind fst snd]; [|exists s, n; split; [exact DN|exact AD]].
    destruct AD as (-> & I1 & E1 & sc & G). cbn [cRoot cSections cFresh] in *.
    assert (X : exists c', sectionSetEntry trim s n v (mkConf r1 secs1 u1 f1) = Some c' /\ inv (cRoot c') (cSections c') (cFresh c') /\ outcome r1 (cRoot c') s n (Some (trim v))) by (destruct (get n (sEntries sc)) as [e|] eqn:GE; [exact (set_known trim trim_empty s n v r1 secs1 u1 f1 sc e I1 G GE)|exact (set_new trim trim_empty trim_twice s n v r1 secs1 u1 f1 sc I1 G GE)]).
    destruct X as (c' & -> & I2 & O1 & O2). split; [exact I2|]. intros m M. exists s, n. split; [exact DN|]. pose proof (inv_means _ _ _ I2) as M2. split; [apply M2, O1; reflexivity|]. intros s' n' NE.
    assert (Q : forall w, m s' n' = Some w <-> meaning (cSections c') s' n' = Some w) by (intros w; rewrite <- (M s' n' w), <- (M2 s' n' w), (O2 _ _ _ NE), E1; reflexivity).
    exact (opt_iff _ _ Q).
  - unfold removeEntry. pose proof (splitName_ok name) as DN. destruct (splitName name) as [s n]. cbn [fst snd cSections cRoot cFresh cUpdated] in *.
    assert (SAME : meaning secs s n = None -> inv root secs f /\ forall m, means trim root m -> edited trim (RemoveEntry name) m (meaning secs)) by (intros X; split; [exact I|]; intros m M; exists s, n; split; [exact DN|]; split; [exact X|]; intros; apply (means_unique root); [apply (inv_means _ _ _ I)|exact M]).
    destruct (get s secs) as [sc|] eqn:G; [|apply SAME; unfold meaning; rewrite G; reflexivity]. destruct (get n (sEntries sc)) as [e|] eqn:GE; [|apply SAME; unfold meaning; rewrite G, GE; reflexivity]. cbn [cRoot cSections cFresh].
    destruct (remove_known trim trim_empty s n root secs f sc e true I G GE) as [I2 [O1 O2]]. split; [exact I2|]. intros m M. exists s, n. split; [exact DN|]. pose proof (inv_means _ _ _ I2) as M2. split.
    + match goal with |- ?a = None => destruct a as [w|] eqn:E; [|reflexivity] end. apply M2, O1 in E. discriminate.
    + intros s' n' NE. match goal with |- ?a = _ => assert (Q : forall w, m s' n' = Some w <-> a = Some w) by (intros w; rewrite <- (M s' n' w), <- (M2 s' n' w), (O2 _ _ _ NE); reflexivity); exact (opt_iff _ _ Q) end.
  - pose proof (remove_section s root secs u f I) as RS. destruct (removeSection s (mkConf root secs u f)) as [c'|]; [|exact RS]. destruct RS as [I2 O]. split; [exact I2|]. intros m M s' n'. pose proof (inv_means _ _ _ I2) as M2.
    assert (Q : forall w, meaning (cSections c') s' n' = Some w <-> s' <> s /\ m s' n' = Some w) by (intros w; rewrite <- (M s' n' w), <- (M2 s' n' w), O; reflexivity).
    destruct (String.eqb_spec s' s) as [->|NE]; [destruct (meaning (cSections c') s n') as [w|]; [destruct (proj1 (Q w) eq_refl); congruence|reflexivity]|].
    destruct (meaning (cSections c') s' n') as [w|]; [destruct (proj1 (Q w) eq_refl); congruence|]. destruct (m s' n') as [w|]; [|reflexivity]. apply Q. auto.
  - pose proof (add_section s root secs u f I) as AD. destruct (addSection s (mkConf root secs u f)) as [[s' [r1 secs1 u1 f1]]|]; cbn [obind fst snd]; [|exact AD]. destruct AD as (-> & I1 & E1 & _). cbn [cRoot cSections cFresh] in *. split; [exact I1|]. intros m M s' n'. pose proof (inv_means _ _ _ I1) as M2. apply opt_iff. intros w. rewrite <- (M s' n' w), <- (M2 s' n' w), E1. reflexivity.
Qed.
End P.
