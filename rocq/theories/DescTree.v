(** Trees by records (DescTreeSpec.v) are trees by definitions with indices (LangTreeSpec.v). *)
From Coq Require Import ZArith List Bool Lia.
From Verif Require Import Base BaseProofs Grammar ParserSpec LangBuild LangTypes LangText LangTextTotal LangTreeSpec LangDescSpec LangDescFacts DescTreeSpec.
Import ListNotations.
Open Scope Z_scope.

Scheme fits_mut := Induction for fits Sort Prop
with fitsSeq_mut := Induction for fitsSeq Sort Prop
with conforms_mut := Induction for conforms Sort Prop.
Scheme vTree_mut := Induction for vTree Sort Prop
with iTree_mut := Induction for iTree Sort Prop
with sTree_mut := Induction for sTree Sort Prop
with nTree_mut := Induction for nTree Sort Prop.

Lemma position_back n l x : zget l (position n l) = Some x -> x = n /\ In n l.
Proof.
  intros G. destruct (in_dec (list_eq_dec Z.eq_dec) n l) as [I0|I0]; [rewrite (position_get _ _ I0) in G; injection G as <-; auto|]. exfalso. apply zget_Some_inv in G. assert (X : position n l = zlen l); [|lia]. clear G. induction l as [|y l IH]; [reflexivity|]. cbn [position]. destruct (nameEqb n y) eqn:E; [apply nameEqb_ok in E; subst y; destruct I0; left; reflexivity|]. rewrite IH by (intros X; apply I0; right; exact X). unfold zlen. cbn [length]. lia.
Qed.
Lemma map_Some {A B} (f : A -> option B) l : (forall x, In x l -> f x <> None) -> map Some (flat (fun x => match f x with Some d => [d] | None => [] end) l) = map f l.
Proof. induction l as [|x l IH]; intros H; [reflexivity|]. unfold flat in *. cbn [map concat]. destruct (f x) as [d|] eqn:E; [|destruct (H x (or_introl eq_refl) E)]. cbn [app map]. f_equal. apply IH. intros y I0. apply H. right. exact I0. Qed.

Section Equiv.
Context {Tok Inst R : Type} (token : Tok -> Z -> Prop) (side : Tok -> Prop).
Variable rs : list record.
Notation cs := (defsOf rs).
Hypothesis all : forall n, In n (nodeNames rs) -> definition rs n <> None.
Hypothesis once : NoDup (nodesDefined rs).
Notation isType := (fun t n => token t (position n (typeNames rs))).
Notation isLiteral := (fun t s => token t (zlen (typeNames rs) + position s (literals rs))).
Notation isEnd := (fun t => token t EoiToken).
Notation number := (fun n => position n (nodeNames rs)).
Notation nTr := (nTree (Inst:=Inst) (R:=R) isType isLiteral isEnd side number rs).
Notation vTr := (vTree (Inst:=Inst) (R:=R) isType isLiteral isEnd side number rs).
Notation iTr := (iTree (Inst:=Inst) (R:=R) isType isLiteral isEnd side number rs).
Notation sTr := (sTree (Inst:=Inst) (R:=R) isType isLiteral isEnd side number rs).
Notation ckOf := (chunkOf rs).
Notation item i := (oneOf (map (chunkOf rs) i)).
Lemma defs_are : map Some cs = map (definition rs) (nodeNames rs).
Proof. apply map_Some, all. Qed.
Lemma zmap {A B} (f : A -> B) l i : zget (map f l) i = option_map f (zget l i).
Proof. unfold zget. destruct (i <? 0); [reflexivity|]. apply nth_error_map. Qed.
Lemma def_get i d : zget cs i = Some d -> exists n, zget (nodeNames rs) i = Some n /\ definition rs n = Some d.
Proof.
  intros G. assert (X : zget (map Some cs) i = Some (Some d)) by (rewrite zmap, G; reflexivity). rewrite defs_are, zmap in X. destruct (zget (nodeNames rs) i) as [n|]; [|discriminate]. injection X as X. eauto.
Qed.
Lemma definition_in n d : definition rs n = Some d -> exists l, In (RNode n l) rs /\ d = definitionOf rs l.
Proof.
  unfold definition. destruct (find _ rs) as [r|] eqn:F; [|discriminate]. apply find_some in F. destruct F as (I0 & F). destruct r as [| | | |n' l]; try discriminate. apply nameEqb_ok in F. subst n'. intros E. injection E as <-. eauto.
Qed.
Lemma in_definition n l : In (RNode n l) rs -> definition rs n = Some (definitionOf rs l).
Proof.
  intros I0. unfold definition. assert (X : find (fun r => match r with RNode n' _ => nameEqb n n' | _ => false end) rs = Some (RNode n l)); [|rewrite X; reflexivity].
  generalize once. clear all once. revert I0. induction rs as [|r l0 IH]; intros I0 ND; [destruct I0|]. cbn [find]. destruct I0 as [->|I0].
  - rewrite (proj2 (nameEqb_ok n n) eq_refl). reflexivity.
  - assert (ND' : NoDup (nodesDefined l0)) by (unfold nodesDefined, flat in *; cbn [map concat] in ND; destruct r; cbn [app] in ND; try exact ND; inversion ND; assumption).
    destruct r as [| | | |n' l']; try (apply IH; assumption). destruct (nameEqb n n') eqn:E; [|apply IH; assumption]. apply nameEqb_ok in E. subst n'. exfalso. unfold nodesDefined, flat in ND. cbn [map concat app] in ND. inversion ND as [|? ? X _]; subst. apply X. apply in_concat. exists [n]. split; [|left; reflexivity]. apply in_map_iff. exists (RNode n l). auto.
Qed.
Lemma one_single i d : item i = d -> (forall l, d <> CVar l) -> exists v, i = [v] /\ ckOf v = d.
Proof. intros E N. destruct i as [|v [|v' i]]; cbn [map oneOf] in E; try (exfalso; apply (N _ (eq_sym E))). exists v. auto. Qed.
Lemma chunk_noVar v l : ckOf v <> CVar l. Proof. destruct v; discriminate. Qed.
Lemma variant_of i v (ts : list (tree Tok Inst R)) : i = [v] -> iTr i ts -> vTr v ts.
Proof. intros -> H. inversion H as [i' v' ts' I0 X]; subst. destruct I0 as [<-|[]]. exact X. Qed.

Lemma fits_records :
  (forall d ts, fits token side cs d ts -> forall i, d = item i -> iTr i ts) /\
  (forall ds ts, fitsSeq token side cs ds ts -> forall l, ds = map (fun i => item i) l -> sTr l ts) /\
  (forall i T, conforms token side cs i T -> forall n, i = position n (nodeNames rs) -> nTr n T).
Proof.
  set (P := fun d ts (_ : fits (Inst:=Inst) (R:=R) token side cs d ts) => forall i, d = item i -> iTr i ts).
  set (P0 := fun ds ts (_ : fitsSeq (Inst:=Inst) (R:=R) token side cs ds ts) => forall l, ds = map (fun i => item i) l -> sTr l ts).
  set (P1 := fun i T (_ : conforms (Inst:=Inst) (R:=R) token side cs i T) => forall n, i = position n (nodeNames rs) -> nTr n T).
  assert (C1 : forall k t (h : token t k), P _ _ (F_token token side cs k t h)).
  { intros k t H i E. destruct (one_single i _ (eq_sym E)) as (v & -> & V); [discriminate|]. apply (IT_variant _ _ _ _ _ _ _ v); [left; reflexivity|]. destruct v as [n|n| |s|b l]; cbn [chunkOf] in V; try discriminate V; injection V as <-; constructor; exact H. }
  assert (C2 : forall t (h : token t EoiToken), P _ _ (F_eoi token side cs t h)).
  { intros t H i E. destruct (one_single i _ (eq_sym E)) as (v & -> & V); [discriminate|]. apply (IT_variant _ _ _ _ _ _ _ v); [left; reflexivity|]. destruct v as [n|n| |s|b l]; cbn [chunkOf] in V; try discriminate V. constructor. exact H. }
  assert (C3 : forall j T (c : conforms token side cs j T), P1 _ _ c -> P _ _ (F_nested token side cs j T c)).
  { intros j T c IH i E. destruct (one_single i _ (eq_sym E)) as (v & -> & V); [discriminate|]. apply (IT_variant _ _ _ _ _ _ _ v); [left; reflexivity|]. destruct v as [n|n| |s|b l]; cbn [chunkOf] in V; try discriminate V. injection V as <-. constructor. apply IH. reflexivity. }
  assert (C4 : forall l d ts (h : In d l) (f : fits token side cs d ts), P _ _ f -> P _ _ (F_variant token side cs l d ts h f)).
  { intros l d ts H f IH i E. destruct i as [|v [|v' i]]; cbn [map oneOf] in E; [injection E as ->; destruct H|symmetry in E; exfalso; apply (chunk_noVar _ _ E)|]. injection E as ->. change (In d (map ckOf (v :: v' :: i))) in H. apply in_map_iff in H. destruct H as (u & <- & U). apply (IT_variant _ _ _ _ _ _ _ u); [exact U|]. apply (variant_of [u] u _ eq_refl). apply IH. reflexivity. }
  assert (SQ : forall opt rep l i, CGroup opt rep l = item i -> exists b m, i = [VList b m] /\ opt = match b with Round => false | _ => true end /\ rep = match b with Curly => true | _ => false end /\ l = map (fun i => item i) m).
  { intros opt rep l i E. destruct (one_single i _ (eq_sym E)) as (v & -> & V); [discriminate|]. destruct v as [n|n| |s|b m]; cbn [chunkOf] in V; try discriminate V. injection V as <- <- <-. exists b, m. auto. }
  assert (C5 : forall opt rep l ts (f : fitsSeq token side cs l ts), P0 _ _ f -> P _ _ (F_once token side cs opt rep l ts f)).
  { intros opt rep l ts f IH i E. destruct (SQ _ _ _ _ E) as (b & m & -> & -> & -> & L). apply (IT_variant _ _ _ _ _ _ _ (VList b m)); [left; reflexivity|]. specialize (IH m L). destruct b; [apply VT_round|apply VT_some|rewrite <- (app_nil_r ts); apply VT_again; [|apply VT_never]]; exact IH. }
  assert (C6 : forall rep l, P _ _ (F_never token side cs rep l)).
  { intros rep l i E. destruct (SQ _ _ _ _ E) as (b & m & -> & O & _ & _). apply (IT_variant _ _ _ _ _ _ _ (VList b m)); [left; reflexivity|]. destruct b; [discriminate|apply VT_none|apply VT_never]. }
  assert (C7 : forall opt l ts us (f : fitsSeq token side cs l ts), P0 _ _ f -> forall f1 : fits token side cs (CGroup opt true l) us, P _ _ f1 -> P _ _ (F_again token side cs opt l ts us f f1)).
  { intros opt l ts us f IH f1 IH1 i E. destruct (SQ _ _ _ _ E) as (b & m & -> & O & RP & L). apply (IT_variant _ _ _ _ _ _ _ (VList b m)); [left; reflexivity|]. destruct b; try discriminate RP. apply VT_again; [apply IH, L|]. apply (variant_of _ _ _ eq_refl). apply IH1. exact E. }
  assert (C8 : P0 _ _ (FS_nil token side cs)). { intros l E. destruct l; [constructor|discriminate]. }
  assert (C9 : forall d l ts us (f : fits token side cs d ts), P _ _ f -> forall f1 : fitsSeq token side cs l us, P0 _ _ f1 -> P0 _ _ (FS_cons token side cs d l ts us f f1)).
  { intros d l ts us f IH f1 IH1 m E. destruct m as [|i m]; [discriminate|]. cbn [map] in E. injection E as E1 E2. constructor; [apply IH, E1|apply IH1, E2]. }
  assert (C10 : forall i d t0 hooks results kids core (h : zget cs i = Some d) (w : withSides side kids core) (f : fits token side cs d core), P _ _ f -> P1 _ _ (C_node token side cs i d t0 hooks results kids core h w f)).
  { intros i d t0 hooks results kids core G W f IH n E. destruct (def_get _ _ G) as (n' & GN & DN). rewrite E in GN. destruct (position_back _ _ _ GN) as (-> & IN). destruct (definition_in _ _ DN) as (l & IL & ->). rewrite E. apply (NT_node isType isLiteral isEnd side number rs n l t0 hooks results kids core IL W). specialize (IH [VList Round l] eq_refl). apply (variant_of _ _ _ eq_refl) in IH. inversion IH; subst. assumption. }
  split; [|split].
  - exact (fits_mut Tok Inst R token side cs P P0 P1 C1 C2 C3 C4 C5 C6 C7 C8 C9 C10).
  - exact (fitsSeq_mut Tok Inst R token side cs P P0 P1 C1 C2 C3 C4 C5 C6 C7 C8 C9 C10).
  - exact (conforms_mut Tok Inst R token side cs P P0 P1 C1 C2 C3 C4 C5 C6 C7 C8 C9 C10).
Qed.
Lemma item_one i v (ts : list (tree Tok Inst R)) : In v i -> fits token side cs (ckOf v) ts -> fits token side cs (item i) ts.
Proof.
  intros I0 F. destruct i as [|x [|y i]]; [destruct I0|destruct I0 as [->|[]]; exact F|]. cbn [map oneOf]. apply F_variant with (c := ckOf v); [|exact F]. change (In (ckOf v) (map ckOf (x :: y :: i))). apply in_map, I0.
Qed.
Lemma records_fits : forall n T, nTr n T -> conforms token side cs (position n (nodeNames rs)) T.
Proof.
  apply (nTree_mut Tok Inst R isType isLiteral isEnd side number rs (fun v ts _ => fits token side cs (ckOf v) ts) (fun i ts _ => fits token side cs (item i) ts) (fun l ts _ => fitsSeq token side cs (map (fun i => item i) l) ts) (fun n T _ => conforms token side cs (position n (nodeNames rs)) T)).
  - intros n T _ IH. apply F_nested, IH.
  - intros n t H. apply F_token, H.
  - intros t H. apply F_eoi, H.
  - intros s t H. apply F_token, H.
  - intros l ts _ IH. apply F_once, IH.
  - intros l. apply F_never.
  - intros l ts _ IH. apply F_once, IH.
  - intros l. apply F_never.
  - intros l ts us _ IH _ IH'. apply F_again; [exact IH|exact IH'].
  - intros i v ts I0 _ IH. eapply item_one; eassumption.
  - apply FS_nil.
  - intros i l ts us _ IH _ IH'. apply FS_cons; [exact IH|exact IH'].
  - intros n l t0 hooks results kids core IL W _ IH. pose proof (in_definition _ _ IL) as D. assert (IN : In n (nodeNames rs)). { unfold nodeNames. apply firsts_In. unfold flat. apply in_concat. exists (n :: seqNodes l). split; [apply in_map_iff; exists (RNode n l); auto|left; reflexivity]. }
    apply (C_node token side cs _ (definitionOf rs l) t0 hooks results kids core); [|exact W|apply F_once, IH].
    assert (X : zget (map Some cs) (position n (nodeNames rs)) = Some (Some (definitionOf rs l))) by (rewrite defs_are, zmap, (position_get _ _ IN); cbn; rewrite D; reflexivity). rewrite zmap in X. destruct (zget cs _); [|discriminate]. injection X as ->. reflexivity.
Qed.
(** trees of nodes are the same *)
Lemma trees_same n T : nTr n T <-> conforms token side cs (position n (nodeNames rs)) T.
Proof. split; [apply records_fits|]. intros H. exact (proj2 (proj2 fits_records) _ _ H n eq_refl). Qed.
End Equiv.
