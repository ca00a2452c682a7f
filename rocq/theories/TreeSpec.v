(** What a forest of elements is, independently of the links: which children each
    element has, in order, and the chains of elements without a parent. *)
From Coq Require Import List Bool Arith.
From Verif Require Import Base Tree.
Import ListNotations.
Open Scope nat_scope.

Record forest := mkForest {
  kids : id -> list id;       (* children, left to right *)
  tops : list (list id)       (* chains of siblings that have no parent *)
}.

Definition upd_kids (F : forest) (p : id) (l : list id) : forest := mkForest (upd (kids F) p l) (tops F).
Definition on_lists (g : list id -> list id) (F : forest) : forest :=
  mkForest (fun p => g (kids F p)) (map g (tops F)).
Definition loose (F : forest) (x : id) : forest := mkForest (kids F) ([x] :: tops F).

Definition without (x : id) (l : list id) : list id := filter (fun y => negb (y =? x)) l.
Definition put_before (b x : id) (l : list id) : list id := flat_map (fun y => if y =? b then [x; y] else [y]) l.
Definition put_after (b x : id) (l : list id) : list id := flat_map (fun y => if y =? b then [y; x] else [y]) l.
Definition put_instead (b x : id) (l : list id) : list id := map (fun y => if y =? b then x else y) l.
Definition member (x : id) (l : list id) : bool := existsb (Nat.eqb x) l.

(** [x] is [y] or an ancestor of [y]. *)
Inductive reach (F : forest) (x : id) : id -> Prop :=
| reach_refl : reach F x x
| reach_kid y z : reach F x y -> In z (kids F y) -> reach F x z.

Definition has_parent (F : forest) (x : id) : Prop := exists p, In x (kids F p).
(** [x] can be moved by the package functions: it has a parent, or it stands alone. *)
Definition movable (F : forest) (x : id) : Prop := has_parent F x \/ In [x] (tops F).

(** ** Edits *)
Inductive edit :=
| ENew (node : bool)
| EAddChild (n : id) (c before : option id)
| ERemoveChild (n : id) (c : option id)
| EDetach (c : option id)
| EReplace (old new : option id)
| EAppendSibling (target el : option id)
| EPrependSibling (target el : option id)
| EAppendChild (pa el : option id).

(** Intended effect.  [sz] is the number of elements so far. *)
Definition f_edit (sz : nat) (F : forest) (e : edit) : forest :=
  match e with
  | ENew _ => loose F sz
  | EAddChild n (Some c) None =>
      let G := on_lists (without c) F in upd_kids G n (kids G n ++ [c])
  | EAddChild n (Some c) (Some b) =>
      if member b (kids F n) then on_lists (fun l => put_before b c (without c l)) F else F
  | ERemoveChild n (Some c) =>
      if member c (kids F n) then loose (on_lists (without c) F) c else F
  | EDetach (Some c) | EReplace (Some c) None =>
      if member c (concat (tops F)) then F else loose (on_lists (without c) F) c
  | EReplace (Some o) (Some n) =>
      if n =? o then F
      else loose (on_lists (fun l => put_instead o n (without n l)) F) o
  | EAppendSibling (Some t) (Some e) => on_lists (fun l => put_after t e (without e l)) F
  | EPrependSibling (Some t) (Some e) => on_lists (fun l => put_before t e (without e l)) F
  | EAppendChild (Some n) (Some c) =>
      let G := on_lists (without c) F in upd_kids G n (kids G n ++ [c])
  | _ => F
  end.

Definition exists_ (sz : nat) (x : option id) : Prop := match x with None => True | Some x => x < sz end.

(** Preconditions: only elements that exist; an element is not put under itself or
    next to itself; AddChild takes an element that stands alone; the others take an element
    that has a parent or stands alone; Replace needs a parent and another element than the next
    sibling (see [replace_next_sibling_refuted]). *)
Definition allowed (nodes : id -> bool) (sz : nat) (F : forest) (e : edit) : Prop :=
  match e with
  | ENew _ => True
  | EAddChild n c b =>
      n < sz /\ nodes n = true /\ exists_ sz c /\ exists_ sz b /\
      forall c', c = Some c' -> (In [c'] (tops F) /\ ~ reach F c' n)
  | ERemoveChild n c => n < sz /\ nodes n = true /\ exists_ sz c
  | EDetach c => exists_ sz c
  | EReplace o n => exists_ sz o /\ exists_ sz n /\
      forall o' n', o = Some o' -> n = Some n' ->
        has_parent F o' /\ movable F n' /\ (n' = o' \/ ~ reach F n' o') /\
        forall p l1 l2, kids F p <> l1 ++ o' :: n' :: l2
  | EAppendSibling t e | EPrependSibling t e => exists_ sz t /\ exists_ sz e /\
      forall t' e', t = Some t' -> e = Some e' -> movable F e' /\ ~ reach F e' t'
  | EAppendChild n c => exists_ sz n /\ exists_ sz c /\
      (forall n', n = Some n' -> nodes n' = true) /\
      forall n' c', n = Some n' -> c = Some c' -> movable F c' /\ ~ reach F c' n'
  end.

(** ** What consistent links are *)

(** Siblings [l] of parent [pa]: every link of every one of them. *)
Definition linked (h : heap) (pa : option id) (l : list id) : Prop :=
  forall i x, nth_error l i = Some x ->
    parent h x = pa /\
    prev h x = match i with O => None | S j => nth_error l j end /\
    next h x = nth_error l (S i).

Record consistent (h : heap) (F : forest) : Prop := {
  c_kids : forall p, linked h (Some p) (kids F p);
  c_tops : Forall (linked h None) (tops F);
  c_ends : forall p, p < size h -> firstChild h p = hd_error (kids F p) /\ lastChild h p = hd_error (rev (kids F p));
  c_token : forall p, isNode h p = false -> kids F p = [];
  (* every element that exists is in exactly one place *)
  c_exists : forall x, x < size h <-> In x (concat (tops F)) \/ has_parent F x;
  c_fresh : forall p, size h <= p -> kids F p = [];
  c_nodup : forall p, NoDup (kids F p);
  c_one_parent : forall p q x, In x (kids F p) -> In x (kids F q) -> p = q;
  c_tops_nodup : NoDup (concat (tops F));
  c_top_or_kid : forall p x, In x (kids F p) -> ~ In x (concat (tops F));
  (* no element is below itself: subtrees are finite *)
  c_finite : well_founded (fun x p => In x (kids F p))
}.

(** ** Running the edits on the model and on the forest *)
Definition h_edit (h : heap) (e : edit) : option heap :=
  match e with
  | ENew b => Some (fst (newElement h b))
  | EAddChild n c b => Some (addChild h n c b)
  | ERemoveChild n c => Some (removeChild h n c)
  | EDetach c => Some (detach h c)
  | EReplace o n => replace h o n
  | EAppendSibling t e => Some (appendSibling h t e)
  | EPrependSibling t e => Some (prependSibling h t e)
  | EAppendChild n c => Some (appendChild h n c)
  end.

Fixpoint h_run (h : heap) (es : list edit) : option heap :=
  match es with [] => Some h | e :: r => do h' <- h_edit h e; h_run h' r end.

Definition news (e : edit) : nat := match e with ENew _ => 1 | _ => 0 end.
Definition nodes_after (sz : nat) (nodes : id -> bool) (e : edit) : id -> bool :=
  match e with ENew b => upd nodes sz b | _ => nodes end.

Fixpoint f_run (sz : nat) (F : forest) (es : list edit) : forest :=
  match es with [] => F | e :: r => f_run (sz + news e) (f_edit sz F e) r end.
Fixpoint all_allowed (sz : nat) (nodes : id -> bool) (F : forest) (es : list edit) : Prop :=
  match es with
  | [] => True
  | e :: r => allowed nodes sz F e /\ all_allowed (sz + news e) (nodes_after sz nodes e) (f_edit sz F e) r
  end.

Definition heap0 : heap := mkHeap (fun _ => false) (fun _ => None) (fun _ => None) (fun _ => None) (fun _ => None) (fun _ => None) 0.
Definition forest0 : forest := mkForest (fun _ => []) [].
