(** Trees as plain nested lists, document order, and what walking, searching and
    selecting mean on them. *)
From Coq Require Import ZArith List Bool Arith.
From Verif Require Import Base Tree TreeSpec TreeNav.
Import ListNotations.
Open Scope nat_scope.

Inductive rtree := RT (x : id) (ts : list rtree).
Definition root (t : rtree) : id := match t with RT x _ => x end.
Definition subs (t : rtree) : list rtree := match t with RT _ ts => ts end.

(** [t] is a subtree of the forest: every element has exactly its children. *)
Fixpoint is_tree (F : forest) (t : rtree) : Prop :=
  match t with
  | RT x ts => kids F x = map root ts /\
      (fix all (l : list rtree) : Prop := match l with [] => True | s :: r => is_tree F s /\ all r end) ts
  end.

(** Document order: parent first, then the children from left to right. *)
Fixpoint pre (t : rtree) : list id := match t with RT x ts => x :: flat_map pre ts end.
Fixpoint mirror_tree (t : rtree) : rtree := match t with RT x ts => RT x (rev (map mirror_tree ts)) end.

Definition tokens (h : heap) (l : list id) : list id := filter (fun x => negb (isNode h x)) l.
Definition last_error {A} (l : list A) : option A := hd_error (rev l).

(** A link-following function ends with result [r] (whatever larger fuel it gets). *)
Definition ends {A} (f : nat -> option A) (r : A) : Prop := exists n0, forall n, n0 <= n -> f n = Some r.

(** [d] is the document [x] belongs to (the trees of a chain of elements without parent),
    [b] what is before [x]'s subtree [s], [a] what is after it. *)
Definition in_document (F : forest) (x : id) (b s a : list id) : Prop :=
  exists l ts t, In l (tops F) /\ map root ts = l /\ Forall (is_tree F) ts /\
    is_tree F t /\ root t = x /\ pre t = s /\ flat_map pre ts = b ++ s ++ a /\ NoDup (b ++ s ++ a).

(** Every node of the forest has a token below it. *)
Definition all_have_tokens (h : heap) (F : forest) : Prop :=
  forall t, is_tree F t -> root t < size h -> tokens h (pre t) <> [].

(** The ancestors of [x], closest first. *)
Fixpoint is_ancestors (F : forest) (x : id) (l : list id) : Prop :=
  match l with
  | [] => forall p, ~ In x (kids F p)
  | p :: r => In x (kids F p) /\ is_ancestors F p r
  end.

(** ** Walking: the visitor is called with each element and its level; its answer decides
    what is left out. *)
Section Walk.
Context {V : Type} (visitor : V -> stat -> V * Z).
Definition stops (f : Z) := Z.testbit f 0.
Definition skips_children (f : Z) := Z.testbit f 1.
Definition skips_siblings (f : Z) := Z.testbit f 2.

(** Result: visitor state, whether the walk has been stopped, whether the
    following siblings are to be left out. *)
Fixpoint visit (level : nat) (t : rtree) (v : V) : V * bool * bool :=
  match t with
  | RT x ts =>
      let (v1, f) := visitor v (x, level) in
      if stops f then (v1, true, false)
      else if skips_children f then (v1, false, skips_siblings f)
      else
        let '(v2, stopped) :=
          (fix visits (l : list rtree) (v : V) : V * bool :=
             match l with
             | [] => (v, false)
             | s :: r =>
                 let '(v', stopped, skip) := visit (S level) s v in
                 if stopped then (v', true) else if skip then (v', false) else visits r v'
             end) ts v1 in
        (v2, stopped, skips_siblings f)
  end.
End Walk.

(** ** Searching *)
Fixpoint found (nf : id -> bool) (t : rtree) : list id :=
  match t with RT x ts => if nf x then [x] else flat_map (found nf) ts end.
Definition found_deep (nf : id -> bool) (t : rtree) : list id := filter nf (pre t).

(** ** Selecting *)
Definition select_one (gs : list (id -> list id)) (x : id) : list id :=
  fold_left (fun l g => flat_map g l) gs [x].
Definition present (input : list (option id)) : list id :=
  flat_map (fun o => match o with None => [] | Some x => [x] end) input.
(** first occurrences only *)
Definition dedup (l : list id) : list id := rev (nodup Nat.eq_dec (rev l)).
