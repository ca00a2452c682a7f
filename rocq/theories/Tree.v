(** Model of /repo/tree/tree.go: elements, edits, navigation, walker, selectors. *)
From Coq Require Import ZArith List Bool Arith.
From Verif Require Import Base.
Import ListNotations.
Open Scope nat_scope.

(** An element is a pointer; here a number.  [nil] is [None]. *)
Definition id := nat.

(** tree.go:682-687, 729-736: the fields of all elements, field by field (a
    pointer field of element [x] is the function applied to [x]).  [isNode] tells the
    two structs apart.  [ename]/[etok] stand for typeName and token, which no edit
    touches, so they are left out here and come back as parameters of the filters. *)
Record heap := mkHeap {
  isNode : id -> bool;
  parent : id -> option id;
  prev : id -> option id;
  next : id -> option id;
  firstChild : id -> option id;
  lastChild : id -> option id;
  size : nat (* number of elements made so far; [size] is the next fresh one *)
}.

Definition upd {A} (f : id -> A) (x : id) (v : A) : id -> A := fun y => if y =? x then v else f y.

Definition eqId (a b : option id) : bool :=
  match a, b with
  | None, None => true
  | Some x, Some y => x =? y
  | _, _ => false
  end.

(** tree.go:689-691, 738-740: a new element has no links. *)
Definition newElement (h : heap) (node : bool) : heap * id :=
  let x := size h in
  (mkHeap (upd (isNode h) x node) (upd (parent h) x None) (upd (prev h) x None) (upd (next h) x None)
     (upd (firstChild h) x None) (upd (lastChild h) x None) (S x), x).

(** tree.go:717-727, 774-776, 828-834 *)
Definition setParent (h : heap) (x : id) (v : option id) : heap :=
  mkHeap (isNode h) (upd (parent h) x v) (prev h) (next h) (firstChild h) (lastChild h) (size h).
Definition setPrev (h : heap) (x : id) (v : option id) : heap :=
  mkHeap (isNode h) (parent h) (upd (prev h) x v) (next h) (firstChild h) (lastChild h) (size h).
Definition setNext (h : heap) (x : id) (v : option id) : heap :=
  mkHeap (isNode h) (parent h) (prev h) (upd (next h) x v) (firstChild h) (lastChild h) (size h).
Definition setFirst (h : heap) (x : id) (v : option id) : heap :=
  mkHeap (isNode h) (parent h) (prev h) (next h) (upd (firstChild h) x v) (lastChild h) (size h).
Definition setLast (h : heap) (x : id) (v : option id) : heap :=
  mkHeap (isNode h) (parent h) (prev h) (next h) (firstChild h) (upd (lastChild h) x v) (size h).

(** tree.go:778-804 *)
Definition addChild (h : heap) (n : id) (c before : option id) : heap :=
  match c with
  | None => h
  | Some c =>
      match before with
      | None =>
          let h := setParent h c (Some n) in
          let h := match lastChild h n with
                   | None => setFirst h n (Some c)
                   | Some l => let h := setPrev h c (Some l) in setNext h l (Some c)
                   end in
          setLast h n (Some c)
      | Some b =>
          if negb (eqId (parent h b) (Some n)) then h else
          let h := setParent h c (Some n) in
          let p := prev h b in
          let h := setPrev h b (Some c) in
          let h := setNext h c (Some b) in
          let h := setPrev h c p in
          match p with
          | None => setFirst h n (Some c)
          | Some p => setNext h p (Some c)
          end
      end
  end.

(** tree.go:806-826 *)
Definition removeChild (h : heap) (n : id) (c : option id) : heap :=
  match c with
  | None => h
  | Some c =>
      if negb (eqId (parent h c) (Some n)) then h else
      let p := prev h c in
      let nx := next h c in
      let h := setParent h c None in
      let h := setPrev h c None in
      let h := setNext h c None in
      let h := match p with None => setFirst h n nx | Some p => setNext h p nx end in
      match nx with None => setLast h n p | Some nx => setPrev h nx p end
  end.

(** tree.go:153-159 *)
Definition detach (h : heap) (n : option id) : heap :=
  match n with
  | None => h
  | Some x => match parent h x with None => h | Some p => removeChild h p (Some x) end
  end.

(** tree.go:162-173; [None] = method call on a nil parent *)
Definition replace (h : heap) (old n : option id) : option heap :=
  match n, old with
  | Some n', Some o =>
      let pa := parent h o in
      let ne := next h o in
      let h := detach h old in
      let h := detach h n in
      match pa with None => None | Some pa => Some (addChild h pa n ne) end
  | _, _ => Some (detach h old)
  end.

(** tree.go:178-196 *)
Definition appendSibling (h : heap) (prv el : option id) : heap :=
  match el, prv with
  | Some e, Some p =>
      let h := detach h el in
      let nx := next h p in
      match parent h p with
      | None =>
          let h := setPrev h e (Some p) in
          let h := setNext h e nx in
          let h := setNext h p (Some e) in
          match nx with None => h | Some nx => setPrev h nx (Some e) end
      | Some pa => addChild h pa el nx
      end
  | _, _ => h
  end.

(** tree.go:201-219 *)
Definition prependSibling (h : heap) (nxt el : option id) : heap :=
  match el, nxt with
  | Some e, Some x =>
      let h := detach h el in
      match parent h x with
      | None =>
          let p := prev h x in
          let h := setPrev h e p in
          let h := setNext h e (Some x) in
          let h := setPrev h x (Some e) in
          match p with None => h | Some p => setNext h p (Some e) end
      | Some pa => addChild h pa el (Some x)
      end
  | _, _ => h
  end.

(** tree.go:223-230 *)
Definition appendChild (h : heap) (pa el : option id) : heap :=
  match pa, el with
  | Some p, Some e => addChild (detach h el) p el None
  | _, _ => h
  end.
