(** Model of /repo/tree/tree.go, the parts that only read the tree: token
    navigation, element lists, Walker, Selector.  Loops that follow links run on fuel;
    [None] = out of fuel (the Go code would still be running). *)
From Coq Require Import ZArith List Bool Arith.
From Verif Require Import Base Tree.
Import ListNotations.
Open Scope nat_scope.

Section Nav.
Variable h : heap.

(** tree.go:56-72.  The outer fuel bounds the nesting, the inner one ([k]) the
    siblings of one level. *)
Fixpoint firstTokenElement (fuel : nat) (n : option id) : option (option id) :=
  match fuel with
  | O => None
  | S f =>
      match n with
      | None => Some None
      | Some x =>
          if negb (isNode h x) then Some n else
          (fix loop (k : nat) (c : option id) : option (option id) :=
             match k with
             | O => None
             | S k' =>
                 match c with
                 | None => Some None
                 | Some y =>
                     if isNode h y then
                       do nn <- firstTokenElement f c;
                       match nn with
                       | Some _ => Some nn
                       | None => loop k' (next h y)
                       end
                     else Some c
                 end
             end) fuel (firstChild h x)
      end
  end.

(** tree.go:77-93 *)
Fixpoint lastTokenElement (fuel : nat) (n : option id) : option (option id) :=
  match fuel with
  | O => None
  | S f =>
      match n with
      | None => Some None
      | Some x =>
          if negb (isNode h x) then Some n else
          (fix loop (k : nat) (c : option id) : option (option id) :=
             match k with
             | O => None
             | S k' =>
                 match c with
                 | None => Some None
                 | Some y =>
                     if isNode h y then
                       do nn <- lastTokenElement f c;
                       match nn with
                       | Some _ => Some nn
                       | None => loop k' (prev h y)
                       end
                     else Some c
                 end
             end) fuel (lastChild h x)
      end
  end.

(** tree.go:102-110: the loop looking for a next sibling of the element or an
    ancestor ([None] inside: the root has been passed) *)
Fixpoint nextUp (fuel : nat) (n : id) : option (option id) :=
  match fuel with
  | O => None
  | S f =>
      match next h n with
      | Some nn => Some (Some nn)
      | None => match parent h n with None => Some None | Some p => nextUp f p end
      end
  end.

(** tree.go:97-113 *)
Definition nextTokenElement (fuel : nat) (n : option id) : option (option id) :=
  match n with
  | None => Some None
  | Some x => do nn <- nextUp fuel x;
              match nn with None => Some None | Some _ => firstTokenElement fuel nn end
  end.

(** tree.go:117-133 *)
Fixpoint prevUp (fuel : nat) (n : id) : option (option id) :=
  match fuel with
  | O => None
  | S f =>
      match prev h n with
      | Some nn => Some (Some nn)
      | None => match parent h n with None => Some None | Some p => prevUp f p end
      end
  end.
Definition prevTokenElement (fuel : nat) (n : option id) : option (option id) :=
  match n with
  | None => Some None
  | Some x => do nn <- prevUp fuel x;
              match nn with None => Some None | Some _ => lastTokenElement fuel nn end
  end.

(** A loop collecting [c], link [c], ... : tree.go:143-147, 633-640, 652-659,
    671-678 *)
Fixpoint collect (link : id -> option id) (fuel : nat) (c : option id) (res : list id) : option (list id) :=
  match fuel with
  | O => None
  | S f => match c with None => Some res | Some x => collect link f (link x) (res ++ [x]) end
  end.

(** tree.go:137-149 *)
Definition children (fuel : nat) (n : option id) : option (list id) :=
  match n with
  | None => Some []
  | Some x => if negb (isNode h x) then Some [] else collect (next h) fuel (firstChild h x) []
  end.
(** tree.go:627-642 *)
Definition ancestors (fuel : nat) (n : option id) : option (list id) :=
  match n with None => Some [] | Some x => collect (parent h) fuel (parent h x) [] end.
(** tree.go:646-661 *)
Definition prevSiblings (fuel : nat) (n : option id) : option (list id) :=
  match n with None => Some [] | Some x => collect (prev h) fuel (prev h x) [] end.
(** tree.go:665-680 *)
Definition nextSiblings (fuel : nat) (n : option id) : option (list id) :=
  match n with None => Some [] | Some x => collect (next h) fuel (next h x) [] end.

(** ** Walker *)

(** tree.go:235-239 *)
Definition WalkerStop : Z := 1.
Definition WalkerSkipChildren : Z := 2.
Definition WalkerSkipSiblings : Z := 4.
(** tree.go:244-247 *)
Definition WalkLtr : Z := 0.
Definition WalkRtl : Z := 1.

(** tree.go:264-273; [wflags] has the top of flagStack first *)
Record walker := mkWalker { wroot : option id; wcurrent : option id; wflags : list Z; wmode : Z }.

Definition newWalker (root : option id) (m : Z) : walker := mkWalker root None [] m.

(** element and level *)
Definition stat := (id * nat)%type.

Definition has (f flag : Z) : bool := negb (Z.land f flag =? 0)%Z.

(** tree.go:312-337; the loop is structural on the flag stack, which loses an item in
    every round *)
Fixpoint stepUp (root : id) (m : Z) (stack : list Z) (cur : id) (f : Z) : walker * option stat :=
  let finish := (mkWalker None (Some cur) [] m, None) in
  if cur =? root then finish else
  let n := if has f WalkerSkipSiblings then None
           else if has m WalkRtl then prev h cur else next h cur in
  match n with
  | Some x => (mkWalker (Some root) (Some x) stack m, Some (x, length stack))
  | None =>
      match parent h cur with
      | None => finish
      | Some p =>
          match stack with
          | f' :: ((_ :: _) as rest) => stepUp root m rest p f'
          | _ => finish
          end
      end
  end.

(** tree.go:278-338, 345-354 *)
Definition step (w : walker) (f : Z) : walker * option stat :=
  let w := if has f WalkerStop then mkWalker None (wcurrent w) [] (wmode w) else w in
  match wroot w with
  | None => (w, None)
  | Some root =>
      match wcurrent w with
      | None => (mkWalker (wroot w) (Some root) (wflags w) (wmode w), Some (root, 0))
      | Some n =>
          let child := if isNode h n && negb (has f WalkerSkipChildren)
                       then (if has (wmode w) WalkRtl then lastChild h n else firstChild h n)
                       else None in
          match child with
          | Some c =>
              let stack := Z.ldiff f WalkerSkipChildren :: wflags w in
              (mkWalker (wroot w) (Some c) stack (wmode w), Some (c, length stack))
          | None => stepUp root (wmode w) (wflags w) n f
          end
      end
  end.

(** tree.go:358-369.  The visitor may keep a state; the result is its last state.  The
    walker left behind comes with it. *)
Fixpoint walkLoop {V : Type} (visitor : V -> stat -> V * Z) (fuel : nat) (w : walker) (flags : Z) (v : V) : option (walker * V) :=
  match fuel with
  | O => None
  | S f =>
      let '(w', st) := step w flags in
      match st with
      | None => Some (w', v)
      | Some s =>
          let '(v', fl) := visitor v s in
          if has fl WalkerStop then Some (w', v') else walkLoop visitor f w' fl v'
      end
  end.

(** tree.go:372-374 *)
Definition walk {V : Type} (visitor : V -> stat -> V * Z) (fuel : nat) (root : option id) (m : Z) (v : V) : option (walker * V) :=
  walkLoop visitor fuel (newWalker root m) 0 v.

(** ** Selector *)

(** An extractor; [None] = does not end. *)
Definition extractor := id -> option (list id).

(** [res = append(res, f(n)...)] over a list *)
Fixpoint appendAll {A} (f : A -> option (list id)) (ns : list A) (res : list id) : option (list id) :=
  match ns with
  | [] => Some res
  | n :: r => do l <- f n; appendAll f r (res ++ l)
  end.

(** tree.go:434-447; not called with an empty list of extractors *)
Fixpoint selectNodes (ns : list id) (nss : list extractor) : option (list id) :=
  match nss with
  | [] => None
  | s :: nss' =>
      appendAll (fun n => match nss' with
                          | [] => s n
                          | _ => do l <- s n; selectNodes l nss'
                          end) ns []
  end.

(** tree.go:418-425: [index] has the elements seen so far *)
Fixpoint addUnique (index res ns : list id) : list id * list id :=
  match ns with
  | [] => (index, res)
  | x :: r => if existsb (Nat.eqb x) index then addUnique index res r
              else addUnique (x :: index) (res ++ [x]) r
  end.

Record selector := mkSelector { extractors : list extractor; unique : bool }.
Definition newSelector : selector := mkSelector [] false.

(** tree.go:398-432 *)
Fixpoint applyLoop (s : selector) (input : list (option id)) (index res : list id) : option (list id) :=
  match input with
  | [] => Some res
  | None :: r => applyLoop s r index res
  | Some n :: r =>
      do ns <- match extractors s with [] => Some [n] | exs => selectNodes [n] exs end;
      if unique s then
        let '(index', res') := addUnique index res ns in applyLoop s r index' res'
      else applyLoop s r index (res ++ ns)
  end.
Definition apply (s : selector) (input : list (option id)) : option (list id) := applyLoop s input [] [].

(** tree.go:451-463 *)
Definition withUnique (s : selector) : selector := mkSelector (extractors s) true.
Definition withExtract (s : selector) (ex : option extractor) : selector :=
  match ex with None => s | Some ex => mkSelector (extractors s ++ [ex]) (unique s) end.
(** tree.go:467-475 *)
Definition withFilter (s : selector) (nf : id -> bool) : selector :=
  withExtract s (Some (fun n => Some (if nf n then [n] else []))).

(** tree.go:483-500 *)
Fixpoint searchLoop (nf : id -> bool) (flags : Z) (fuel : nat) (w : walker) (f : Z) (res : list id) : option (list id) :=
  match fuel with
  | O => None
  | S fu =>
      let '(w', st) := step w f in
      match st with
      | None => Some res
      | Some (x, _) => if nf x then searchLoop nf flags fu w' flags (res ++ [x])
                       else searchLoop nf flags fu w' 0 res
      end
  end.
(** tree.go:477-519 *)
Definition search (fuel : nat) (s : selector) (nf : id -> bool) (deep : bool) : selector :=
  withExtract s (Some (fun n =>
    searchLoop nf (if deep then 0 else WalkerSkipChildren)%Z fuel (newWalker (Some n) WalkLtr) 0 [])).

(** Filters and extractors: tree.go:522-551, 586-609 *)
Definition isNot (f : id -> bool) : id -> bool := fun n => negb (f n).
Fixpoint isAny (fs : list (id -> bool)) (n : id) : bool :=
  match fs with [] => false | f :: r => if f n then true else isAny r n end.
Fixpoint isAll (fs : list (id -> bool)) (n : id) : bool :=
  match fs with [] => true | f :: r => if negb (f n) then false else isAll r n end.
Fixpoint anyOf (nes : list extractor) (res : list id) (n : id) : option (list id) :=
  match nes with
  | [] => Some res
  | ne :: r => do l <- ne n; match l with [] => anyOf r l n | _ => Some l end
  end.
Definition exAny (nes : list extractor) : extractor := fun n => anyOf nes [] n.
Definition exAll (nes : list extractor) : extractor := fun n => appendAll (fun ne : extractor => ne n) nes [].
(** tree.go:611-623 *)
Fixpoint nthLoop (els : list id) (indexes : list Z) (res : list id) : option (list id) :=
  match indexes with
  | [] => Some res
  | i :: r => if ((0 <=? i) && (i <? zlen els))%Z
              then do x <- zget els i; nthLoop els r (res ++ [x])
              else nthLoop els r res
  end.
Definition nth (ex : extractor) (indexes : list Z) : extractor :=
  fun el => do els <- ex el; nthLoop els indexes [].

End Nav.
