(** What a configuration file says, and what edits of it should do. *)
From Coq Require Import List Bool String Arith.
From Verif Require Import Conf.
Import ListNotations.
Open Scope string_scope.
Open Scope nat_scope.

Section Spec.
(** spaces around values do not count *)
Variable trim : string -> string.

Definition side (t : tok) : Prop := tty t = "space" \/ tty t = "comment".
Definition plain (t : tok) : Prop := side t \/ tty t = "nl".

(** entry = $name, '=', [$value], [$nl] *)
Inductive entryOf (n v : string) : list tok -> Prop :=
| NoValue i s1 j rest : Forall side s1 -> Forall plain rest -> v = "" ->
    entryOf n v (Tk i "name" n :: s1 ++ Tk j "op" "=" :: rest)
| WithValue i s1 j s2 k x rest : Forall side s1 -> Forall side s2 -> Forall plain rest -> v = trim x ->
    entryOf n v (Tk i "name" n :: s1 ++ Tk j "op" "=" :: s2 ++ Tk k "value" x :: rest).

(** what stands in a section: comments and spaces, empty lines, entries *)
Inductive piece : part -> Prop :=
| PieceTok t : plain t -> piece (PTok t)
| PieceSep i ks : Forall plain ks -> piece (PNode i "sep" ks)
| PieceEntry i n v ks : entryOf n v ks -> piece (PNode i "entry" ks).

(** header = '[', $sec-name, ']', $nl *)
Definition inHeader (t : tok) : Prop := plain t \/ tty t = "op".
Inductive sectionOf : string -> list part -> top -> Prop :=
| Default i ps : Forall piece ps -> sectionOf "" ps (TNode i "def-section" ps)
| Named i h ks1 k n ks2 ps : n <> "" -> Forall inHeader ks1 -> Forall inHeader ks2 -> Forall piece ps ->
    sectionOf n ps (TNode i "section" (PNode h "header" (ks1 ++ Tk k "sec-name" n :: ks2) :: ps)).

Inductive item : top -> Prop :=
| ItemTok t : plain t -> item (TTok t)
| ItemSection s ps t : sectionOf s ps t -> item t.

(** elements have different numbers, below [fresh] *)
Definition topIds (root : list top) : list id := flat_map (fun t => match t with TNode i _ _ => [i] | _ => [] end) root.
Definition partIds (ps : list part) : list id := flat_map (fun p => match p with PNode i _ _ => [i] | _ => [] end) ps.
Definition partsOf (t : top) : list part := match t with TNode _ _ ps => ps | _ => [] end.
Definition tokIds (ps : list part) : list id := flat_map (fun p => match p with PNode _ _ ks => map tid ks | _ => [] end) ps.
Definition numbered (root : list top) (fresh : id) : Prop :=
  NoDup (topIds root) /\ NoDup (partIds (flat_map partsOf root)) /\ NoDup (tokIds (flat_map partsOf root)) /\
  Forall (fun i => i < fresh) (topIds root ++ partIds (flat_map partsOf root) ++ tokIds (flat_map partsOf root)).

Definition document (root : list top) : Prop := Forall item root.

(** The file has a section [s]; its entry [n] has value [v]. *)
Definition hasSection (root : list top) (s : string) : Prop := exists t ps, In t root /\ sectionOf s ps t.
Definition saysIn (ps : list part) (n v : string) : Prop := exists i ks, In (PNode i "entry" ks) ps /\ entryOf n v ks.
Definition says (root : list top) (s n v : string) : Prop := exists t ps, In t root /\ sectionOf s ps t /\ saysIn ps n v.

(** No section is repeated, no entry is repeated in a section. *)
Definition entryNamed (n : string) (p : part) : Prop := exists i ks v, p = PNode i "entry" ks /\ entryOf n v ks.
Definition sectionNamed (s : string) (t : top) : Prop := exists ps, sectionOf s ps t.
Definition noRepeats (root : list top) : Prop :=
  ForallOrdPairs (fun t u => forall s, sectionNamed s t -> ~ sectionNamed s u) root /\
  forall t s ps, In t root -> sectionOf s ps t -> ForallOrdPairs (fun p q => forall n, entryNamed n p -> ~ entryNamed n q) ps.

(** Names: the last dot divides the section from the entry; no dot means the entries before all sections. *)
Definition dotted (name s n : string) : Prop :=
  (forall a b, n <> a ++ "." ++ b)%string /\ ((name = s ++ "." ++ n)%string \/ (name = n /\ s = "")).

(** What an edit does to values. *)
Definition edited (e : edit) (old new : string -> string -> option string) : Prop :=
  match e with
  | SetEntry name v => exists s n, dotted name s n /\ new s n = Some (trim v) /\ forall s' n', (s', n') <> (s, n) -> new s' n' = old s' n'
  | RemoveEntry name => exists s n, dotted name s n /\ new s n = None /\ forall s' n', (s', n') <> (s, n) -> new s' n' = old s' n'
  | AddSection _ => forall s n, new s n = old s n
  | RemoveSection s => forall s' n', new s' n' = if String.eqb s' s then None else old s' n'
  end.
Inductive editedAll : list edit -> (string -> string -> option string) -> (string -> string -> option string) -> Prop :=
| Edited0 m : editedAll [] m m
| Edited1 e es m1 m2 m3 : edited e m1 m2 -> editedAll es m2 m3 -> editedAll (e :: es) m1 m3.

(** A map has what the file says. *)
Definition means (root : list top) (m : string -> string -> option string) : Prop := forall s n v, says root s n v <-> m s n = Some v.
End Spec.
