(** Specification: what a definition of a node in a grammar description means (EBNF), and what
    strings a state machine accepts. *)
From Coq Require Import ZArith List Bool.
From Verif Require Import Base Grammar LangBuild.
Import ListNotations.
Open Scope Z_scope.

(** Symbols of the strings matched by a definition: a token, the end of input, a nested node
    together with the token it begins with *)
Inductive sym :=
| STok (t : Z)
| SEoi
| SNode (i t : Z).

Section Ebnf.
(** [starts i t]: the node [i] may begin with the token [t]. *)
Variable starts : Z -> Z -> Prop.

(** Strings derived from a definition: a sequence in brackets is matched once, in square brackets once
    or never, in curly brackets any number of times *)
Inductive derives : chunk -> list sym -> Prop :=
| D_token t : derives (CTok t) [STok t]
| D_eoi : derives CEoi [SEoi]
| D_nested i t : starts i t -> derives (CNode i) [SNode i t]
| D_variant l c w : In c l -> derives c w -> derives (CVar l) w
| D_once opt rep l w : derivesSeq l w -> derives (CGroup opt rep l) w
| D_never rep l : derives (CGroup true rep l) []
| D_again opt l w v : derivesSeq l w -> derives (CGroup opt true l) v -> derives (CGroup opt true l) (w ++ v)
with derivesSeq : list chunk -> list sym -> Prop :=
| DS_nil : derivesSeq [] []
| DS_cons c l w v : derives c w -> derivesSeq l v -> derivesSeq (c :: l) (w ++ v).
End Ebnf.

(** Nothing follows the end of input. *)
Fixpoint cut (w : list sym) : list sym :=
  match w with
  | [] => []
  | SEoi :: _ => [SEoi]
  | x :: w' => x :: cut w'
  end.

(** What a rule consumes: nothing ("any token" rules leave the token for the next state), a token,
    the end of input, or a nested node *)
Definition label (r : rule) : list sym :=
  if rNode r =? SameNode then
    if rToken r =? AnyToken then []
    else if rToken r =? EoiToken then [SEoi] else [STok (rToken r)]
  else [SNode (rNode r) (rToken r)].

(** [accepts has i w]: the string [w] leads from the state [i] to the final one; [has i r]: the
    state [i] has the rule [r]. *)
Inductive accepts (has : Z -> rule -> Prop) : Z -> list sym -> Prop :=
| A_end : accepts has FinalState []
| A_rule i r w : has i r -> accepts has (rState r) w -> accepts has i (label r ++ w).

(** Rules of the states under construction *)
Definition hasRule (states : list entry) (i : Z) (r : rule) : Prop :=
  exists e, zget states i = Some e /\ In r (allRules e).

(** Definitions as written in a description: groups and variants are not empty, what is repeated may be
    omitted, tokens and nodes have indexes. *)
Inductive written : chunk -> Prop :=
| W_tok t : 0 <= t -> written (CTok t)
| W_eoi : written CEoi
| W_node i : 0 <= i -> written (CNode i)
| W_var l : l <> [] -> (forall c, In c l -> written c) -> written (CVar l)
| W_group opt rep l : l <> [] -> (rep = true -> opt = true) -> (forall c, In c l -> written c) -> written (CGroup opt rep l).

(** Nodes a definition refers to *)
Inductive mentions : chunk -> Z -> Prop :=
| M_node i : mentions (CNode i) i
| M_var l c i : In c l -> mentions c i -> mentions (CVar l) i
| M_group opt rep l c i : In c l -> mentions c i -> mentions (CGroup opt rep l) i.

(** A definition begins with a repetition. *)
Fixpoint beginsLoop (c : chunk) : bool :=
  match c with
  | CTok _ | CEoi | CNode _ => false
  | CGroup _ rep l => rep || match l with c0 :: _ => beginsLoop c0 | [] => false end
  | CVar l => existsb beginsLoop l
  end.
(** Repetitions stand where their state is not an entry to something else: no variant begins with
    a repetition; a sequence in square or curly brackets begins with a repetition only if every part of the
    sequence may be omitted (or if it is a repeated sequence of several parts). *)
Fixpoint loopsApart (c : chunk) : bool :=
  match c with
  | CTok _ | CEoi | CNode _ => true
  | CGroup opt rep l =>
      forallb loopsApart l &&
      match l with
      | [] => true
      | c0 :: l' => negb (beginsLoop c0) || negb opt || forallb isOptional l || (rep && match l' with [] => false | _ => true end)
      end
  | CVar l => forallb loopsApart l && negb (existsb beginsLoop l)
  end.

(** A definition does not use the end of input. *)
Fixpoint endless (c : chunk) : bool :=
  match c with
  | CEoi => false
  | CTok _ | CNode _ => true
  | CGroup _ _ l | CVar l => forallb endless l
  end.

(** The state where a definition begins gets a rule to skip something and stay inside the node.
    [inner]: the definition is not the last one in the node. *)
Fixpoint leaves (c : chunk) (inner : bool) {struct c} : bool :=
  match c with
  | CTok _ | CEoi | CNode _ => false
  | CVar l => existsb (fun c => leaves c inner) l
  | CGroup _ rep l =>
      (fix go (l : list chunk) : bool :=
         match l with
         | [] => false
         | c :: l' =>
             match l' with
             | [] => leaves c (rep || inner) || (isOptional c && (rep || inner))
             | _ => leaves c true || (isOptional c && go l')
             end
         end) l
  end.
(** the same for a sequence *)
Fixpoint leavesSeq (l : list chunk) (inner : bool) : bool :=
  match l with
  | [] => false
  | c :: l' =>
      match l' with
      | [] => leaves c inner || (isOptional c && inner)
      | _ => leaves c true || (isOptional c && leavesSeq l' inner)
      end
  end.
(** Nothing optional stands before a part of a sequence where such a rule is; no repeated sequence of several parts
    begins with such a rule. *)
Fixpoint skipsApart (c : chunk) (inner : bool) {struct c} : bool :=
  match c with
  | CTok _ | CEoi | CNode _ => true
  | CVar l => forallb (fun c => skipsApart c inner) l
  | CGroup _ rep l =>
      (fix go (l : list chunk) : bool :=
         match l with
         | [] => true
         | c :: l' =>
             match l' with
             | [] => skipsApart c (rep || inner)
             | _ => skipsApart c true && negb (isOptional c && leavesSeq l' (rep || inner)) && go l'
             end
         end) l &&
      negb (rep && (1 <? zlen l) && leavesSeq l (rep || inner))
  end.
