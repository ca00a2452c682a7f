(** Specification: moves of the state machines that read no tokens; finite sources. *)
From Coq Require Import ZArith List Bool Relations.
From Verif Require Import Base Grammar RulesSpec Parser ParserSpec.
Import ListNotations.
Open Scope Z_scope.

Section G.
Variable g : grammar.
(** A rule that reads nothing: for any token, or for the end of input (which can be read again
    and again). *)
Definition readsNothing (r : rule) : Prop := rNode r = SameNode /\ (rToken r = AnyToken \/ rToken r = EoiTokenType).
Definition opens (r : rule) (nt : gnode) : Prop := rNode r <> SameNode /\ zget (gNodes g) (rNode r) = Some nt.

(** The rest of a node starting from the state [i] can be empty. *)
Inductive canBeEmpty : Z -> Prop :=
| CE_final : canBeEmpty FinalState
| CE_skip i r : ruleOf g i r -> readsNothing r -> canBeEmpty (rState r) -> canBeEmpty i
| CE_node i r nt : ruleOf g i r -> opens r nt -> canBeEmpty (gnFirst nt) -> canBeEmpty (rState r) -> canBeEmpty i.
(** One can get from the state [i] to the state [j] and read nothing: by a rule that reads
    nothing, over an empty node, by going into a node. *)
Inductive idle : Z -> Z -> Prop :=
| ID_skip i r : ruleOf g i r -> readsNothing r -> idle i (rState r)
| ID_over i r nt : ruleOf g i r -> opens r nt -> canBeEmpty (gnFirst nt) -> idle i (rState r)
| ID_into i r nt : ruleOf g i r -> opens r nt -> idle i (gnFirst nt).
(** Neither left recursion nor a loop around something that can be empty. *)
Definition noIdleLoop : Prop := forall i, ~ clos_trans Z idle i i.
End G.

Section S.
Context {Tok Src W E Inst R : Type}.
Variable c : config Tok Src W E Inst R.
(** Each token read, the end of input excepted, makes the rest of the source smaller. *)
Definition finiteSource (size : Src -> nat) : Prop := forall types src src' t e, fetchToken c types src = (src', (t, e)) ->
  (size src' <= size src)%nat /\
  forall tok, t = Some tok -> cType c tok <> EoiTokenType -> (size src' < size src)%nat.
(** Node hooks and the context do not put anything into the source. *)
Record addsNothing (size : Src -> nat) : Prop := mkAddsNothing {
  an_ctx : forall w, (size (fst (fst (cCtx c w))) <= size (fst w))%nat;
  an_newNode : forall i n t w, (size (fst (fst (mNewNode (cMethods c) i n t w))) <= size (fst w))%nat;
  an_node : forall i n x w, (size (fst (fst (mHandleNode (cMethods c) i n x w))) <= size (fst w))%nat;
  an_token : forall i t w, (size (fst (fst (mHandleToken (cMethods c) i t w))) <= size (fst w))%nat;
  an_end : forall i w, (size (fst (fst (mEndNode (cMethods c) i w))) <= size (fst w))%nat;
  an_create : forall table h n t w, In table (cNodeHooks c) -> In (Some h) table -> (size (fst (fst (h n t w))) <= size (fst w))%nat
}.
End S.
