(** Specification: definitions where what is repeated is never empty. *)
From Coq Require Import ZArith List Bool.
From Verif Require Import Base Grammar LangBuild LangSpec LangNodesSpec.
Import ListNotations.
Open Scope Z_scope.

(** [within c d]: [c] is [d] or a part of it *)
Inductive within (c : chunk) : chunk -> Prop :=
| WI_self : within c c
| WI_var l d : In d l -> within c d -> within c (CVar l)
| WI_group opt rep l d : In d l -> within c d -> within c (CGroup opt rep l).
(** Each repetition in [d] repeats something that does not stand for the empty string. *)
Definition loopsRead (defs : list (option chunk)) (d : chunk) : Prop :=
  forall opt l, within (CGroup opt true l) d -> ~ producesSeq defs l [].
