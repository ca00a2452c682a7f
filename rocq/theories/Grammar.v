(** Model of /repo/grammar/grammar.go. *)
From Coq Require Import ZArith List Bool.
From Verif Require Import Base.
Import ListNotations.
Open Scope Z_scope.

(** Names are byte lists. *)
Definition name := list Z.

(** grammar.go:60-86 *)
Definition LiteralToken : Z := 1.
Definition ExternalToken : Z := 2.
Definition SideToken : Z := 4.
Definition ErrorToken : Z := 8.
Definition CaselessToken : Z := 16.
Definition ReservedToken : Z := 32.
Definition NoLiteralsToken : Z := 64.

(** [flags & f != 0] *)
Definition hasFlag (flags f : Z) : bool := negb (Z.land flags f =? 0).

(** grammar.go:41-56 *)
Record gtoken := mkTok { gtName : name; gtRe : name; gtGroup : Z; gtFlags : Z }.
(** grammar.go:89-105 *)
Record gcommand := mkCmd { gcName : name; gcArgs : list name }.
Record glayer := mkLayer { glType : name; glCommands : list gcommand }.
(** grammar.go:107-114 *)
Record gnode := mkNode { gnName : name; gnFirst : Z }.

(** grammar.go:29-32, 116-126 *)
Definition RootNode : Z := 0.
Definition AnyToken : Z := -1.
Definition FinalState : Z := -1.
Definition SameNode : Z := -1.

(** grammar.go:128-139 *)
Record rule := mkRule { rToken : Z; rState : Z; rNode : Z }.
(** grammar.go:141-151 *)
Record multiRule := mkMulti { mToken : Z; mLow : Z; mHigh : Z }.
(** grammar.go:153-173 *)
Record state := mkState { sTypes : Z; sLowMulti : Z; sHighMulti : Z; sLow : Z; sHigh : Z }.
(** grammar.go:175-194 *)
Record grammar := mkGrammar {
  gTokens : list gtoken;
  gLayers : list glayer;
  gNodes : list gnode;
  gStates : list state;
  gMultiRules : list multiRule;
  gRules : list rule
}.
