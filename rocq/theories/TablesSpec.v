(** Specification: tables of a grammar are sound. *)
From Coq Require Import ZArith List Bool Sorted.
From Verif Require Import Base Grammar.
Import ListNotations.
Open Scope Z_scope.

(** who owns an item of the table of rules: a state ([inl]) or an item of the table of multi-rules ([inr]) *)
Definition owns (sts : list state) (multi : list multiRule) (x : Z + Z) (idx : Z) : Prop :=
  match x with
  | inl i => exists st, zget sts i = Some st /\ sLow st <= idx < sHigh st
  | inr k => exists m, zget multi k = Some m /\ mLow m <= idx < mHigh m
  end.
(** the state owns an item of the table of multi-rules *)
Definition ownsMulti (sts : list state) (i idx : Z) : Prop := exists st, zget sts i = Some st /\ sLowMulti st <= idx < sHighMulti st.
Definition unique {A} (P : A -> Prop) : Prop := exists x, P x /\ forall y, P y -> y = x.

(** A state has contiguous ranges of both tables, in ascending order of tokens, one entry per token; a
    multi-rule is a range of at least two rules for its token. *)
Record stateSound (g : grammar) (st : state) : Prop := mkStateSound {
  ss_ranges : 0 <= sLow st <= sHigh st /\ sHigh st <= zlen (gRules g) /\ 0 <= sLowMulti st <= sHighMulti st /\ sHighMulti st <= zlen (gMultiRules g);
  ss_entries : exists rules multi,
    zslice (gRules g) (sLow st) (sHigh st) = Some rules /\ zslice (gMultiRules g) (sLowMulti st) (sHighMulti st) = Some multi /\
    StronglySorted Z.lt (map rToken rules) /\ StronglySorted Z.lt (map mToken multi) /\
    (forall r m, In r rules -> In m multi -> rToken r <> mToken m) /\
    (forall m, In m multi -> exists rs, zslice (gRules g) (mLow m) (mHigh m) = Some rs /\ (2 <= length rs)%nat /\ forall r, In r rs -> rToken r = mToken m)
}.
Record tablesSound (g : grammar) : Prop := mkTablesSound {
  ts_states : forall st, In st (gStates g) -> stateSound g st;
  (* the ranges are a partition of the tables *)
  ts_rules : forall idx, 0 <= idx < zlen (gRules g) -> unique (fun x => owns (gStates g) (gMultiRules g) x idx);
  ts_multi : forall idx, 0 <= idx < zlen (gMultiRules g) -> unique (fun i => ownsMulti (gStates g) i idx);
  (* indexes are inside the tables *)
  ts_targets : forall r, In r (gRules g) -> rState r = FinalState \/ 0 <= rState r < zlen (gStates g);
  ts_nodes : forall r, In r (gRules g) -> rNode r = SameNode \/ 0 <= rNode r < zlen (gNodes g);
  ts_firsts : forall n, In n (gNodes g) -> 0 <= gnFirst n < zlen (gStates g)
}.
