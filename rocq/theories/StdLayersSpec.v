(** Specification of standard hook layers, after package comments of convert.go (lines 1-36) and restrict.go (lines 1-40). *)
From Coq Require Import String ZArith List Bool.
From Verif Require Import Base Grammar LangTypes Layers StdLayers.
From Verif Require LangText.
Import ListNotations.
Local Open Scope string_scope.
Local Open Scope list_scope.
Open Scope Z_scope.

Definition b := LangText.bytes.
(** all arguments of commands with the name *)
Fixpoint argsOf (cmd : name) (cs : list gcommand) : list name :=
  match cs with [] => [] | c :: r => (if list_eq_dec Z.eq_dec (gcName c) cmd then gcArgs c else []) ++ argsOf cmd r end.
Fixpoint pairs (l : list name) : list (name * name) := match l with x :: y :: r => (x, y) :: pairs r | _ => [] end.
(** all conversions *)
Fixpoint conversions (cs : list gcommand) : list (name * name) :=
  match cs with [] => [] | c :: r => (if list_eq_dec Z.eq_dec (gcName c) (b "convert") then pairs (gcArgs c) else []) ++ conversions r end.
Definition has (cmd : name) (cs : list gcommand) : Prop := exists c, In c cs /\ gcName c = cmd.

(** A command of convert that is right by itself *)
Inductive convertCmd (known : name -> Prop) : gcommand -> Prop :=
| cc_input t : known t -> convertCmd known (mkCmd (b "input-type") [t])
| cc_output t : known t -> convertCmd known (mkCmd (b "output-type") [t])
| cc_convert x args : Nat.Even (length (x :: args)) -> convertCmd known (mkCmd (b "convert") (x :: args))
| cc_save : convertCmd known (mkCmd (b "save-position") []).
(** A definition of convert that is right *)
Record convertDef (known : name -> Prop) (cs : list gcommand) : Prop := mkConvertDef {
  cd_each : Forall (convertCmd known) cs;
  cd_input : (length (argsOf (b "input-type") cs) <= 1)%nat;
  cd_output : (length (argsOf (b "output-type") cs) <= 1)%nat;
  cd_once : NoDup (map fst (conversions cs));
  cd_some : has (b "convert") cs
}.
(** What convert does with a token of the input type *)
Definition convertSpec {Pos} (tokenType : name -> option Z) (noPos : Pos) (cs : list gcommand) (t : ltok Pos) (r : bool * list (ltok Pos)) : Prop :=
  (~ In (lText t) (map fst (conversions cs)) /\ r = (true, [])) \/
  exists t', r = (false, [t']) /\ In (lText t, lText t') (conversions cs) /\
    (has (b "save-position") cs -> lPos t' = lPos t) /\ (~ has (b "save-position") cs -> lPos t' = noPos) /\
    match argsOf (b "output-type") cs, argsOf (b "input-type") cs with
    | tn :: _, _ | [], tn :: _ => lName t' = tn /\ tokenType tn = Some (lType t')
    | [], [] => lName t' = lName t /\ lType t' = lType t
    end.

(** A definition of restrict that is right *)
Record restrictDef (cs : list gcommand) : Prop := mkRestrictDef {
  rd_each : Forall (fun c => In (gcName c) [b "node"; b "allow-in"; b "forbid-in"] /\ gcArgs c <> []) cs;
  rd_nodes : NoDup (argsOf (b "node") cs);
  rd_special : NoDup (argsOf (b "allow-in") cs ++ argsOf (b "forbid-in") cs);
  rd_node : has (b "node") cs;
  rd_forbid : has (b "forbid-in") cs
}.
(** The closest special ancestor (the stack has the innermost node first) forbids. *)
Inductive forbidden (allow forbid : list name) : list name -> name -> Prop :=
| fb_here a r : In a forbid -> forbidden allow forbid (a :: r) a
| fb_up a r x : ~ In a allow -> ~ In a forbid -> forbidden allow forbid r x -> forbidden allow forbid (a :: r) x.
