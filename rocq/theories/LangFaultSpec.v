(** What is wrong with a description that is written right (LangDescSpec.v), and what of that is reported.
    Descriptions are checked from top to bottom, nodes after all the types of tokens are known. *)
From Coq Require Import ZArith List Bool.
From Verif Require Import Base Grammar LangBuild LangTypes LangText LangDescSpec.
Import ListNotations.
Open Scope Z_scope.

Section Faults.
(** regular expressions that are correct *)
Variable compiles : name -> bool.
(** ** Definitions of templates and types of tokens *)
Definition partsOf (r : record) (ps : list part) : Prop := exists n, r = RTemplate n ps \/ r = RType n ps.
Definition hasTemplate (a : list record) (n : name) : Prop := exists ps, In (RTemplate n ps) a.
Definition hasType (a : list record) (n : name) : Prop := exists ps, In (RType n ps) a.
(** expressions of templates *)
Fixpoint templates (env : list (name * name)) (rs : list record) : list (name * name) :=
  match rs with
  | [] => env
  | RTemplate n ps :: r => match joined env ps with Some re => templates ((n, re) :: env) r | None => templates env r end
  | _ :: r => templates env r
  end.
(** the name has not been defined *)
Definition isNew (a : list record) (r : record) : Prop :=
  match r with
  | RTemplate n _ => ~ hasTemplate a n
  | RType n _ => ~ hasType a n
  | _ => True
  end.
Definition knownPart (a : list record) (p : part) : Prop := match p with PTemplate n => hasTemplate a n | _ => True end.
(** an argument of !group that follows arguments [p] is a type that has been defined and is in a group *)
Definition regrouped (a : list record) (p : list arg) (n : name) : Prop := hasType a n /\ (In n (typesIn (dirEqb DGroup) a) \/ In (AType n) p).
(** definition [r] that follows records [a] *)
Inductive headFault (a : list record) (r : record) : readError -> Prop :=
| HF_template n ps : r = RTemplate n ps -> hasTemplate a n -> headFault a r (RE_templateDefined n)
| HF_type n ps : r = RType n ps -> hasType a n -> headFault a r (RE_tokenDefined (mkT KToken (36 :: n)))
| HF_group p n q : r = RDirective DGroup (p ++ AType n :: q) -> regrouped a p n -> (forall p' m q', p = p' ++ AType m :: q' -> ~ regrouped a p' m) -> headFault a r (RE_reassignedGroup n)
| HF_unknown ps p n q : isNew a r -> partsOf r ps -> ps = p ++ PTemplate n :: q -> Forall (knownPart a) p -> ~ hasTemplate a n -> headFault a r (RE_unknownTemplate n)
| HF_regexp p ps t re : isNew a r -> partsOf r (p :: ps) -> joined (templates [] a) (p :: ps) = Some re -> compiles re = false -> spPart t p -> headFault a r (RE_regexp t).
(** ** Types of tokens *)
Definition tooMany (rs : list record) : Prop := 63 <= zlen (defined rs) + zlen (firsts (early [] rs)).
Definition external (rs : list record) (n : name) : Prop := In n (typesIn (dirEqb DExtern) rs).
(** ** Definitions of nodes *)
(** names and literals in the order they are written *)
Fixpoint leaves (v : variant) : list variant := match v with VList _ l => flat (fun i => flat leaves i) l | _ => [v] end.
Definition seqLeaves (l : sequence) : list variant := flat (fun i => flat leaves i) l.
Inductive leafFault (rs : list record) : variant -> readError -> Prop :=
| LF_unknown n : ~ In n (typeNames rs) -> leafFault rs (VType n) (RE_token (mkT KToken (36 :: n)))
| LF_side n : In n (typeNames rs) -> In n (typesIn (dirEqb DSide) rs) \/ In n (typesIn (dirEqb DError) rs) -> leafFault rs (VType n) (RE_wrongToken (mkT KToken (36 :: n)))
| LF_literal s : stringsIn (dirEqb DLiteral) rs <> [] -> ~ In s (stringsIn any rs) -> leafFault rs (VLiteral s) (RE_unknownLiteral s).
Inductive nodeFault (rs a : list record) (r : record) : readError -> Prop :=
| NF_defined n l : r = RNode n l -> In n (nodesDefined a) -> nodeFault rs a r (RE_nodeDefined (mkT KName n))
| NF_leaf n l p v q e : r = RNode n l -> ~ In n (nodesDefined a) -> seqLeaves l = p ++ v :: q -> Forall (fun v => forall e, ~ leafFault rs v e) p -> leafFault rs v e -> nodeFault rs a r e.
(** ** The first fault *)
Definition first (F : list record -> record -> readError -> Prop) (rs : list record) (e : readError) : Prop :=
  exists a r b, rs = a ++ r :: b /\ F a r e /\ forall a' r' b' e', a = a' ++ r' :: b' -> ~ F a' r' e'.
Definition none (F : list record -> record -> readError -> Prop) (rs : list record) : Prop := forall a r b e, rs = a ++ r :: b -> ~ F a r e.
Inductive reported (rs : list record) : readError -> Prop :=
| RP_head e : first headFault rs e -> reported rs e
| RP_limit : none headFault rs -> tooMany rs -> reported rs RE_tokenNumber
| RP_extern p n q : none headFault rs -> ~ tooMany rs -> undefined rs = p ++ n :: q -> Forall (external rs) p -> ~ external rs n -> reported rs (RE_undefinedToken n)
| RP_node e : none headFault rs -> ~ tooMany rs -> Forall (external rs) (undefined rs) -> first (nodeFault rs) rs e -> reported rs e.
End Faults.
