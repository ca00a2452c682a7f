(** Specification: what a grammar description says (langdef/docs.go:7-38, 79-192).
    Records, how they are written down, when a description is correct, and what it defines. *)
From Coq Require Import ZArith List Bool.
From Verif Require Import Base Grammar LangBuild LangNodes LangTypes LangStringSpec LangText LangTextSpec.
Import ListNotations.
Open Scope Z_scope.

(** ** Records *)
Inductive braces := Round | Square | Curly.
(** A list is a list of items, an item is a list of variants *)
Inductive variant :=
| VNode (n : name)
| VType (n : name)
| VEnd
| VLiteral (s : name)
| VList (b : braces) (l : list (list variant)).
Definition sequence := list (list variant).
Inductive part := PRegexp (re : name) | PTemplate (n : name).
Inductive arg := AType (n : name) | AString (s : name).
Inductive directive := DSide | DCaseless | DError | DExtern | DGroup | DLiteral | DReserved.
Inductive record :=
| RDirective (d : directive) (args : list arg)
| RTemplate (n : name) (ps : list part)
| RType (n : name) (ps : list part)
| RLayer (l : glayer)
| RNode (n : name) (l : sequence).

(** ** How records are written *)
Section Written.
(** [isString t s]: the token is a string literal that stands for [s] *)
Variable isString : tok -> name -> Prop.
Definition op (b : Z) : tok := mkT KOp [b].
Definition opening (b : braces) : tok := op (match b with Round => 40 | Square => 91 | Curly => 123 end).
Definition closingOf (b : braces) : tok := op (match b with Round => 41 | Square => 93 | Curly => 125 end).
(** sequence = item, {',', item};  item = variant, {'|', variant} *)
Inductive spSeq : list tok -> sequence -> Prop :=
| SQ_one ts i : spItem ts i -> spSeq ts [i]
| SQ_more ts i ts' l : spItem ts i -> spSeq ts' l -> spSeq (ts ++ op 44 :: ts') (i :: l)
with spItem : list tok -> list variant -> Prop :=
| IT_one ts v : spVar ts v -> spItem ts [v]
| IT_more ts v ts' l : spVar ts v -> spItem ts' l -> spItem (ts ++ op 124 :: ts') (v :: l)
with spVar : list tok -> variant -> Prop :=
| VR_node n : spVar [mkT KName n] (VNode n)
| VR_type n : n <> [] -> spVar [mkT KToken (36 :: n)] (VType n)
| VR_end : spVar [mkT KToken [36]] VEnd
| VR_literal t s : isString t s -> spVar [t] (VLiteral s)
| VR_list b ts l : spSeq ts l -> spVar (opening b :: ts ++ [closingOf b]) (VList b l).
(** $regexp | $name *)
Inductive spPart : tok -> part -> Prop :=
| PT_regexp re : spPart (mkT KRegexp (47 :: re ++ [47])) (PRegexp re)
| PT_template n : spPart (mkT KName n) (PTemplate n).
(** directives and their arguments: only types, only strings, or both *)
Definition dirName (d : directive) : name :=
  match d with
  | DSide => sideDir | DCaseless => caselessDir | DError => errorDir | DExtern => externDir | DGroup => groupDir | DLiteral => literalDir | DReserved => reservedDir
  end.
Inductive spArg : directive -> tok -> arg -> Prop :=
| AR_type d n : d <> DReserved -> spArg d (mkT KToken (36 :: n)) (AType n)
| AR_string d t s : d = DReserved \/ d = DLiteral -> isString t s -> spArg d t (AString s).
(** layer-command = $name, '(', [argument, {',', argument}], ')' *)
Inductive spLArg : tok -> name -> Prop :=
| LA_name n : spLArg (mkT KName n) n
| LA_string t s : isString t s -> spLArg t s.
Inductive spArgs : list tok -> list name -> Prop :=
| LS_one t a : spLArg t a -> spArgs [t] [a]
| LS_more t a ts l : spLArg t a -> spArgs ts l -> spArgs (t :: op 44 :: ts) (a :: l).
Inductive spCommand : list tok -> gcommand -> Prop :=
| CM_none n : spCommand [mkT KName n; op 40; op 41] (mkCmd n [])
| CM_args n ts l : spArgs ts l -> spCommand (mkT KName n :: op 40 :: ts ++ [op 41]) (mkCmd n l).
Inductive spCommands : list tok -> list gcommand -> Prop :=
| CS_none : spCommands [] []
| CS_more ts x ts' l : spCommand ts x -> spCommands ts' l -> spCommands (ts ++ ts') (x :: l).
Inductive spRecord : list tok -> record -> Prop :=
| RC_directive d ts args : Forall2 (spArg d) ts args -> spRecord (mkT KDir (dirName d) :: ts ++ [op 59]) (RDirective d args)
| RC_template n ts ps : ps <> [] -> Forall2 spPart ts ps -> spRecord (mkT KTemplate (36 :: 36 :: n) :: op 61 :: ts ++ [op 59]) (RTemplate n ps)
| RC_type n ts ps : n <> [] -> ps <> [] -> Forall2 spPart ts ps -> spRecord (mkT KToken (36 :: n) :: op 61 :: ts ++ [op 59]) (RType n ps)
| RC_layer n ts l : spCommands ts l -> spRecord (op 64 :: mkT KName n :: ts ++ [op 59]) (RLayer (mkLayer n l))
| RC_node n ts l : spSeq ts l -> spRecord (mkT KName n :: op 61 :: ts ++ [op 59]) (RNode n l).
Inductive spRecords : list tok -> list record -> Prop :=
| SR_none : spRecords [] []
| SR_more ts r ts' l : spRecord ts r -> spRecords ts' l -> spRecords (ts ++ ts') (r :: l).
End Written.
Definition isNode (r : record) : Prop := match r with RNode _ _ => True | _ => False end.
Definition isLayer (r : record) : Prop := match r with RLayer _ => True | _ => False end.
(** There is a node definition; only node and layer definitions follow the first one *)
Definition ordered (rs : list record) : Prop :=
  exists head root rest, rs = head ++ root :: rest /\ Forall (fun r => ~ isNode r) head /\ isNode root /\ Forall (fun r => isNode r \/ isLayer r) rest.
(** String literals, see LangStringSpec.v *)
Inductive stringOf : tok -> name -> Prop :=
| SO_double s u : denotes utf8 s u -> stringOf (mkT KString (34 :: s ++ [34])) u
| SO_single s : ~ In 39 s -> stringOf (mkT KString (39 :: s ++ [39])) s.
(** strings are well-formed: each stands for something *)
Definition readable (input : list tok) : Prop := Forall lexed input /\ forall t, In t input -> tKind t = KString -> exists s, stringOf t s.
(** names "token-name" and "string" are not used as arguments of directives *)
Definition typeWord (t : tok) : Prop := tKind t = KName /\ (tText t = tokenNameTok \/ tText t = stringTok).
Definition plainArguments (input : list tok) : Prop :=
  forall a d b t r, input = a ++ d :: b ++ t :: r -> tKind d = KDir -> ~ In (op 59) b -> ~ typeWord t.
Definition spells (input : list tok) (rs : list record) : Prop := spRecords stringOf input rs /\ ordered rs.

(** ** What they define *)
(** all but first occurrences are left out *)
Fixpoint firsts (l : list name) : list name :=
  match l with
  | [] => []
  | x :: r => x :: filter (fun y => negb (nameEqb x y)) (firsts r)
  end.
(** index of the first occurrence *)
Fixpoint position (n : name) (l : list name) : Z :=
  match l with
  | [] => 0
  | x :: r => if nameEqb n x then 0 else 1 + position n r
  end.
Definition mem (n : name) (l : list name) : bool := existsb (nameEqb n) l.
Definition flat {A B} (f : A -> list B) (l : list A) : list B := concat (map f l).
(** types and strings listed in directives for which [P] *)
Definition typesIn (P : directive -> bool) (rs : list record) : list name :=
  flat (fun r => match r with RDirective d args => if P d then flat (fun a => match a with AType n => [n] | _ => [] end) args else [] | _ => [] end) rs.
Definition stringsIn (P : directive -> bool) (rs : list record) : list name :=
  flat (fun r => match r with RDirective d args => if P d then flat (fun a => match a with AString s => [s] | _ => [] end) args else [] | _ => [] end) rs.
Definition dirEqb (a b : directive) : bool :=
  match a, b with
  | DSide, DSide | DCaseless, DCaseless | DError, DError | DExtern, DExtern | DGroup, DGroup | DLiteral, DLiteral | DReserved, DReserved => true
  | _, _ => false
  end.
Definition any (_ : directive) : bool := true.
(** *** Types of tokens *)
(** regular expressions: parts one after another; [env]: templates known *)
Fixpoint joined (env : list (name * name)) (ps : list part) : option name :=
  match ps with
  | [] => Some []
  | p :: r => do s <- (match p with PRegexp re => Some re | PTemplate n => nget n env end) ; do t <- joined env r ; Some (s ++ t)
  end.
(** names and regular expressions of types defined, in the order of definitions; [None]: a template is unknown or is defined
    twice, or a regular expression is wrong *)
Section Types.
Variable compiles : name -> bool.
Fixpoint regexps (env : list (name * name)) (rs : list record) : option (list (name * name)) :=
  match rs with
  | [] => Some []
  | RTemplate n ps :: r =>
      do re <- joined env ps ; if compiles re && negb (mem n (map fst env)) then regexps ((n, re) :: env) r else None
  | RType n ps :: r =>
      do re <- joined env ps ; if compiles re then do l <- regexps env r ; Some ((n, re) :: l) else None
  | _ :: r => regexps env r
  end.
Definition defined (rs : list record) : list name := flat (fun r => match r with RType n _ => [n] | _ => [] end) rs.
(** types that are not defined; those must be listed in !extern *)
Definition undefined (rs : list record) : list name := filter (fun n => negb (mem n (defined rs))) (firsts (typesIn any rs)).
(** each !group directive makes a group; the rest of types are in the group 0 *)
Fixpoint groupOf (k : Z) (n : name) (rs : list record) : Z :=
  match rs with
  | [] => 0
  | r :: rs => match r with
               | RDirective DGroup args => if mem n (typesIn any [r]) then k else groupOf (k + 1) n rs
               | _ => groupOf k n rs
               end
  end.
Definition flag (b : bool) (f : Z) : Z := if b then f else 0.
Definition listed (d : directive) (n : name) (rs : list record) : bool := mem n (typesIn (dirEqb d) rs).
Definition flagsOf (n : name) (rs : list record) : Z :=
  Z.lor (flag (listed DSide n rs) SideToken) (Z.lor (flag (listed DCaseless n rs) CaselessToken)
  (Z.lor (flag (listed DError n rs) ErrorToken) (Z.lor (flag (listed DExtern n rs) ExternalToken)
  (* types not listed, if any are listed *)
  (flag (negb (listed DLiteral n rs) && match typesIn (dirEqb DLiteral) rs with [] => false | _ => true end) NoLiteralsToken)))).
Definition typeToken (rs : list record) (d : name * name) : gtoken := mkTok (fst d) (snd d) (groupOf 1 (fst d) rs) (flagsOf (fst d) rs).
(** *** Literals *)
Fixpoint literalsIn (v : variant) : list name :=
  match v with
  | VLiteral s => [s]
  | VList _ l => flat (fun i => flat literalsIn i) l
  | _ => []
  end.
Definition seqLiterals (l : sequence) : list name := flat (fun i => flat literalsIn i) l.
Definition usedLiterals (rs : list record) : list name := flat (fun r => match r with RNode _ l => seqLiterals l | _ => [] end) rs.
Definition literals (rs : list record) : list name := firsts (stringsIn any rs ++ usedLiterals rs).
Definition literalToken (rs : list record) (s : name) : gtoken :=
  mkTok s [] 0 (Z.lor (flag (mem s (stringsIn (dirEqb DReserved) rs)) ReservedToken) LiteralToken).
(** types defined, then external types, then literals *)
Definition tokensOf (rs : list record) (res : list (name * name)) : list gtoken :=
  map (typeToken rs) (res ++ map (fun n => (n, [])) (undefined rs)) ++ map (literalToken rs) (literals rs).
(** *** Nodes *)
Fixpoint nodesIn (v : variant) : list name :=
  match v with
  | VNode n => [n]
  | VList _ l => flat (fun i => flat nodesIn i) l
  | _ => []
  end.
Definition seqNodes (l : sequence) : list name := flat (fun i => flat nodesIn i) l.
Fixpoint typesUsed (v : variant) : list name :=
  match v with
  | VType n => [n]
  | VList _ l => flat (fun i => flat typesUsed i) l
  | _ => []
  end.
Definition seqTypes (l : sequence) : list name := flat (fun i => flat typesUsed i) l.
Definition nodeNames (rs : list record) : list name := firsts (flat (fun r => match r with RNode n l => n :: seqNodes l | _ => [] end) rs).
Definition nodesDefined (rs : list record) : list name := flat (fun r => match r with RNode n _ => [n] | _ => [] end) rs.
Definition typeNames (rs : list record) : list name := defined rs ++ undefined rs.
(** Indices in place of names; 0 or 1 time, 0 or more times; an item of one variant is that variant *)
Section Chunks.
Variable rs : list record.
Definition oneOf (l : list chunk) : chunk := match l with [c] => c | _ => CVar l end.
Fixpoint chunkOf (v : variant) : chunk :=
  match v with
  | VNode n => CNode (position n (nodeNames rs))
  | VType n => CTok (position n (typeNames rs))
  | VEnd => CEoi
  | VLiteral s => CTok (zlen (typeNames rs) + position s (literals rs))
  | VList b l => CGroup (match b with Round => false | _ => true end) (match b with Curly => true | _ => false end) (map (fun i => oneOf (map chunkOf i)) l)
  end.
Definition definitionOf (l : sequence) : chunk := CGroup false false (map (fun i => oneOf (map chunkOf i)) l).
Definition definition (n : name) : option chunk :=
  match find (fun r => match r with RNode n' _ => nameEqb n n' | _ => false end) rs with
  | Some (RNode _ l) => Some (definitionOf l)
  | _ => None
  end.
End Chunks.
Definition layersOf (rs : list record) : list glayer := flat (fun r => match r with RLayer l => [l] | _ => [] end) rs.

(** ** Correct descriptions *)
(** types of tokens listed before they are defined, and those that are not defined; these count for the limit on types *)
Fixpoint early (known : list name) (rs : list record) : list name :=
  match rs with
  | [] => []
  | RType n _ :: r => early (n :: known) r
  | r' :: r => filter (fun n => negb (mem n known)) (typesIn any [r']) ++ early known r
  end.
Record valid (rs : list record) (res : list (name * name)) : Prop := {
  vd_regexps : regexps [] rs = Some res;
  vd_types : NoDup (defined rs);
  vd_extern : forall n, In n (undefined rs) -> In n (typesIn (dirEqb DExtern) rs);
  vd_limit : zlen (defined rs) + zlen (firsts (early [] rs)) < 63;
  vd_nodes : NoDup (nodesDefined rs);
  (* types used are known, and are not side or error ones *)
  vd_used : forall n l x, In (RNode n l) rs -> In x (seqTypes l) -> In x (typeNames rs) /\ listed DSide x rs = false /\ listed DError x rs = false;
  (* if literals are listed in !literal the rest are forbidden *)
  vd_literals : stringsIn (dirEqb DLiteral) rs <> [] -> forall s, In s (usedLiterals rs) -> In s (stringsIn any rs)
}.
(** no type is listed in !group twice *)
Definition groupsApart (rs : list record) : Prop := NoDup (typesIn (dirEqb DGroup) rs).
(** no reserved word is listed in !literal before *)
Definition reservedFirst (rs : list record) : Prop :=
  forall a args b, rs = a ++ RDirective DReserved args :: b -> forall s, In (AString s) args -> ~ In s (stringsIn (dirEqb DLiteral) a).
End Types.

(** ** Any order of directives *)
(** What becomes of descriptions in which types are listed in !group more than once or words become reserved late: the last
    !group directive counts, and the first directive that lists a literal *)
Fixpoint lastGroup (k g : Z) (n : name) (rs : list record) : Z :=
  match rs with
  | [] => g
  | r :: rs => match r with
               | RDirective DGroup args => lastGroup (k + 1) (if mem n (typesIn any [r]) then k else g) n rs
               | _ => lastGroup k g n rs
               end
  end.
Definition groupNow (n : name) (rs : list record) : Z := lastGroup 1 0 n rs.
Fixpoint reservedNow (s : name) (rs : list record) : bool :=
  match rs with
  | [] => false
  | r :: rs => match r with
               | RDirective d args => if mem s (stringsIn any [r]) then dirEqb DReserved d else reservedNow s rs
               | _ => reservedNow s rs
               end
  end.
Definition typeTokenNow (rs : list record) (d : name * name) : gtoken := mkTok (fst d) (snd d) (groupNow (fst d) rs) (flagsOf (fst d) rs).
Definition literalTokenNow (rs : list record) (s : name) : gtoken := mkTok s [] 0 (Z.lor (flag (reservedNow s rs) ReservedToken) LiteralToken).
Definition tokensNow (rs : list record) (res : list (name * name)) : list gtoken :=
  map (typeTokenNow rs) (res ++ map (fun n => (n, [])) (undefined rs)) ++ map (literalTokenNow rs) (literals rs).
(** types that have been defined and are in a group are not listed in !group again *)
Definition groupsKept (rs : list record) : Prop :=
  forall a p n q b, rs = a ++ RDirective DGroup (p ++ AType n :: q) :: b -> In n (defined a) -> ~ In n (typesIn (dirEqb DGroup) a) /\ ~ In (AType n) p.
