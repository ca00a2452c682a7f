(** What is said about the utility llxgen (llxgen.go:1-16 and docs): how it is called, and names it takes when they are not given. *)
From Coq Require Import String ZArith List.
From Verif Require Import Base Grammar Gen.
Import ListNotations.
Local Open Scope string_scope.
Local Open Scope list_scope.
Open Scope Z_scope.

(** ** Calls: [llxgen ([-j] | [-p <name>] [-v <name>]) [-o <name>] <file>], flags are in any order, names may be given more than once *)
Inductive item := IJson | IOut (v : list Z) | IPkg (v : list Z) | IVar (v : list Z).
Inductive dashes : list Z -> Prop := one_dash : dashes (bytes "-") | two_dashes : dashes (bytes "--").
Definition letterOf (i : item) : list Z := match i with IJson => bytes "j" | IOut _ => bytes "o" | IPkg _ => bytes "p" | IVar _ => bytes "v" end.
Inductive spelled : item -> list (list Z) -> Prop :=
| S_json d : dashes d -> spelled IJson [d ++ bytes "j"]
| S_next d i v : dashes d -> i = IOut v \/ i = IPkg v \/ i = IVar v -> spelled i [d ++ letterOf i; v]
| S_same d i v : dashes d -> i = IOut v \/ i = IPkg v \/ i = IVar v -> spelled i [d ++ letterOf i ++ bytes "=" ++ v].
Inductive call : list (list Z) -> list item -> list Z -> Prop :=
| C_file f more : (forall r, f <> bytes "-" ++ r) -> f <> [] -> call (f :: more) [] f
| C_sep f more : f <> [] -> call (bytes "--" :: f :: more) [] f
| C_item i w args is f : spelled i w -> call args is f -> call (w ++ args) (i :: is) f.
(** Calls that are wrong after some flags: no file; three dashes or no name of a flag; an unknown flag; a flag without its value. *)
Inductive wrongCall : list (list Z) -> Prop :=
| W_nothing : wrongCall []
| W_noFile more : wrongCall ([] :: more)
| W_dashes r more : wrongCall ((bytes "---" ++ r) :: more)
| W_noName d r more : dashes d -> wrongCall ((d ++ bytes "=" ++ r) :: more)
| W_unknown d b n w more : dashes d -> b <> 45 -> ~ In 61 (b :: n) -> (w = [] \/ exists v, w = bytes "=" ++ v) ->
    ~ In (b :: n) (map bytes ["j"; "o"; "p"; "v"; "h"; "help"]) -> wrongCall ((d ++ (b :: n) ++ w) :: more)
| W_noValue d i v : dashes d -> i = IOut v \/ i = IPkg v \/ i = IVar v -> wrongCall [d ++ letterOf i]
| W_item i w args : spelled i w -> wrongCall args -> wrongCall (w ++ args).
(** the value given last *)
Inductive lastOf {A} (is : item -> A -> Prop) : list item -> A -> Prop :=
| L_last a l1 i l2 : is i a -> (forall j b, In j l2 -> ~ is j b) -> lastOf is (l1 ++ i :: l2) a.
Definition given (mk : list Z -> item) (items : list item) (v : list Z) : Prop := lastOf (fun i v => i = mk v) items v.
Definition notGiven (mk : list Z -> item) (items : list item) : Prop := (forall v, ~ In (mk v) items) \/ given mk items [].

(** ** Names *)
(** extensions of names of files *)
Definition extension (e : list Z) : Prop := exists r, e = bytes "." ++ r /\ ~ In 46 r /\ ~ In 47 r.
Definition stemOf (f stem : list Z) : Prop := (exists e, extension e /\ f = stem ++ e) \/ (stem = f /\ forall a e, f = a ++ e -> ~ extension e).
(** the name of the directory of a file *)
Definition dirName (path d : list Z) : Prop := exists a f, path = a ++ bytes "/" ++ d ++ bytes "/" ++ f /\ ~ In 47 d /\ ~ In 47 f.

Definition suffixOf (items : list item) (s : list Z) : Prop := (In IJson items /\ s = bytes ".json") \/ (~ In IJson items /\ s = bytes ".go").
Definition outputIs (items : list item) (f out : list Z) : Prop :=
  (out <> [] /\ given IOut items out) \/ (notGiven IOut items /\ exists stem s, stemOf f stem /\ suffixOf items s /\ out = stem ++ s).

(** ** Translations *)
Section Translation.
Variable isPrint : Z -> bool.
Variable json : grammar -> option (list Z).
Variable abs : list Z -> option (list Z).
(** llxgen.go:46: the package has the name of the directory of the output *)
Definition packageIs (items : list item) (out p : list Z) : Prop :=
  (p <> [] /\ given IPkg items p) \/ (notGiven IPkg items /\ exists a, abs out = Some a /\ dirName a p).
(** the variable has the name of the root node *)
Definition variableIs (items : list item) (g : grammar) (v : list Z) : Prop :=
  (v <> [] /\ given IVar items v) \/ (notGiven IVar items /\ exists n, zget (gNodes g) 0 = Some n /\ v = gnName n).
(** Go source (its meaning is that of Prop_Gen.v) or JSON *)
Definition translation (items : list item) (out : list Z) (g : grammar) (text : list Z) : Prop :=
  (In IJson items /\ json g = Some text) \/
  (~ In IJson items /\ exists p v, packageIs items out p /\ variableIs items g v /\ makeGo isPrint [] p v g = Some (inl text)).
End Translation.
