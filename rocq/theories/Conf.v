(** Model of /repo/examples/conf-edit/internal/lib.go: an editor of configuration
    files over the tree built by the parser.

    Elements of the tree are values here, with numbers for pointers: an element that a
    pointer leads to is found by its number.  Trees of grammar.llx have three
    levels below the root: sections (def-section, section), their parts (header, entry,
    sep), tokens; side tokens stand at any level.  Edits of package tree (see Tree.v
    and Prop_Tree.v) are edits of these lists; an edit of an element that was detached
    changes nothing here, because no detached element comes back.  Types of tokens are
    their names; lines and columns of tokens are left out.  Not modelled: making of the tree (Parse up to
    line 312), ParseFile, SaveFile, errors of writers. *)
From Coq Require Import List Bool String Ascii Arith.
From Verif Require Import Base.
Import ListNotations.
Open Scope string_scope.
Open Scope nat_scope.

Definition id := nat.
Record tok := Tk { tid : id; tty : string; ttext : string }.
Inductive part := PTok (t : tok) | PNode (i : id) (ty : string) (kids : list tok).
Inductive top := TTok (t : tok) | TNode (i : id) (ty : string) (kids : list part).

(** lib.go:34-50 *)
Record entry := mkEntry { eNode : id; eValueNode : option id; eValue : string }.
Record section := mkSec { sNodes : list id; sEntries : list (string * entry); sUpdated : bool }.
Record conf := mkConf { cRoot : list top; cSections : list (string * section); cUpdated : bool; cFresh : id }.

(** Go maps *)
Fixpoint get {A} (k : string) (l : list (string * A)) : option A :=
  match l with [] => None | (k', v) :: r => if String.eqb k' k then Some v else get k r end.
Definition del {A} (k : string) (l : list (string * A)) : list (string * A) := filter (fun x => negb (String.eqb (fst x) k)) l.
Definition put {A} (k : string) (v : A) (l : list (string * A)) : list (string * A) := (k, v) :: del k l.

(** tree.go: edits of the element with number [i]: [f] gives what stands in its place *)
Definition onTop (i : id) (f : top -> list top) (root : list top) : list top :=
  flat_map (fun t => match t with TNode j _ _ => if j =? i then f t else [t] | _ => [t] end) root.
Definition onPart (i : id) (f : part -> list part) (root : list top) : list top :=
  map (fun t => match t with
    | TNode j ty ps => TNode j ty (flat_map (fun p => match p with PNode k _ _ => if k =? i then f p else [p] | _ => [p] end) ps)
    | _ => t end) root.
Definition onTok (i : id) (f : tok -> list tok) (root : list top) : list top :=
  map (fun t => match t with
    | TNode j ty ps => TNode j ty (map (fun p => match p with PNode k ty ks => PNode k ty (flat_map (fun x => if tid x =? i then f x else [x]) ks) | _ => p end) ps)
    | _ => t end) root.
Definition findTop (i : id) (root : list top) : option (list part) :=
  match find (fun t => match t with TNode j _ _ => j =? i | _ => false end) root with Some (TNode _ _ ps) => Some ps | _ => None end.
Definition findPart (i : id) (root : list top) : option (list tok) :=
  match find (fun p => match p with PNode j _ _ => j =? i | _ => false end) (flat_map (fun t => match t with TNode _ _ ps => ps | _ => [] end) root) with
  | Some (PNode _ _ ks) => Some ks | _ => None end.

Definition partType (p : part) : string := match p with PTok t => tty t | PNode _ ty _ => ty end.
Definition topType (t : top) : string := match t with TTok t => tty t | TNode _ ty _ => ty end.
Definition last_ {A} (l : list A) : option A := nth_error (rev l) 0.

(** lib.go:58-60: what the selectors find; no node is named as a token *)
Definition searchIn (ty : string) (ks : list tok) : list tok := filter (fun t => String.eqb (tty t) ty) ks.
Definition tokensOfPart (p : part) : list tok := match p with PTok t => [t] | PNode _ _ ks => ks end.
Definition secNameOf (ps : list part) : option tok := nth_error (searchIn "sec-name" (flat_map tokensOfPart ps)) 0.

(** lib.go:83-92 *)
Fixpoint lastDot (s : string) : option (string * string) :=
  match s with
  | EmptyString => None
  | String c r => match lastDot r with
                  | Some (a, b) => Some (String c a, b)
                  | None => if Ascii.eqb c "."%char then Some ("", r) else None end
  end.
Definition splitName (name : string) : string * string := match lastDot name with Some x => x | None => ("", name) end.

(** lib.go:98-110 *)
Definition updated (c : conf) : bool := cUpdated c || existsb (fun x => sUpdated (snd x)) (cSections c).

(** lib.go:112-123; the name stands for the section returned *)
Definition addSectionNode (i : id) (ty : string) (ps : list part) (c : conf) : option (string * conf) :=
  do name <- (if String.eqb ty "def-section" then Some "" else do t <- secNameOf ps; Some (ttext t));
  match get name (cSections c) with
  | Some _ => Some (name, c)
  | None => Some (name, mkConf (cRoot c) (put name (mkSec [i] [] false) (cSections c)) (cUpdated c) (cFresh c))
  end.

(** lib.go:69-84 *)
Definition nlNode (i : id) : tok := Tk i "nl" (String "010"%char "").
Definition sepNode (i : id) : part := PNode i "sep" [nlNode (S i)].

(** lib.go:125-173 *)
Definition addSection (name : string) (c : conf) : option (string * conf) :=
  match get name (cSections c) with
  | Some _ => Some (name, c)
  | None =>
    let i := cFresh c in
    let root := cRoot c in
    if String.eqb name "" then
      match last_ root with
      | None => addSectionNode i "def-section" [] (mkConf [TNode i "def-section" []] (cSections c) true (S i))
      | Some l =>
        if negb (String.eqb (topType l) "def-section") then
          match find (fun t => match t with TNode _ _ _ => true | _ => false end) root with
          | Some (TNode j _ _) => addSectionNode i "def-section" [sepNode (1 + i)]
              (mkConf (onTop j (fun t => [TNode i "def-section" [sepNode (1 + i)]; t]) root) (cSections c) true (3 + i))
          | _ => addSectionNode i "def-section" [] (mkConf (root ++ [TNode i "def-section" []]) (cSections c) true (S i))
          end
        else addSectionNode i "def-section" [] (mkConf root (cSections c) true (S i))
      end
    else
      let ps := [PNode (1 + i) "header" [Tk (2 + i) "op" "["; Tk (3 + i) "sec-name" name; Tk (4 + i) "op" "]"; nlNode (5 + i)]] in
      do root <- match last_ root with
                 | Some (TNode j _ qs) => do l <- last_ qs;
                     Some (if negb (String.eqb (partType l) "sep")
                           then onTop j (fun t => match t with TNode j ty qs => [TNode j ty (qs ++ [sepNode (6 + i)])] | _ => [t] end) root else root)
                 | _ => Some root end;
      addSectionNode i "section" ps (mkConf (root ++ [TNode i "section" ps]) (cSections c) true (8 + i))
  end.

(** lib.go:180-186: the previous sibling *)
Fixpoint prevOf (i : id) (root : list top) : option top :=
  match root with
  | a :: ((TNode j _ _ :: _) as r) => if j =? i then Some a else prevOf i r
  | _ :: r => prevOf i r
  | [] => None
  end.

(** lib.go:175-191; [None] is a panic: a token is not a NodeElement *)
Definition removeSection (name : string) (c : conf) : option conf :=
  match get name (cSections c) with
  | None => Some c
  | Some sec =>
    let fix go ns root := match ns with
      | [] => Some root
      | n :: ns =>
        do root <- match prevOf n root with
                   | None => Some root
                   | Some (TTok _) => None
                   | Some (TNode _ _ qs) => match last_ qs with
                       | Some (PNode k ty _) => Some (if String.eqb ty "sep" then onPart k (fun _ => []) root else root)
                       | _ => Some root end end;
        go ns (onTop n (fun _ => []) root)
      end in
    do root <- go (sNodes sec) (cRoot c);
    Some (mkConf root (del name (cSections c)) true (cFresh c))
  end.

Section Trim.
(** strings.TrimSpace *)
Variable trim : string -> string.

(** lib.go:207-228; entry [i] of the section [sn] *)
Definition addEntryNode (sn : string) (i : id) (ks : list tok) (c : conf) : option conf :=
  do sec <- get sn (cSections c);
  do nt <- nth_error (searchIn "name" ks) 0;
  let '(root, upd, old) := match get (ttext nt) (sEntries sec) with
    | None => (cRoot c, sUpdated sec, None)
    | Some r => (onPart (eNode r) (fun _ => []) (cRoot c), true, eValueNode r) end in
  let '(vn, v) := match nth_error (searchIn "value" ks) 0 with
    | None => (old, "")
    | Some t => (Some (tid t), trim (ttext t)) end in
  Some (mkConf root (put sn (mkSec (sNodes sec) (put (ttext nt) (mkEntry i vn v) (sEntries sec)) upd) (cSections c)) (cUpdated c) (cFresh c)).

(** lib.go:245-249: children after the first one up to the first op *)
Fixpoint afterOp (ks : list tok) (x : list tok) : option (list tok) :=
  match ks with
  | [] => None
  | t :: r => if String.eqb (tty t) "op" then Some (t :: x ++ r) else do r' <- afterOp r x; Some (t :: r')
  end.

(** lib.go:269-277: the place after the last part that is a node and no separator *)
Definition isBody (p : part) : bool := match p with PNode _ ty _ => negb (String.eqb ty "sep") | _ => false end.
Fixpoint insertAfterLast (ps : list part) (x : part) : option (list part) :=
  match ps with
  | [] => None
  | p :: r => match insertAfterLast r x with
              | Some r' => Some (p :: r')
              | None => if isBody p then Some (p :: x :: r) else None end
  end.

(** lib.go:230-280 *)
Definition sectionSetEntry (sn name value : string) (c : conf) : option conf :=
  do sec <- get sn (cSections c);
  let i := cFresh c in
  match get name (sEntries sec) with
  | Some e =>
    if String.eqb (eValue e) value then Some c else
    let vs := if negb (String.eqb value "") then [Tk i "value" value] else [] in
    do root <- match eValueNode e with
               | None => do ks <- findPart (eNode e) (cRoot c);
                         match ks with
                         | k :: r => do r' <- afterOp r vs; Some (onPart (eNode e) (fun p => match p with PNode j ty _ => [PNode j ty (k :: r')] | _ => [p] end) (cRoot c))
                         | [] => None end
               | Some v => Some (onTok v (fun _ => vs) (cRoot c)) end;
    Some (mkConf root (put sn (mkSec (sNodes sec) (put name (mkEntry (eNode e) (if negb (String.eqb value "") then Some i else None) value) (sEntries sec)) true) (cSections c)) (cUpdated c) (S i))
  | None =>
    let vs := if negb (String.eqb value "") then [Tk (3 + i) "value" value] else [] in
    let ks := Tk (1 + i) "name" name :: Tk (2 + i) "op" "=" :: vs ++ [nlNode (4 + i)] in
    let node := PNode i "entry" ks in
    do sn' <- last_ (sNodes sec);
    do ps <- findTop sn' (cRoot c);
    let ps' := match insertAfterLast ps node with Some r => r | None => node :: ps end in
    let root := onTop sn' (fun t => match t with TNode j ty _ => [TNode j ty ps'] | _ => [t] end) (cRoot c) in
    addEntryNode sn i ks (mkConf root (put sn (mkSec (sNodes sec) (sEntries sec) true) (cSections c)) (cUpdated c) (5 + i))
  end.

(** lib.go:282-289, 193-199 *)
Definition removeEntry (name : string) (c : conf) : option conf :=
  let '(sn, en) := splitName name in
  match get sn (cSections c) with
  | None => Some c
  | Some sec =>
    match get en (sEntries sec) with
    | None => Some c
    | Some e => Some (mkConf (onPart (eNode e) (fun _ => []) (cRoot c))
                        (put sn (mkSec (sNodes sec) (del en (sEntries sec)) true) (cSections c)) (cUpdated c) (cFresh c))
    end
  end.

(** lib.go:201-205 *)
Definition setEntry (name value : string) (c : conf) : option conf :=
  let '(sn, en) := splitName name in
  do x <- addSection sn c;
  sectionSetEntry (fst x) en value (snd x).

(** lib.go:313-330: the records of a tree; [fresh] is a number no element has *)
Definition loadTop (c : conf) (t : top) : option conf :=
  match t with
  | TTok _ => Some c
  | TNode i ty ps =>
    do x <- addSectionNode i ty ps c;
    fold_left (fun o p => match p with
      | PNode j pty ks => if String.eqb pty "entry" then do c <- o; addEntryNode (fst x) j ks c else o
      | _ => o end) ps (Some (snd x))
  end.
Definition load (root : list top) (fresh : id) : option conf :=
  fold_left (fun o t => do c <- o; loadTop c t) root (Some (mkConf root [] false fresh)).

(** lib.go:364-382: the text written (of a writer without errors) *)
Definition serialize (root : list top) : string :=
  String.concat "" (map ttext (flat_map (fun t => match t with TTok t => [t] | TNode _ _ ps => flat_map tokensOfPart ps end) root)).

(** conf-edit.go:63-82: a history of edits, what the utility asks for *)
Inductive edit := SetEntry (name value : string) | RemoveEntry (name : string) | RemoveSection (name : string) | AddSection (name : string).
Definition perform (e : edit) (c : conf) : option conf :=
  match e with
  | SetEntry n v => setEntry n v c
  | RemoveEntry n => removeEntry n c
  | RemoveSection n => removeSection n c
  | AddSection n => do x <- addSection n c; Some (snd x)
  end.
Fixpoint performAll (es : list edit) (c : conf) : option conf :=
  match es with [] => Some c | e :: r => do c' <- perform e c; performAll r c' end.
End Trim.
