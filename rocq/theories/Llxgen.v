(** Model of /repo/cmd/llxgen/llxgen.go:37-117, the command line utility around the generator of Gen.v.
    - Texts and names are lists of bytes.  Names of files are those of Unix: [/] separates elements.
    - Files are a function from places to contents; [place] says which file a name means (current directory, links).
    - Reading of flags is the documented behaviour of package flag of the standard library: -name, --name, -name=value, -name value for texts; the first argument which is not a flag, or the one after --, is the file.
    - langdef.ParseBytes, makeJson (json.MarshalIndent) and filepath.Abs are parameters; makeGo is that of Gen.v.
    - os.WriteFile makes the file empty, then writes the content; [writes] says how it goes: all is written, the file can't be opened, or only some bytes are written.
    - Messages printed are not modelled. *)
From Coq Require Import String ZArith List Bool.
From Verif Require Import Base Grammar Gen.
Import ListNotations.
Local Open Scope string_scope.
Local Open Scope list_scope.
Open Scope Z_scope.

(** ** package path/filepath *)
(** filepath.Ext: the loop from the last byte; [r] is the rest of the name reversed, [acc] is what has been passed *)
Fixpoint extLoop (r acc : list Z) : list Z :=
  match r with
  | [] => []
  | b :: r => if b =? 47 then [] else if b =? 46 then b :: acc else extLoop r (b :: acc)
  end.
Definition pathExt (p : list Z) : list Z := extLoop (rev p) [].
(** filepath.Split: the loop from the last byte *)
Fixpoint splitLoop (r acc : list Z) : list Z * list Z :=
  match r with
  | [] => ([], acc)
  | b :: r' => if b =? 47 then (rev r, acc) else splitLoop r' (b :: acc)
  end.
Definition pathSplit (p : list Z) : list Z * list Z := splitLoop (rev p) [].

(** ** flags *)
(** llxgen.go:32-35: variables *)
Record options := mkOptions { oJson : bool; oOut : list Z; oPkg : list Z; oVar : list Z }.
Definition noOptions := mkOptions false [] [] [].
(** results of flag.Parse: values and arguments left, a request of help, an error *)
Inductive parsed := Parsed (o : options) (args : list (list Z)) | Help | Wrong.
(** strconv.ParseBool *)
Definition parseBool (s : list Z) : option bool :=
  if existsb (fun x => if list_eq_dec Z.eq_dec s x then true else false) [bytes "1"; bytes "t"; bytes "T"; bytes "TRUE"; bytes "true"; bytes "True"] then Some true
  else if existsb (fun x => if list_eq_dec Z.eq_dec s x then true else false) [bytes "0"; bytes "f"; bytes "F"; bytes "FALSE"; bytes "false"; bytes "False"] then Some false
  else None.
(** the name of a flag and its value after [=] *)
Fixpoint cutValue (s : list Z) : list Z * option (list Z) :=
  match s with
  | [] => ([], None)
  | b :: r => if b =? 61 then ([], Some r) else let (n, v) := cutValue r in (b :: n, v)
  end.
(** an argument: not a flag, the terminator, a malformed flag, or a flag with its text *)
Inductive argKind := Plain | Terminator | Malformed | Flag (s : list Z).
Definition argKindOf (a : list Z) : argKind :=
  match a with
  | 45 :: b :: r =>
      let s := if b =? 45 then r else b :: r in
      if (b =? 45) && (match r with [] => true | _ => false end) then Terminator
      else match s with
           | [] => Malformed
           | c :: _ => if (c =? 45) || (c =? 61) then Malformed else Flag s
           end
  | _ => Plain
  end.
(** llxgen.go:45-48: the flags defined; setters of texts *)
Definition textFlag (n : list Z) : option (options -> list Z -> options) :=
  match n with
  | [111] => Some (fun o v => mkOptions (oJson o) v (oPkg o) (oVar o))
  | [112] => Some (fun o v => mkOptions (oJson o) (oOut o) v (oVar o))
  | [118] => Some (fun o v => mkOptions (oJson o) (oOut o) (oPkg o) v)
  | _ => None
  end.
Definition setJson (o : options) (b : bool) : options := mkOptions b (oOut o) (oPkg o) (oVar o).
(** llxgen.go:49: flag.Parse *)
Fixpoint parseFlags (o : options) (args : list (list Z)) : parsed :=
  match args with
  | [] => Parsed o []
  | a :: rest =>
      match argKindOf a with
      | Plain => Parsed o args
      | Terminator => Parsed o rest
      | Malformed => Wrong
      | Flag s =>
          let (n, v) := cutValue s in
          match n with
          | [106] => match v with
                     | None => parseFlags (setJson o true) rest
                     | Some v => match parseBool v with Some b => parseFlags (setJson o b) rest | None => Wrong end
                     end
          | _ => match textFlag n with
                 | Some set => match v, rest with
                               | Some v, _ => parseFlags (set o v) rest
                               | None, v :: rest => parseFlags (set o v) rest
                               | None, [] => Wrong
                               end
                 | None => if (if list_eq_dec Z.eq_dec n (bytes "help") then true else false) || (if list_eq_dec Z.eq_dec n (bytes "h") then true else false) then Help else Wrong
                 end
          end
      end
  end.

(** ** main *)
Definition files := list Z -> option (list Z).
Inductive written := WAll | WRefused | WSome (n : nat).
Inductive exit := Exit (code : Z) (fs : files) | Crash (fs : files).

(** llxgen.go:56-64: the name of the output; [None] is a panic *)
Definition outputName (o : options) (input : list Z) : option (list Z) :=
  match oOut o with
  | [] => do stem <- zslice input 0 (zlen input - zlen (pathExt input)) ;
          Some (stem ++ (if oJson o then bytes ".json" else bytes ".go"))
  | out => Some out
  end.

Section Main.
Variable isPrint : Z -> bool.
(** langdef.ParseBytes; [None] is an error *)
Variable parse : list Z -> list Z -> option grammar.
(** makeJson; [None] is an error *)
Variable json : grammar -> option (list Z).
(** filepath.Abs; [None] is an error *)
Variable abs : list Z -> option (list Z).
Variable place : list Z -> list Z.
Variable writes : list Z -> list Z -> written.

(** os.WriteFile *)
Definition put (fs : files) (name content : list Z) : files := fun p => if list_eq_dec Z.eq_dec p (place name) then Some content else fs p.
Definition writeFile (fs : files) (name content : list Z) : files * bool :=
  match writes name content with
  | WAll => (put fs name content, true)
  | WRefused => (fs, false)
  | WSome n => (put fs name (firstn n content), false)
  end.
(** llxgen.go:93-102: the name of the package; a slice of the empty text panics.  Outer [None] is a panic, the inner one is an error *)
Definition packageDir (out : list Z) : option (option (list Z)) :=
  match abs out with
  | None => Some None
  | Some a => let dir := fst (pathSplit a) in
              do d <- zslice dir 0 (zlen dir - 1) ;
              Some (Some (snd (pathSplit d)))
  end.
(** llxgen.go:93-206: makeGo; the directory is looked for only when no name is given *)
Definition goText (o : options) (out : list Z) (g : grammar) : option (option (list Z)) :=
  do dir <- (match oPkg o with [] => packageDir out | _ => Some (Some []) end) ;
  match dir with
  | None => Some None
  | Some dir => do r <- makeGo isPrint dir (oPkg o) (oVar o) g ; Some (match r with inl t => Some t | inr _ => None end)
  end.
(** llxgen.go:37-87 *)
Definition llxgen (args : list (list Z)) (fs : files) : exit :=
  match parseFlags noOptions args with
  | Help => Exit 0 fs
  | Wrong => Exit 2 fs
  | Parsed o rest =>
      let input := match rest with a :: _ => a | [] => [] end in
      match input with
      | [] => Exit 2 fs
      | _ =>
          match outputName o input with
          | None => Crash fs
          | Some out =>
              match fs (place input) with
              | None => Exit 3 fs
              | Some src =>
                  match parse input src with
                  | None => Exit 3 fs
                  | Some g =>
                      match (if oJson o then Some (json g) else goText o out g) with
                      | None => Crash fs
                      | Some None => Exit 3 fs
                      | Some (Some content) => let (fs', ok) := writeFile fs out content in Exit (if ok then 0 else 3) fs'
                      end
                  end
              end
          end
      end
  end.
End Main.
