(** Model of /repo/langdef/parser.go, lines 129-150 and 351-408: strings of descriptions.
    - Contents of tokens are lists of bytes.
    - [strconv.ParseUint(s, 16, 32)] and [utf8.AppendRune], [utf8.ValidRune] are the documented behaviour of the standard library. *)
From Coq Require Import ZArith List Bool.
From Verif Require Import Base Utf8.
Import ListNotations.
Open Scope Z_scope.

(** value of a hexadecimal digit *)
Definition hexDigit (b : Z) : option Z :=
  if between 48 57 b then Some (b - 48)
  else if between 97 102 b then Some (b - 87)
  else if between 65 70 b then Some (b - 55)
  else None.
Fixpoint hexDigits (s : list Z) (n : Z) : option Z :=
  match s with
  | [] => Some n
  | b :: r => do d <- hexDigit b; hexDigits r (n * 16 + d)
  end.
(** strconv.ParseUint(s, 16, 32); [None] is an error *)
Definition parseHex (s : list Z) : option Z :=
  match s with
  | [] => None
  | _ => do n <- hexDigits s 0; if n <? 4294967296 then Some n else None
  end.
(** rune(codePoint): int32 *)
Definition toRune (n : Z) : Z := if n <? 2147483648 then n else n - 4294967296.
(** utf8.ValidRune *)
Definition validRune (r : Z) : bool := between 0 55295 r || between 57344 1114111 r.
(** utf8.AppendRune(nil, r) for a valid rune *)
Definition encodeRune (r : Z) : list Z :=
  if r <? 128 then [r]
  else if r <? 2048 then [192 + r / 64; 128 + r mod 64]
  else if r <? 65536 then [224 + r / 4096; 128 + r / 64 mod 64; 128 + r mod 64]
  else [240 + r / 262144; 128 + r / 4096 mod 64; 128 + r / 64 mod 64; 128 + r mod 64].

Definition Quote : Z := 34.
Definition Slash : Z := 92.
(** parser.go:138-151: the substitute and the number of digits *)
Definition escapeChar (b : Z) : option (Z * Z) :=
  if b =? Slash then Some (Slash, 0)
  else if b =? Quote then Some (Quote, 0)
  else if b =? 110 then Some (10, 0)
  else if b =? 114 then Some (13, 0)
  else if b =? 116 then Some (9, 0)
  else if b =? 120 then Some (0, 2)
  else if b =? 117 then Some (0, 4)
  else if b =? 85 then Some (0, 8)
  else None.

Inductive strRes :=
| SOk (text : list Z)
| SBadEscape (text : list Z)     (* errors.go: invalidEscapeError *)
| SBadRune (text : list Z)       (* invalidRuneError *)
| SStuck                         (* the loop did not end within the given number of steps *)
| SPanic.                        (* index out of range *)

(** bytes.IndexByte(content, '\\'), then content[:pos] and content[pos:] *)
Fixpoint cutSlash (content : list Z) : option (list Z * list Z) :=
  match content with
  | [] => None
  | b :: r => if b =? Slash then Some ([], content) else match cutSlash r with Some (p, s) => Some (b :: p, s) | None => None end
  end.
(** parser.go:357-372 *)
Definition peekRune (content : list Z) (hexLen : Z) : Z + strRes :=
  if zlen content <? hexLen + 3 then inr (SBadEscape content)
  else match zslice content 2 (hexLen + 2) with
       | None => inr SPanic
       | Some s =>
           match parseHex s with
           | None => inr (SBadEscape content)
           | Some n => if validRune (toRune n) then inl (toRune n) else inr (SBadRune s)
           end
       end.
(** parser.go:375-405 *)
Fixpoint unescape (fuel : nat) (content result : list Z) : strRes :=
  match fuel with
  | O => SStuck
  | S f =>
      match cutSlash content with
      | None => SOk (result ++ content)
      | Some (before, content) =>
          let result := result ++ before in
          match zget content 1 with
          | None => SPanic
          | Some letter =>
              match escapeChar letter with
              | None => match zslice content 0 2 with Some s => SBadEscape s | None => SPanic end
              | Some (substitute, hexLen) =>
                  if hexLen =? 0 then
                    match zslice content 2 (zlen content) with
                    | Some content => unescape f content (result ++ [substitute])
                    | None => SPanic
                    end
                  else
                    match peekRune content hexLen with
                    | inr e => e
                    | inl r =>
                        match zslice content (hexLen + 2) (zlen content) with
                        | Some content => unescape f content (result ++ encodeRune r)
                        | None => SPanic
                        end
                    end
              end
          end
      end
  end.
(** parser.go:351-408: the content of the resulting token.  Each step of the loop drops two bytes at least, so this many steps are
    enough (see Prop_LangString.v). *)
Definition processString (content : list Z) : strRes :=
  match content with
  | [] => SPanic
  | b :: _ => if negb (b =? Quote) || match cutSlash content with None => true | Some _ => false end then SOk content
              else unescape (S (length content)) content []
  end.
