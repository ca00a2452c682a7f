(** Model of the two functions of Go's unicode/utf8 that llx uses.
    A byte is a [Z] in [0,256).  This is the documented behaviour of the
    standard library (not code of /repo). *)
From Coq Require Import ZArith List Bool.
Import ListNotations.
Open Scope Z_scope.

Definition between (a b x : Z) : bool := (a <=? x) && (x <=? b).

(** U+FFFD *)
Definition RuneError : Z := 65533.

(** utf8.DecodeRune: (rune, width); (RuneError,0) for empty input and
    (RuneError,1) for an invalid or truncated encoding.  The ranges of the
    second byte exclude overlong forms, surrogates and values above 10FFFF. *)
Definition decodeRune (p : list Z) : Z * Z :=
  match p with
  | [] => (RuneError, 0)
  | b0 :: r =>
      if b0 <? 128 then (b0, 1)
      else if between 194 223 b0 then
        match r with
        | b1 :: _ => if between 128 191 b1 then ((b0 - 192) * 64 + (b1 - 128), 2) else (RuneError, 1)
        | _ => (RuneError, 1)
        end
      else if between 224 239 b0 then
        match r with
        | b1 :: b2 :: _ =>
            let lo := if b0 =? 224 then 160 else 128 in
            let hi := if b0 =? 237 then 159 else 191 in
            if between lo hi b1 && between 128 191 b2
            then ((b0 - 224) * 4096 + (b1 - 128) * 64 + (b2 - 128), 3) else (RuneError, 1)
        | _ => (RuneError, 1)
        end
      else if between 240 244 b0 then
        match r with
        | b1 :: b2 :: b3 :: _ =>
            let lo := if b0 =? 240 then 144 else 128 in
            let hi := if b0 =? 244 then 143 else 191 in
            if between lo hi b1 && between 128 191 b2 && between 128 191 b3
            then ((b0 - 240) * 262144 + (b1 - 128) * 4096 + (b2 - 128) * 64 + (b3 - 128), 4)
            else (RuneError, 1)
        | _ => (RuneError, 1)
        end
      else (RuneError, 1)
  end.

(** The text cut into runes (each invalid byte is a rune of width 1). *)
Fixpoint runes_fuel (fuel : nat) (p : list Z) : list (list Z) :=
  match fuel, p with
  | _, [] => []
  | O, _ => []
  | S f, _ => let n := Z.to_nat (snd (decodeRune p)) in firstn n p :: runes_fuel f (skipn n p)
  end.
Definition runes (p : list Z) : list (list Z) := runes_fuel (length p) p.

(** utf8.RuneCount *)
Definition runeCount (p : list Z) : Z := Z.of_nat (length (runes p)).
