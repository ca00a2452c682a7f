(** Specification: what quoted strings of descriptions stand for (langdef/docs.go:41-54). *)
From Coq Require Import ZArith List Bool.
From Verif Require Import Base.
Import ListNotations.
Open Scope Z_scope.

(** A hexadecimal digit: 0-9, a-f, A-F *)
Inductive digit : Z -> Z -> Prop :=
| DG_dec d : 0 <= d <= 9 -> digit (48 + d) d
| DG_low d : 10 <= d <= 15 -> digit (97 + (d - 10)) d
| DG_up d : 10 <= d <= 15 -> digit (65 + (d - 10)) d.
(** [number s n]: [s] is the number [n] in base 16 *)
Inductive number : list Z -> Z -> Prop :=
| NM_none : number [] 0
| NM_digit s n b d : number s n -> digit b d -> number (s ++ [b]) (16 * n + d).
(** runes: U+0000-U+D7FF, U+E000-U+10FFFF *)
Definition aRune (r : Z) : Prop := 0 <= r <= 55295 \/ 57344 <= r <= 1114111.
(** UTF-8 by bits: the leading byte tells the number of bytes, each of the rest has 6 bits *)
Inductive utf8 : Z -> list Z -> Prop :=
| U8_1 a : 0 <= a < 128 -> utf8 a [a]
| U8_2 a b : 0 <= a < 32 -> 0 <= b < 64 -> 128 <= a * 64 + b -> utf8 (a * 64 + b) [192 + a; 128 + b]
| U8_3 a b c : 0 <= a < 16 -> 0 <= b < 64 -> 0 <= c < 64 -> 2048 <= (a * 64 + b) * 64 + c -> utf8 ((a * 64 + b) * 64 + c) [224 + a; 128 + b; 128 + c]
| U8_4 a b c d : 0 <= a < 8 -> 0 <= b < 64 -> 0 <= c < 64 -> 0 <= d < 64 -> 65536 <= ((a * 64 + b) * 64 + c) * 64 + d ->
    utf8 (((a * 64 + b) * 64 + c) * 64 + d) [240 + a; 128 + b; 128 + c; 128 + d].

Section S.
(** what \x## stands for *)
Variable single : Z -> list Z -> Prop.
(** An escape and what it stands for; 92 is the backslash *)
Inductive escape : list Z -> list Z -> Prop :=
| ES_slash : escape [92; 92] [92]
| ES_quote : escape [92; 34] [34]
| ES_n : escape [92; 110] [10]
| ES_r : escape [92; 114] [13]
| ES_t : escape [92; 116] [9]
| ES_single h n u : length h = 2%nat -> number h n -> single n u -> escape (92 :: 120 :: h) u
| ES_rune4 h n u : length h = 4%nat -> number h n -> aRune n -> utf8 n u -> escape (92 :: 117 :: h) u
| ES_rune8 h n u : length h = 8%nat -> number h n -> aRune n -> utf8 n u -> escape (92 :: 85 :: h) u.
(** The text between double quotes and what it stands for *)
Inductive denotes : list Z -> list Z -> Prop :=
| DN_end : denotes [] []
| DN_byte b s t : b <> 92 -> b <> 34 -> denotes s t -> denotes (b :: s) (b :: t)
| DN_escape e u s t : escape e u -> denotes s t -> denotes (e ++ s) (u ++ t).
End S.
(** as documented: any byte *)
Definition aByte (n : Z) (u : list Z) : Prop := u = [n].
(** Texts between double quotes that are taken for strings (parser.go:168): a backslash quotes the next byte *)
Inductive body : list Z -> Prop :=
| BD_end : body []
| BD_byte b s : b <> 92 -> b <> 34 -> body s -> body (b :: s)
| BD_quoted b s : body s -> body (92 :: b :: s).
