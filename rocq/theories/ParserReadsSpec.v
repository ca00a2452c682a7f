(** Specification: lexers whose tokens depend on what is wanted.  A source may be read in many ways; [view src l]: it can be read as the
    tokens [l]. *)
From Coq Require Import ZArith List.
From Verif Require Import Base Grammar Parser.
Import ListNotations.
Open Scope Z_scope.

Section S.
Context {Tok Src W E Inst R : Type}.
Variable c : config Tok Src W E Inst R.
Record readsOf (view : Src -> list Tok -> Prop) (ended : Src -> Prop) (eoi : Tok) : Prop := mkReads {
  ro_eoi : cType c eoi = EoiTokenType;
  (** a token is read, or there is nothing left to read *)
  ro_token : forall types src src' t, fetchToken c types src = (src', (Some t, None)) ->
    (cType c t <> EoiTokenType /\ ~ ended src /\ forall l, view src' l -> view src (t :: l)) \/ (t = eoi /\ ended src /\ ended src' /\ forall l, view src' l -> view src l);
  (** no token of the wanted types: nothing is read *)
  ro_none : forall types src src', fetchToken c types src = (src', (None, None)) ->
    (ended src -> ended src') /\ forall l, view src' l -> view src l;
  (** going back to the token read last (not an end) *)
  ro_unread : forall types src src' t, fetchToken c types src = (src', (Some t, None)) -> cType c t <> EoiTokenType -> cType c t <> EofTokenType ->
    forall l, view (cUnread c t src') l -> view src l
}.
End S.
