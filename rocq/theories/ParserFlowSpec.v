(** Specification of the flow of tokens from the source to the hooks. *)
From Coq Require Import ZArith List Bool.
From Verif Require Import Base Grammar Parser ParserSpec.
Import ListNotations.
Open Scope Z_scope.

Section S.
Context {Tok Src W E Inst R : Type}.
Variable c : config Tok Src W E Inst R.
Notation event := (event Tok E Inst R).
Notation tree := (tree Tok Inst R).
Notation world := (world Src W).

(** What node hooks of a layer have been told about tokens. *)
Definition tokensOf (layer : nat) (l : list event) : list Tok :=
  flat_map (fun ev => match ev with EvToken k _ t => if (k =? layer)%nat then [t] else [] | _ => [] end) l.
Fixpoint everyNodeHas (layer : nat) (T : tree) : Prop :=
  match T with
  | Leaf _ => True
  | Node _ _ hooks _ kids =>
      (exists i, nth_error hooks layer = Some (Some i)) /\
      (fix go l := match l with [] => True | k :: r => everyNodeHas layer k /\ go r end) kids
  end.

(** Tokens of side types, e.g. space and comments *)
Definition sideToken (t : Tok) : bool :=
  match zget (gTokens (cGrammar c)) (cType c t) with Some d => hasFlag (gtFlags d) SideToken | None => false end.
(** The parser takes no end-of-file tokens; it takes side tokens only if it is told so. *)
Definition visible (t : Tok) : bool := negb (cType c t =? EofTokenType) && (cPassSides c || negb (sideToken t)).
Definition visibleO (t : option Tok) : bool := match t with Some t => visible t | None => true end.

(** What a hook layer makes of one token. *)
Definition replacement (d : Tok * (bool * list Tok)) : list Tok :=
  match d with (t, (emit, extra)) => if emit then t :: extra else extra end.

(** The lexers read a source token by token and then return the end-of-input token for ever.
    They may also find no token of the wanted types, in which case they stay where they are. *)
Definition sourceOf (view : Src -> list Tok) (eoi : Tok) : Prop :=
  cType c eoi = EoiTokenType /\
  (forall types src src' t, fetchToken c types src = (src', (Some t, None)) ->
     view src = t :: view src' \/ (view src = [] /\ t = eoi /\ view src' = [])) /\
  (forall types src src', fetchToken c types src = (src', (None, None)) -> view src' = view src).
(** Going back to the token read last (not an end) *)
Definition unreadOf (view : Src -> list Tok) : Prop :=
  forall types src src' t, fetchToken c types src = (src', (Some t, None)) -> cType c t <> EoiTokenType -> cType c t <> EofTokenType -> view (cUnread c t src') = t :: view src'.

(** Hooks do not touch the source (they may look ahead). *)
Inductive quietProg : prog Tok Src W E -> Prop :=
| Q_ret emit extra e : quietProg (PRet emit extra e)
| Q_peek k : (forall r, quietProg (k r)) -> quietProg (PPeek k)
| Q_world f k : (forall w, fst (f w) = fst w) -> (forall w, quietProg (k w)) -> quietProg (PWorld f k).
Record quietHooks : Prop := mkQuiet {
  qh_ctx : forall w, fst (fst (cCtx c w)) = fst w;
  qh_newNode : forall i n t w, fst (fst (mNewNode (cMethods c) i n t w)) = fst w;
  qh_node : forall i n x w, fst (fst (mHandleNode (cMethods c) i n x w)) = fst w;
  qh_token : forall i t w, fst (fst (mHandleToken (cMethods c) i t w)) = fst w;
  qh_end : forall i w, fst (fst (mEndNode (cMethods c) i w)) = fst w;
  qh_create : forall table h n t w, In table (cNodeHooks c) -> In (Some h) table -> fst (fst (h n t w)) = fst w;
  qh_hook : forall table h t, In table (cTokenHooks c) -> In (Some h) table -> quietProg (h t)
}.
End S.
