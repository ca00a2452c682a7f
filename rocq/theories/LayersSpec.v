(** Specification of hook layers (hooks.go:68-101, 189-207; docs in langdef/docs.go:125-133). *)
From Coq Require Import ZArith List Bool.
From Verif Require Import Base Grammar Layers.
From Verif Require Lexer.
Import ListNotations.
Open Scope Z_scope.

(** The template first registered under a name *)
Fixpoint firstOf {T} (n : name) (h : list (name * T)) : option T :=
  match h with
  | [] => None
  | (k, t) :: r => if list_eq_dec Z.eq_dec k n then Some t else firstOf n r
  end.

(** Maps of hooks have one hook per key. *)
Definition aMap {V} (m : list (name * V)) : Prop := NoDup (map fst m).
Section H.
Context {TH NH : Type}.
Record maps (hs : hooks TH NH) : Prop := mkMaps { mp_tokens : aMap (hTokens hs); mp_literals : aMap (hLiterals hs); mp_nodes : aMap (hNodes hs) }.
Variable g : grammar.
(** a type of tokens hooks and hook layers may refer to *)
Definition namedType (i : Z) (d : gtoken) : Prop := zget (gTokens g) i = Some d /\ hasFlag (gtFlags d) LiteralToken = false /\ hasFlag (gtFlags d) ErrorToken = false.
(** Names of a grammar: types of tokens have different names, so do nodes; none of them is a special name. *)
Record goodNames : Prop := mkGoodNames {
  gn_types : forall i j d e, namedType i d -> namedType j e -> gtName d = gtName e -> i = j;
  gn_special : forall i d, namedType i d -> ~ In (gtName d) [anyName; eofName; eoiName];
  gn_nodes : NoDup (map gnName (gNodes g));
  gn_any : ~ In anyName (map gnName (gNodes g))
}.
Definition knownType (n : name) : Prop := In n [anyName; eofName; eoiName] \/ exists i d, namedType i d /\ gtName d = n.
Definition knownNode (n : name) : Prop := n = anyName \/ In n (map gnName (gNodes g)).
(** Hooks of the layer refer to things of the grammar. *)
Definition knownTokens (hs : hooks TH NH) : Prop := forall n h, In (n, h) (hTokens hs) -> knownType n.
Definition knownNodes (hs : hooks TH NH) : Prop := forall n h, In (n, h) (hNodes hs) -> knownNode n.
Definition orElse {A} (o o' : option A) : option A := match o with Some x => Some x | None => o' end.
(** The hook a layer has for a token of the type and with the text: the one for the text if tokens of this type may be literals; or the one for
    the type; or the one for any token.  A special token has no text and is not "any token". *)
Definition pick (hs : hooks TH NH) (tt : Z) (text : name) : option TH :=
  if tt =? Lexer.EofTokenType then nget eofName (hTokens hs)
  else if tt =? Lexer.EoiTokenType then nget eoiName (hTokens hs)
  else match zget (gTokens g) tt with
       | Some d => orElse (if hasFlag (gtFlags d) NoLiteralsToken then None else nget text (hLiterals hs)) (orElse (nget (gtName d) (hTokens hs)) (nget anyName (hTokens hs)))
       | None => None
       end.
(** The hook a layer has for a node *)
Definition pickNode (hs : hooks TH NH) (n : name) : option NH := orElse (nget n (hNodes hs)) (nget anyName (hNodes hs)).
(** Types of tokens hooks get *)
Definition properType (tt : Z) : Prop := tt = Lexer.EofTokenType \/ tt = Lexer.EoiTokenType \/ exists d, namedType tt d.
(** A layer that has hooks for tokens; for nodes *)
Definition hooksTokens (hs : hooks TH NH) : bool := match hTokens hs, hLiterals hs with [], [] => false | _, _ => true end.
Definition hooksNodes (hs : hooks TH NH) : bool := match hNodes hs with [] => false | _ => true end.
(** What is left of hooks of a layer that refers to unknown things: if a type of tokens is unknown, then nothing; if a node is unknown, then hooks for tokens. *)
Inductive effective (hs : hooks TH NH) : hooks TH NH -> Prop :=
| eff_all : knownTokens hs -> knownNodes hs -> effective hs hs
| eff_tokens : knownTokens hs -> ~ knownNodes hs -> effective hs (mkHooks (hTokens hs) (hLiterals hs) [])
| eff_none : ~ knownTokens hs -> effective hs (mkHooks [] [] []).
(** An error that names something unknown to the grammar *)
Definition namesUnknown (hs : hooks TH NH) (e : hookError) : Prop :=
  match e with
  | UnknownTokenType n => (exists h, In (n, h) (hTokens hs)) /\ ~ knownType n
  | UnknownNode n => (exists h, In (n, h) (hNodes hs)) /\ ~ knownNode n
  end.
(** Nodes without hooks get the default one if there are hooks for other nodes. *)
Definition withDefault (dflt : NH) (hs : hooks TH NH) : hooks TH NH :=
  match hNodes hs, nget anyName (hNodes hs) with
  | _ :: _, None => mkHooks (hTokens hs) (hLiterals hs) (hNodes hs ++ [(anyName, dflt)])
  | _, _ => hs
  end.
End H.
