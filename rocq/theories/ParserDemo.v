(** A small concrete setting used in examples: tokens are pairs (type, number), a source is a
    list of tokens, hook instances are node indexes. *)
From Coq Require Import ZArith List Bool.
From Verif Require Import Base Grammar Parser ParserSpec ParserFlowSpec.
Import ListNotations.
Open Scope Z_scope.

Definition dTok := (Z * Z)%type.
Definition dEoi : dTok := (-3, 0).
Definition dLexer (src : list dTok) (types : Z) : list dTok * (option dTok * option Z) :=
  match src with [] => ([], (Some dEoi, None)) | t :: r => (r, (Some t, None)) end.
Definition dMethods : methods dTok (list dTok) Z Z Z Z := mkMethods
  (fun i n t w => (w, None)) (fun i n x w => (w, None)) (fun i t w => (w, None)) (fun i w => (w, (Some (10 + i), None))).
Definition dNodeHook : nodeHook (Tok := dTok) (Src := list dTok) (W := Z) (E := Z) (Inst := Z) := fun node t w => (w, (Some node, None)).
(** one layer of node hooks: any node *)
Definition demo (g : grammar) (hooks : list (list (option tokenHook))) (sides full : bool) : config dTok (list dTok) Z Z Z Z := mkConfig
  fst (fun _ => []) (fun x => x) dMethods g [dLexer] (fun _ => None) hooks
  [Some dNodeHook :: map (fun _ => None) (gNodes g)] (fun w => (w, None)) sides true full (fun t src => t :: src).

Lemma demo_source g hooks sides full : sourceOf (demo g hooks sides full) (fun src => src) dEoi.
Proof.
  split; [reflexivity|]. unfold fetchToken. split; cbn [demo cLexers fetchLoop].
  - intros types [|t0 src] src' t; cbn; intros H; injection H as <- <-; auto.
  - intros types [|t0 src] src'; cbn; discriminate.
Qed.
Lemma demo_unread g hooks sides full : unreadOf (demo g hooks sides full) (fun src => src).
Proof. intros types src src' t _ _ _. reflexivity. Qed.
Lemma demo_quiet g hooks sides full : (forall table h t, In table hooks -> In (Some h) table -> quietProg (h t)) -> quietHooks (demo g hooks sides full).
Proof.
  intros H. constructor; try reflexivity; [|exact H]. intros table h n t w [<-|[]] [X|X].
  - injection X as <-. reflexivity.
  - apply in_map_iff in X as (x & X & _). discriminate.
Qed.

(** "a {b} [node]", where node is "c d"; 4 is a side token:
    state 0: a -> 1; 1: any -> 2, b -> 1; 2: any -> final, c -> final with node 1; 3: c -> 4; 4: d -> final *)
Definition dGrammar : grammar := mkGrammar
  [mkTok [97] [97] 0 0; mkTok [98] [98] 0 0; mkTok [99] [99] 0 0; mkTok [100] [100] 0 0; mkTok [32] [32] 0 SideToken]
  [] [mkNode [1] 0; mkNode [2] 3]
  [mkState 31 0 0 0 1; mkState 31 0 0 1 3; mkState 31 0 0 3 5; mkState 31 0 0 5 6; mkState 31 0 0 6 7] []
  [mkRule 0 1 (-1); mkRule (-1) 2 (-1); mkRule 1 1 (-1); mkRule (-1) (-1) (-1); mkRule 2 (-1) 1; mkRule 2 4 (-1); mkRule 3 (-1) (-1)].
