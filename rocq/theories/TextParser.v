(** Parser.Parse and ParseString with the lexers made by parser.New: /repo/parser/parser.go:157-177, 523-531, 809-830.
    Parser.v is about any lexers; here they are those of ParserNew.v, and the source is a queue of sources (SourceQueue.v).

    Parser.v needs functions that always return something, so a state of the source is a queue with a proof that it is a list of
    sources with positions ([LexerProofs.qok]); the list itself is not in the code, it is determined by the queue
    (see [items_unique]).  Queues of 2^31 sources or more are left out. *)
From Coq Require Import String ZArith List Lia Bool.
From Verif Require Import Base BaseProofs Utf8 Grammar Queue SourceQueue SourceQueueSpec Prop_SourceQueue Lexer LexerSpec LexerProofs
  ParserNew ParserNewSpec ParserNewProofs.
From Verif Require Parser.
Import ListNotations.
Open Scope Z_scope.

Section T.
(** sources and [==] of pointers to sources *)
Context {S : Type} (content : S -> list Z) (same : S -> S -> bool).
(** errors of lexers among other errors *)
Context {Err : Type} (wrap : lexError S -> Err).
(** *source.Queue *)
Definition queueState : Type := { x : @squeue S * aq S | qok content (fst x) (snd x) }.
Definition queueOf (src : queueState) : @squeue S := fst (proj1_sig src).
Definition itemsOf (src : queueState) : aq S := snd (proj1_sig src).

(** lexer.NextOf with the lexer [pl] never panics and leaves the queue in a good state (see [lexer_call]) *)
Definition sane (pl : plexer) : Prop := forall q l tts, qok content q l -> 0 <= tts ->
  exists q' res, lexNextOf content (plRe pl) (plLexer pl) q tts = Some (q', res) /\ qok content q' (afterRes l res).
(** grammar.BitSet is uint64 *)
Definition u64 (x : Z) : Z := x mod 2 ^ 64.
Lemma u64_nonneg x : 0 <= u64 x.
Proof. apply Z.mod_pos_bound. reflexivity. Qed.
Lemma sane_state pl (SA : sane pl) (src : queueState) tts q' res :
  lexNextOf content (plRe pl) (plLexer pl) (queueOf src) (u64 tts) = Some (q', res) -> qok content q' (afterRes (itemsOf src) res).
Proof.
  intros E. destruct src as [[q l] Q]. destruct (SA q l (u64 tts) Q (u64_nonneg tts)) as (q1 & r1 & E1 & Q1). cbn [queueOf itemsOf proj1_sig fst snd] in *.
  rewrite E1 in E. injection E as <- <-. exact Q1.
Qed.
(** parser.go:813: lexer.NextOf(queue, types) *)
Definition lexCall (pl : plexer) (SA : sane pl) (src : queueState) (tts : Z) : queueState * (option (token S) * option Err) :=
  match lexNextOf content (plRe pl) (plLexer pl) (queueOf src) (u64 tts) as r
    return (lexNextOf content (plRe pl) (plLexer pl) (queueOf src) (u64 tts) = r -> queueState * (option (token S) * option Err)) with
  | Some (q', res) => fun Q => (exist _ (q', afterRes (itemsOf src) res) (sane_state pl SA src tts q' res Q), (fst res, option_map wrap (snd res)))
  | None => fun _ => (src, (None, None))
  end eq_refl.
(** parser.go:92-100, 809-830: the lexers, one for each group *)
Fixpoint lexersOf (ls : list plexer) : (forall pl, In pl ls -> sane pl) -> list (queueState -> Z -> queueState * (option (token S) * option Err)) :=
  match ls with
  | [] => fun _ => []
  | pl :: r => fun H => lexCall pl (H pl (or_introl eq_refl)) :: lexersOf r (fun p I => H p (or_intror I))
  end.
Lemma lexers_sane prefers compilesAll g ls : regexpsOk prefers -> newParser prefers compilesAll g = NewLexers ls -> forall pl, In pl ls -> sane pl.
Proof.
  intros PO N pl I0. destruct (newParser_lexers _ _ _ _ N) as (_ & H). apply In_nth_error in I0. destruct I0 as (k & E).
  assert (Z0 : zget ls (Z.of_nat k) = Some pl) by (apply zget_nat; exact E). apply H in Z0. subst pl. intros q l tts Q T.
  destruct (lexer_call prefers PO (gTokens g) (Z.of_nat k) content q l tts Q T) as (q' & res & E1 & _ & Q'). eauto.
Qed.

(** ** Going back: parser.go:523-531 *)
Lemma seek_ok q l p : qok content q l -> qok content (sqSeek (slen content) q p) (a_move (slen content) l (fun _ => p)).
Proof.
  intros (A & O & B). split; [|split; [apply move_OK; [intros s; apply zlen_nonneg|exact O]|destruct l as [|(s, x) r]; exact B]].
  destruct l as [|(s, x) r]; cbn [absq a_move] in *; destruct A as (A1 & A2 & A3); unfold sqSeek; rewrite A1; [auto|].
  cbn [scur spos sq]. repeat split; auto. pose proof (zlen_nonneg (content s)). unfold slen in *.
  destruct (Z.leb_spec p 0); [lia|]. destruct (Z.ltb_spec (zlen (content s)) p); lia.
Qed.
(** sources.Seek *)
Definition seek (src : queueState) (p : Z) : queueState :=
  exist _ (sqSeek (slen content) (queueOf src) p, a_move (slen content) (itemsOf src) (fun _ => p)) (seek_ok _ _ p (proj2_sig src)).
Lemma prepend_ok (src : queueState) s q' : zlen (a_prepend (slen content) (itemsOf src) s) < 2 ^ 31 ->
  sqPrepend (slen content) (queueOf src) (Some s) = Some q' -> qok content q' (a_prepend (slen content) (itemsOf src) s).
Proof.
  intros B E. destruct src as [[q l] (A & O & B0)]. cbn [queueOf itemsOf proj1_sig fst snd] in *.
  destruct (step_ok (slen content) (fun s => zlen_nonneg (content s)) (q, []) (l, []) (SqPrepend (Some s))) as ([q1 sn] & E1 & (A1 & O1 & _)); cbn [fst snd a_step] in *; auto.
  { split; [exact A|]. split; [exact O|]. split; constructor. }
  cbn [sq_step] in E1. rewrite E in E1. cbn [obind] in E1. injection E1 as <- <-. split; [exact A1|split; [exact O1|exact B]].
Qed.
(** sources.Prepend *)
Definition prepend (src : queueState) (s : S) : queueState :=
  match Z_lt_dec (zlen (a_prepend (slen content) (itemsOf src) s)) (2 ^ 31) with
  | left B =>
      match sqPrepend (slen content) (queueOf src) (Some s) as r return (sqPrepend (slen content) (queueOf src) (Some s) = r -> queueState) with
      | Some q' => fun Q => exist _ (q', a_prepend (slen content) (itemsOf src) s) (prepend_ok src s q' B Q)
      | None => fun _ => src
      end eq_refl
  | right _ => src
  end.
(** parser.go:523-531 (the type of the token is checked in Parser.v) *)
Definition unreadToken (t : token S) (src : queueState) : queueState :=
  match tokSource t with
  | None => src
  | Some s =>
      let src := match scur (queueOf src) with
                 | Some s' => if same s s' then src else prepend src s
                 | None => prepend src s
                 end in
      seek src (tokPos t)
  end.

(** The rest of what is fixed for a parse is arbitrary: hooks, layers, options, ctx. *)
Record overText {W Inst R} (c : Parser.config (token S) queueState W Err Inst R) (ls : list plexer) (SA : forall pl, In pl ls -> sane pl) : Prop := mkOverText {
  ot_type : Parser.cType c = @tokType S;
  ot_text : Parser.cText c = @tokContent S;
  ot_lexers : Parser.cLexers c = lexersOf ls SA;
  ot_unread : Parser.cUnread c = unreadToken
}.
(** parser.go:174-177 ParseString: the queue *)
Definition stringQueue (s : S) : option (@squeue S) := do q <- sqNew ; sqAppend (slen content) q (Some s).
End T.
