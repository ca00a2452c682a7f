(** Properties of hook layers: registry (C38), choice of hooks (C54), reports of unknown names (C55). *)
From Coq Require Import String ZArith List Bool Lia.
From Verif Require Import Base Grammar LangTypes Layers LayersSpec LayersProofs.
From Verif Require Lexer LangText LangTextTotal Parser.
Import ListNotations.
Local Open Scope string_scope.
Open Scope Z_scope.

(** ** C38: registry *)
(** After any history of registrations a name resolves to the template first registered under it. *)
Theorem registry_first {T} (h : list (name * T)) n : nget n (fst (registerAll h [])) = firstOf n h.
Proof. pose proof (registerAll_ok h []) as H. destruct (registerAll h []) as (r, l). destruct H as (A & _). apply A. Qed.
(** A call succeeds exactly if no earlier call had the same name; every call has a result. *)
Theorem registration_fails_for_known {T} (h : list (name * T)) : length (snd (registerAll h [])) = length h /\
  forall i n t, nth_error h i = Some (n, t) -> (nth_error (snd (registerAll h [])) i = Some true <-> forall j t', (j < i)%nat -> nth_error h j <> Some (n, t')).
Proof.
  pose proof (registerAll_ok h []) as H. destruct (registerAll h []) as (r, l). destruct H as (_ & A & B). split; [exact A|]. intros i n t H. rewrite (B i n t H). cbn. split; [intros (_ & X); exact X|auto].
Qed.
(** Layers of a grammar are made, in order, by templates given to the parser, or else by registered ones. *)
Theorem layers_resolved {T L E} (setup : T -> list gcommand -> L + E) own known defs ls :
  newLayers setup own known defs = inl ls <-> Forall2 (fun d l => exists t, orElse (nget (glType d) own) (nget (glType d) known) = Some t /\ setup t (glCommands d) = inl l) defs ls.
Proof.
  revert ls. induction defs as [|d defs IH]; intros ls; cbn [newLayers].
  - split; [intros H; injection H as <-; constructor|intros H; inversion H; reflexivity].
  - change (match nget (glType d) own with Some t => Some t | None => nget (glType d) known end) with (orElse (nget (glType d) own) (nget (glType d) known)). split.
    + intros H. destruct (orElse (nget (glType d) own) (nget (glType d) known)) as [t|] eqn:O; [|discriminate]. destruct (setup t (glCommands d)) as [l|e] eqn:S; [|discriminate]. destruct (newLayers setup own known defs) as [r|e]; [|discriminate]. injection H as <-. constructor; [eauto|apply IH; reflexivity].
    + intros H. inversion H as [|? ? ? r (t & O & S) F]; subst. rewrite O, S. apply IH in F. rewrite F. reflexivity.
Qed.
(** Otherwise the error is about the first layer that cannot be made. *)
Theorem layers_error {T L E} (setup : T -> list gcommand -> L + E) own known defs e : newLayers setup own known defs = inr e -> exists i d, nth_error defs i = Some d /\
  (exists ls, newLayers setup own known (firstn i defs) = inl ls) /\
  match e with
  | UnknownLayer n => n = glType d /\ orElse (nget n own) (nget n known) = None
  | SetupError x => exists t, orElse (nget (glType d) own) (nget (glType d) known) = Some t /\ setup t (glCommands d) = inr x
  end.
Proof.
  induction defs as [|d defs IH]; cbn [newLayers]; [discriminate|]. change (match nget (glType d) own with Some t => Some t | None => nget (glType d) known end) with (orElse (nget (glType d) own) (nget (glType d) known)).
  destruct (orElse (nget (glType d) own) (nget (glType d) known)) as [t|] eqn:O.
  - destruct (setup t (glCommands d)) as [l|x] eqn:S.
    + destruct (newLayers setup own known defs) as [r|e'] eqn:N; [discriminate|]. intros H. injection H as ->. destruct (IH eq_refl) as (i & d' & A & (ls & B) & C). exists (Datatypes.S i), d'. split; [exact A|]. split; [|exact C]. exists (l :: ls). cbn [firstn newLayers]. change (match nget (glType d) own with Some t => Some t | None => nget (glType d) known end) with (orElse (nget (glType d) own) (nget (glType d) known)). rewrite O, S, B. reflexivity.
    + intros H. injection H as <-. exists 0%nat, d. split; [reflexivity|]. split; [exists []; reflexivity|]. exists t. auto.
  - intros H. injection H as <-. exists 0%nat, d. split; [reflexivity|]. split; [exists []; reflexivity|]. auto.
Qed.

(** ** C54: choice of hooks *)
Lemma nodeHookFor_inv {NH} (t : list (option NH)) i x : nodeHookFor t i = Some x -> exists h a, zget t (i + 1) = Some h /\ zget t 0 = Some a /\ orElse h a = x.
Proof. unfold nodeHookFor. destruct (zget t (i + 1)) as [h|]; [|discriminate]. cbn [obind]. destruct (zget t 0) as [a|]; [|discriminate]. cbn [obind]. intros H. injection H as <-. eauto. Qed.
Section Choice.
Context {Tok Src W E Inst R : Type}.
Notation TH := (@Parser.tokenHook Tok Src W E).
Notation NH := (@Parser.nodeHook Tok Src W E Inst).
Notation config := (Parser.config Tok Src W E Inst R).
Variable g : grammar.
(** Hooks given to a parse and hooks of layers of the grammar are installed so that
    - hooks of the parse come first (index 0), then those of layers from the last one to the first one, and only those of layers that have hooks;
    - the hook chosen for any token, or node, is the documented one.
    For layers that refer to things unknown to the grammar see [effective]. *)
Theorem hooks_installed (dflt : NH) (user : hooks TH NH) layers : goodNames g -> maps user -> Forall maps layers -> knownTokens g user -> knownNodes g user ->
  exists st layers', installHooks g dflt user layers = Some (inl st) /\ Forall2 (effective g) layers layers' /\
  (forall c : config, Parser.cGrammar c = g -> (forall k, Parser.cLiterals c k = nget k (iLiterals st)) ->
    Forall2 (fun hs t => forall tok, properType g (Parser.cType c tok) -> Parser.hookFor c t tok = Some (pick g hs (Parser.cType c tok) (Parser.cText c tok)))
      (filter hooksTokens (user :: rev layers')) (iTokens st)) /\
  Forall2 (fun hs t => forall layer node d tok (s : Parser.pstate Tok Src W E Inst R), zget (gNodes g) node = Some d ->
      Parser.getNodeHook layer t node tok s = match pickNode hs (gnName d) with
        | Some h => let '(w, (i, e)) := h node tok (Parser.pWorld s) in
                    Parser.bind (Parser.nret e (Parser.log (Parser.EvCreate layer node tok i) (Parser.setWorld s w))) (fun _ s => Parser.Done i s)
        | None => Parser.Done None s
        end)
    (filter hooksNodes (withDefault dflt user :: rev layers')) (iNodes st).
Proof.
  intros GN MU ML KT KN. destruct (installHooks_inst g GN dflt user layers MU ML) as [(e & _ & X)|(_ & _ & st & layers' & A & B & I1 & I2 & I3)].
  - exfalso. destruct e as [n|n]; destruct X as ((h & X) & Y); [apply Y, (KT n h X)|apply Y, (KN n h X)].
  - exists st, layers'. split; [exact A|]. split; [exact B|]. split.
    + intros c CG CL. eapply Forall2_mono; [|exact I2]. intros hs t (M & lits & L1 & L2 & L3) tok PT. apply (hookFor_ok g GN c hs lits (iLiterals st) t tok); assumption.
    + eapply Forall2_mono; [|exact I3]. intros hs t (M & NT) layer node d tok s G. pose proof (nodeHookFor_ok g GN hs t node d M NT G) as H. apply nodeHookFor_inv in H. destruct H as (h & a & Z1 & Z2 & H). unfold Parser.getNodeHook.
      match goal with |- context [@zget ?T t (node + 1)] => replace (@zget T t (node + 1)) with (Some h) by (symmetry; exact Z1); replace (@zget T t 0) with (Some a) by (symmetry; exact Z2) end.
      rewrite <- H. destruct h; reflexivity.
Qed.
(** ** C55: unknown names *)
(** A parse with hooks for unknown types of tokens or unknown nodes does not start; the error names one of them. *)
Theorem unknown_hooks_reported (dflt : NH) (user : hooks TH NH) layers : goodNames g -> maps user -> Forall maps layers -> ~ (knownTokens g user /\ knownNodes g user) ->
  exists e, installHooks g dflt user layers = Some (inr e) /\ namesUnknown g user e.
Proof.
  intros GN MU ML N. destruct (installHooks_inst g GN dflt user layers MU ML) as [X|(K1 & K2 & _)]; [exact X|]. destruct N. auto.
Qed.
End Choice.
(** Names are checked. *)
Definition namesOfTypes (g : grammar) : list name := map gtName (filter (fun d => negb (hasFlag (gtFlags d) LiteralToken) && negb (hasFlag (gtFlags d) ErrorToken)) (gTokens g)).
Definition inb (n : name) (l : list name) : bool := existsb (nameEqb n) l.
Fixpoint nodupb (l : list name) : bool := match l with [] => true | n :: r => negb (inb n r) && nodupb r end.
Definition goodNamesb (g : grammar) : bool :=
  nodupb (namesOfTypes g) && forallb (fun n => negb (inb n [anyName; eofName; eoiName])) (namesOfTypes g) && nodupb (map gnName (gNodes g)) && negb (inb anyName (map gnName (gNodes g))).
Lemma inb_ok n l : inb n l = true <-> In n l.
Proof. unfold inb. rewrite existsb_exists. split; [intros (x & A & B); apply LangTextTotal.nameEqb_ok in B; subst; exact A|intros H; exists n; split; [exact H|apply nameEqb_refl]]. Qed.
Lemma nodupb_ok l : nodupb l = true -> NoDup l.
Proof. induction l as [|n l IH]; intros H; [constructor|]. cbn [nodupb] in H. apply andb_prop in H. destruct H as (A & B). constructor; [|auto]. intros I. apply inb_ok in I. rewrite I in A. discriminate. Qed.
Lemma filter_nodup_index {A} (f : A -> bool) (k : A -> name) : forall l, NoDup (map k (filter f l)) -> forall i j x y, nth_error l i = Some x -> nth_error l j = Some y -> f x = true -> f y = true -> k x = k y -> i = j.
Proof.
  induction l as [|a l IH]; intros N i j x y X Y FX FY E; [destruct i; discriminate|]. cbn [filter] in N.
  destruct i as [|i], j as [|j]; cbn [nth_error] in X, Y; [reflexivity| | |].
  - injection X as ->. rewrite FX in N. inversion N as [|? ? NI N']; subst. destruct NI. rewrite E. apply in_map, filter_In. split; [eapply nth_error_In, Y|exact FY].
  - injection Y as ->. rewrite FY in N. inversion N as [|? ? NI N']; subst. destruct NI. rewrite <- E. apply in_map, filter_In. split; [eapply nth_error_In, X|exact FX].
  - f_equal. apply (IH) with x y; auto. destruct (f a); [inversion N; assumption|exact N].
Qed.
Lemma goodNamesb_ok g : goodNamesb g = true -> goodNames g.
Proof.
  unfold goodNamesb. rewrite !andb_true_iff. intros (((A & B) & C) & D). apply nodupb_ok in A. apply nodupb_ok in C. rewrite forallb_forall in B.
  assert (NT : forall i d, namedType g i d -> 0 <= i /\ nth_error (gTokens g) (Z.to_nat i) = Some d /\ negb (hasFlag (gtFlags d) LiteralToken) && negb (hasFlag (gtFlags d) ErrorToken) = true).
  { intros i d (G & F1 & F2). pose proof (LangTextTotal.zget_in _ _ _ G) as R. unfold zget in G. destruct (Z.ltb_spec i 0); [lia|]. rewrite F1, F2. repeat split; [lia|exact G]. }
  constructor.
  - intros i j d e X Y E. destruct (NT i d X) as (X0 & X1 & X2), (NT j e Y) as (Y0 & Y1 & Y2). assert (Z.to_nat i = Z.to_nat j) by (eapply (filter_nodup_index _ gtName (gTokens g) A); eassumption). lia.
  - intros i d X. destruct (NT i d X) as (X0 & X1 & X2). intros I. apply inb_ok in I. assert (In (gtName d) (namesOfTypes g)) as I' by (apply in_map, filter_In; split; [eapply nth_error_In, X1|exact X2]). apply B in I'. rewrite I in I'. discriminate.
  - exact C.
  - intros I. apply inb_ok in I. rewrite I in D. discriminate.
Qed.

Module Example1.
  Definition b := LangText.bytes.
  (** name = /…/; op = /…/; !side space; error token; literals "if", "+" *)
  Definition g : grammar := mkGrammar
    [mkTok (b "space") [] 0 (SideToken); mkTok (b "name") [] 0 0; mkTok (b "num") [] 0 NoLiteralsToken; mkTok (b "broken") [] 0 ErrorToken; mkTok (b "if") [] 0 LiteralToken; mkTok (b "+") [] 0 LiteralToken]
    [] [mkNode (b "root") 0; mkNode (b "foo") 1] [] [] [].
  Example names_good : goodNames g.
  Proof. apply goodNamesb_ok. vm_compute. reflexivity. Qed.
  Notation TH := (@Parser.tokenHook (Z * name) unit unit unit).
  Notation NH := (@Parser.nodeHook (Z * name) unit unit unit unit).
  (** hooks that do different things *)
  Definition say (n : Z) : TH := fun _ => Parser.PRet true [(n, [])] None.
  Definition make (n : Z) : NH := fun k _ w => (w, (Some tt, if k =? n then Some tt else None)).
  Definition user : hooks TH NH := mkHooks [(anyName, say 1); (b "name", say 2); (eoiName, say 3)] [(b "if", say 4); (b "else", say 5)] [(b "foo", make 1)].
  Definition layer1 : hooks TH NH := mkHooks [] [(b "then", say 6); (b "else", say 7)] [].
  Definition layer2 : hooks TH NH := mkHooks [(b "num", say 8)] [] [(b "root", make 2); (anyName, make 3)].
  Example maps_ok : maps user /\ Forall maps [layer1; layer2].
  Proof. split; [|constructor; [|constructor; [|constructor]]]; constructor; apply nodupb_ok; vm_compute; reflexivity. Qed.
  Example known : knownTokens g user /\ knownNodes g user.
  Proof.
    split; intros n h H; cbn in H.
    - destruct H as [H|[H|[H|[]]]]; injection H as <- _; [left; cbn; auto|right; exists 1, (mkTok (b "name") [] 0 0); repeat split; reflexivity|left; cbn; auto].
    - destruct H as [H|[]]; injection H as <- _. right. right. left. reflexivity.
  Qed.
  (** three tables of token hooks: of the parse, of layer2, of layer1; two tables of node hooks *)
  Example installs : exists st, installHooks g (make 0) user [layer1; layer2] = Some (inl st) /\ length (iTokens st) = 3%nat /\ length (iNodes st) = 2%nat.
  Proof. eexists. vm_compute. repeat split; reflexivity. Qed.
  Example choice : pick g user 1 (b "else") = Some (say 5) /\ pick g user 2 (b "else") = Some (say 1) /\ pick g user 1 (b "x") = Some (say 2) /\ pick g user Lexer.EoiTokenType [] = Some (say 3) /\ pick g user Lexer.EofTokenType [] = None /\
    pickNode (withDefault (make 0) user) (b "root") = Some (make 0).
  Proof. repeat split; reflexivity. Qed.
  Example resolved : let (r, l) := registerAll [(b "indent", 1); (b "convert", 2); (b "indent", 3)] [] in nget (b "indent") r = Some 1 /\ l = [true; true; false].
  Proof. split; reflexivity. Qed.
End Example1.

(** Hooks of a layer of the grammar that refer to an unknown node are dropped with no error (parser.go:271). *)
Theorem unknown_layer_hooks_reported_refuted : exists (g : grammar) (hs : hooks Example1.TH Example1.NH) st,
  goodNames g /\ maps hs /\ ~ knownNodes g hs /\ nget (LangText.bytes "foo") (hNodes hs) <> None /\ knownNode g (LangText.bytes "foo") /\
  installHooks g (Example1.make 0) (mkHooks [] [] []) [hs] = Some (inl st) /\ iNodes st = [].
Proof.
  exists Example1.g, (mkHooks [] [] [(LangText.bytes "foo", Example1.make 1); (LangText.bytes "typo", Example1.make 1)]). eexists. split; [apply Example1.names_good|]. split; [constructor; apply nodupb_ok; vm_compute; reflexivity|].
  split; [|split; [vm_compute; discriminate|split; [right; right; left; reflexivity|split; [vm_compute; reflexivity|reflexivity]]]].
  intros K. destruct (K (LangText.bytes "typo") (Example1.make 1)) as [H|H]; [right; left; reflexivity|discriminate|]. vm_compute in H. intuition discriminate.
Qed.
Print Assumptions registry_first.
Print Assumptions registration_fails_for_known.
Print Assumptions layers_resolved.
Print Assumptions layers_error.
Print Assumptions hooks_installed.
Print Assumptions unknown_hooks_reported.
Print Assumptions unknown_layer_hooks_reported_refuted.
