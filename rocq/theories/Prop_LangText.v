(** Reading of descriptions ends (C22). *)
From Coq Require Import String ZArith Bool Lia Permutation List.
From Verif Require Import Base BaseProofs Grammar RulesSpec ParserSpec ParserSafeSpec LangBuild LangSpec TablesSpec LangNodes LangNodesSpec LangTypes LangTypesSpec LangCompile LangFuel Prop_LangCompile
  LangString LangStringSpec LangText LangTextSpec LangTextTotal LangTextFuel.
Import ListNotations.
Open Scope Z_scope.

Lemma HD_new input end_ : Forall lexed input -> endsWell input end_ -> HD (length input) (newContext input end_).
Proof.
  intros LX EW. split.
  - constructor; cbn; auto. discriminate.
  - constructor; cbn; auto; discriminate.
Qed.
Lemma nodes_read c : nodesInv c -> cDefs c <> [] -> readWell (cTokens c) (cNames c) (cDefs c).
Proof.
  intros [[(a & b & l & E & FA & FB & FL & LN) T2 T3] N D T] NE. constructor; auto.
  - exists a, b, l. split; [exact E|]. split; [exact FA|]. split; [exact FB|]. eapply Forall_impl; [|exact FL]. intros t (X & _). exact X.
  - intros i t G NL. destruct (Z.ltb_spec i 64) as [L|L]; [exact L|exfalso]. rewrite E in G. pose proof (zget_in _ _ _ G) as R. rewrite app_assoc in G. rewrite zget_nth in G by lia. unfold zlen, MaxTokenType in *. rewrite nth_error_app2 in G by lia. apply nth_error_In in G. rewrite Forall_forall in FL. destruct (FL t G) as ((_ & X) & _). congruence.
  - intros t I S. rewrite E in I. rewrite !in_app_iff in I. rewrite Forall_forall in FA, FB, FL. destruct I as [I|[I|I]]; [apply (FA t I)|apply (FB t I)|]. destruct (FL t I) as (_ & X). congruence.
Qed.

Section Text.
Variable compiles : name -> bool.
Variable fullMatch : name -> name -> bool.
Variable toUpper : name -> name.
Variable orders : nat -> list Z * list Z * list Z.
Notation parse fuel input end_ := (parseText compiles fullMatch toUpper fuel orders input end_).
(** Go iterates over all the items of a map, in any order *)
Hypothesis anyOrders : forall n, let '(o1, o2, o3) := orders n in Permutation o1 (indexes n) /\ Permutation o2 (indexes n) /\ Permutation o3 (indexes n).

(** What is read: tokens, names and definitions compilation relies upon (C51). *)
Theorem read_descriptions_well fuel input end_ u c : Forall lexed input -> endsWell input end_ ->
  readDescription compiles fuel (newContext input end_) = ROk u c -> readWell (cTokens c) (cNames c) (cDefs c).
Proof.
  intros LX EW E. set (n := (4 * length input + 5 + fuel)%nat). pose proof (t_description compiles n (length input) ltac:(lia) _ (HD_new _ _ LX EW)) as X.
  destruct (lem_description compiles fuel n ltac:(lia) (newContext input end_)) as [H|H]; rewrite E in H; [discriminate|]. rewrite H in X. destruct X as (A & B). apply nodes_read; assumption.
Qed.

(** *** C22 *)
(** Reading of a description that does not end within a list of arguments or a regular expression, and its compilation, end: with a
    grammar (its tables are sound) or with an error. *)
Theorem reading_ends_partial input end_ : Forall lexed input -> endsWell input end_ ->
  exists n, forall fuel, (n <= fuel)%nat ->
  match parse fuel input end_ with
  | AGrammar g => tablesSound g
  | AReadError _ | ALiteralError _ | ANodesError _ => True
  | ANever | APanic => False
  end.
Proof.
  intros LX EW. set (m := (4 * length input + 5)%nat). pose proof (t_description compiles m (length input) ltac:(lia) _ (HD_new _ _ LX EW)) as X.
  destruct (readDescription compiles m (newContext input end_)) as [u c|e c| |] eqn:R; try contradiction.
  - destruct X as (A & B). pose proof (nodes_read c A B) as RW. specialize (anyOrders (length (cDefs c))). destruct (orders (length (cDefs c))) as ((o1, o2), o3) eqn:OE. destruct anyOrders as (P1 & P2 & P3).
    destruct (compilation_ends fullMatch toUpper (cTokens c) (cLayers c) (cNames c) (cDefs c) o1 o2 o3 RW P1 P2 P3) as (k & K). exists (m + k)%nat. intros fuel F. unfold parseText.
    destruct (lem_description compiles m fuel ltac:(lia) (newContext input end_)) as [H|H]; rewrite R in H; [discriminate|]. rewrite H, OE. specialize (K fuel ltac:(lia)). destruct (compileDescription _ _ _ _ _ _ _ _ _ _) as [g| | | |]; try contradiction; auto. apply K.
  - exists m. intros fuel F. unfold parseText. destruct (lem_description compiles m fuel ltac:(lia) (newContext input end_)) as [H|H]; rewrite R in H; [discriminate|]. rewrite H. exact I.
Qed.
(** The answer is one: it does not depend on the number of steps given. *)
Theorem reading_answer_unique fuel fuel' input end_ : parse fuel input end_ <> ANever -> parse fuel' input end_ <> ANever -> parse fuel input end_ = parse fuel' input end_.
Proof.
  assert (W : forall f f', (f <= f')%nat -> parse f input end_ <> ANever -> parse f' input end_ = parse f input end_).
  { clear. intros f f' L N. unfold parseText in *. destruct (lem_description compiles f f' L (newContext input end_)) as [H|H]; [rewrite H in N; contradiction|]. rewrite H. destruct (readDescription compiles f (newContext input end_)) as [u c|e c| |]; auto.
    destruct (orders (length (cDefs c))) as ((o1, o2), o3). destruct (le_compile fullMatch toUpper f f' o1 o2 o3 (cTokens c) (cLayers c) (cNames c) (cDefs c) L) as [X|X]; [rewrite X in N; contradiction|]. rewrite X. reflexivity. }
  intros A B. destruct (Nat.le_ge_cases fuel fuel') as [L|L]; [symmetry; apply W; assumption|apply W; assumption].
Qed.

(** ** A description that is read for ever *)
Lemma fetchAll_end types (c : ctx) : cInput c = [] -> cSaved c = None -> cTail c = TEoi -> forall fuel, fetchAll fuel types c = RHang.
Proof.
  intros I S T. induction fuel as [|f IH]; [reflexivity|]. cbn [fetchAll]. unfold fetch, bind, takeToken, nextToken. rewrite S. unfold bind. rewrite I, T. cbn [processToken tKind]. unfold ret at 1. destruct (matches types (mkT KEoi [])); cbn; rewrite IH; reflexivity.
Qed.
(** !side $a *)
Definition cutDirective : list tok := [mkT KDir sideDir; mkT KToken [36; 97]].
Lemma cut_hangs fuel : readDescription compiles fuel (newContext cutDirective TEnd) = RHang.
Proof.
  assert (F : forall f c, cInput c = [mkT KToken [36; 97]] -> cSaved c = None -> cTail c = TEnd -> fetchAll f [tokenNameTok] c = RHang).
  { assert (G : forall f c, cInput c = [] -> cSaved c = None -> cTail c = TEnd -> fetchAll f [tokenNameTok] c = RHang).
    { intros [|f] c I S T; [reflexivity|]. cbn [fetchAll]. unfold fetch, bind, takeToken, nextToken. rewrite S. unfold bind. rewrite I, T. cbn -[fetchAll]. rewrite fetchAll_end by (reflexivity || exact S). reflexivity. }
    intros [|f] c I S T; [reflexivity|]. cbn [fetchAll]. unfold fetch, bind, takeToken, nextToken. rewrite S. unfold bind. rewrite I. cbn -[fetchAll]. rewrite G by (reflexivity || exact S || exact T). reflexivity. }
  assert (D : forall f c, cInput c = [mkT KToken [36; 97]] -> cSaved c = None -> cTail c = TEnd -> parseDir f (mkT KDir sideDir) c = RHang).
  { intros f c I S T. unfold parseDir. change (nameEqb (tText (mkT KDir sideDir)) sideDir) with true. cbv iota beta zeta delta [orb]. unfold parseTokenFlagDir, bind. rewrite (F f c I S T). reflexivity. }
  unfold readDescription. destruct fuel as [|f]; [reflexivity|]. cbn [readHead]. unfold bind at 1 2. change (fetchStrict [nameTok; dirTok; opTok; templateNameTok; tokenNameTok] (newContext cutDirective TEnd)) with (ROk (mkT KDir sideDir) (newContext [mkT KToken [36; 97]] TEnd)). cbv iota beta. change (tKind (mkT KDir sideDir)) with KDir. cbv iota. unfold bind at 1. rewrite D; reflexivity.
Qed.
Theorem reading_ends_refuted : exists input, Forall lexed input /\ forall fuel, parse fuel input TEnd = ANever.
Proof.
  exists cutDirective. split.
  - constructor; [apply (LX_dir [115; 105; 100; 101]); [discriminate|repeat constructor; lia]|]. constructor; [apply (LX_token [97]); exists 97, []; split; [reflexivity|]; split; [left; lia|constructor]|constructor].
  - intros fuel. unfold parseText. rewrite cut_hangs. reflexivity.
Qed.
End Text.

(** ** Shapes of tokens, computably (strings in double quotes are left out) *)
Definition letterb (b : Z) : bool := ((97 <=? b) && (b <=? 122)) || ((65 <=? b) && (b <=? 90)) || (b =? 95).
Definition nameByteb (b : Z) : bool := letterb b || ((48 <=? b) && (b <=? 57)) || (b =? 45).
Definition nameb (n : name) : bool := match n with b :: r => letterb b && forallb nameByteb r | [] => false end.
Lemma letterb_ok b : letterb b = true -> letter b.
Proof. unfold letterb, letter. lia. Qed.
Lemma nameb_ok n : nameb n = true -> aName n.
Proof.
  destruct n as [|b r]; [discriminate|]. cbn [nameb]. rewrite andb_true_iff, forallb_forall. intros (A & B). exists b, r. split; [reflexivity|]. split; [apply letterb_ok, A|]. apply Forall_forall. intros x X. specialize (B x X). unfold nameByteb in B. unfold nameByte. destruct (letterb x) eqn:L; [left; apply letterb_ok, L|right; lia].
Qed.
Definition enclosed (q : Z) (t : name) : option name :=
  match t with
  | b :: r => if (b =? q) && nameEqb t (q :: removelast r ++ [q]) then Some (removelast r) else None
  | [] => None
  end.
Lemma enclosed_ok q t s : enclosed q t = Some s -> t = q :: s ++ [q].
Proof. destruct t as [|b r]; [discriminate|]. unfold enclosed. destruct (nameEqb (b :: r) (q :: removelast r ++ [q])) eqn:E; [|rewrite andb_false_r; discriminate]. apply nameEqb_ok in E. destruct (b =? q); [|discriminate]. intros X. injection X as <-. exact E. Qed.
Definition lexed1 (t : tok) : bool :=
  match tKind t with
  | KString => match enclosed 39 (tText t) with Some s => forallb (fun b => negb (b =? 39)) s | None => false end
  | KName => nameb (tText t)
  | KDir => match tText t with 33 :: b :: r => forallb (fun b => (97 <=? b) && (b <=? 122)) (b :: r) | _ => false end
  | KTemplate => match tText t with 36 :: 36 :: n => nameb n | _ => false end
  | KToken => match tText t with 36 :: [] => true | 36 :: n => nameb n | _ => false end
  | KRegexp => match enclosed 47 (tText t) with Some (_ :: _) => true | _ => false end
  | KOp => match tText t with [b] => existsb (fun x => x =? b) [40; 41; 123; 125; 91; 93; 61; 124; 44; 59; 64] | _ => false end
  | KEof | KEoi => false
  end.
Lemma lexed1_ok t : lexed1 t = true -> lexed t.
Proof.
  destruct t as (k, t). unfold lexed1. cbn [tKind tText]. destruct k; try discriminate.
  - destruct (enclosed 39 t) as [s|] eqn:E; [|discriminate]. apply enclosed_ok in E. subst t. intros H. apply LX_single. intros I. rewrite forallb_forall in H. specialize (H 39 I). discriminate.
  - intros H. apply LX_name, nameb_ok, H.
  - destruct t as [|b t]; [discriminate|]. destruct (Z.eq_dec b 33) as [->|N]; [|destruct b as [|p|p]; try discriminate; repeat (destruct p as [p|p|]; try discriminate); destruct N; reflexivity].
    destruct t as [|b t]; [discriminate|]. intros H. apply LX_dir; [discriminate|]. rewrite forallb_forall in H. apply Forall_forall. intros x X. specialize (H x X). lia.
  - destruct t as [|a t]; [discriminate|]. destruct (Z.eq_dec a 36) as [->|N]; [|destruct a as [|p|p]; try discriminate; repeat (destruct p as [p|p|]; try discriminate); destruct N; reflexivity].
    destruct t as [|a t]; [discriminate|]. destruct (Z.eq_dec a 36) as [->|N]; [|destruct a as [|p|p]; try discriminate; repeat (destruct p as [p|p|]; try discriminate); destruct N; reflexivity].
    intros H. apply LX_template, nameb_ok, H.
  - destruct t as [|a t]; [discriminate|]. destruct (Z.eq_dec a 36) as [->|N]; [|destruct a as [|p|p]; try discriminate; repeat (destruct p as [p|p|]; try discriminate); destruct N; reflexivity].
    destruct t as [|b t]; [intros _; apply LX_end|]. intros H. apply LX_token, nameb_ok, H.
  - destruct (enclosed 47 t) as [[|x s]|] eqn:E; try discriminate. apply enclosed_ok in E. subst t. intros _. apply LX_regexp. discriminate.
  - destruct t as [|b [|b' t]]; try discriminate. intros H. apply existsb_exists in H. destruct H as (x & X & E). apply Z.eqb_eq in E. subst x. apply LX_op, X.
Qed.
Lemma lexedb_ok l : forallb lexed1 l = true -> Forall lexed l.
Proof. rewrite forallb_forall. intros H. apply Forall_forall. intros t T. apply lexed1_ok, H, T. Qed.

(** !side $space; $$letter = /[a-z]/; $space = / +/; $name = letter /+/; $op = /[+]/;
    root = item, {'+' , item}; item = $name; @ layer cmd(a, 'b c') ; *)
Module Example1.
  Definition op (s : string) : tok := mkT KOp (bytes s).
  Definition text : list tok :=
    [mkT KDir (bytes "!side"); mkT KToken (bytes "$space"); op ";";
     mkT KTemplate (bytes "$$letter"); op "="; mkT KRegexp (bytes "/[a-z]/"); op ";";
     mkT KToken (bytes "$space"); op "="; mkT KRegexp (bytes "/ +/"); op ";";
     mkT KToken (bytes "$name"); op "="; mkT KName (bytes "letter"); mkT KRegexp (bytes "/+/"); op ";";
     mkT KToken (bytes "$op"); op "="; mkT KRegexp (bytes "/[+]/"); op ";";
     mkT KName (bytes "root"); op "="; mkT KName (bytes "item"); op ","; op "{"; mkT KString (bytes "'+'"); op ","; mkT KName (bytes "item"); op "}"; op ";";
     mkT KName (bytes "item"); op "="; mkT KToken (bytes "$name"); op ";";
     op "@"; mkT KName (bytes "layer"); mkT KName (bytes "cmd"); op "("; mkT KName (bytes "a"); op ","; mkT KString (bytes "'b c'"); op ")"; op ";"].
  Example lexed_text : Forall lexed text.
  Proof. apply lexedb_ok. vm_compute. reflexivity. Qed.
  Example ends : endsWell text TEnd.
  Proof. right. right. exists (removelast text), (op ";"). split; [reflexivity|]. split; [reflexivity|discriminate]. Qed.
  Definition fullMatch (re t : name) : bool := nameEqb re (bytes "[+]") && nameEqb t (bytes "+").
  Definition orders (n : nat) : list Z * list Z * list Z := (rev (indexes n), indexes n, rev (indexes n)).
  Example any : forall n, let '(o1, o2, o3) := orders n in Permutation o1 (indexes n) /\ Permutation o2 (indexes n) /\ Permutation o3 (indexes n).
  Proof. intros n. cbn. repeat split; [symmetry; apply Permutation_rev|reflexivity|symmetry; apply Permutation_rev]. Qed.
  Example grammar_read : match parseText (fun _ => true) fullMatch (fun t => t) 200 orders text TEnd with
    | AGrammar g => map gtName (gTokens g) = [bytes "space"; bytes "name"; bytes "op"; bytes "+"] /\ map gtRe (gTokens g) = [bytes " +"; bytes "[a-z]+"; bytes "[+]"; []] /\ map gtFlags (gTokens g) = [SideToken; 0; 0; LiteralToken] /\
                    map gnName (gNodes g) = [bytes "root"; bytes "item"] /\ gLayers g = [mkLayer (bytes "layer") [mkCmd (bytes "cmd") [bytes "a"; bytes "b c"]]]
    | _ => False end.
  Proof. vm_compute. repeat split. Qed.
  (** errors of each kind: an unexpected token; a literal no type of tokens may be; a node that is not defined *)
  Example wrong_token : parseText (fun _ => true) fullMatch (fun t => t) 200 orders [mkT KName (bytes "root"); op ";"] TEnd = AReadError (RE_unexpected (op ";")).
  Proof. vm_compute. reflexivity. Qed.
  Example wrong_literal : parseText (fun _ => true) (fun _ _ => false) (fun t => t) 200 orders text TEnd = ALiteralError (bytes "+").
  Proof. vm_compute. reflexivity. Qed.
  Example wrong_node : parseText (fun _ => true) fullMatch (fun t => t) 200 orders [mkT KName (bytes "root"); op "="; mkT KName (bytes "item"); op ";"] TEnd = ANodesError (EUndefined [1]).
  Proof. vm_compute. reflexivity. Qed.
End Example1.

Print Assumptions reading_ends_partial.
Print Assumptions reading_answer_unique.
Print Assumptions reading_ends_refuted.
Print Assumptions read_descriptions_well.
