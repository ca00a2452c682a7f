(** Reading of descriptions (LangText.v): a greater number of steps changes nothing but the lack of an answer. *)
From Coq Require Import ZArith List Bool Lia.
From Verif Require Import Base Grammar LangBuild LangText.
Import ListNotations.
Open Scope Z_scope.

Definition lem {A} (m m' : M A) : Prop := forall c, m c = RHang \/ m' c = m c.
Lemma lem_refl {A} (m : M A) : lem m m.
Proof. intros c. right. reflexivity. Qed.
Lemma lem_hang {A} (m : M A) : lem hang m.
Proof. intros c. left. reflexivity. Qed.
Lemma lem_bind {A B} (m m' : M A) (f f' : A -> M B) : lem m m' -> (forall x, lem (f x) (f' x)) -> lem (bind m f) (bind m' f').
Proof. intros H F c. unfold bind. destruct (H c) as [E|E]; rewrite E; [left; reflexivity|]. destruct (m c) as [x c'|e c'| |]; auto. apply F. Qed.
Lemma lem_ignore {A} (m m' : M (option A)) : lem m m' -> lem (ignoreError m) (ignoreError m').
Proof. intros H c. unfold ignoreError. destruct (H c) as [E|E]; rewrite E; auto. Qed.
Create HintDb lemdb.
Ltac lems := repeat first [apply lem_refl | apply lem_hang | solve [eauto with lemdb arith] | apply lem_bind | match goal with |- forall _, _ => intros ? end | match goal with |- lem (match ?x with _ => _ end) _ => destruct x end].
Lemma lem_fetchAll types : forall f f', (f <= f')%nat -> lem (fetchAll f types) (fetchAll f' types).
Proof. induction f as [|f IH]; intros [|f'] L; try (apply lem_refl || apply lem_hang || lia). cbn [fetchAll]. assert (X : lem (fetchAll f types) (fetchAll f' types)) by (apply IH; lia). lems. Qed.
#[export] Hint Resolve lem_fetchAll : lemdb.
Lemma lem_args : forall f f', (f <= f')%nat -> lem (parseArgs f) (parseArgs f').
Proof. induction f as [|f IH]; intros [|f'] L; try (apply lem_refl || apply lem_hang || lia). cbn [parseArgs]. assert (X : lem (parseArgs f) (parseArgs f')) by (apply IH; lia). lems. Qed.
#[export] Hint Resolve lem_args : lemdb.
Lemma lem_commands : forall f f', (f <= f')%nat -> lem (parseCommands f) (parseCommands f').
Proof. induction f as [|f IH]; intros [|f'] L; try (apply lem_refl || apply lem_hang || lia). cbn [parseCommands]. assert (X : lem (parseCommands f) (parseCommands f')) by (apply IH; lia). assert (Y : lem (parseArgs f) (parseArgs f')) by (apply lem_args; lia). lems. Qed.
#[export] Hint Resolve lem_commands : lemdb.
Lemma lem_layer f f' t : (f <= f')%nat -> lem (parseLayerDef f t) (parseLayerDef f' t).
Proof. intros L. unfold parseLayerDef. lems. Qed.
Lemma lem_dir f f' t : (f <= f')%nat -> lem (parseDir f t) (parseDir f' t).
Proof. intros L. unfold parseDir, parseTokenFlagDir, parseGroupDir, parseReservedDir, parseLiteralDir. lems. Qed.
#[export] Hint Resolve lem_layer lem_dir : lemdb.
Lemma lem_chunks : forall f f', (f <= f')%nat -> lem (parseGroup f) (parseGroup f') /\ lem (parseVariants f) (parseVariants f') /\ lem (parseMore f) (parseMore f') /\ lem (parseVariant f) (parseVariant f').
Proof.
  induction f as [|f IH]; intros [|f'] L; try (repeat split; (apply lem_refl || apply lem_hang || lia)). destruct (IH f' ltac:(lia)) as (A & B & C & D).
  repeat split; cbn [parseGroup parseVariants parseMore parseVariant]; lems.
Qed.
Section R.
Variable compiles : name -> bool.
Lemma lem_regexp f f' : (f <= f')%nat -> lem (fetchRegexp compiles f) (fetchRegexp compiles f').
Proof. intros L. unfold fetchRegexp. lems. Qed.
Hint Resolve lem_regexp : lemdb.
Lemma lem_templateDef f f' n : (f <= f')%nat -> lem (parseTemplateDef compiles f n) (parseTemplateDef compiles f' n).
Proof. intros L. unfold parseTemplateDef. lems. Qed.
Lemma lem_tokenDef f f' n : (f <= f')%nat -> lem (parseTokenDef compiles f n) (parseTokenDef compiles f' n).
Proof. intros L. unfold parseTokenDef. lems. Qed.
Hint Resolve lem_templateDef lem_tokenDef : lemdb.
Lemma lem_head : forall f f', (f <= f')%nat -> lem (readHead compiles f) (readHead compiles f').
Proof. induction f as [|f IH]; intros [|f'] L; try (apply lem_refl || apply lem_hang || lia). cbn [readHead]. assert (X : lem (readHead compiles f) (readHead compiles f')) by (apply IH; lia). assert (Y : (f <= f')%nat) by lia. lems. Qed.
Lemma lem_nodeDef f f' n : (f <= f')%nat -> lem (parseNodeDef f n) (parseNodeDef f' n).
Proof. intros L. unfold parseNodeDef. destruct (lem_chunks f f' L) as (A & _). lems. Qed.
Hint Resolve lem_nodeDef : lemdb.
Lemma lem_nodes : forall f f' t, (f <= f')%nat -> lem (readNodes f t) (readNodes f' t).
Proof. induction f as [|f IH]; intros [|f'] t L; try (apply lem_refl || apply lem_hang || lia). cbn [readNodes]. assert (X : forall t, lem (readNodes f t) (readNodes f' t)) by (intros t0; apply IH; lia). assert (Y : (f <= f')%nat) by lia. lems. Qed.
Lemma lem_description f f' : (f <= f')%nat -> lem (readDescription compiles f) (readDescription compiles f').
Proof. intros L. unfold readDescription. apply lem_bind; [apply lem_head, L|]. intros t. apply lem_bind; [apply lem_refl|]. intros u. apply lem_nodes, L. Qed.
End R.
