(** Standard hook layers: convert (C36), restrict (C37). *)
From Coq Require Import String ZArith List Bool Lia.
From Verif Require Import Base BaseProofs Grammar LangTypes Layers LayersSpec LayersProofs Prop_Layers StdLayers StdLayersSpec.
From Verif Require Lexer LangText LangTextTotal.
Import ListNotations.
Local Open Scope string_scope.
Local Open Scope list_scope.
Open Scope Z_scope.

Lemma argsOf_app n a c : argsOf n (a ++ c) = argsOf n a ++ argsOf n c.
Proof. induction a as [|x a IH]; [reflexivity|]. cbn [app argsOf]. rewrite IH, app_assoc. reflexivity. Qed.
Lemma conversions_app a c : conversions (a ++ c) = conversions a ++ conversions c.
Proof. induction a as [|x a IH]; [reflexivity|]. cbn [app conversions]. rewrite IH, app_assoc. reflexivity. Qed.
Lemma has_app n a c : has n (a ++ c) <-> has n a \/ has n c.
Proof. unfold has. split; [intros (x & I & E); apply in_app_or in I; destruct I; eauto|intros [(x & I & E)|(x & I & E)]; exists x; (split; [apply in_or_app; auto|exact E])]. Qed.
Lemma has_one n c : has n [c] <-> gcName c = n.
Proof. unfold has. split; [intros (x & [<-|[]] & E); exact E|intros E; exists c; split; [left; reflexivity|exact E]]. Qed.
Lemma argsOf_one n c : argsOf n [c] = if list_eq_dec Z.eq_dec (gcName c) n then gcArgs c else [].
Proof. cbn [argsOf]. apply app_nil_r. Qed.
Lemma conversions_one c : conversions [c] = if list_eq_dec Z.eq_dec (gcName c) (b "convert") then pairs (gcArgs c) else [].
Proof. cbn [conversions]. apply app_nil_r. Qed.

(** ** convert *)
Section Convert.
Context {Pos : Type}.
Variable tokenType : name -> option Z.
Variable noPos : Pos.
Definition known n := exists i, tokenType n = Some i.
(** convertDef but for the last condition *)
Record prefixOK (cs : list gcommand) : Prop := mkPre {
  po_each : Forall (convertCmd known) cs;
  po_input : (length (argsOf (b "input-type") cs) <= 1)%nat;
  po_output : (length (argsOf (b "output-type") cs) <= 1)%nat;
  po_once : NoDup (map fst (conversions cs)) }.
Lemma prefixOK_app a c : prefixOK (a ++ c) -> prefixOK a.
Proof.
  intros [A B C D]. rewrite !argsOf_app, app_length in *. rewrite conversions_app, map_app in D. constructor; [apply Forall_app in A; tauto|lia|lia|]. clear - D. induction (map fst (conversions a)); [constructor|]. cbn in D. inversion D as [|? ? N M]; subst. constructor; [intros I; apply N, in_or_app; auto|auto].
Qed.
Definition plain (cs : list gcommand) : Prop := (forall t, In t (argsOf (b "input-type") cs ++ argsOf (b "output-type") cs) -> t <> []) /\ argsOf (b "save-position") cs = [].
Lemma plain_app a c : plain (a ++ c) -> plain a /\ plain c.
Proof.
  unfold plain. rewrite !argsOf_app. intros (A & B). apply app_eq_nil in B. destruct B as (B1 & B2). split; (split; [intros t I; apply A; rewrite !in_app_iff in *; tauto|assumption]).
Qed.
Definition headOr (l : list name) : name := match l with [] => [] | t :: _ => t end.
Record cvInv (pre : list gcommand) (s : cvState) : Prop := mkCvInv {
  ci_ok : prefixOK pre;
  ci_input : cvInput s = headOr (argsOf (b "input-type") pre);
  ci_output : cvOutput s = headOr (argsOf (b "output-type") pre);
  ci_repl : forall k v, nget k (cvReplaces s) = Some v <-> In (k, v) (conversions pre);
  ci_save : cvSave s = true <-> has (b "save-position") pre;
  ci_got : cvGot s = true <-> has (b "convert") pre }.
(** an error that names a broken rule: by the command that breaks it, after commands that do not *)
Definition explained (pre : list gcommand) (c : gcommand) (e : stdError) : Prop :=
  match e with
  | UnknownCommand n => n = gcName c /\ ~ In n [b "input-type"; b "output-type"; b "convert"; b "save-position"]
  | MissingCommand n => False
  | NumberOfArguments n => n = gcName c /\ ((In n [b "input-type"; b "output-type"] /\ length (gcArgs c) <> 1%nat) \/ (n = b "convert" /\ (gcArgs c = [] \/ ~ Nat.Even (length (gcArgs c)))))
  | InvalidArgument n a => n = b "convert" /\ n = gcName c /\ exists i, nth_error (map fst (conversions (pre ++ [c]))) i = Some a /\ (exists j, (j < i)%nat /\ nth_error (map fst (conversions (pre ++ [c]))) j = Some a)
  | CommandAlreadyUsed n => n = gcName c /\ In n [b "input-type"; b "output-type"] /\ has n pre
  | UnknownType n a => n = gcName c /\ In n [b "input-type"; b "output-type"] /\ gcArgs c = [a] /\ ~ known a
  end.
Lemma pairs_ind (P : list name -> Prop) : P [] -> (forall x, P [x]) -> (forall x y l, P l -> P (x :: y :: l)) -> forall l, P l.
Proof. intros A B C. fix F 1. intros [|x [|y l]]; [exact A|apply B|apply C, F]. Qed.
Lemma addReplaces_ok : forall args m pre, (forall k v, nget k m = Some v <-> In (k, v) pre) -> NoDup (map fst pre) ->
  match addReplaces args m with
  | inl m' => (forall k v, nget k m' = Some v <-> In (k, v) (pre ++ pairs args)) /\ NoDup (map fst (pre ++ pairs args))
  | inr e => exists a, e = InvalidArgument convertCommand a /\ exists i, nth_error (map fst (pre ++ pairs args)) i = Some a /\ exists j, (j < i)%nat /\ nth_error (map fst (pre ++ pairs args)) j = Some a
  end.
Proof.
  induction args as [|x|x y l IH] using pairs_ind; intros m pre M N; cbn [addReplaces pairs]; [rewrite app_nil_r; auto|rewrite app_nil_r; auto|].
  destruct (nget x m) as [v|] eqn:E.
  - apply M in E. exists x. split; [reflexivity|]. exists (length pre). split.
    + rewrite map_app, nth_error_app2, map_length, Nat.sub_diag by (rewrite map_length; lia). reflexivity.
    + apply In_nth_error in E. destruct E as (j & E). exists j. assert (L : (j < length pre)%nat) by (apply nth_error_Some; congruence). split; [exact L|]. rewrite map_app, nth_error_app1 by (rewrite map_length; exact L). apply (map_nth_error fst) in E. exact E.
  - assert (NI : ~ In x (map fst pre)). { intros I. apply in_map_iff in I. destruct I as ((k, v) & K & I). cbn in K. subst k. apply M in I. congruence. }
    specialize (IH (nput x y m) (pre ++ [(x, y)])). replace (pre ++ (x, y) :: pairs l) with ((pre ++ [(x, y)]) ++ pairs l) by (rewrite <- app_assoc; reflexivity). apply IH.
    + intros k v. rewrite nget_put, in_app_iff. destruct (nameEqb k x) eqn:K.
      * apply LangTextTotal.nameEqb_ok in K. subst k. split; [intros H; injection H as <-; right; left; reflexivity|]. intros [I|[I|[]]]; [destruct NI; apply in_map_iff; exists (x, v); auto|congruence].
      * apply nameEqb_neq in K. rewrite M. split; [auto|]. intros [I|[I|[]]]; [exact I|congruence].
    + rewrite map_app. apply NoDup_app_k; [exact N|constructor; [intros []|constructor]|]. intros z Z1 [<-|[]]. contradiction.
Qed.
Lemma even_land l : Z.land (Z.of_nat l) 1 = 0 <-> Nat.Even l.
Proof.
  change 1 with (Z.ones 1). rewrite Z.land_ones by lia. change (2 ^ 1) with 2. destruct (Nat.Even_or_Odd l) as [(m & ->)|(m & ->)].
  - split; [intros _; exists m; reflexivity|intros _]. rewrite Nat2Z.inj_mul. change (Z.of_nat 2) with 2. rewrite Z.mul_comm, Z.mod_mul by lia. reflexivity.
  - split; [intros H; exfalso|intros (k & H); lia]. replace (Z.of_nat (2 * m + 1)) with (1 + Z.of_nat m * 2) in H by lia. rewrite Z.mod_add in H by lia. discriminate.
Qed.

Lemma b_name s t : nameEqb s t = true -> s = t.
Proof. apply LangTextTotal.nameEqb_ok. Qed.
Lemma dec_eq {A} (n : name) (x y : A) : (if list_eq_dec Z.eq_dec n n then x else y) = x.
Proof. destruct (list_eq_dec Z.eq_dec n n); [reflexivity|contradiction]. Qed.
Lemma dec_neq {A} (n m : name) (x y : A) : n <> m -> (if list_eq_dec Z.eq_dec n m then x else y) = y.
Proof. destruct (list_eq_dec Z.eq_dec n m); [contradiction|reflexivity]. Qed.
Lemma names_differ : b "input-type" <> b "output-type" /\ b "input-type" <> b "convert" /\ b "input-type" <> b "save-position" /\ b "output-type" <> b "convert" /\ b "output-type" <> b "save-position" /\ b "convert" <> b "save-position".
Proof. repeat split; discriminate. Qed.
Lemma cvCommand_ok pre c s : plain (pre ++ [c]) -> cvInv pre s ->
  match cvCommand tokenType c s with
  | inl s' => cvInv (pre ++ [c]) s'
  | inr e => ~ prefixOK (pre ++ [c]) /\ explained pre c e
  end.
Proof.
  intros PL [OK I O R S G]. destruct OK as [P1 P2 P3 P4]. destruct names_differ as (D1 & D2 & D3 & D4 & D5 & D6). destruct PL as (PL1 & PL2). rewrite !argsOf_app in PL1. rewrite argsOf_app in PL2.
  assert (LN : forall l : list name, headOr l = [] -> (forall t, In t l -> t <> []) -> l = []) by (intros [|t l] H1 H2; [reflexivity|exfalso; apply (H2 t); [left; reflexivity|exact H1]]).
  assert (HA : forall n, argsOf n pre <> [] -> has n pre).
  { intros n. clear. induction pre as [|x pre IH]; cbn [argsOf]; [contradiction|]. destruct (list_eq_dec Z.eq_dec (gcName x) n) as [E|E]; [intros _; exists x; split; [left; reflexivity|exact E]|]. cbn [app]. intros H. destruct (IH H) as (y & Y & F). exists y. split; [right; exact Y|exact F]. }
  unfold cvCommand. change inputTypeCommand with (b "input-type"). change outputTypeCommand with (b "output-type"). change convertCommand with (b "convert"). change savePositionCommand with (b "save-position").
  destruct c as (cmd, args). cbn [gcName gcArgs].
  destruct (nameEqb cmd (b "input-type")) eqn:E1; cbn [orb].
  { apply b_name in E1. subst cmd. destruct args as [|arg [|? ?]]; [| |].
    - split; [intros [Q _ _ _]; apply Forall_app in Q; destruct Q as (_ & Q); inversion Q as [|? ? Q1 _]; inversion Q1|]. split; [reflexivity|]. left. split; [left; reflexivity|discriminate].
    - destruct (tokenType arg) as [i|] eqn:TT.
      + destruct (negb (nameEqb (cvInput s) [])) eqn:NE.
        * apply negb_true_iff, nameEqb_neq in NE. rewrite I in NE. assert (NN : argsOf (b "input-type") pre <> []) by (destruct (argsOf (b "input-type") pre); [contradiction|discriminate]). split; [|split; [reflexivity|split; [left; reflexivity|apply HA, NN]]].
          intros [_ Q _ _]. rewrite argsOf_app, argsOf_one in Q. cbn [gcName gcArgs] in Q. rewrite dec_eq, app_length in Q. destruct (argsOf (b "input-type") pre); [contradiction|cbn in Q; lia].
        * apply negb_false_iff in NE. apply b_name in NE. assert (AN : argsOf (b "input-type") pre = []). { apply LN; [congruence|]. intros t T. apply PL1. rewrite !in_app_iff. auto. }
          constructor; cbn [cvInput cvOutput cvReplaces cvSave cvGot]; rewrite ?argsOf_app, ?conversions_app, ?argsOf_one, ?conversions_one; cbn [gcName gcArgs]; rewrite ?dec_eq, ?dec_neq by (assumption || (apply not_eq_sym; assumption)); rewrite ?app_nil_r, ?AN.
          -- constructor; rewrite ?argsOf_app, ?conversions_app, ?argsOf_one, ?conversions_one; cbn [gcName gcArgs]; rewrite ?dec_eq, ?dec_neq by (assumption || (apply not_eq_sym; assumption)); rewrite ?app_nil_r, ?AN; [|cbn; lia|assumption|assumption]. apply Forall_app. split; [exact P1|constructor; [constructor; exists i; exact TT|constructor]].
          -- reflexivity.
          -- exact O.
          -- exact R.
          -- rewrite has_app, has_one. cbn [gcName]. rewrite S. tauto.
          -- rewrite has_app, has_one. cbn [gcName]. rewrite G. tauto.
      + assert (NK : ~ known arg) by (intros (i & K); congruence). split; [|split; [reflexivity|split; [left; reflexivity|split; [reflexivity|exact NK]]]]. intros [Q _ _ _]. apply Forall_app in Q. destruct Q as (_ & Q). inversion Q as [|? ? Q1 _]. subst. inversion Q1; contradiction.
    - split; [intros [Q _ _ _]; apply Forall_app in Q; destruct Q as (_ & Q); inversion Q as [|? ? Q1 _]; inversion Q1|]. split; [reflexivity|]. left. split; [left; reflexivity|discriminate]. }
  apply nameEqb_neq in E1. destruct (nameEqb cmd (b "output-type")) eqn:E2; cbn [orb].
  { apply b_name in E2. subst cmd. destruct args as [|arg [|? ?]]; [| |].
    - split; [intros [Q _ _ _]; apply Forall_app in Q; destruct Q as (_ & Q); inversion Q as [|? ? Q1 _]; inversion Q1|]. split; [reflexivity|]. left. split; [right; left; reflexivity|discriminate].
    - destruct (tokenType arg) as [i|] eqn:TT.
      + destruct (negb (nameEqb (cvOutput s) [])) eqn:NE.
        * apply negb_true_iff, nameEqb_neq in NE. rewrite O in NE. assert (NN : argsOf (b "output-type") pre <> []) by (destruct (argsOf (b "output-type") pre); [contradiction|discriminate]). split; [|split; [reflexivity|split; [right; left; reflexivity|apply HA, NN]]].
          intros [_ _ Q _]. rewrite argsOf_app, argsOf_one in Q. cbn [gcName gcArgs] in Q. rewrite dec_eq, app_length in Q. destruct (argsOf (b "output-type") pre); [contradiction|cbn in Q; lia].
        * apply negb_false_iff in NE. apply b_name in NE. assert (AN : argsOf (b "output-type") pre = []). { apply LN; [congruence|]. intros t T. apply PL1. rewrite !in_app_iff. auto. }
          constructor; cbn [cvInput cvOutput cvReplaces cvSave cvGot]; rewrite ?argsOf_app, ?conversions_app, ?argsOf_one, ?conversions_one; cbn [gcName gcArgs]; rewrite ?dec_eq, ?dec_neq by (assumption || (apply not_eq_sym; assumption)); rewrite ?app_nil_r, ?AN.
          -- constructor; rewrite ?argsOf_app, ?conversions_app, ?argsOf_one, ?conversions_one; cbn [gcName gcArgs]; rewrite ?dec_eq, ?dec_neq by (assumption || (apply not_eq_sym; assumption)); rewrite ?app_nil_r, ?AN; [|assumption|cbn; lia|assumption]. apply Forall_app. split; [exact P1|constructor; [constructor; exists i; exact TT|constructor]].
          -- exact I.
          -- reflexivity.
          -- exact R.
          -- rewrite has_app, has_one. cbn [gcName]. rewrite S. tauto.
          -- rewrite has_app, has_one. cbn [gcName]. rewrite G. tauto.
      + assert (NK : ~ known arg) by (intros (i & K); congruence). split; [|split; [reflexivity|split; [right; left; reflexivity|split; [reflexivity|exact NK]]]]. intros [Q _ _ _]. apply Forall_app in Q. destruct Q as (_ & Q). inversion Q as [|? ? Q1 _]. subst. inversion Q1; contradiction.
    - split; [intros [Q _ _ _]; apply Forall_app in Q; destruct Q as (_ & Q); inversion Q as [|? ? Q1 _]; inversion Q1|]. split; [reflexivity|]. left. split; [right; left; reflexivity|discriminate]. }
  apply nameEqb_neq in E2. destruct (nameEqb cmd (b "convert")) eqn:E3.
  { apply b_name in E3. subst cmd. destruct ((zlen args =? 0) || negb (Z.land (zlen args) 1 =? 0)) eqn:B.
    - assert (BAD : args = [] \/ ~ Nat.Even (length args)). { apply orb_true_iff in B. destruct B as [B|B]; [left; apply Z.eqb_eq in B; destruct args; [reflexivity|unfold zlen in B; cbn in B; lia]|right; apply negb_true_iff, Z.eqb_neq in B; intros Q; apply even_land in Q; unfold zlen in B; contradiction]. }
      split; [|split; [reflexivity|right; auto]]. intros [Q _ _ _]. apply Forall_app in Q. destruct Q as (_ & Q). inversion Q as [|? ? Q1 _]. subst. inversion Q1 as [| |x l EV|]; subst. destruct BAD as [BAD|BAD]; [discriminate|contradiction].
    - apply orb_false_iff in B. destruct B as (B1 & B2). apply Z.eqb_neq in B1. apply negb_false_iff, Z.eqb_eq in B2. unfold zlen in B2. apply even_land in B2.
      pose proof (addReplaces_ok args (cvReplaces s) (conversions pre) R P4) as AR. destruct (addReplaces args (cvReplaces s)) as [m|e].
      + destruct AR as (A1 & A2).
        constructor; cbn [cvInput cvOutput cvReplaces cvSave cvGot]; rewrite ?argsOf_app, ?conversions_app, ?argsOf_one, ?conversions_one; cbn [gcName gcArgs]; rewrite ?dec_eq, ?dec_neq by (assumption || (apply not_eq_sym; assumption)); rewrite ?app_nil_r.
        -- constructor; rewrite ?argsOf_app, ?conversions_app, ?argsOf_one, ?conversions_one; cbn [gcName gcArgs]; rewrite ?dec_eq, ?dec_neq by (assumption || (apply not_eq_sym; assumption)); rewrite ?app_nil_r; try assumption. apply Forall_app. split; [exact P1|constructor; [|constructor]]. destruct args as [|x args]; [unfold zlen in B1; cbn in B1; lia|]. constructor. exact B2.
        -- exact I.
        -- exact O.
        -- exact A1.
        -- rewrite has_app, has_one. cbn [gcName]. rewrite S. tauto.
        -- rewrite has_app, has_one. cbn [gcName]. tauto.
      + destruct AR as (a & -> & i & X & j & J & Y).
        assert (CE : conversions (pre ++ [mkCmd (b "convert") args]) = conversions pre ++ pairs args) by (rewrite conversions_app, conversions_one; cbn [gcName gcArgs]; rewrite dec_eq; reflexivity).
        split; [|split; [reflexivity|split; [reflexivity|]]; rewrite CE; eauto]. intros [_ _ _ Q]. rewrite CE in Q. rewrite NoDup_nth_error in Q. assert (j = i); [|lia]. apply Q; [|congruence]. apply nth_error_Some. congruence. }
  apply nameEqb_neq in E3. destruct (nameEqb cmd (b "save-position")) eqn:E4.
  { apply b_name in E4. subst cmd. rewrite argsOf_one in PL2. cbn [gcName gcArgs] in PL2. rewrite dec_eq in PL2. apply app_eq_nil in PL2. destruct PL2 as (_ & ->).
    constructor; cbn [cvInput cvOutput cvReplaces cvSave cvGot]; rewrite ?argsOf_app, ?conversions_app, ?argsOf_one, ?conversions_one; cbn [gcName gcArgs]; rewrite ?dec_eq, ?dec_neq by (assumption || (apply not_eq_sym; assumption)); rewrite ?app_nil_r; try assumption.
    -- constructor; rewrite ?argsOf_app, ?conversions_app, ?argsOf_one, ?conversions_one; cbn [gcName gcArgs]; rewrite ?dec_eq, ?dec_neq by (assumption || (apply not_eq_sym; assumption)); rewrite ?app_nil_r; try assumption. apply Forall_app. split; [exact P1|constructor; [constructor|constructor]].
    -- rewrite has_app, has_one. cbn [gcName]. tauto.
    -- rewrite has_app, has_one. cbn [gcName]. rewrite G. tauto. }
  apply nameEqb_neq in E4. split; [|split; [reflexivity|cbn [In]; intuition congruence]]. intros [Q _ _ _]. apply Forall_app in Q. destruct Q as (_ & Q). inversion Q as [|? ? Q1 _]. subst. inversion Q1; subst; contradiction.
Qed.
Lemma cvCommands_ok : forall cs pre s, plain (pre ++ cs) -> cvInv pre s ->
  match cvCommands tokenType cs s with
  | inl s' => cvInv (pre ++ cs) s'
  | inr e => ~ prefixOK (pre ++ cs) /\ exists p c r, pre ++ cs = p ++ c :: r /\ explained p c e
  end.
Proof.
  induction cs as [|c cs IH]; intros pre s PL I; cbn [cvCommands]; [rewrite app_nil_r; exact I|].
  replace (pre ++ c :: cs) with ((pre ++ [c]) ++ cs) in PL |- * by (rewrite <- app_assoc; reflexivity). pose proof (cvCommand_ok pre c s (proj1 (plain_app _ _ PL)) I) as H. destruct (cvCommand tokenType c s) as [s'|e].
  - apply IH; assumption.
  - destruct H as (H1 & H2). split; [intros Q; apply H1; eapply prefixOK_app, Q|]. exists pre, c, cs. split; [rewrite <- app_assoc; reflexivity|exact H2].
Qed.
Lemma cvInv_start : cvInv [] (mkCv anyName [] [] false false).
Proof. constructor; cbn; try reflexivity; [constructor; cbn; auto; constructor|split; [discriminate|contradiction]| |]; (split; [discriminate|intros (c & [] & _)]). Qed.
(** A definition with no empty names of types and no arguments of save-position is accepted exactly if it is right. *)
Theorem convert_accepts_partial cs : plain cs -> ((exists l, cvSetup tokenType noPos cs = inl l) <-> convertDef known cs).
Proof.
  intros PL. unfold cvSetup. pose proof (cvCommands_ok cs [] _ PL cvInv_start) as H. cbn [app] in H. destruct (cvCommands tokenType cs (mkCv anyName [] [] false false)) as [s|e].
  - destruct H as [[A B C D] _ _ _ _ G]. destruct (cvGot s); cbn [negb].
    + split; [intros _; constructor; try assumption; apply G; reflexivity|eauto].
    + split; [intros (l & X); discriminate|]. intros [_ _ _ _ X]. apply G in X. discriminate.
  - split; [intros (l & X); discriminate|]. intros [A B C D _]. destruct H as (H & _). destruct H. constructor; assumption.
Qed.
(** Otherwise the error tells what is wrong. *)
Theorem convert_error_partial cs e : plain cs -> cvSetup tokenType noPos cs = inr e -> e = MissingCommand (b "convert") /\ ~ has (b "convert") cs \/ exists p c r, cs = p ++ c :: r /\ explained p c e.
Proof.
  intros PL. unfold cvSetup. pose proof (cvCommands_ok cs [] _ PL cvInv_start) as H. cbn [app] in H. destruct (cvCommands tokenType cs (mkCv anyName [] [] false false)) as [s|e'].
  - destruct H as [_ _ _ _ _ G]. destruct (cvGot s); cbn [negb]; intros X; [discriminate|]. injection X as <-. left. split; [reflexivity|]. intros Y. apply G in Y. discriminate.
  - intros X. injection X as <-. right. apply H.
Qed.
(** The layer hooks the input type, or any token; its hook converts the right tokens in the right way, and passes others. *)
Theorem convert_tokens_partial cs key hook : plain cs -> cvSetup tokenType noPos cs = inl (key, hook) ->
  key = match argsOf (b "input-type") cs with t :: _ => t | [] => anyName end /\ forall t, convertSpec tokenType noPos cs t (hook t).
Proof.
  intros PL. unfold cvSetup. pose proof (cvCommands_ok cs [] _ PL cvInv_start) as H. cbn [app] in H. destruct (cvCommands tokenType cs (mkCv anyName [] [] false false)) as [s|e']; [|discriminate].
  destruct H as [[P1 P2 P3 P4] I O R S G]. destruct (cvGot s); cbn [negb]; [|discriminate]. intros X. injection X as <- <-. split; [rewrite I; destruct (argsOf (b "input-type") cs); reflexivity|].
  assert (KN : forall t, In t (argsOf (b "input-type") cs ++ argsOf (b "output-type") cs) -> known t).
  { intros t T. clear - P1 T. induction P1 as [|c cs H P1 IH]; [destruct T|]. cbn [argsOf] in T. rewrite !in_app_iff in T. rewrite in_app_iff in IH.
    destruct (list_eq_dec Z.eq_dec (gcName c) (b "input-type")) as [E1|E1], (list_eq_dec Z.eq_dec (gcName c) (b "output-type")) as [E2|E2]; try (rewrite E1 in E2; discriminate E2).
    - inversion H; subst c; cbn in E1, T; try discriminate E1. intuition (subst; auto).
    - inversion H; subst c; cbn in E2, T; try discriminate E2. intuition (subst; auto).
    - cbn [In] in T. apply IH. tauto. }
  intros t. unfold convertSpec, cvHook. destruct (nget (lText t) (cvReplaces s)) as [text|] eqn:E.
  - right. apply R in E. eexists. split; [reflexivity|]. destruct PL as (PL1 & _). rewrite I, O.
    set (oi := argsOf (b "input-type") cs) in *. set (oo := argsOf (b "output-type") cs) in *.
    assert (ON : forall n, In n (oi ++ oo) -> nameEqb n [] = false) by (intros n N; apply nameEqb_neq, PL1, N).
    assert (SV : (has (b "save-position") cs -> cvSave s = true) /\ (~ has (b "save-position") cs -> cvSave s = false)) by (split; [tauto|]; intros Q; destruct (cvSave s); [destruct Q; tauto|reflexivity]). destruct SV as (SV1 & SV2).
    assert (TN : forall n, In n (oi ++ oo) -> tokenType n = Some (match tokenType n with Some i => i | None => 0 end)) by (intros n N; destruct (KN n N) as (i & ->); reflexivity).
    destruct oo as [|to oo'], oi as [|ti oi']; cbn [headOr].
    + cbn. split; [exact E|]. split; [intros Q; rewrite (SV1 Q); reflexivity|]. split; [intros Q; rewrite (SV2 Q); reflexivity|auto].
    + change (nameEqb [] []) with true. rewrite (ON ti) by (left; reflexivity). cbn [negb andb]. rewrite (ON ti) by (left; reflexivity). cbn [lText lPos lName lType]. split; [exact E|]. split; [intros Q; rewrite (SV1 Q); reflexivity|]. split; [intros Q; rewrite (SV2 Q); reflexivity|]. split; [reflexivity|apply TN; left; reflexivity].
    + rewrite (ON to) by (left; reflexivity). cbn [negb andb]. rewrite (ON to) by (left; reflexivity). cbn [lText lPos lName lType]. split; [exact E|]. split; [intros Q; rewrite (SV1 Q); reflexivity|]. split; [intros Q; rewrite (SV2 Q); reflexivity|]. split; [reflexivity|apply TN; left; reflexivity].
    + rewrite (ON to) by (apply in_or_app; right; left; reflexivity). cbn [negb andb]. rewrite (ON to) by (apply in_or_app; right; left; reflexivity). cbn [lText lPos lName lType]. split; [exact E|]. split; [intros Q; rewrite (SV1 Q); reflexivity|]. split; [intros Q; rewrite (SV2 Q); reflexivity|]. split; [reflexivity|apply TN; apply in_or_app; right; left; reflexivity].
  - left. split; [|reflexivity]. intros Q. apply in_map_iff in Q. destruct Q as ((k, v) & K & Q). cbn in K. subst k. apply R in Q. congruence.
Qed.
End Convert.

(** ** restrict *)
Lemma rs_differ : b "node" <> b "allow-in" /\ b "node" <> b "forbid-in" /\ b "allow-in" <> b "forbid-in".
Proof. repeat split; discriminate. Qed.
Record rprefixOK (cs : list gcommand) : Prop := mkRPre {
  rp_each : Forall (fun c => In (gcName c) [b "node"; b "allow-in"; b "forbid-in"] /\ gcArgs c <> []) cs;
  rp_nodes : NoDup (argsOf (b "node") cs);
  rp_special : NoDup (argsOf (b "allow-in") cs ++ argsOf (b "forbid-in") cs) }.
Lemma NoDup_left {A} (a c : list A) : NoDup (a ++ c) -> NoDup a.
Proof. induction a as [|x a IH]; [constructor|]. cbn. intros D. inversion D as [|? ? N M]; subst. constructor; [intros I; apply N, in_or_app; auto|auto]. Qed.
Lemma NoDup_right {A} (a c : list A) : NoDup (a ++ c) -> NoDup c.
Proof. induction a as [|x a IH]; [auto|]. cbn. intros D. inversion D; auto. Qed.
Lemma NoDup_disj {A} (a c : list A) x : NoDup (a ++ c) -> In x a -> In x c -> False.
Proof. induction a as [|y a IH]; [contradiction|]. cbn. intros D. inversion D as [|? ? N M]; subst. intros [<-|I] J; [apply N, in_or_app; auto|auto]. Qed.
Lemma rprefixOK_app a c : rprefixOK (a ++ c) -> rprefixOK a.
Proof.
  intros [A B C]. rewrite !argsOf_app in *. constructor; [apply Forall_app in A; tauto|eapply NoDup_left, B|]. rewrite <- app_assoc in C. apply NoDup_app_k.
  - eapply NoDup_left, C.
  - apply NoDup_right, NoDup_right in C. eapply NoDup_left, C.
  - intros x X Y. eapply (NoDup_disj _ _ x C); [exact X|]. rewrite !in_app_iff. auto.
Qed.
Record rsInv (pre : list gcommand) (s : rsState) : Prop := mkRsInv {
  ri_ok : rprefixOK pre;
  ri_nodes : forall n, In n (rsNodes s) <-> In n (argsOf (b "node") pre);
  ri_nodup : NoDup (rsNodes s);
  ri_allow : forall n, nget n (rsSpecial s) = Some true <-> In n (argsOf (b "allow-in") pre);
  ri_forbid : forall n, nget n (rsSpecial s) = Some false <-> In n (argsOf (b "forbid-in") pre);
  ri_restr : rsRestricted s = true <-> has (b "forbid-in") pre }.
(** an error that names a broken rule *)
Definition rexplained (pre : list gcommand) (c : gcommand) (e : stdError) : Prop :=
  match e with
  | UnknownCommand n => n = gcName c /\ ~ In n [b "node"; b "allow-in"; b "forbid-in"]
  | NumberOfArguments n => n = gcName c /\ In n [b "node"; b "allow-in"; b "forbid-in"] /\ gcArgs c = []
  | InvalidArgument n a => n = gcName c /\ exists p r, gcArgs c = p ++ a :: r /\
      (n = b "node" /\ In a (argsOf n pre ++ p) \/ In n [b "allow-in"; b "forbid-in"] /\ In a (argsOf (b "allow-in") pre ++ argsOf (b "forbid-in") pre ++ p))
  | _ => False
  end.
Lemma addRestricted_ok : forall args l pre, (forall n, In n l <-> In n pre) -> NoDup l -> NoDup pre ->
  match addRestricted args l with
  | inl l' => (forall n, In n l' <-> In n (pre ++ args)) /\ NoDup l' /\ NoDup (pre ++ args)
  | inr e => exists a p r, e = InvalidArgument nodeCommand a /\ args = p ++ a :: r /\ In a (pre ++ p)
  end.
Proof.
  induction args as [|x args IH]; intros l pre L N M; cbn [addRestricted]; [rewrite app_nil_r; auto|]. destruct (existsb (nameEqb x) l) eqn:E.
  - apply (inb_ok x l) in E. exists x, [], args. split; [reflexivity|]. split; [reflexivity|]. rewrite app_nil_r. apply L, E.
  - assert (NI : ~ In x l) by (intros I; apply (inb_ok x l) in I; unfold inb in I; congruence). specialize (IH (x :: l) (pre ++ [x])). replace (pre ++ x :: args) with ((pre ++ [x]) ++ args) by (rewrite <- app_assoc; reflexivity).
    destruct (addRestricted args (x :: l)) as [l'|e].
    + apply IH; [intros n; cbn [In]; rewrite in_app_iff, L; cbn [In]; tauto|constructor; assumption|]. apply NoDup_app_k; [exact M|constructor; [intros []|constructor]|]. intros z Z1 [<-|[]]. apply NI, L, Z1.
    + destruct IH as (a & p & r & H1 & H2 & H3); [intros n; cbn [In]; rewrite in_app_iff, L; cbn [In]; tauto|constructor; assumption|apply NoDup_app_k; [exact M|constructor; [intros []|constructor]|]; intros z Z1 [<-|[]]; apply NI, L, Z1|]. exists a, (x :: p), r. split; [exact H1|]. split; [rewrite H2; reflexivity|]. rewrite <- app_assoc in H3. exact H3.
Qed.
Lemma addSpecial_ok cmd allow : forall args m pa pf, (forall n, nget n m = Some true <-> In n pa) -> (forall n, nget n m = Some false <-> In n pf) -> NoDup (pa ++ pf) ->
  match addSpecial cmd allow args m with
  | inl m' => let pa' := if allow then pa ++ args else pa in let pf' := if allow then pf else pf ++ args in
      (forall n, nget n m' = Some true <-> In n pa') /\ (forall n, nget n m' = Some false <-> In n pf') /\ NoDup (pa' ++ pf')
  | inr e => exists a p r, e = InvalidArgument cmd a /\ args = p ++ a :: r /\ In a (pa ++ pf ++ p)
  end.
Proof.
  induction args as [|x args IH]; intros m pa pf A F N; cbn [addSpecial]; [rewrite !app_nil_r; destruct allow; auto|]. destruct (nget x m) as [v|] eqn:E.
  - exists x, [], args. split; [reflexivity|]. split; [reflexivity|]. rewrite app_nil_r, in_app_iff. destruct v; [left; apply A, E|right; apply F, E].
  - assert (NA : ~ In x pa) by (intros I; apply A in I; congruence). assert (NF : ~ In x pf) by (intros I; apply F in I; congruence).
    assert (H : match addSpecial cmd allow args (nput x allow m) with
      | inl m' => let pa' := if allow then (pa ++ [x]) ++ args else pa in let pf' := if allow then pf else (pf ++ [x]) ++ args in
          (forall n, nget n m' = Some true <-> In n pa') /\ (forall n, nget n m' = Some false <-> In n pf') /\ NoDup (pa' ++ pf')
      | inr e => exists a p r, e = InvalidArgument cmd a /\ args = p ++ a :: r /\ In a ((if allow then pa ++ [x] else pa) ++ (if allow then pf else pf ++ [x]) ++ p)
      end).
    { specialize (IH (nput x allow m) (if allow then pa ++ [x] else pa) (if allow then pf else pf ++ [x])).
      assert (X : forall n v, nget n (nput x allow m) = Some v <-> (n = x /\ v = allow) \/ nget n m = Some v).
      { intros n v. rewrite nget_put. destruct (nameEqb n x) eqn:K; [apply LangTextTotal.nameEqb_ok in K; subst n; rewrite E; split; [intros H; injection H as <-; auto|intros [(_ & ->)|H]; [reflexivity|discriminate]]|apply nameEqb_neq in K; tauto]. }
      destruct allow; apply IH; intros; rewrite ?X, ?in_app_iff, ?A, ?F; cbn [In]; try (intuition congruence).
      - apply NoDup_app_k; [apply NoDup_app_k; [eapply NoDup_left, N|constructor; [intros []|constructor]|]; intros z Z1 [<-|[]]; contradiction|eapply NoDup_right, N|]. intros z Z1 Z2. apply in_app_or in Z1. destruct Z1 as [Z1|[<-|[]]]; [eapply NoDup_disj; eassumption|contradiction].
      - rewrite app_assoc. apply NoDup_app_k; [exact N|constructor; [intros []|constructor]|]. intros z Z1 [<-|[]]. apply in_app_or in Z1. tauto. }
    destruct (addSpecial cmd allow args (nput x allow m)) as [m'|e].
    + destruct allow; rewrite <- app_assoc in H; exact H.
    + destruct H as (a & p & r & H1 & H2 & H3). exists a, (x :: p), r. split; [exact H1|]. split; [rewrite H2; reflexivity|]. destruct allow; rewrite !in_app_iff in *; cbn [In] in *; tauto.
Qed.
Lemma rsCommand_ok pre c s : rsInv pre s -> match rsCommand c s with
  | inl s' => rsInv (pre ++ [c]) s'
  | inr e => ~ rprefixOK (pre ++ [c]) /\ rexplained pre c e
  end.
Proof.
  intros [[P1 P2 P3] N ND A F R]. destruct rs_differ as (D1 & D2 & D3). unfold rsCommand. change nodeCommand with (b "node"). change allowInCommand with (b "allow-in"). change forbidInCommand with (b "forbid-in"). destruct c as (cmd, args). cbn [gcName gcArgs].
  assert (EMPTY : args = [] -> ~ rprefixOK (pre ++ [mkCmd cmd args])) by (intros -> [Q _ _]; apply Forall_app in Q; destruct Q as (_ & Q); inversion Q as [|? ? (_ & Q1) _]; apply Q1; reflexivity).
  destruct (nameEqb cmd (b "node")) eqn:E1.
  { apply b_name in E1. subst cmd. destruct args as [|x args]; [split; [apply EMPTY; reflexivity|]; cbn; tauto|]. pose proof (addRestricted_ok (x :: args) (rsNodes s) _ N ND P2) as H. destruct (addRestricted (x :: args) (rsNodes s)) as [l|e].
    - destruct H as (H1 & H2 & H3). constructor; cbn [rsNodes rsSpecial rsRestricted]; rewrite ?argsOf_app, ?argsOf_one; cbn [gcName gcArgs]; rewrite ?dec_eq, ?dec_neq by (assumption || (apply not_eq_sym; assumption)); rewrite ?app_nil_r; try assumption.
      + constructor; rewrite ?argsOf_app, ?argsOf_one; cbn [gcName gcArgs]; rewrite ?dec_eq, ?dec_neq by (assumption || (apply not_eq_sym; assumption)); rewrite ?app_nil_r; try assumption. apply Forall_app. split; [exact P1|constructor; [|constructor]]. cbn [gcName gcArgs]. split; [left; reflexivity|discriminate].
      + rewrite has_app, has_one. cbn [gcName]. rewrite R. tauto.
    - destruct H as (a & p & r & -> & H2 & H3). split.
      + intros [_ Q _]. rewrite argsOf_app, argsOf_one in Q. cbn [gcName gcArgs] in Q. rewrite dec_eq, H2, app_assoc in Q. apply (NoDup_disj _ _ a Q H3). left. reflexivity.
      + cbn [rexplained gcName gcArgs]. split; [reflexivity|]. exists p, r. split; [exact H2|left; auto]. }
  apply nameEqb_neq in E1. destruct (nameEqb cmd (b "allow-in")) eqn:E2; cbn [orb].
  { apply b_name in E2. subst cmd. destruct args as [|x args]; [split; [apply EMPTY; reflexivity|]; cbn; tauto|]. pose proof (addSpecial_ok (b "allow-in") true (x :: args) (rsSpecial s) _ _ A F P3) as H. destruct (addSpecial (b "allow-in") true (x :: args) (rsSpecial s)) as [m|e].
    - destruct H as (H1 & H2 & H3). constructor; cbn [rsNodes rsSpecial rsRestricted]; rewrite ?argsOf_app, ?argsOf_one; cbn [gcName gcArgs]; rewrite ?dec_eq, ?dec_neq by (assumption || (apply not_eq_sym; assumption)); rewrite ?app_nil_r; try assumption.
      + constructor; rewrite ?argsOf_app, ?argsOf_one; cbn [gcName gcArgs]; rewrite ?dec_eq, ?dec_neq by (assumption || (apply not_eq_sym; assumption)); rewrite ?app_nil_r; try assumption. apply Forall_app. split; [exact P1|constructor; [|constructor]]. cbn [gcName gcArgs]. split; [right; left; reflexivity|discriminate].
      + rewrite has_app, has_one, orb_false_r. cbn [gcName]. rewrite R. tauto.
    - destruct H as (a & p & r & -> & H2 & H3). split.
      + intros [_ _ Q]. rewrite !argsOf_app, !argsOf_one in Q. cbn [gcName gcArgs] in Q. rewrite dec_eq, dec_neq in Q by assumption. rewrite app_nil_r, H2 in Q. rewrite !in_app_iff in H3.
        destruct H3 as [H3|[H3|H3]].
        * apply NoDup_left in Q. apply (NoDup_disj _ _ a Q H3). apply in_or_app. right. left. reflexivity.
        * apply (NoDup_disj _ _ a Q); [|exact H3]. rewrite !in_app_iff. right. right. left. reflexivity.
        * apply NoDup_left, NoDup_right in Q. apply (NoDup_disj _ _ a Q H3). left. reflexivity.
      + cbn [rexplained gcName gcArgs]. split; [reflexivity|]. exists p, r. split; [exact H2|right; split; [left; reflexivity|exact H3]]. }
  apply nameEqb_neq in E2. destruct (nameEqb cmd (b "forbid-in")) eqn:E3; cbn [orb].
  { apply b_name in E3. subst cmd. destruct args as [|x args]; [split; [apply EMPTY; reflexivity|]; cbn; tauto|]. pose proof (addSpecial_ok (b "forbid-in") false (x :: args) (rsSpecial s) _ _ A F P3) as H. destruct (addSpecial (b "forbid-in") false (x :: args) (rsSpecial s)) as [m|e].
    - destruct H as (H1 & H2 & H3). constructor; cbn [rsNodes rsSpecial rsRestricted]; rewrite ?argsOf_app, ?argsOf_one; cbn [gcName gcArgs]; rewrite ?dec_eq, ?dec_neq by (assumption || (apply not_eq_sym; assumption)); rewrite ?app_nil_r; try assumption.
      + constructor; rewrite ?argsOf_app, ?argsOf_one; cbn [gcName gcArgs]; rewrite ?dec_eq, ?dec_neq by (assumption || (apply not_eq_sym; assumption)); rewrite ?app_nil_r; try assumption. apply Forall_app. split; [exact P1|constructor; [|constructor]]. cbn [gcName gcArgs]. split; [right; right; left; reflexivity|discriminate].
      + rewrite has_app, has_one, orb_true_r. cbn [gcName]. tauto.
    - destruct H as (a & p & r & -> & H2 & H3). split.
      + intros [_ _ Q]. rewrite !argsOf_app, !argsOf_one in Q. cbn [gcName gcArgs] in Q. rewrite dec_eq, dec_neq in Q by (apply not_eq_sym; assumption). rewrite app_nil_r, H2, !app_assoc in Q.
        change (a :: r) with ([a] ++ r) in Q. rewrite app_assoc in Q. apply NoDup_left in Q. apply (NoDup_disj _ _ a Q); [|left; reflexivity]. rewrite <- app_assoc. exact H3.
      + cbn [rexplained gcName gcArgs]. split; [reflexivity|]. exists p, r. split; [exact H2|right; split; [right; left; reflexivity|exact H3]]. }
  apply nameEqb_neq in E3. split.
  - intros [Q _ _]. apply Forall_app in Q. destruct Q as (_ & Q). inversion Q as [|? ? (Q1 & _) _]. subst. cbn [gcName In] in Q1. intuition congruence.
  - cbn [rexplained gcName In]. intuition congruence.
Qed.
Lemma rsCommands_ok : forall cs pre s, rsInv pre s -> match rsCommands cs s with
  | inl s' => rsInv (pre ++ cs) s'
  | inr e => ~ rprefixOK (pre ++ cs) /\ exists p c r, pre ++ cs = p ++ c :: r /\ rexplained p c e
  end.
Proof.
  induction cs as [|c cs IH]; intros pre s I; cbn [rsCommands]; [rewrite app_nil_r; exact I|].
  replace (pre ++ c :: cs) with ((pre ++ [c]) ++ cs) by (rewrite <- app_assoc; reflexivity). pose proof (rsCommand_ok pre c s I) as H. destruct (rsCommand c s) as [s'|e]; [apply IH, H|].
  destruct H as (H1 & H2). split; [intros Q; apply H1; eapply rprefixOK_app, Q|]. exists pre, c, cs. split; [rewrite <- app_assoc; reflexivity|exact H2].
Qed.
Lemma rsInv_start : rsInv [] (mkRs [] [] false).
Proof. constructor; cbn; try tauto; try (constructor; constructor); try constructor; try discriminate; try contradiction. intros (c & [] & _). Qed.
Lemma has_args n cs : Forall (fun c => In (gcName c) [b "node"; b "allow-in"; b "forbid-in"] /\ gcArgs c <> []) cs -> has n cs <-> argsOf n cs <> [].
Proof.
  intros F. split.
  - intros (c & I & E) Q. apply in_split in I. destruct I as (p & r & ->). rewrite argsOf_app in Q. cbn [argsOf] in Q. rewrite E, dec_eq in Q. apply app_eq_nil in Q. destruct Q as (_ & Q). apply app_eq_nil in Q. rewrite Forall_forall in F. apply (F c); [apply in_or_app; right; left; reflexivity|tauto].
  - clear F. induction cs as [|x cs IH]; cbn [argsOf]; [contradiction|]. destruct (list_eq_dec Z.eq_dec (gcName x) n) as [E|E]; [intros _; exists x; split; [left; reflexivity|exact E]|]. cbn [app]. intros H. destruct (IH H) as (y & Y & G). exists y. split; [right; exact Y|exact G].
Qed.
(** A definition is accepted exactly if it is right. *)
Theorem restrict_accepts cs : (exists l, rsSetup cs = inl l) <-> restrictDef cs.
Proof.
  unfold rsSetup. pose proof (rsCommands_ok cs [] _ rsInv_start) as H. cbn [app] in H. destruct (rsCommands cs (mkRs [] [] false)) as [s|e].
  - destruct H as [[P1 P2 P3] N ND A F R]. assert (HN : rsNodes s <> [] <-> has (b "node") cs).
    { rewrite (has_args (b "node") cs P1). destruct (rsNodes s) as [|x l], (argsOf (b "node") cs) as [|y m]; try (split; intros; (congruence || discriminate)); [destruct (proj2 (N y)); left; reflexivity|destruct (proj1 (N x)); left; reflexivity]. }
    destruct (rsNodes s) as [|x l] eqn:E; [split; [intros (l & X); discriminate|intros [_ _ _ Q _]; apply HN in Q; contradiction]|]. destruct (rsRestricted s); cbn [negb].
    + split; [intros _; constructor; try assumption; [apply HN; discriminate|apply R; reflexivity]|eauto].
    + split; [intros (m & X); discriminate|intros [_ _ _ _ Q]; apply R in Q; discriminate].
  - split; [intros (l & X); discriminate|]. intros [A B C _ _]. destruct H as (H & _). destruct H. constructor; assumption.
Qed.
Theorem restrict_error cs e : rsSetup cs = inr e -> (e = MissingCommand (b "node") /\ ~ has (b "node") cs) \/ (e = MissingCommand (b "forbid-in") /\ ~ has (b "forbid-in") cs) \/ exists p c r, cs = p ++ c :: r /\ rexplained p c e.
Proof.
  unfold rsSetup. pose proof (rsCommands_ok cs [] _ rsInv_start) as H. cbn [app] in H. destruct (rsCommands cs (mkRs [] [] false)) as [s|e'].
  - destruct H as [[P1 P2 P3] N ND A F R]. destruct (rsNodes s) as [|x l] eqn:E.
    + intros X. injection X as <-. left. split; [reflexivity|]. rewrite (has_args (b "node") cs P1). intros Q. destruct (argsOf (b "node") cs) as [|y m]; [contradiction|]. destruct (proj2 (N y)). left. reflexivity.
    + destruct (rsRestricted s); cbn [negb]; intros X; [discriminate|]. injection X as <-. right. left. split; [reflexivity|]. intros Y. apply R in Y. discriminate.
  - intros X. injection X as <-. right. right. apply H.
Qed.
(** The layer hooks exactly the restricted nodes; the hook fails exactly if the closest special ancestor is a forbidding one, and names it. *)
Theorem restrict_nodes cs nodes hook : rsSetup cs = inl (nodes, hook) ->
  NoDup nodes /\ (forall n, In n nodes <-> In n (argsOf (b "node") cs)) /\
  forall stack a, hook stack = Some a <-> forbidden (argsOf (b "allow-in") cs) (argsOf (b "forbid-in") cs) stack a.
Proof.
  unfold rsSetup. pose proof (rsCommands_ok cs [] _ rsInv_start) as H. cbn [app] in H. destruct (rsCommands cs (mkRs [] [] false)) as [s|e']; [|discriminate].
  destruct H as [[P1 P2 P3] N ND A F R]. intros X. assert (X' : nodes = rsNodes s /\ hook = rsHook (rsSpecial s)) by (destruct (rsNodes s) eqn:E; [discriminate|]; destruct (rsRestricted s); cbn [negb] in X; [injection X as <- <-; auto|discriminate]). clear X. destruct X' as (-> & ->).
  split; [exact ND|]. split; [exact N|]. induction stack as [|x stack IH]; intros a; cbn [rsHook]; [split; [discriminate|intros Q; inversion Q]|]. destruct (nget x (rsSpecial s)) as [[|]|] eqn:E.
  - apply A in E. split; [discriminate|]. intros Q. exfalso. inversion Q; subst; [eapply NoDup_disj; [exact P3|exact E|assumption]|contradiction].
  - apply F in E. split; [intros H; injection H as <-; constructor; exact E|]. intros Q. inversion Q; subst; [reflexivity|contradiction].
  - assert (NA : ~ In x (argsOf (b "allow-in") cs)) by (intros Q; apply A in Q; congruence). assert (NF : ~ In x (argsOf (b "forbid-in") cs)) by (intros Q; apply F in Q; congruence).
    rewrite IH. split; [intros Q; apply fb_up; assumption|]. intros Q. inversion Q; subst; [contradiction|assumption].
Qed.

(** ** Examples *)
Module Example1.
  Definition types (n : name) : option Z := nget n [(b "", -1); (b "name", 0); (b "op", 1); (b "digraph", 2)].
  Definition cs : list gcommand := [mkCmd (b "input-type") [b "digraph"]; mkCmd (b "output-type") [b "op"]; mkCmd (b "save-position") []; mkCmd (b "convert") [b "(."; b "["; b ".)"; b "]"]].
  Example plain_ok : plain cs.
  Proof. split; [|reflexivity]. intros t H. vm_compute in H. destruct H as [<-|[<-|[]]]; discriminate. Qed.
  Example accepted : exists hook, cvSetup types 0 cs = inl (b "digraph", hook) /\ hook (mkLTok 2 (b "digraph") (b ".)") 7) = (false, [mkLTok 1 (b "op") (b "]") 7]) /\ hook (mkLTok 2 (b "digraph") (b "..") 7) = (true, []).
  Proof. eexists. vm_compute. repeat split; reflexivity. Qed.
  Example def_ok : convertDef (known types) cs.
  Proof. apply (convert_accepts_partial types 0 cs plain_ok). destruct accepted as (hook & H & _). eauto. Qed.
  Example rejected : cvSetup types 0 [mkCmd (b "convert") [b "x"; b "y"]; mkCmd (b "convert") [b "x"; b "z"]] = inr (InvalidArgument (b "convert") (b "x")).
  Proof. reflexivity. Qed.
  Definition rs : list gcommand := [mkCmd (b "node") [b "continue"]; mkCmd (b "allow-in") [b "for"; b "while"]; mkCmd (b "forbid-in") [b "function"; b "root"]].
  Example restricted : exists hook, rsSetup rs = inl ([b "continue"], hook) /\ hook [b "expr"; b "for"; b "root"] = None /\ hook [b "function"; b "for"; b "root"] = Some (b "function").
  Proof. eexists. vm_compute. repeat split; reflexivity. Qed.
  Example rs_ok : restrictDef rs.
  Proof. apply restrict_accepts. destruct restricted as (hook & H & _). eauto. Qed.
End Example1.
(** save-position is documented to take no arguments, and input-type to be used once; but arguments of the former are ignored (convert.go:127-128),
    and so is a use of the latter with the empty name (convert.go:96-101). *)
Theorem convert_accepts_refuted : exists (types : name -> option Z) cs1 cs2 l1 l2,
  cvSetup types 0 cs1 = inl l1 /\ ~ convertDef (known types) cs1 /\ argsOf (b "save-position") cs1 <> [] /\
  cvSetup types 0 cs2 = inl l2 /\ ~ convertDef (known types) cs2 /\ length (argsOf (b "input-type") cs2) = 2%nat.
Proof.
  exists Example1.types, [mkCmd (b "save-position") [b "x"]; mkCmd (b "convert") [b "x"; b "y"]], [mkCmd (b "input-type") [b ""]; mkCmd (b "input-type") [b "op"]; mkCmd (b "convert") [b "x"; b "y"]]. eexists _, _. split; [vm_compute; reflexivity|].
  split; [intros [Q _ _ _ _]; inversion Q as [|? ? Q1 _]; subst; inversion Q1|]. split; [vm_compute; discriminate|]. split; [vm_compute; reflexivity|]. split; [|reflexivity]. intros [_ Q _ _ _]. vm_compute in Q. lia.
Qed.
Print Assumptions convert_accepts_partial.
Print Assumptions convert_accepts_refuted.
Print Assumptions convert_error_partial.
Print Assumptions convert_tokens_partial.
Print Assumptions restrict_accepts.
Print Assumptions restrict_error.
Print Assumptions restrict_nodes.
(** A restriction is not enforced if its definition names any node unknown to the grammar (no error is given: parser.go:271). *)
Theorem restrict_enforced_refuted : exists (g : grammar) cs nodes hook (nh : name -> Prop_Layers.Example1.NH) (st : installed Prop_Layers.Example1.TH Prop_Layers.Example1.NH), goodNames g /\ rsSetup cs = inl (nodes, hook) /\
  In (b "foo") nodes /\ knownNode g (b "foo") /\ hook [b "root"] = Some (b "root") /\
  installHooks g (Prop_Layers.Example1.make 0) (mkHooks [] [] []) [mkHooks [] [] (map (fun n => (n, nh n)) nodes)] = Some (inl st) /\ iNodes st = [].
Proof.
  exists Prop_Layers.Example1.g, [mkCmd (b "node") [b "foo"; b "typo"]; mkCmd (b "forbid-in") [b "root"]]. eexists _, _, (fun _ => Prop_Layers.Example1.make 1). eexists.
  split; [apply Prop_Layers.Example1.names_good|]. split; [vm_compute; reflexivity|]. split; [vm_compute; auto|]. split; [right; right; left; reflexivity|]. split; [vm_compute; reflexivity|]. split; [vm_compute; reflexivity|reflexivity].
Qed.
Print Assumptions restrict_enforced_refuted.
