(** Reading of descriptions (LangText.v): it ends, does not panic, and gives what the checks of nodes need. *)
From Coq Require Import ZArith List Bool Lia.
From Verif Require Import Base BaseProofs Grammar LangBuild LangSpec LangString LangStringSpec Prop_LangString LangTypes LangTypesSpec LangNodesSpec LangText LangTextSpec.
Import ListNotations.
Open Scope Z_scope.

(** ** Triples *)
Definition triple {A} (P : ctx -> Prop) (m : M A) (Q : A -> ctx -> Prop) : Prop :=
  forall c, P c -> match m c with ROk x c' => Q x c' | RFail _ _ => True | RHang => False | RCrash => False end.
Lemma t_bind {A B} P (m : M A) Q (f : A -> M B) R : triple P m Q -> (forall x, triple (Q x) (f x) R) -> triple P (bind m f) R.
Proof. intros H1 H2 c H. specialize (H1 c H). unfold bind. destruct (m c) as [x c'|e c'| |]; auto. apply H2, H1. Qed.
Lemma t_pre {A} (P P' : ctx -> Prop) (m : M A) Q : (forall c, P c -> P' c) -> triple P' m Q -> triple P m Q.
Proof. intros H T c I. apply T, H, I. Qed.
Lemma t_post {A} (P : ctx -> Prop) (m : M A) (Q Q' : A -> ctx -> Prop) : triple P m Q -> (forall x c, Q x c -> Q' x c) -> triple P m Q'.
Proof. intros T H c I. specialize (T c I). destruct (m c); auto. Qed.
Lemma t_ret {A} (P : ctx -> Prop) (x : A) (Q : A -> ctx -> Prop) : (forall c, P c -> Q x c) -> triple P (ret x) Q.
Proof. intros H c I. cbn. auto. Qed.
Lemma t_fail {A} P e (Q : A -> ctx -> Prop) : triple P (fail e) Q.
Proof. intros c _. exact I. Qed.
Lemma t_get {A} (P : ctx -> Prop) (f : ctx -> A) (Q : A -> ctx -> Prop) : (forall c, P c -> Q (f c) c) -> triple P (get f) Q.
Proof. intros H c I. cbn. auto. Qed.
Lemma t_modify (P : ctx -> Prop) f (Q : unit -> ctx -> Prop) : (forall c, P c -> Q tt (f c)) -> triple P (modify f) Q.
Proof. intros H c I. cbn. auto. Qed.
Lemma t_orCrash {A} (P : ctx -> Prop) (o : option A) (Q : A -> ctx -> Prop) : (forall c, P c -> exists x, o = Some x /\ Q x c) -> triple P (orCrash o) Q.
Proof. intros H c I. destruct (H c I) as (x & -> & X). exact X. Qed.
Lemma t_false {A} (P : ctx -> Prop) (m : M A) Q : (forall c, P c -> False) -> triple P m Q.
Proof. intros H c I. destruct (H c I). Qed.
Lemma t_pull {A} (F : Prop) (P : ctx -> Prop) (m : M A) Q : (F -> triple P m Q) -> triple (fun c => F /\ P c) m Q.
Proof. intros H c (X & I). apply H; assumption. Qed.
Lemma t_each {A} (I : ctx -> Prop) (f : A -> M unit) l : (forall x, In x l -> triple I (f x) (fun _ => I)) -> triple I (each f l) (fun _ => I).
Proof.
  induction l as [|x l IH]; intros H; cbn [each]; [apply t_ret; auto|]. eapply t_bind; [apply H; left; reflexivity|]. intros u. apply IH. intros y Y. apply H. right. exact Y.
Qed.
Lemma t_each_n {A} (I : nat -> ctx -> Prop) (f : A -> M unit) : (forall x n, triple (I (S n)) (f x) (fun _ => I n)) -> forall l, triple (I (length l)) (each f l) (fun _ => I O).
Proof. intros H. induction l as [|x l IH]; cbn [each length]; [apply t_ret; auto|]. eapply t_bind; [apply H|]. intros u. exact IH. Qed.

(** ** Tokens *)
Definition rest (c : ctx) : list tok := match cSaved c with Some t => [t] | None => [] end ++ cInput c.
(** a token given by [takeToken] *)
Inductive taken : tok -> Prop :=
| TK_string q s : q = 34 \/ q = 39 -> taken (mkT KString (q :: s ++ [q]))
| TK_other t : tKind t <> KString -> lexed t -> taken t.
Lemma lexed_kind t : lexed t -> isEof t = false.
Proof. inversion 1; reflexivity. Qed.
Lemma taken_kind t : taken t -> isEof t = false.
Proof. inversion 1; subst; [reflexivity|apply lexed_kind; assumption]. Qed.
Lemma process_ok t c : lexed t -> match processToken t c with ROk t' c' => c' = c /\ taken t' /\ tKind t' = tKind t /\ (tKind t = KOp -> t' = t) | RFail _ c' => c' = c | RHang => False | RCrash => False end.
Proof.
  intros L. inversion L; subst; try (cbn; split; [reflexivity|split; [apply TK_other; [discriminate|exact L]|auto]]).
  - cbn [processToken tKind tText]. destruct (string_decoding_partial s H) as (A & B). destruct (processString (34 :: s ++ [34])) as [t|t|t| |] eqn:P; try exact (eq_refl c).
    + cbn. destruct (A t) as (A1 & _). destruct (A1 eq_refl) as (u & U & ->). split; [reflexivity|]. split; [constructor; auto|]. split; [reflexivity|discriminate].
    + exfalso. destruct B as (_ & B). destruct B as [(y & Y)|(y & Y)]; [|discriminate|discriminate]. intros u U. destruct (A (34 :: u ++ [34])) as (_ & A2). discriminate A2. eauto.
    + exfalso. destruct B as (_ & B). destruct B as [(y & Y)|(y & Y)]; [|discriminate|discriminate]. intros u U. destruct (A (34 :: u ++ [34])) as (_ & A2). discriminate A2. eauto.
  - cbn. split; [reflexivity|]. split; [constructor; auto|]. split; [reflexivity|discriminate].
Qed.

(** the end of the text is not within a list of arguments *)
Definition goodEnd (c : ctx) : Prop := cTail c = TWrong \/ rest c = [] \/ exists l t, rest c = l ++ [t] /\ closing t.
Record inp (n : nat) (c : ctx) : Prop := mkInp {
  in_len : (length (rest c) <= n)%nat;
  in_end : goodEnd c;
  in_lexed : Forall lexed (cInput c);
  in_saved : forall t, cSaved c = Some t -> taken t
}.
Lemma inp_le n m c : inp n c -> (n <= m)%nat -> inp m c.
Proof. intros [A B C D] L. constructor; auto. lia. Qed.
(** a property that does not depend on the input *)
Definition stable (D : ctx -> Prop) : Prop := forall c i t s, D c -> D (setInput i t s c).

(** a token is taken *)
Inductive took (n : nat) (t : tok) (c : ctx) : Prop :=
| TO_token m : n = S m -> inp m c -> taken t -> (tKind t = KOp -> tText t = [61] -> rest c <> [] \/ cTail c = TWrong) -> (tKind t <> KOp -> rest c <> [] \/ cTail c = TWrong) -> took n t c
| TO_eof : inp 0 c -> isEof t = true -> tText t = [] -> cTail c <> TWrong -> took n t c.
Lemma t_take n D : stable D -> triple (fun c => inp n c /\ D c) takeToken (fun t c => took n t c /\ D c /\ cSaved c = None).
Proof.
  intros ST c (I & HD). destruct I as [L E X S]. unfold takeToken. destruct (cSaved c) as [t|] eqn:SV.
  - split; [|split; [apply ST, HD|reflexivity]]. unfold rest in *. rewrite SV in *. cbn [app length] in *. destruct n as [|m]; [lia|]. assert (TT : taken t) by (apply S; reflexivity).
    unfold goodEnd, rest in E. rewrite SV in E.
    assert (G : cTail c = TWrong \/ cInput c <> [] \/ closing t).
    { destruct E as [E|[E|(l & u & E & CL)]]; [left; exact E|discriminate|]. right. destruct l as [|x l]; cbn in E; injection E as -> E; [right; exact CL|left; rewrite E; destruct l; discriminate]. }
    apply (TO_token _ _ _ m); [reflexivity| |exact TT| |].
    + constructor; [cbn; lia| |cbn; exact X|cbn; discriminate]. unfold goodEnd, rest. cbn. destruct E as [E|[E|(l & u & E & CL)]]; [left; exact E|discriminate|]. destruct l as [|x l]; cbn in E; injection E as -> E; [right; left; exact E|right; right; exists l, u; auto].
    + cbn. intros K T. destruct G as [G|[G|(_ & G)]]; auto; contradiction.
    + cbn. intros K. destruct G as [G|[G|(G & _)]]; auto; contradiction.
  - unfold bind, nextToken. unfold goodEnd, rest in *. rewrite SV in *. cbn [app] in *. destruct (cInput c) as [|t r] eqn:IN.
    + destruct (cTail c) eqn:TL; try exact Logic.I.
      * cbn. split; [|split; [apply ST, HD|first [exact SV|reflexivity]]]. apply TO_eof; [|reflexivity|reflexivity|discriminate]. constructor; unfold goodEnd, rest; cbn; rewrite ?SV; cbn; auto; discriminate.
      * cbn. split; [|split; [exact HD|first [exact SV|reflexivity]]]. apply TO_eof; [|reflexivity|reflexivity|congruence]. constructor; unfold goodEnd, rest; cbn; rewrite ?SV, ?IN; cbn; auto; discriminate.
    + cbn [length] in L. destruct n as [|m]; [lia|]. inversion X as [|? ? X1 X2]; subst. match goal with |- context [processToken t ?c0] => pose proof (process_ok t c0 X1) as P end. destruct (processToken t _) as [t' c'|e c'| |]; auto. destruct P as (-> & TT & K & KO).
      assert (G : cTail c = TWrong \/ r <> [] \/ closing t).
      { destruct E as [E|[E|(l & u & E & CL)]]; [left; exact E|discriminate|]. right. destruct l as [|x l]; cbn in E; injection E as -> E; [right; exact CL|left; rewrite E; destruct l; discriminate]. }
      split; [|split; [apply ST, HD|first [exact SV|reflexivity]]]. apply (TO_token _ _ _ m); [reflexivity| |exact TT| |].
      * constructor; unfold goodEnd, rest; cbn; rewrite ?SV; cbn; [lia| |exact X2|discriminate]. destruct E as [E|[E|(l & u & E & CL)]]; [left; exact E|discriminate|]. destruct l as [|x l]; cbn in E; injection E as -> E; [right; left; exact E|right; right; exists l, u; auto].
      * unfold rest. cbn. rewrite ?SV. cbn. intros KK T. rewrite K in KK. rewrite (KO KK) in T. destruct G as [G|[G|(_ & G)]]; auto; contradiction.
      * unfold rest. cbn. rewrite ?SV. cbn. intros KK. rewrite K in KK. destruct G as [G|[G|(G & _)]]; auto; contradiction.
Qed.

Definition noEof (types : list name) : Prop := forall t, isEof t = true -> tText t = [] -> matches types t = false.
Lemma nameEqb_ok a b : nameEqb a b = true <-> a = b.
Proof. unfold nameEqb. destruct (list_eq_dec Z.eq_dec a b); split; congruence. Qed.
Lemma nameEqb_not a b : nameEqb a b = false <-> a <> b.
Proof. unfold nameEqb. destruct (list_eq_dec Z.eq_dec a b); split; congruence. Qed.
(** a token other than the end of the text *)
Inductive got (types : list name) (n : nat) (t : tok) (c : ctx) : Prop :=
| GT m : n = S m -> inp m c -> taken t -> matches types t = true -> (tKind t = KOp -> tText t = [61] -> rest c <> [] \/ cTail c = TWrong) -> (tKind t <> KOp -> rest c <> [] \/ cTail c = TWrong) -> got types n t c.
Lemma t_strict_any types n D : stable D -> triple (fun c => inp n c /\ D c) (fetchStrict types) (fun t c => (got types n t c \/ isEof t = true /\ tText t = [] /\ matches types t = true /\ inp 0 c) /\ D c).
Proof.
  intros ST c I. pose proof (t_take n D ST c I) as X. unfold fetchStrict, fetch, bind, orCrash. destruct (takeToken c) as [t c'|e c'| |]; auto. destruct X as (TO & HD & SV). destruct (matches types t) eqn:MT; [|destruct (isEof t); exact Logic.I].
  cbn. split; [|exact HD]. destruct TO as [m E I' TT O1 O2|I' E T TW]; [left; apply (GT _ _ _ _ m); auto|]. right. auto.
Qed.
Lemma t_strict types n D : stable D -> noEof types -> triple (fun c => inp n c /\ D c) (fetchStrict types) (fun t c => got types n t c /\ D c).
Proof.
  intros ST NE. eapply t_post; [apply t_strict_any, ST|]. cbv beta. intros t c ([G|(E & T & MT & _)] & HD); [auto|]. rewrite (NE t E T) in MT. discriminate.
Qed.
Lemma t_skip typ n D : stable D -> noEof [typ] -> triple (fun c => inp n c /\ D c) (skipOne typ) (fun _ c => (exists t, got [typ] n t c) /\ D c).
Proof.
  intros ST NE c I. pose proof (t_strict [typ] n D ST NE c I) as X. unfold fetchStrict, skipOne, bind, orCrash in *. destruct (fetch [typ] true c) as [[t|] c'|e c'| |]; try exact X; [|destruct X]. cbn. destruct X as (X1 & X2). eauto.
Qed.
(** not strict: the token, or the end of the text, or nothing *)
Inductive gotMaybe (types : list name) (n : nat) : option tok -> ctx -> Prop :=
| GM_token t c : got types n t c -> gotMaybe types n (Some t) c
| GM_eof t c : inp 0 c -> isEof t = true -> cTail c <> TWrong -> gotMaybe types n (Some t) c
| GM_none t c : inp n c -> cSaved c = Some t -> taken t -> matches types t = false -> gotMaybe types n None c.
Lemma t_maybe types n D : stable D -> triple (fun c => inp n c /\ D c) (fetch types false) (fun o c => gotMaybe types n o c /\ D c).
Proof.
  intros ST c (I & HD). pose proof (t_take n D ST c (conj I HD)) as X. unfold fetch, bind. destruct (takeToken c) as [t c'|e c'| |] eqn:TK; auto. destruct X as (TO & HD' & SV). destruct (matches types t) eqn:MT.
  - cbn. split; [|exact HD']. destruct TO as [m E I' TT O1 O2|I' E T TW]; [apply GM_token, (GT _ _ _ _ m); auto|apply GM_eof; auto].
  - destruct TO as [m E I' TT O1 O2|I' E T TW].
    + rewrite (taken_kind t TT). cbn. split; [|apply ST, HD']. apply (GM_none _ _ t); auto. subst n. destruct I' as [L E X Y]. constructor; cbn; auto.
      * unfold rest in *. cbn. rewrite SV in L. cbn in L. lia.
      * unfold goodEnd, rest in *. cbn. rewrite SV in *. cbn in *. destruct E as [E|[E|(l & u & E & CL)]]; [left; exact E| |].
        -- assert (tKind t = KOp \/ tKind t <> KOp) as [K|K] by (destruct (tKind t); (left; reflexivity) || (right; discriminate)).
           ++ destruct (list_eq_dec Z.eq_dec (tText t) [61]) as [T|T].
              ** destruct (O1 K T) as [O|O]; [contradiction|left; exact O].
              ** right. right. exists [], t. rewrite E. split; [reflexivity|split; assumption].
           ++ destruct (O2 K) as [O|O]; [contradiction|left; exact O].
        -- right. right. exists (t :: l), u. rewrite E. auto.
      * intros u U. injection U as <-. exact TT.
    + rewrite E. cbn. split; [|exact HD']. apply GM_eof; auto.
Qed.
Definition noOp (types : list name) : Prop := forall t, taken t -> tKind t = KOp -> matches types t = false.
Lemma take_more c t c' : (rest c <> [] \/ cTail c = TWrong) -> Forall lexed (cInput c) -> (forall t, cSaved c = Some t -> taken t) -> takeToken c = ROk t c' -> isEof t = false.
Proof.
  unfold takeToken, rest. intros N X S H. destruct (cSaved c) as [u|] eqn:SV; [injection H as <- <-; apply taken_kind, S; reflexivity|]. cbn in N. unfold bind, nextToken in H. destruct (cInput c) as [|u r].
  - destruct N as [N|N]; [contradiction|]. rewrite N in H. discriminate.
  - inversion X as [|? ? X1 X2]; subst. match type of H with context [processToken u ?c0] => pose proof (process_ok u c0 X1) as P end. destruct (processToken u _) as [t' c2|e c2| |]; try discriminate. injection H as <- <-. destruct P as (_ & TT & _). apply taken_kind, TT.
Qed.
Definition more (c : ctx) : Prop := rest c <> [] \/ cTail c = TWrong.
Lemma t_fetchAll types D : stable D -> noOp types -> forall fuel n, (n < fuel)%nat -> triple (fun c => (inp n c /\ more c) /\ D c) (fetchAll fuel types)
  (fun l c => (Forall (fun t => taken t /\ matches types t = true) l /\ inp n c /\ exists t, cSaved c = Some t /\ matches types t = false /\ taken t) /\ D c).
Proof.
  intros ST NO. induction fuel as [|f IH]; intros n L; [lia|]. cbn [fetchAll]. intros c ((I & NE) & HD). pose proof (t_maybe types n D ST c (conj I HD)) as X. unfold bind. destruct (fetch types false c) as [o c'|e c'| |] eqn:FE; auto. destruct X as (X & HD').
  inversion X as [t ? G|t ? I' E TW|t ? I' SV TT MT]; subst.
  - destruct G as [m -> I' TT MT O1 O2]. assert (NE' : more c'). { apply O2. intros K. rewrite (NO t TT K) in MT. discriminate. }
    pose proof (IH m ltac:(lia) c' (conj (conj I' NE') HD')) as Z. destruct (fetchAll f types c') as [l c2|e c2| |]; auto. destruct Z as ((F & I2 & N2) & HD2). split; [|exact HD2]. split; [constructor; auto|]. split; [eapply inp_le; [exact I2|lia]|exact N2].
  - exfalso. unfold fetch, bind in FE. destruct (takeToken c) as [t' c2|e c2| |] eqn:TK; try discriminate. pose proof (take_more c t' c2 NE (in_lexed _ _ I) (in_saved _ _ I) TK) as E'. destruct (matches types t'); [injection FE as -> <-; congruence|]. rewrite E' in FE. discriminate.
  - cbn. split; [|exact HD']. split; [constructor|]. split; [exact I'|]. exists t. auto.
Qed.

(** ** Operations that do not touch the input *)
Definition same (c c' : ctx) : Prop := cInput c' = cInput c /\ cTail c' = cTail c /\ cSaved c' = cSaved c.
Definition keeps {A} (m : M A) : Prop := forall c x c', m c = ROk x c' -> same c c'.
Lemma k_bind {A B} (m : M A) (f : A -> M B) : keeps m -> (forall x, keeps (f x)) -> keeps (bind m f).
Proof. intros K1 K2 c x c' H. unfold bind in H. destruct (m c) as [y c1|e c1| |] eqn:E; try discriminate. destruct (K1 _ _ _ E) as (A1 & A2 & A3), (K2 _ _ _ _ H) as (B1 & B2 & B3). repeat split; congruence. Qed.
Lemma k_ret {A} (x : A) : keeps (ret x).
Proof. intros c y c' H. injection H as <- <-. repeat split. Qed.
Lemma k_fail {A} e : keeps (@fail A e).
Proof. intros c y c' H. discriminate. Qed.
Lemma k_get {A} (f : ctx -> A) : keeps (get f).
Proof. intros c y c' H. injection H as <- <-. repeat split. Qed.
Lemma k_orCrash {A} (o : option A) : keeps (orCrash o).
Proof. intros c y c' H. unfold orCrash in H. destruct o; [|discriminate]. injection H as <- <-. repeat split. Qed.
Lemma k_modify f : (forall c, same c (f c)) -> keeps (modify f).
Proof. intros S c y c' H. injection H as <- <-. apply S. Qed.
Lemma k_each {A} (f : A -> M unit) l : (forall x, keeps (f x)) -> keeps (each f l).
Proof. intros K. induction l as [|x l IH]; cbn [each]; [apply k_ret|]. apply k_bind; [apply K|intros _; exact IH]. Qed.
Lemma inp_same n c c' : same c c' -> inp n c -> inp n c'.
Proof.
  intros (A & B & C) [L E X S]. assert (R : rest c' = rest c) by (unfold rest; rewrite A, C; reflexivity). constructor; [rewrite R; exact L| |rewrite A; exact X|rewrite C; exact S]. unfold goodEnd in *. rewrite R, B. exact E.
Qed.
Lemma more_same c c' : same c c' -> more c -> more c'.
Proof. intros (A & B & C). unfold more, rest. rewrite A, B, C. auto. Qed.
Lemma t_frame {A} (J P : ctx -> Prop) (m : M A) Q : (forall c c', same c c' -> J c -> J c') -> keeps m -> triple P m Q -> triple (fun c => J c /\ P c) m (fun x c => J c /\ Q x c).
Proof. intros JS K T c (I & H). specialize (T c H). destruct (m c) as [x c'|e c'| |] eqn:E; auto. split; [eapply JS; [eapply K, E|exact I]|exact T]. Qed.

(** ** Flags *)
Definition noLit (f : Z) : Prop := hasFlag f LiteralToken = false.
Lemma flag_lor a b f : hasFlag (Z.lor a b) f = hasFlag a f || hasFlag b f.
Proof.
  unfold hasFlag. rewrite Z.land_lor_distr_l. destruct (Z.eqb_spec (Z.land a f) 0) as [A|A], (Z.eqb_spec (Z.land b f) 0) as [B|B], (Z.eqb_spec (Z.lor (Z.land a f) (Z.land b f)) 0) as [C|C]; cbn; try reflexivity; exfalso.
  - rewrite A, B in C. apply C. reflexivity.
  - apply Z.lor_eq_0_iff in C. tauto.
  - apply Z.lor_eq_0_iff in C. tauto.
  - apply Z.lor_eq_0_iff in C. tauto.
Qed.
Lemma noLit_lor a b : noLit a -> noLit b -> noLit (Z.lor a b).
Proof. unfold noLit. rewrite flag_lor. intros -> ->. reflexivity. Qed.
Lemma flag_lxor a b f : Z.land b f = 0 -> hasFlag (Z.lxor a b) f = hasFlag a f.
Proof.
  intros B. unfold hasFlag. f_equal. f_equal. apply Z.bits_inj'. intros n N. rewrite !Z.land_spec, Z.lxor_spec. apply (f_equal (fun x => Z.testbit x n)) in B. rewrite Z.land_spec, Z.bits_0 in B. destruct (Z.testbit a n), (Z.testbit b n), (Z.testbit f n); cbn in *; congruence.
Qed.

(** ** The head of the description *)
Record headInv (c : ctx) : Prop := mkHead {
  hi_tokens : Forall regexpType (cTokens c);
  hi_tindex : forall n i, nget n (cTokenIndex c) = Some i -> 0 <= i < zlen (cTokens c);
  hi_eindex : forall n i, nget n (cExtraIndex c) = Some i -> 0 <= i < zlen (cExtra c);
  hi_extra : Forall (fun e => noLit (eFlags e)) (cExtra c);
  hi_templates : forall n v, nget n (cTemplates c) = Some v -> v <> [];
  hi_literals : Forall (fun l => snd l = 0 \/ snd l = ReservedToken) (cLiterals c);
  hi_names : cNames c = [];
  hi_defs : cDefs c = []
}.
Lemma head_stable : stable headInv.
Proof. intros c i t s [A B C D E F G H]. constructor; assumption. Qed.
Lemma zlen_app {A} (a b : list A) : zlen (a ++ b) = zlen a + zlen b.
Proof. unfold zlen. rewrite app_length. lia. Qed.
Lemma zget_range {A} (l : list A) i : 0 <= i < zlen l -> exists x, zget l i = Some x /\ In x l.
Proof.
  intros R. unfold zget, zlen in *. destruct (Z.ltb_spec i 0); [lia|]. destruct (nth_error l (Z.to_nat i)) as [x|] eqn:E; [exists x; split; [reflexivity|eapply nth_error_In, E]|]. apply nth_error_None in E. lia.
Qed.
Lemma zget_last {A} (l : list A) i x : zget l i = Some x -> 0 <= i < zlen l /\ In x l.
Proof.
  unfold zget, zlen. destruct (Z.ltb_spec i 0); [discriminate|]. intros E. split; [|eapply nth_error_In, E]. assert (N : nth_error l (Z.to_nat i) <> None) by congruence. apply nth_error_Some in N. lia.
Qed.
Lemma upd_length' {A} (l : list A) n x : length (upd l n x) = length l.
Proof. revert n. induction l as [|y l IH]; intros [|n]; cbn; auto. Qed.
Lemma upd_Forall {A} (P : A -> Prop) l n x : Forall P l -> P x -> Forall P (upd l n x).
Proof. intros F H. revert n. induction F as [|y l Y F IH]; intros [|n]; cbn; constructor; auto. Qed.
Lemma nput_get {V} k k' (v : V) m : nget k (nput k' v m) = if nameEqb k k' then Some v else nget k m.
Proof. reflexivity. Qed.
Lemma ndel_get {V} k k' (m : list (name * V)) v : nget k (ndel k' m) = Some v -> nget k m = Some v.
Proof.
  unfold ndel. induction m as [|(x, y) m IH]; cbn; [auto|]. destruct (nameEqb k' x) eqn:E; cbn; [|destruct (nameEqb k x); auto]. intros H. specialize (IH H). destruct (nameEqb k x) eqn:E2; [|exact IH].
  exfalso. apply nameEqb_ok in E. apply nameEqb_ok in E2. subst x. subst k. clear IH. induction m as [|(x, y') m IH]; cbn in H; [discriminate|]. destruct (nameEqb k' x) eqn:E; cbn in H; [auto|]. rewrite E in H. auto.
Qed.
Lemma addToken_head n re fl : re <> [] -> noLit fl -> triple headInv (addToken n re fl) (fun _ => headInv).
Proof.
  intros RE FL c H. destruct H as [A B C D E F G K]. unfold addToken, bind, get, modify, ret. destruct (nget n (cExtraIndex c)) as [i|] eqn:NI; cbn.
  - destruct (zget_range _ _ (C _ _ NI)) as (t & GT & IT). rewrite GT. cbn. constructor; cbn; auto.
    + apply Forall_app. split; [exact A|]. constructor; [|constructor]. split; [exact RE|]. cbn. apply noLit_lor; [exact FL|]. rewrite Forall_forall in D. apply D, IT.
    + intros k j. destruct (nameEqb k n); rewrite zlen_app; change (zlen [_]) with 1; [intros X; injection X as <-; unfold zlen; lia|intros X; specialize (B _ _ X); lia].
    + intros k j X. apply ndel_get in X. eapply C, X.
  - constructor; cbn; auto.
    + apply Forall_app. split; [exact A|]. constructor; [|constructor]. split; [exact RE|]. cbn. apply noLit_lor; [exact FL|reflexivity].
    + intros k j. destruct (nameEqb k n); rewrite zlen_app; change (zlen [_]) with 1; [intros X; injection X as <-; unfold zlen; lia|intros X; specialize (B _ _ X); lia].
Qed.
Lemma addExtra_head n : triple headInv (addExtraToken n) (fun i c => headInv c /\ 0 <= i < zlen (cExtra c)).
Proof.
  intros c H. pose proof H as H0. destruct H as [A B C D E F G K]. unfold addExtraToken, bind, get, modify, ret. destruct (nget n (cExtraIndex c)) as [i|] eqn:NI; cbn; [split; [exact H0|eapply C, NI]|].
  split; [|rewrite zlen_app; change (zlen [_]) with 1; unfold zlen; lia]. constructor; cbn; auto.
  - intros k j. destruct (nameEqb k n); rewrite zlen_app; change (zlen [_]) with 1; [intros X; injection X as <-; unfold zlen; lia|intros X; specialize (C _ _ X); lia].
  - apply Forall_app. split; [exact D|]. constructor; [reflexivity|constructor].
Qed.
Lemma changeToken_head i f : (forall t, regexpType t -> regexpType (f t)) -> triple (fun c => headInv c /\ 0 <= i < zlen (cTokens c)) (changeToken i f) (fun _ => headInv).
Proof.
  intros X c (H & R). destruct H as [A B C D E F G K]. unfold changeToken. destruct (zget_range _ _ R) as (t & -> & IT). constructor; cbn; auto.
  - apply upd_Forall; [exact A|]. apply X. rewrite Forall_forall in A. apply A, IT.
  - intros k j Y. unfold zlen. rewrite upd_length'. apply (B _ _ Y).
Qed.
Lemma changeExtra_head i f : (forall t, noLit (eFlags t) -> noLit (eFlags (f t))) -> triple (fun c => headInv c /\ 0 <= i < zlen (cExtra c)) (changeExtra i f) (fun _ => headInv).
Proof.
  intros X c (H & R). destruct H as [A B C D E F G K]. unfold changeExtra. destruct (zget_range _ _ R) as (t & -> & IT). constructor; cbn; auto.
  - intros k j Y. unfold zlen. rewrite upd_length'. apply (C _ _ Y).
  - apply upd_Forall; [exact D|]. apply X. rewrite Forall_forall in D. apply D, IT.
Qed.
Lemma addFlag_head n fl : noLit fl -> triple headInv (addTokenFlag n fl) (fun _ => headInv).
Proof.
  intros FL. unfold addTokenFlag. eapply t_bind; [apply t_get with (Q := fun v c => headInv c /\ v = cTokenIndex c); auto|]. intros index. destruct (nget n index) as [i|] eqn:NI.
  - eapply t_pre; [|apply changeToken_head with (i := i)].
    + intros c (H & ->). split; [exact H|]. apply (hi_tindex c H _ _ NI).
    + intros t (A & B). split; [exact A|]. cbn. apply noLit_lor; assumption.
  - eapply t_pre with (P' := headInv); [tauto|]. eapply t_bind; [apply addExtra_head|]. intros i. apply changeExtra_head. intros t H. cbn. apply noLit_lor; assumption.
Qed.
Lemma group_head n : triple headInv (groupToken n) (fun _ => headInv).
Proof.
  unfold groupToken. eapply t_bind; [apply t_get with (Q := fun v c => headInv c /\ v = cTokenIndex c); auto|]. intros index. eapply t_bind; [apply t_get with (Q := fun _ c => headInv c /\ index = cTokenIndex c); auto|]. intros g. destruct (nget n index) as [i|] eqn:NI.
  - eapply t_bind; [apply t_get with (Q := fun v c => (headInv c /\ 0 <= i < zlen (cTokens c)) /\ v = cTokens c)|].
    { intros c (H & ->). split; [split; [exact H|apply (hi_tindex c H _ _ NI)]|reflexivity]. }
    intros ts. eapply t_bind; [apply t_orCrash with (Q := fun _ c => headInv c /\ 0 <= i < zlen (cTokens c))|].
    { intros c ((H & R) & ->). destruct (zget_range _ _ R) as (t & GT & _). exists t. auto. }
    intros t. destruct (gtGroup t =? 0); [|apply t_fail]. apply changeToken_head. intros u (A & B). split; assumption.
  - eapply t_pre with (P' := headInv); [tauto|]. eapply t_bind; [apply addExtra_head|]. intros i. apply changeExtra_head. auto.
Qed.
Lemma literal_head n fl : fl = 0 \/ fl = ReservedToken -> triple headInv (addLiteralToken n fl) (fun _ => headInv).
Proof.
  intros FL. unfold addLiteralToken. apply t_modify. intros c H. destruct (nget n (cLiteralIndex c)); [exact H|]. destruct H as [A B C D E F G K]. constructor; cbn; auto. apply Forall_app. split; [exact F|]. constructor; [exact FL|constructor].
Qed.
Create HintDb keepdb.
Ltac keep := repeat first [solve [eauto 1 with keepdb nocore]|apply k_bind; [|intros ?]|apply k_ret|apply k_fail|apply k_get|apply k_orCrash|apply k_modify; intros ?; repeat split|apply k_each; intros ?|match goal with |- keeps (match ?x with _ => _ end) => destruct x end].
Lemma k_changeToken i f : keeps (changeToken i f).
Proof. intros c x c' H. unfold changeToken in H. destruct (zget (cTokens c) i); [|discriminate]. injection H as <- <-. repeat split. Qed.
Lemma k_changeExtra i f : keeps (changeExtra i f).
Proof. intros c x c' H. unfold changeExtra in H. destruct (zget (cExtra c) i); [|discriminate]. injection H as <- <-. repeat split. Qed.
Lemma k_addToken n re fl : keeps (addToken n re fl).
Proof. unfold addToken. keep. Qed.
Lemma k_addExtra n : keeps (addExtraToken n).
Proof. unfold addExtraToken. keep. Qed.
#[export] Hint Resolve k_changeToken k_changeExtra k_addToken k_addExtra : keepdb.
Lemma k_addFlag n fl : keeps (addTokenFlag n fl).
Proof. unfold addTokenFlag. keep. Qed.
Lemma k_group n : keeps (groupToken n).
Proof. unfold groupToken. keep. Qed.
Lemma k_literal n fl : keeps (addLiteralToken n fl).
Proof. unfold addLiteralToken. apply k_modify. intros c. destruct (nget n (cLiteralIndex c)); repeat split. Qed.
Lemma k_useLiteral n fl : keeps (useLiteralToken n fl).
Proof. unfold useLiteralToken. keep. Qed.
#[export] Hint Resolve k_addFlag k_group k_literal k_useLiteral : keepdb.

(** ** Texts *)
Lemma taken_text t : taken t -> 1 <= zlen (tText t).
Proof.
  unfold zlen. intros H. inversion H as [q s Q|t' K L]; subst; [cbn; lia|]. inversion L as [s B|s N|n (b & r & -> & _)|s N F|n A|n A| |s N|b B]; subst; cbn [tText length]; lia.
Qed.
Lemma slice_ok {A} (l : list A) a b : 0 <= a <= b -> b <= zlen l -> exists x, zslice l a b = Some x.
Proof. intros H1 H2. unfold zslice. destruct (Z.leb_spec 0 a), (Z.leb_spec a b), (Z.leb_spec b (zlen l)); try lia. cbn. eauto. Qed.
Lemma t_textFrom {t} k (P : ctx -> Prop) : 0 <= k <= zlen t -> triple P (textFrom k t) (fun x c => zslice t k (zlen t) = Some x /\ P c).
Proof. intros L. apply t_orCrash. intros c H. destruct (slice_ok t k (zlen t)) as (x & X); [lia|lia|]. eauto. Qed.
Lemma t_unquoted {t} (P : ctx -> Prop) : 2 <= zlen t -> triple P (unquoted t) (fun x c => zslice t 1 (zlen t - 1) = Some x /\ P c).
Proof. intros L. apply t_orCrash. intros c H. destruct (slice_ok t 1 (zlen t - 1)) as (x & X); [lia|lia|]. eauto. Qed.
Lemma matches_one typ t : matches [typ] t = true <-> typeName (tKind t) = typ \/ tText t = typ.
Proof. unfold matches. cbn [existsb]. rewrite orb_false_r, orb_true_iff, !nameEqb_ok. reflexivity. Qed.
Lemma matches_cons typ types t : matches (typ :: types) t = true <-> (typeName (tKind t) = typ \/ tText t = typ) \/ matches types t = true.
Proof. unfold matches. cbn [existsb]. rewrite !orb_true_iff, !nameEqb_ok. reflexivity. Qed.
Lemma matches_nil t : matches [] t = true <-> False.
Proof. split; [discriminate|tauto]. Qed.
Lemma string_text t : taken t -> tKind t = KString -> 2 <= zlen (tText t).
Proof. intros H K. inversion H; subst; [|contradiction]. unfold zlen. cbn [tText length]. rewrite app_length. cbn. lia. Qed.
Lemma op_text t : taken t -> tKind t = KOp -> exists b, tText t = [b] /\ In b [40; 41; 123; 125; 91; 93; 61; 124; 44; 59; 64].
Proof. intros H K. inversion H as [|t' N L]; subst; [discriminate|]. inversion L as [s B|s X|n A|s X F|n A|n A| |s X|b B]; subst; try discriminate K. exists b. split; [reflexivity|exact B]. Qed.
Ltac noop := intros t TT K; destruct (op_text t TT K) as (b & TX & _); apply not_true_iff_false; rewrite !matches_cons, matches_nil, K, TX; cbn [typeName]; intros X; repeat match goal with H : _ \/ _ |- _ => destruct H as [H|H] end; try discriminate; contradiction.
Ltac noeof := intros t E T; apply not_true_iff_false; rewrite !matches_cons, matches_nil, T; unfold isEof in E; destruct (tKind t); try discriminate E; cbn [typeName]; intros X; repeat match goal with H : _ \/ _ |- _ => destruct H as [H|H] end; try discriminate; contradiction.
Definition HD (n : nat) (c : ctx) : Prop := inp n c /\ headInv c.
Definition HDM (n : nat) (c : ctx) : Prop := (inp n c /\ more c) /\ headInv c.
Lemma HD_same n : forall c c', same c c' -> inp n c -> inp n c'.
Proof. intros c c'. apply inp_same. Qed.
Lemma noOp_token : noOp [tokenNameTok].
Proof. noop. Qed.
Lemma noOp_string : noOp [stringTok].
Proof. noop. Qed.
Lemma noOp_literal : noOp [stringTok; tokenNameTok].
Proof. noop. Qed.
Lemma noOp_regexp : noOp [regexpTok; nameTok].
Proof. noop. Qed.
Lemma noEof_semicolon : noEof [semicolonTok].
Proof. noeof. Qed.
Lemma got_inp types n t c : got types n t c -> inp n c.
Proof. intros [m -> I _ _ _ _]. eapply inp_le; [exact I|lia]. Qed.
Lemma t_args fuel n types : noOp types -> (n < fuel)%nat -> triple (HDM n) (let* tokens := fetchAll fuel types in skipOne semicolonTok ;;; ret tokens) (fun l c => Forall (fun t => taken t /\ matches types t = true) l /\ HD n c).
Proof.
  intros NO L. eapply t_bind; [apply (t_fetchAll types headInv head_stable NO fuel n L)|]. intros l. cbv beta. intros c ((F & I & _) & H).
  pose proof (t_skip semicolonTok n headInv head_stable noEof_semicolon c (conj I H)) as X. unfold bind, ret. destruct (skipOne semicolonTok c) as [u c'|e c'| |]; auto. destruct X as ((t & G) & H'). split; [exact F|]. split; [eapply got_inp, G|exact H'].
Qed.
Lemma bind_assoc {A B C} (m : M A) (f : A -> M B) (g : B -> M C) c : bind (bind m f) g c = bind m (fun x => bind (f x) g) c.
Proof. unfold bind. destruct (m c); reflexivity. Qed.
(** a directive: arguments, semicolon, then an action *)
Lemma t_directive fuel n types (act : list tok -> M unit) : noOp types -> (n < fuel)%nat ->
  (forall l, Forall (fun t => taken t /\ matches types t = true) l -> triple (HD n) (act l) (fun _ => HD n)) ->
  triple (HDM n) (let* tokens := fetchAll fuel types in skipOne semicolonTok ;;; act tokens) (fun _ => HD n).
Proof.
  intros NO L ACT c H. pose proof (t_args fuel n types NO L c H) as X. unfold bind, ret in *. destruct (fetchAll fuel types c) as [l c1|e c1| |]; auto. destruct (skipOne semicolonTok c1) as [u c2|e c2| |]; auto. destruct X as (F & X). apply (ACT l F c2 X).
Qed.
Lemma t_data {A} n (m : M A) : keeps m -> triple headInv m (fun _ => headInv) -> triple (HD n) m (fun _ => HD n).
Proof. intros K T. apply (t_frame (inp n) headInv m (fun _ => headInv) (HD_same n) K T). Qed.
Lemma t_flagDir fuel n nm : (n < fuel)%nat -> triple (HDM n) (parseTokenFlagDir fuel nm) (fun _ => HD n).
Proof.
  intros L. unfold parseTokenFlagDir. apply t_directive; [exact noOp_token|exact L|]. intros l F. apply t_each. intros t I. rewrite Forall_forall in F. destruct (F t I) as (TT & MT). pose proof (taken_text t TT).
  eapply t_bind; [apply t_textFrom; lia|]. intros x. apply t_pull. intros _. apply t_data; [apply k_addFlag|]. apply addFlag_head. repeat match goal with |- noLit (if ?b then _ else _) => destruct b end; reflexivity.
Qed.
Lemma t_groupDir fuel n : (n < fuel)%nat -> triple (HDM n) (parseGroupDir fuel) (fun _ => HD n).
Proof.
  intros L. unfold parseGroupDir. apply t_directive with (act := fun tokens => modify (fun c => setGroup (cGroup c + 1) c) ;;; each (fun t => let* n := textFrom 1 (tText t) in groupToken n) tokens); [exact noOp_token|exact L|]. intros l F.
  eapply t_bind; [apply t_modify with (Q := fun _ => HD n); intros c (I & H); split; [eapply inp_same; [|exact I]; repeat split|destruct H; constructor; assumption]|]. intros u.
  apply t_each. intros t I. rewrite Forall_forall in F. destruct (F t I) as (TT & MT). pose proof (taken_text t TT).
  eapply t_bind; [apply t_textFrom; lia|]. intros x. apply t_pull. intros _. apply t_data; [apply k_group|]. apply group_head.
Qed.
Lemma t_reservedDir fuel n : (n < fuel)%nat -> triple (HDM n) (parseReservedDir fuel) (fun _ => HD n).
Proof.
  intros L. unfold parseReservedDir. apply t_directive; [exact noOp_string|exact L|]. intros l F. apply t_each. intros t I. rewrite Forall_forall in F. destruct (F t I) as (TT & MT).
  assert (2 <= zlen (tText t)). { apply matches_one in MT. destruct MT as [K|K]; [|rewrite K; discriminate]. apply string_text; [exact TT|]. destruct (tKind t); try discriminate K; reflexivity. }
  eapply t_bind; [apply t_unquoted; lia|]. intros x. apply t_pull. intros _. apply t_data; [apply k_literal|]. apply literal_head. auto.
Qed.
Lemma t_restrict n a b (f : ctx -> ctx) : (forall c, f c = setRestrict (a c) (b c) c) -> triple (HD n) (modify f) (fun _ => HD n).
Proof. intros E. apply t_modify. intros c (I & H). rewrite E. split; [eapply inp_same; [|exact I]; repeat split|destruct H; constructor; assumption]. Qed.
Lemma t_literalDir fuel n : (n < fuel)%nat -> triple (HDM n) (parseLiteralDir fuel) (fun _ => HD n).
Proof.
  intros L. unfold parseLiteralDir. apply t_directive; [exact noOp_literal|exact L|]. intros l F. apply t_each. intros t I. rewrite Forall_forall in F. destruct (F t I) as (TT & MT). pose proof (taken_text t TT).
  destruct (nameEqb (typeName (tKind t)) tokenNameTok) eqn:K.
  - eapply t_bind; [apply (t_restrict n (fun _ => true) (fun c => cRestrictLiterals c)); reflexivity|]. intros u. eapply t_bind; [apply t_textFrom; lia|]. intros x. apply t_pull. intros _. apply t_data; [apply k_addFlag|]. apply addFlag_head. reflexivity.
  - apply nameEqb_not in K. assert (2 <= zlen (tText t)).
    { rewrite matches_cons, matches_one in MT. destruct MT as [[X|X]|[X|X]]; [|rewrite X; discriminate|contradiction|rewrite X; discriminate]. apply string_text; [exact TT|]. destruct (tKind t); try discriminate X; reflexivity. }
    eapply t_bind; [apply (t_restrict n (fun c => cRestrictTypes c) (fun _ => true)); reflexivity|]. intros u. eapply t_bind; [apply t_unquoted; lia|]. intros x. apply t_pull. intros _. apply t_data; [apply k_literal|]. apply literal_head. auto.
Qed.
Lemma t_dir fuel n t : (n < fuel)%nat -> triple (HDM n) (parseDir fuel t) (fun _ => HD n).
Proof.
  intros L. unfold parseDir. repeat match goal with |- context [if ?b then _ else _] => destruct b end; first [apply t_flagDir|apply t_groupDir|apply t_reservedDir|apply t_literalDir|apply t_fail]; exact L.
Qed.

(** ** Layers *)
Lemma take_fail n D c e c' : stable D -> inp n c -> D c -> takeToken c = RFail e c' -> inp n c' /\ D c'.
Proof.
  intros ST [L E X S] HD. unfold takeToken. destruct (cSaved c) as [t|] eqn:SV; [discriminate|]. unfold bind, nextToken. destruct (cInput c) as [|t r] eqn:IN.
  - destruct (cTail c) eqn:TL; try discriminate. intros H. injection H as <- <-. split; [|exact HD]. constructor; auto; rewrite ?IN, ?SV; auto; discriminate.
  - inversion X as [|? ? X1 X2]; subst. match goal with |- context [processToken t ?c0] => pose proof (process_ok t c0 X1) as P; assert (K : forall e c2, processToken t c0 = RFail e c2 -> tKind t = KString) end.
    { intros e2 c2 H. unfold processToken in H. destruct (tKind t); try discriminate H. reflexivity. }
    destruct (processToken t _) as [t' c2|e' c2| |]; try discriminate. intros H. injection H as <- <-. specialize (K _ _ eq_refl). subst c2. split; [|apply ST, HD].
    unfold rest, goodEnd in *. unfold rest in *. rewrite SV, IN in *. cbn in *. constructor; unfold goodEnd, rest; cbn; rewrite ?SV; cbn; [lia| |exact X2|discriminate].
    destruct E as [E|[E|(l & u & E & CL)]]; [left; exact E|discriminate|]. destruct l as [|x l]; cbn in E; injection E as -> E; [destruct CL as (CL & _); congruence|right; right; exists l, u; auto].
Qed.
Lemma t_ignore types n D : stable D -> triple (fun c => inp n c /\ D c) (ignoreError (fetch types false)) (fun o c => inp n c /\ D c).
Proof.
  intros ST c (I & H). pose proof (t_maybe types n D ST c (conj I H)) as X. unfold ignoreError. destruct (fetch types false c) as [o c'|e c'| |] eqn:FE; auto.
  - destruct X as (X & HD'). split; [|exact HD']. destruct X as [t ? G|t ? I' E TW|t ? I' SV TT MT]; [eapply got_inp, G|eapply inp_le; [exact I'|lia]|exact I'].
  - unfold fetch, bind in FE. destruct (takeToken c) as [t c2|e2 c2| |] eqn:TK; try discriminate.
    + destruct (matches types t); [discriminate|]. destruct (isEof t); discriminate.
    + injection FE as <- <-. eapply take_fail; eassumption.
Qed.
Lemma noEof_1 : noEof [stringTok; nameTok].
Proof. noeof. Qed.
Lemma noEof_2 : noEof [commaTok; rBraceTok].
Proof. noeof. Qed.
Lemma noEof_3 : noEof [nameTok; semicolonTok].
Proof. noeof. Qed.
Lemma noEof_4 : noEof [lBraceTok].
Proof. noeof. Qed.
Lemma noEof_5 : noEof [nameTok].
Proof. noeof. Qed.
Lemma t_strict' types n D {B} (f : tok -> M B) Q : stable D -> noEof types ->
  (forall t m, n = S m -> taken t -> matches types t = true -> triple (fun c => (inp m c /\ ((tKind t <> KOp \/ tText t = [61]) -> more c)) /\ D c) (f t) Q) ->
  triple (fun c => inp n c /\ D c) (bind (fetchStrict types) f) Q.
Proof.
  intros ST NE H. eapply t_bind; [apply (t_strict types n D ST NE)|]. intros t c (G & HD). destruct G as [m E I TT MT O1 O2]. apply (H t m E TT MT c). split; [split; [exact I|]|exact HD].
  intros [K|K]; [apply O2, K|]. assert (KD : tKind t = KOp \/ tKind t <> KOp) by (destruct (tKind t); (left; reflexivity) || (right; discriminate)). destruct KD as [KD|KD]; [apply O1; assumption|apply O2, KD].
Qed.
Lemma t_args' D : stable D -> forall fuel n, (n < fuel)%nat -> triple (fun c => inp n c /\ D c) (parseArgs fuel) (fun _ c => inp n c /\ D c).
Proof.
  intros ST. induction fuel as [|f IH]; intros n L; [lia|]. cbn [parseArgs]. apply (t_strict' _ n D _ _ ST noEof_1). intros t m -> TT MT. apply t_pre with (P' := fun c => inp m c /\ D c); [tauto|].
  eapply t_bind with (Q := fun _ c => inp m c /\ D c).
  { destruct (nameEqb (typeName (tKind t)) stringTok) eqn:K; [|apply t_ret; auto]. apply nameEqb_ok in K. eapply t_post; [apply t_unquoted; apply string_text; [exact TT|destruct (tKind t); try discriminate K; reflexivity]|]. cbv beta. tauto. }
  intros arg. apply (t_strict' _ m D _ _ ST noEof_2). intros t2 k -> TT2 MT2. apply t_pre with (P' := fun c => inp k c /\ D c); [tauto|]. destruct (nameEqb (tText t2) rBraceTok).
  - apply t_ret. intros c (I & H). split; [eapply inp_le; [exact I|lia]|exact H].
  - eapply t_bind; [apply (IH k); lia|]. intros l. apply t_ret. intros c (I & H). split; [eapply inp_le; [exact I|lia]|exact H].
Qed.
Lemma t_commands D : stable D -> forall fuel n, (n < fuel)%nat -> triple (fun c => inp n c /\ D c) (parseCommands fuel) (fun _ c => inp n c /\ D c).
Proof.
  intros ST. induction fuel as [|f IH]; intros n L; [lia|]. cbn [parseCommands]. apply (t_strict' _ n D _ _ ST noEof_3). intros t m -> TT MT. apply t_pre with (P' := fun c => inp m c /\ D c); [tauto|].
  assert (W : forall k c, (k <= S m)%nat -> inp k c /\ D c -> inp (S m) c /\ D c) by (intros k c K (I & H); split; [eapply inp_le; [exact I|exact K]|exact H]).
  destruct (nameEqb (typeName (tKind t)) opTok); [apply t_ret; intros c; apply W; lia|].
  eapply t_bind with (Q := fun _ c => inp m c /\ D c). { eapply t_post; [apply (t_skip lBraceTok m D ST noEof_4)|]. cbv beta. intros _ c ((t0 & G) & H). split; [eapply got_inp, G|exact H]. }
  intros u. eapply t_bind; [apply (t_ignore [rBraceTok] m D ST)|]. intros o. eapply t_bind with (Q := fun _ c => inp m c /\ D c). { destruct o; [apply t_ret; auto|apply t_args'; [exact ST|lia]]. }
  intros args. eapply t_bind; [apply (IH m); lia|]. intros l. apply t_ret. intros c. apply W. lia.
Qed.
Lemma t_layer D fuel n t : stable D -> (forall c v, D c -> D (setLayers v c)) -> (n < fuel)%nat -> triple (fun c => inp n c /\ D c) (parseLayerDef fuel t) (fun _ c => inp n c /\ D c).
Proof.
  intros ST SL L. unfold parseLayerDef. destruct (negb (nameEqb (tText t) atTok)); [apply t_fail|]. apply (t_strict' _ n D _ _ ST noEof_5). intros t2 m -> TT MT. apply t_pre with (P' := fun c => inp m c /\ D c); [tauto|].
  eapply t_bind; [apply (t_commands D ST fuel m); lia|]. intros l. apply t_modify. intros c (I & H). split; [|apply SL, H]. eapply inp_same; [|eapply inp_le; [exact I|lia]]. repeat split.
Qed.

(** ** Templates and token types *)
Section R.
Variable compiles : name -> bool.
Lemma quoted_slice (q q' : Z) (s : list Z) : zslice (q :: s ++ [q']) 1 (zlen (q :: s ++ [q']) - 1) = Some s.
Proof.
  unfold zslice, zlen. cbn [length]. rewrite app_length. cbn [length]. replace (Z.of_nat (S (length s + 1)) - 1) with (Z.of_nat (length s) + 1) by lia.
  destruct (Z.leb_spec 1 (Z.of_nat (length s) + 1)); [|lia]. destruct (Z.leb_spec (Z.of_nat (length s) + 1) (Z.of_nat (S (length s + 1)))); [|lia]. cbn [andb Z.leb Z.compare]. change (Z.to_nat 1) with 1%nat. cbn [skipn].
  replace (Z.to_nat (Z.of_nat (length s) + 1 - 1)) with (length s) by lia. rewrite firstn_app, firstn_all, Nat.sub_diag. cbn. rewrite app_nil_r. reflexivity.
Qed.
Lemma t_join l : Forall (fun t => taken t /\ matches [regexpTok; nameTok] t = true) l -> triple headInv (joinRegexp l) (fun s c => headInv c /\ (l <> [] -> s <> [])).
Proof.
  induction 1 as [|t l (TT & MT) F IH]; cbn [joinRegexp]; [apply t_ret; intros c H; split; [exact H|congruence]|].
  eapply t_bind with (Q := fun s c => headInv c /\ s <> []).
  { rewrite !matches_cons, matches_nil in MT. inversion TT as [q s Q|t' K LX]; subst; cbn [tKind tText] in *.
    - exfalso. destruct MT as [[X|X]|[[X|X]|[]]]; try discriminate X; destruct Q as [-> | ->]; discriminate X.
    - inversion LX as [s B|s X|n A|s X F0|n A|n A| |s X|b B]; subst; cbn [tKind tText] in *; try (exfalso; clear -MT; destruct MT as [[X|X]|[[X|X]|[]]]; discriminate X); try contradiction.
      + eapply t_bind; [apply t_get with (Q := fun v c => headInv c /\ v = cTemplates c); auto|]. intros ts. destruct (nget n ts) as [s|] eqn:NT; [|apply t_fail]. apply t_ret. intros c (H & ->). split; [exact H|]. apply (hi_templates c H _ _ NT).
      + unfold unquoted. rewrite quoted_slice. apply t_orCrash. intros c H. exists s. auto. }
  intros s. apply t_pre with (P' := fun c => s <> [] /\ headInv c); [tauto|]. apply t_pull. intros NS. eapply t_bind; [exact IH|]. intros r. apply t_ret. intros c (H & _). split; [exact H|]. intros _. destruct s; [congruence|discriminate].
Qed.
Lemma k_join l : keeps (joinRegexp l).
Proof. induction l as [|t l IH]; cbn [joinRegexp]; [apply k_ret|]. apply k_bind; [destruct (tKind t); unfold unquoted; keep|]. intros s. apply k_bind; [exact IH|]. intros r. apply k_ret. Qed.
Lemma t_regexp fuel n : (n < fuel)%nat -> triple (HDM n) (fetchRegexp compiles fuel) (fun s c => s <> [] /\ HD n c).
Proof.
  intros L. unfold fetchRegexp. intros c H. pose proof (t_fetchAll _ headInv head_stable noOp_regexp fuel n L c H) as X. unfold bind at 1. destruct (fetchAll fuel [regexpTok; nameTok] c) as [l c1|e c1| |]; auto. destruct X as ((F & I & MR) & HI).
  destruct l as [|t l].
  - (* the same types again: fails *)
    destruct MR as (t & SV & MT & TT). unfold fetch, takeToken, bind. rewrite SV, MT, (taken_kind t TT). exact Logic.I.
  - pose proof (t_frame (inp n) headInv _ _ (HD_same n) (k_join (t :: l)) (t_join _ F) c1 (conj I HI)) as X. unfold bind. destruct (joinRegexp (t :: l) c1) as [s c2|e c2| |]; auto. destruct X as (I2 & H2 & NS). destruct (compiles s); [|exact Logic.I]. cbn. split; [apply NS; discriminate|]. split; assumption.
Qed.
Lemma noEof_equ : noEof [equTok].
Proof. noeof. Qed.
Lemma t_equ n : triple (HD n) (skipOne equTok) (fun _ => HDM n).
Proof.
  eapply t_post; [apply (t_skip equTok n headInv head_stable noEof_equ)|]. cbv beta. intros _ c ((t & G) & H). destruct G as [m -> I TT MT O1 O2]. split; [|exact H]. split; [eapply inp_le; [exact I|lia]|].
  assert (KD : tKind t = KOp \/ tKind t <> KOp) by (destruct (tKind t); (left; reflexivity) || (right; discriminate)). destruct KD as [K|K]; [|apply O2, K]. apply O1; [exact K|]. apply matches_one in MT. destruct MT as [MT|MT]; [rewrite K in MT; discriminate|exact MT].
Qed.
Lemma t_semicolon n : triple (HD n) (skipOne semicolonTok) (fun _ => HD n).
Proof. eapply t_post; [apply (t_skip semicolonTok n headInv head_stable noEof_semicolon)|]. cbv beta. intros _ c ((t & G) & H). split; [eapply got_inp, G|exact H]. Qed.
Lemma t_templateDef fuel n nm : (n < fuel)%nat -> triple (HD n) (parseTemplateDef compiles fuel nm) (fun _ => HD n).
Proof.
  intros L. unfold parseTemplateDef. eapply t_bind; [apply t_equ|]. intros u. eapply t_bind; [apply t_regexp, L|]. intros re. apply t_pull. intros NE. eapply t_bind; [apply t_semicolon|]. intros u2. apply t_modify. intros c (I & [A B C D E F G K]). split; [eapply inp_same; [|exact I]; repeat split|].
  constructor; cbn; auto. intros k v. destruct (nameEqb k nm); [intros X; injection X as <-; exact NE|apply E].
Qed.
Lemma t_tokenDef fuel n nm : (n < fuel)%nat -> triple (HD n) (parseTokenDef compiles fuel nm) (fun _ => HD n).
Proof.
  intros L. unfold parseTokenDef. eapply t_bind; [apply t_equ|]. intros u. eapply t_bind; [apply t_regexp, L|]. intros re. apply t_pull. intros NE. eapply t_bind; [apply t_semicolon|]. intros u2. apply t_data; [apply k_addToken|]. apply addToken_head; [exact NE|reflexivity].
Qed.
Lemma noEof_head : noEof [nameTok; dirTok; opTok; templateNameTok; tokenNameTok].
Proof. noeof. Qed.
Lemma t_head : forall fuel n, (n < fuel)%nat -> triple (HD n) (readHead compiles fuel) (fun t c => tKind t = KName /\ taken t /\ HD n c).
Proof.
  induction fuel as [|f IH]; intros n L; [lia|]. cbn [readHead]. unfold HD at 1. apply (t_strict' _ n headInv _ _ head_stable noEof_head). intros t m -> TT MT.
  assert (W : triple (HD m) (readHead compiles f) (fun t c => tKind t = KName /\ taken t /\ HD (S m) c)). { eapply t_post; [apply IH; lia|]. cbv beta. intros t0 c (A & B & (I & H)). split; [exact A|]. split; [exact B|]. split; [eapply inp_le; [exact I|lia]|exact H]. }
  assert (P1 : forall c, (inp m c /\ (tKind t <> KOp \/ tText t = [61] -> more c)) /\ headInv c -> HD m c) by (intros c ((I & _) & H); split; assumption).
  assert (P2 : tKind t <> KOp -> forall c, (inp m c /\ (tKind t <> KOp \/ tText t = [61] -> more c)) /\ headInv c -> HDM m c) by (intros K c ((I & X) & H); split; [split; [exact I|apply X; left; exact K]|exact H]).
  destruct (tKind t) eqn:K; try (eapply t_pre; [exact P1|exact W]).
  - apply t_ret. intros c X. destruct (P1 c X) as (I & H). split; [exact K|]. split; [exact TT|]. split; [eapply inp_le; [exact I|lia]|exact H].
  - eapply t_bind; [eapply t_pre; [apply P2; discriminate|]; apply t_dir; lia|]. intros u. exact W.
  - eapply t_pre; [exact P1|]. assert (2 <= zlen (tText t)). { inversion TT as [|t' N LX]; subst; [discriminate|]. inversion LX; subst; try discriminate K. unfold zlen. cbn [tText length]. lia. }
    eapply t_bind; [apply t_textFrom; lia|]. intros n2. apply t_pull. intros _. eapply t_bind; [apply t_get with (Q := fun _ => HD m); auto|]. intros ts. destruct (nget n2 ts); [apply t_fail|]. eapply t_bind; [apply t_templateDef; lia|]. intros u. exact W.
  - eapply t_pre; [exact P1|]. pose proof (taken_text t TT). eapply t_bind; [apply t_textFrom; lia|]. intros n2. apply t_pull. intros _. eapply t_bind; [apply t_get with (Q := fun v c => HD m c /\ v = cTokenIndex c); auto|]. intros ix.
    eapply t_bind with (Q := fun _ => HD m).
    { destruct (nget n2 ix) as [i|] eqn:NI; [|apply t_ret; tauto]. eapply t_bind; [apply t_get with (Q := fun v c => (HD m c /\ 0 <= i < zlen (cTokens c)) /\ v = cTokens c)|].
      - intros c ((I & H0) & ->). split; [|reflexivity]. split; [split; assumption|]. apply (hi_tindex c H0 _ _ NI).
      - intros ts. eapply t_bind; [apply t_orCrash with (Q := fun _ => HD m)|intros gt; apply t_ret; auto]. intros c ((H0 & R) & ->). destruct (zget_range _ _ R) as (x & X & _). eauto. }
    intros has. destruct (has || nameEqb n2 []); [apply t_fail|]. eapply t_bind; [apply t_tokenDef; lia|]. intros u. exact W.
  - eapply t_bind; [eapply t_pre; [exact P1|]; apply (t_layer headInv f m t head_stable); [|lia]; intros c v [A B C D E F G H]; constructor; assumption|]. intros u. exact W.
Qed.
End R.

(** ** Between the head and the nodes *)
Lemma t_each_c {A} (P : A -> Prop) (I : nat -> ctx -> Prop) (f : A -> M unit) : (forall x n, P x -> triple (I (S n)) (f x) (fun _ => I n)) -> forall l, Forall P l -> triple (I (length l)) (each f l) (fun _ => I O).
Proof. intros H l F. induction F as [|x l X F IH]; cbn [each length]; [apply t_ret; auto|]. eapply t_bind; [apply H, X|]. intros u. exact IH. Qed.
Record midInv (k : nat) (c : ctx) : Prop := mkMid {
  mi_tokens : exists a b, cTokens c = a ++ b /\ Forall regexpType a /\ Forall externalType b;
  mi_few : zlen (cTokens c) + Z.of_nat k < MaxTokenType;
  mi_tindex : forall n i, nget n (cTokenIndex c) = Some i -> 0 <= i < zlen (cTokens c);
  mi_eindex : forall n i, nget n (cExtraIndex c) = Some i -> 0 <= i < zlen (cExtra c);
  mi_extra : Forall (fun e => noLit (eFlags e)) (cExtra c);
  mi_literals : Forall (fun l => snd l = 0 \/ snd l = ReservedToken) (cLiterals c);
  mi_names : cNames c = [];
  mi_defs : cDefs c = []
}.
Lemma addExtern_mid n fl k : noLit fl -> triple (midInv (S k)) (addToken n [] fl) (fun _ => midInv k).
Proof.
  intros FL c H. destruct H as [(a & b & E & FA & FB) LN B C D F G K]. unfold addToken, bind, get, modify, ret.
  assert (X : forall g fx ex, noLit fx -> exists a' b', cTokens c ++ [mkTok n [] g (Z.lor fl fx)] = a' ++ b' /\ Forall regexpType a' /\ Forall externalType b' /\ ex = (ex : list extra)).
  { intros g fx ex NX. exists a, (b ++ [mkTok n [] g (Z.lor fl fx)]). split; [rewrite E, app_assoc; reflexivity|]. split; [exact FA|]. split; [|reflexivity]. apply Forall_app. split; [exact FB|]. constructor; [|constructor]. split; [reflexivity|]. cbn. apply noLit_lor; assumption. }
  destruct (nget n (cExtraIndex c)) as [i|] eqn:NI; cbn.
  - destruct (zget_range _ _ (C _ _ NI)) as (t & GT & IT). rewrite GT. cbn. constructor; cbn; auto.
    + rewrite Forall_forall in D. destruct (X (eGroup t) (eFlags t) [] (D t IT)) as (a' & b' & A1 & A2 & A3 & _). eauto.
    + rewrite zlen_app. change (zlen [_]) with 1. lia.
    + intros k' j. destruct (nameEqb k' n); rewrite zlen_app; change (zlen [_]) with 1; [intros Y; injection Y as <-; unfold zlen; lia|intros Y; specialize (B _ _ Y); lia].
    + intros k' j Y. apply ndel_get in Y. eapply C, Y.
  - constructor; cbn; auto.
    + destruct (X 0 0 [] eq_refl) as (a' & b' & A1 & A2 & A3 & _). eauto.
    + rewrite zlen_app. change (zlen [_]) with 1. lia.
    + intros k' j. destruct (nameEqb k' n); rewrite zlen_app; change (zlen [_]) with 1; [intros Y; injection Y as <-; unfold zlen; lia|intros Y; specialize (B _ _ Y); lia].
Qed.
Lemma mid_le k m c : midInv k c -> (m <= k)%nat -> midInv m c.
Proof. intros [A B C D E F G H] L. constructor; auto. lia. Qed.
Lemma t_externs : triple (fun c => midInv (length (cExtra c)) c) addExterns (fun _ => midInv O).
Proof.
  unfold addExterns. eapply t_bind; [apply t_get with (Q := fun v c => Forall (fun e => noLit (eFlags e)) v /\ midInv (length v) c)|].
  { intros c H. split; [apply (mi_extra _ _ H)|exact H]. }
  intros ex. apply t_pull. intros F. apply (t_each_c (fun e => noLit (eFlags e)) midInv); [|exact F]. intros et k NF. eapply t_bind; [apply t_get with (Q := fun _ => midInv (S k)); auto|]. intros ix. destruct (nget (eName et) ix); [|apply t_ret; intros c H; eapply mid_le; [exact H|lia]].
  destruct (hasFlag (eFlags et) ExternalToken); [|apply t_fail]. apply addExtern_mid, NF.
Qed.
Lemma flip_type t : hasFlag (gtFlags t) LiteralToken = false -> let t' := mkTok (gtName t) (gtRe t) (gtGroup t) (Z.lxor (gtFlags t) NoLiteralsToken) in (regexpType t -> regexpType t') /\ (externalType t -> externalType t').
Proof. intros L. cbn zeta. unfold regexpType, externalType. cbn. rewrite flag_lxor by reflexivity. auto. Qed.
Lemma flip_ok ts : Forall (fun t => hasFlag (gtFlags t) LiteralToken = false) ts -> flipLiterals ts = map (fun t => mkTok (gtName t) (gtRe t) (gtGroup t) (Z.lxor (gtFlags t) NoLiteralsToken)) ts.
Proof. induction 1 as [|t ts H F IH]; cbn; [reflexivity|]. rewrite H, IH. reflexivity. Qed.
Lemma flip_mid c : midInv 0 c -> midInv 0 (setTokens (flipLiterals (cTokens c)) c).
Proof.
  intros [(a & b & E & FA & FB) LN B C D F G K].
  assert (NL : Forall (fun t => hasFlag (gtFlags t) LiteralToken = false) (cTokens c)). { rewrite E. apply Forall_app. split; eapply Forall_impl; try eassumption; intros t (_ & X); exact X. }
  rewrite (flip_ok _ NL). assert (LE : zlen (map (fun t => mkTok (gtName t) (gtRe t) (gtGroup t) (Z.lxor (gtFlags t) NoLiteralsToken)) (cTokens c)) = zlen (cTokens c)) by (unfold zlen; rewrite map_length; reflexivity).
  constructor; cbn; auto; [|rewrite LE; exact LN|intros n i X; rewrite LE; apply (B _ _ X)].
  rewrite E, map_app. eexists. eexists. split; [reflexivity|]. split; apply Forall_map; (eapply Forall_impl; [|eassumption]); cbv beta; intros t X; pose proof X as (_ & L); apply (flip_type t L); exact X.
Qed.
(** while nodes are read *)
Definition plainLiteral (t : gtoken) : Prop := literalToken t /\ hasFlag (gtFlags t) SideToken = false.
Record tokInv (c : ctx) : Prop := mkTokInv {
  ti_tokens : exists a b l, cTokens c = a ++ b ++ l /\ Forall regexpType a /\ Forall externalType b /\ Forall plainLiteral l /\ zlen (a ++ b) < MaxTokenType;
  ti_tindex : forall n i, nget n (cTokenIndex c) = Some i -> 0 <= i < zlen (cTokens c);
  ti_lindex : forall n i, nget n (cLiteralIndex c) = Some i -> 0 <= i < zlen (cTokens c)
}.
Lemma use_tok n fl : fl = 0 \/ fl = ReservedToken -> triple tokInv (useLiteralToken n fl) (fun i c => tokInv c /\ 0 <= i < zlen (cTokens c)).
Proof.
  intros FL c H. pose proof H as H0. destruct H as [(a & b & l & E & FA & FB & FC & LN) B C]. unfold useLiteralToken, bind, get, modify, ret. destruct (nget n (cLiteralIndex c)) as [i|] eqn:NI; [split; [exact H0|apply (C _ _ NI)]|].
  assert (ZL : zlen (cTokens c ++ [mkTok n [] 0 (Z.lor fl LiteralToken)]) = zlen (cTokens c) + 1) by (rewrite zlen_app; reflexivity). split; [|cbn; rewrite ZL; unfold zlen; lia].
  constructor; cbn; rewrite ?ZL.
  - exists a, b, (l ++ [mkTok n [] 0 (Z.lor fl LiteralToken)]). split; [rewrite E, !app_assoc; reflexivity|]. split; [exact FA|]. split; [exact FB|]. split; [|exact LN]. apply Forall_app. split; [exact FC|]. constructor; [|constructor]. destruct FL as [-> | ->]; repeat split.
  - intros k i X. specialize (B _ _ X). lia.
  - intros k i. destruct (nameEqb k n); intros X; [injection X as <-; unfold zlen; lia|]. specialize (C _ _ X). lia.
Qed.
Lemma use_nodes n fl c i c' : useLiteralToken n fl c = ROk i c' -> cNames c' = cNames c /\ cDefs c' = cDefs c.
Proof. unfold useLiteralToken, bind, get, modify, ret. destruct (nget n (cLiteralIndex c)); intros H; injection H as <- <-; auto. Qed.
Lemma k_finish : keeps finishTokens.
Proof.
  unfold finishTokens, addExterns. keep. all: try (match goal with c : ctx |- _ => destruct (cRestrictTypes c) end; reflexivity).
Qed.
Lemma t_finish : triple headInv finishTokens (fun _ c => tokInv c /\ cNames c = [] /\ cDefs c = []).
Proof.
  unfold finishTokens. eapply t_bind; [apply t_get with (Q := fun v c => v = zlen (cTokens c) + zlen (cExtra c) /\ headInv c); auto|]. intros v. destruct (v >=? MaxTokenType) eqn:V; [apply t_fail|].
  eapply t_bind; [eapply t_pre; [|apply t_externs]|].
  { intros c (-> & [A B C D E F G K]). constructor; auto; [exists (cTokens c), []; rewrite app_nil_r; auto|]. unfold zlen in *. apply Z.geb_leb in V || rewrite Z.geb_leb in V. apply Z.leb_gt in V. lia. }
  intros u. eapply t_bind; [apply t_modify with (Q := fun _ => midInv O); intros c H; destruct (cRestrictTypes c); [apply flip_mid, H|exact H]|]. intros u2.
  eapply t_bind; [apply t_modify with (Q := fun _ c => Forall (fun l => snd l = 0 \/ snd l = ReservedToken) (cLiterals c) /\ tokInv c /\ cNames c = [] /\ cDefs c = [])|].
  { intros c [(a & b & E & FA & FB) LN B C D F G K]. split; [exact F|]. split; [|split; assumption]. constructor; cbn; auto; [|discriminate]. exists a, b, []. rewrite app_nil_r. split; [exact E|]. split; [exact FA|]. split; [exact FB|]. split; [constructor|]. rewrite <- E. lia. }
  intros u3. eapply t_bind; [apply t_get with (Q := fun v c => Forall (fun l => snd l = 0 \/ snd l = ReservedToken) v /\ tokInv c /\ cNames c = [] /\ cDefs c = []); auto|]. intros lts. apply t_pull. intros F. apply t_each. intros (n, fl) I. rewrite Forall_forall in F. specialize (F _ I). cbn [fst snd] in *.
  intros c (TI & N1 & N2). pose proof (use_tok n fl F c TI) as X. unfold bind, ret. destruct (useLiteralToken n fl c) as [i c'|e c'| |] eqn:U; auto. destruct (use_nodes _ _ _ _ _ U) as (E1 & E2). rewrite E1, E2. tauto.
Qed.

(** ** Definitions of nodes *)
From Verif Require Import LangTreeSpec.
Record grown (c0 c : ctx) (S T : Z -> Prop) : Prop := mkGrown {
  gr_tok : tokInv c;
  gr_names : length (cNames c) = length (cDefs c);
  gr_defs : exists k, cDefs c = cDefs c0 ++ repeat None k;
  gr_new : forall j, zlen (cDefs c0) <= j < zlen (cDefs c) -> S j;
  gr_range : forall j, S j -> 0 <= j < zlen (cDefs c);
  gr_token : forall t, T t -> 0 <= t < zlen (cTokens c);
  gr_len : zlen (cTokens c0) <= zlen (cTokens c)
}.
Lemma grown_stable c0 S T : stable (fun c => grown c0 c S T).
Proof.
  intros c i t s [[A1 A2 A3] B C D E F G]. constructor; try assumption. constructor; assumption.
Qed.
Lemma grown_eq c0 c (S T S' T' : Z -> Prop) : grown c0 c S T -> (forall j, S j <-> S' j) -> (forall t, T t <-> T' t) -> grown c0 c S' T'.
Proof. intros [A B C D E F G] HS HT. constructor; auto; intros x X; [apply HS, D, X|apply E, HS, X|apply F, HT, X]. Qed.
Lemma nodeIndex_ok n names : forall i k, nodeIndex k n names = Some i -> k <= i < k + zlen names /\ zget names (i - k) = Some n.
Proof.
  induction names as [|x names IH]; intros i k; cbn [nodeIndex]; [discriminate|]. unfold zlen in *. cbn [length]. destruct (nameEqb n x) eqn:E.
  - intros H. injection H as <-. apply nameEqb_ok in E. subst. rewrite Z.sub_diag. split; [lia|reflexivity].
  - intros H. apply IH in H. destruct H as (R & Z). split; [lia|]. unfold zget in *. destruct (Z.ltb_spec (i - (k + 1)) 0); [lia|]. destruct (Z.ltb_spec (i - k) 0); [lia|]. replace (Z.to_nat (i - k)) with (S (Z.to_nat (i - (k + 1)))) by lia. exact Z.
Qed.
Lemma upd_same {A} (l : list A) n x : nth_error l n = Some x -> upd l n x = l.
Proof. revert n. induction l as [|y l IH]; intros [|n] H; cbn in *; try discriminate; [congruence|]. f_equal. apply IH, H. Qed.
(** mention of a node *)
Lemma t_mention c0 S T n : triple (fun c => grown c0 c S T) (addNode n false) (fun i c => grown c0 c (fun j => S j \/ j = i) T).
Proof.
  intros c G. pose proof G as G0. destruct G as [A B (k & C) D E F L]. unfold addNode, bind, get, modify, ret, orCrash. destruct (nodeIndex 0 n (cNames c)) as [i|] eqn:NI.
  - apply nodeIndex_ok in NI. destruct NI as (R & _). assert (R' : 0 <= i < zlen (cDefs c)) by (unfold zlen in *; lia). destruct (zget_range _ _ R') as (d & GD & _). rewrite GD.
    assert (X : match d with Some _ => cDefs c | None => upd (cDefs c) (Z.to_nat i) None end = cDefs c). { destruct d; [reflexivity|]. apply upd_same. unfold zget in GD. destruct (Z.ltb_spec i 0); [lia|exact GD]. }
    cbn. destruct A as [A1 A2 A3]. constructor; cbn; try rewrite X; auto.
    + constructor; assumption.
    + exists k. exact C.
    + intros j [J | ->]; auto.
  - destruct A as [A1 A2 A3]. assert (ZL : zlen (cDefs c ++ [@None chunk]) = zlen (cDefs c) + 1) by (rewrite zlen_app; reflexivity). assert (ZN : zlen (cNames c) = zlen (cDefs c)) by (unfold zlen; lia). constructor; cbn; auto.
    + constructor; assumption.
    + rewrite !app_length. cbn. lia.
    + exists (k + 1)%nat. rewrite C, repeat_app, app_assoc. reflexivity.
    + intros j J. rewrite ZL in J. rewrite ZN. destruct (Z.eq_dec j (zlen (cDefs c))); [right; assumption|left; apply D; lia].
    + intros j J. rewrite ZL. destruct J as [J | ->]; [specialize (E j J); lia|]. rewrite ZN. unfold zlen. lia.
Qed.
Lemma k_addNode n b : keeps (addNode n b).
Proof. unfold addNode. keep. Qed.
Lemma t_literalUse c0 S T n : triple (fun c => grown c0 c S T) (useLiteralToken n 0) (fun i c => grown c0 c S (fun t => T t \/ t = i)).
Proof.
  intros c G. pose proof G as G0. destruct G as [A B C D E F L]. pose proof (use_tok n 0 (or_introl eq_refl) c A) as X. destruct (useLiteralToken n 0 c) as [i c'|e c'| |] eqn:U; auto. destruct X as (X & R). destruct (use_nodes _ _ _ _ _ U) as (E1 & E2).
  assert (LT : zlen (cTokens c) <= zlen (cTokens c')). { unfold useLiteralToken, bind, get, modify, ret in U. destruct (nget n (cLiteralIndex c)); injection U as <- <-; [lia|]. cbn. rewrite zlen_app. unfold zlen. lia. }
  constructor; rewrite ?E1, ?E2; auto; [|lia]. intros t [H | ->]; [specialize (F t H); lia|exact R].
Qed.
Definition mentionsL (l : list chunk) (j : Z) : Prop := exists c, In c l /\ mentions c j.
Definition mentionsTL (l : list chunk) (t : Z) : Prop := exists c, In c l /\ mentionsToken c t.
Definition NP n c0 S T (c : ctx) : Prop := inp n c /\ grown c0 c S T.
Definition gotChunk n c0 (S T : Z -> Prop) (ch : chunk) (c : ctx) : Prop :=
  written ch /\ exists m, n = Datatypes.S m /\ NP m c0 (fun j => S j \/ mentions ch j) (fun t => T t \/ mentionsToken ch t) c.
Definition gotChunks n c0 (S T : Z -> Prop) (l : list chunk) (c : ctx) : Prop :=
  (l <> [] /\ forall ch, In ch l -> written ch) /\ exists m, n = Datatypes.S m /\ NP m c0 (fun j => S j \/ mentionsL l j) (fun t => T t \/ mentionsTL l t) c.
Lemma noEof_variant : noEof [nameTok; tokenNameTok; stringTok; lBraceTok; lSquareTok; lCurlyTok].
Proof. noeof. Qed.
Lemma mentionsL_one c j : mentionsL [c] j <-> mentions c j.
Proof. split; [intros (x & [<-|[]] & M); exact M|intros M; exists c; split; [left; reflexivity|exact M]]. Qed.
Lemma mentionsTL_one c j : mentionsTL [c] j <-> mentionsToken c j.
Proof. split; [intros (x & [<-|[]] & M); exact M|intros M; exists c; split; [left; reflexivity|exact M]]. Qed.
Lemma mentionsL_cons c l j : mentionsL (c :: l) j <-> mentions c j \/ mentionsL l j.
Proof. split; [intros (x & [<-|I] & M); [auto|right; exists x; auto]|intros [M|(x & I & M)]; [exists c; split; [left; reflexivity|exact M]|exists x; split; [right; exact I|exact M]]]. Qed.
Lemma mentionsTL_cons c l j : mentionsTL (c :: l) j <-> mentionsToken c j \/ mentionsTL l j.
Proof. split; [intros (x & [<-|I] & M); [auto|right; exists x; auto]|intros [M|(x & I & M)]; [exists c; split; [left; reflexivity|exact M]|exists x; split; [right; exact I|exact M]]]. Qed.
Lemma mentions_group o r l j : mentions (CGroup o r l) j <-> mentionsL l j.
Proof. split; [inversion 1; subst; eexists; eauto|intros (c & I & M); econstructor; eauto]. Qed.
Lemma mentions_var l j : mentions (CVar l) j <-> mentionsL l j.
Proof. split; [inversion 1; subst; eexists; eauto|intros (c & I & M); econstructor; eauto]. Qed.
Lemma mentionsT_group o r l j : mentionsToken (CGroup o r l) j <-> mentionsTL l j.
Proof. split; [inversion 1; subst; eexists; eauto|intros (c & I & M); econstructor; eauto]. Qed.
Lemma mentionsT_var l j : mentionsToken (CVar l) j <-> mentionsTL l j.
Proof. split; [inversion 1; subst; eexists; eauto|intros (c & I & M); econstructor; eauto]. Qed.
Lemma noEof_last t : In t [rCurlyTok; rSquareTok; rBraceTok] -> noEof [t].
Proof. intros [<-|[<-|[<-|[]]]]; noeof. Qed.
(** after [fetch ..., false]: at most as many tokens are left *)
Lemma t_maybe' types n D : stable D -> triple (fun c => inp n c /\ D c) (fetch types false) (fun _ c => inp n c /\ D c).
Proof.
  intros ST. eapply t_post; [apply t_maybe, ST|]. cbv beta. intros o c (X & H). split; [|exact H]. destruct X as [t ? G|t ? I' E TW|t ? I' SV TT MT]; [eapply got_inp, G|eapply inp_le; [exact I'|lia]|exact I'].
Qed.
Lemma t_chunks : forall fuel n c0 S T,
  ((4 * n + 4 <= fuel)%nat -> triple (NP n c0 S T) (parseGroup fuel) (gotChunks n c0 S T)) /\
  ((4 * n + 3 <= fuel)%nat -> triple (NP n c0 S T) (parseVariants fuel) (gotChunk n c0 S T)) /\
  ((4 * n + 2 <= fuel)%nat -> triple (NP n c0 S T) (parseMore fuel) (gotChunks n c0 S T)) /\
  ((4 * n + 1 <= fuel)%nat -> triple (NP n c0 S T) (parseVariant fuel) (gotChunk n c0 S T)).
Proof.
  induction fuel as [|f IH]; intros n c0 S T; [repeat split; intros L; lia|]. repeat split; intros L.
  - cbn [parseGroup]. eapply t_bind; [apply (IH n c0 S T); lia|]. intros item. unfold gotChunk. apply t_pull. intros W. intros c (m & -> & G). revert c G. change (triple (NP m c0 (fun j => S j \/ mentions item j) (fun t => T t \/ mentionsToken item t)) (let* o := fetch [commaTok] false in match o with Some _ => let* l := parseGroup f in ret (item :: l) | None => ret [item] end) (gotChunks (Datatypes.S m) c0 S T)).
    eapply t_bind; [apply (t_maybe' [commaTok] m _ (grown_stable c0 _ _))|]. intros o. destruct o as [t|].
    + eapply t_bind; [apply (IH m c0); lia|]. intros l. apply t_ret. intros c ((NE & WL) & k & -> & (I & G)). split.
      * split; [discriminate|]. intros ch [<-|H]; auto.
      * eexists. split; [reflexivity|]. split; [eapply inp_le; [exact I|lia]|]. eapply grown_eq; [exact G| |]; intros j; cbv beta; rewrite ?mentionsL_cons, ?mentionsTL_cons; tauto.
    + apply t_ret. intros c (I & G). split; [split; [discriminate|intros ch [<-|[]]; exact W]|]. eexists. split; [reflexivity|]. split; [exact I|]. eapply grown_eq; [exact G| |]; intros j; cbv beta; rewrite ?mentionsL_one, ?mentionsTL_one; tauto.
  - cbn [parseVariants]. eapply t_bind; [apply (IH n c0 S T); lia|]. intros item. unfold gotChunk. apply t_pull. intros W. intros c (m & -> & G). revert c G. change (triple (NP m c0 (fun j => S j \/ mentions item j) (fun t => T t \/ mentionsToken item t)) (let* o := fetch [pipeTok] false in match o with Some _ => let* l := parseMore f in ret (CVar (item :: l)) | None => ret item end) (gotChunk (Datatypes.S m) c0 S T)).
    eapply t_bind; [apply (t_maybe' [pipeTok] m _ (grown_stable c0 _ _))|]. intros o. destruct o as [t|].
    + eapply t_bind; [apply (IH m c0); lia|]. intros l. apply t_ret. intros c ((NE & WL) & k & -> & (I & G)). split.
      * constructor; [discriminate|]. intros ch [<-|H]; auto.
      * eexists. split; [reflexivity|]. split; [eapply inp_le; [exact I|lia]|]. eapply grown_eq; [exact G| |]; intros j; cbv beta; rewrite ?mentions_var, ?mentionsT_var, ?mentionsL_cons, ?mentionsTL_cons; tauto.
    + apply t_ret. intros c (I & G). split; [exact W|]. eexists. split; [reflexivity|]. split; assumption.
  - cbn [parseMore]. eapply t_bind; [apply (IH n c0 S T); lia|]. intros item. unfold gotChunk. apply t_pull. intros W. intros c (m & -> & G). revert c G. change (triple (NP m c0 (fun j => S j \/ mentions item j) (fun t => T t \/ mentionsToken item t)) (let* o := fetch [pipeTok] false in match o with Some _ => let* l := parseMore f in ret (item :: l) | None => ret [item] end) (gotChunks (Datatypes.S m) c0 S T)).
    eapply t_bind; [apply (t_maybe' [pipeTok] m _ (grown_stable c0 _ _))|]. intros o. destruct o as [t|].
    + eapply t_bind; [apply (IH m c0); lia|]. intros l. apply t_ret. intros c ((NE & WL) & k & -> & (I & G)). split.
      * split; [discriminate|]. intros ch [<-|H]; auto.
      * eexists. split; [reflexivity|]. split; [eapply inp_le; [exact I|lia]|]. eapply grown_eq; [exact G| |]; intros j; cbv beta; rewrite ?mentionsL_cons, ?mentionsTL_cons; tauto.
    + apply t_ret. intros c (I & G). split; [split; [discriminate|intros ch [<-|[]]; exact W]|]. eexists. split; [reflexivity|]. split; [exact I|]. eapply grown_eq; [exact G| |]; intros j; cbv beta; rewrite ?mentionsL_one, ?mentionsTL_one; tauto.
  - cbn [parseVariant]. apply (t_strict' _ n _ _ _ (grown_stable c0 S T) noEof_variant). intros t m -> TT MT. apply t_pre with (P' := NP m c0 S T); [intros c ((I & _) & G); split; assumption|].
    assert (GR : triple (NP m c0 S T) (let repeated := nameEqb (tText t) lCurlyTok in let optional := negb (nameEqb (tText t) lBraceTok) in let lastToken := if repeated then rCurlyTok else if optional then rSquareTok else rBraceTok in let* l := parseGroup f in skipOne lastToken ;;; ret (CGroup optional repeated l)) (gotChunk (Datatypes.S m) c0 S T)).
    { cbv zeta. eapply t_bind; [apply (IH m c0 S T); lia|]. intros l. intros c ((NE & WL) & k & -> & (I & G)).
      match goal with |- context [skipOne ?lt] => assert (NL : noEof [lt]) by (apply noEof_last; destruct (nameEqb (tText t) lCurlyTok); [left; reflexivity|]; destruct (negb (nameEqb (tText t) lBraceTok)); [right; left; reflexivity|right; right; left; reflexivity]); pose proof (t_skip lt k _ (grown_stable c0 _ _) NL c (conj I G)) as X end.
      unfold bind, ret. destruct (skipOne _ c) as [u c'|e c'| |]; auto. destruct X as ((t0 & GT) & G'). split.
      - constructor; [exact NE| |exact WL]. intros R. apply nameEqb_ok in R. rewrite R. reflexivity.
      - eexists. split; [reflexivity|]. split; [eapply inp_le; [eapply got_inp, GT|lia]|]. eapply grown_eq; [exact G'| |]; intros j; cbv beta; rewrite ?mentions_group, ?mentionsT_group; tauto. }
    destruct (tKind t) eqn:K; try exact GR; clear GR.
    + (* string *) eapply t_bind; [apply t_unquoted, string_text; assumption|]. intros nm. apply t_pull. intros _. eapply t_bind; [apply t_get with (Q := fun v c => NP m c0 S T c /\ v = cLiteralIndex c); auto|]. intros ix. destruct (nget nm ix) as [i|] eqn:NI.
      * apply t_ret. intros c ((I & G) & ->). pose proof (ti_lindex c (gr_tok _ _ _ _ G) _ _ NI) as R. split; [constructor; lia|]. eexists. split; [reflexivity|]. split; [exact I|]. destruct G as [A B C D E F GL]. constructor; auto.
        -- intros j [J|J]; [auto|inversion J].
        -- intros t0 [J|J]; [auto|inversion J; subst; exact R].
      * eapply t_pre with (P' := NP m c0 S T); [tauto|]. eapply t_bind; [apply t_get with (Q := fun _ => NP m c0 S T); auto|]. intros r. destruct r; [apply t_fail|].
        eapply t_bind; [apply (t_frame (inp m) _ _ _ (HD_same m) (k_useLiteral nm 0) (t_literalUse c0 S T nm))|]. intros i. apply t_ret. intros c (I & G). assert (R : 0 <= i < zlen (cTokens c)) by (apply (gr_token _ _ _ _ G); right; reflexivity). split; [constructor; lia|]. eexists. split; [reflexivity|]. split; [exact I|].
        eapply grown_eq; [exact G| |]; intros j; cbv beta; split; intros X; try tauto; destruct X as [X|X]; auto; [inversion X|subst; right; constructor|inversion X; auto].
    + (* node *) eapply t_bind; [apply (t_frame (inp m) _ _ _ (HD_same m) (k_addNode (tText t) false) (t_mention c0 S T (tText t)))|]. intros i. apply t_ret. intros c (I & G). assert (R : 0 <= i < zlen (cDefs c)) by (apply (gr_range _ _ _ _ G); right; reflexivity). split; [constructor; lia|]. eexists. split; [reflexivity|]. split; [exact I|].
      eapply grown_eq; [exact G| |]; intros j; cbv beta; split; intros X; try tauto; destruct X as [X|X]; auto; [subst; right; constructor|inversion X; auto|inversion X].
    + (* token *) pose proof (taken_text t TT). eapply t_bind; [apply t_textFrom; lia|]. intros nm. apply t_pull. intros _. destruct nm as [|b nm].
      * apply t_ret. intros c (I & G). split; [constructor|]. eexists. split; [reflexivity|]. split; [exact I|]. eapply grown_eq; [exact G| |]; intros j; cbv beta; split; intros X; try tauto; destruct X as [X|X]; auto; inversion X.
      * eapply t_bind; [apply t_get with (Q := fun v c => NP m c0 S T c /\ v = cTokenIndex c); auto|]. intros ix. destruct (nget (b :: nm) ix) as [i|] eqn:NI; [|apply t_fail].
        eapply t_bind; [apply t_get with (Q := fun v c => (NP m c0 S T c /\ 0 <= i < zlen (cTokens c)) /\ v = cTokens c)|].
        { intros c ((I & G) & ->). split; [|reflexivity]. split; [split; assumption|]. apply (ti_tindex c (gr_tok _ _ _ _ G) _ _ NI). }
        intros ts. eapply t_bind; [apply t_orCrash with (Q := fun _ c => NP m c0 S T c /\ 0 <= i < zlen (cTokens c))|].
        { intros c ((X & R) & ->). destruct (zget_range _ _ R) as (x & GX & _). eauto. }
        intros gt. destruct (hasFlag (gtFlags gt) unusedToken); [apply t_fail|]. apply t_ret. intros c ((I & G) & R). split; [constructor; lia|]. eexists. split; [reflexivity|]. split; [exact I|]. destruct G as [A B C D E F GL]. constructor; auto.
        -- intros j [J|J]; [auto|inversion J].
        -- intros t0 [J|J]; [auto|inversion J; subst; exact R].
Qed.

Record nodesInv (c : ctx) : Prop := mkNodes {
  ni_tok : tokInv c;
  ni_names : length (cNames c) = length (cDefs c);
  ni_described : described (cDefs c);
  ni_tokens : forall i d t, defined (cDefs c) i d -> mentionsToken d t -> 0 <= t < zlen (cTokens c)
}.
Lemma nodes_stable : stable nodesInv.
Proof. intros c i t s [[A1 A2 A3] B C D]. constructor; try assumption. constructor; assumption. Qed.
Lemma zget_nth {A} (l : list A) i : 0 <= i -> zget l i = nth_error l (Z.to_nat i).
Proof. intros H. unfold zget. destruct (Z.ltb_spec i 0); [lia|reflexivity]. Qed.
Lemma nth_upd {A} (l : list A) n x : forall k, (n < length l)%nat -> nth_error (upd l n x) k = if Nat.eqb k n then Some x else nth_error l k.
Proof.
  revert n. induction l as [|y l IH]; intros [|n] k L; cbn in *; try lia; destruct k; cbn; auto. apply IH. lia.
Qed.
Lemma zget_updZ {A} (l : list A) i j x : 0 <= i < zlen l -> zget (upd l (Z.to_nat i) x) j = if j =? i then Some x else zget l j.
Proof.
  intros L. unfold zlen in L. destruct (Z.ltb_spec j 0) as [N|N].
  - unfold zget. destruct (Z.ltb_spec j 0); [|lia]. destruct (Z.eqb_spec j i); [lia|reflexivity].
  - rewrite !zget_nth by lia. rewrite nth_upd by lia. destruct (Z.eqb_spec j i) as [->|NE]; [rewrite Nat.eqb_refl; reflexivity|]. destruct (Nat.eqb_spec (Z.to_nat j) (Z.to_nat i)); [lia|reflexivity].
Qed.
Lemma zget_in {A} (l : list A) i x : zget l i = Some x -> 0 <= i < zlen l.
Proof. unfold zget, zlen. destruct (Z.ltb_spec i 0); [discriminate|]. intros E. assert (nth_error l (Z.to_nat i) <> None) by congruence. apply nth_error_Some in H0. lia. Qed.
Lemma zget_app1 {A} (a b : list A) i : i < zlen a -> zget (a ++ b) i = zget a i.
Proof. unfold zget, zlen. intros L. destruct (Z.ltb_spec i 0); [reflexivity|]. apply nth_error_app1. lia. Qed.
(** [addNode n true] for a node that is not defined: what the list is then *)
Lemma t_define n (c : ctx) : nodesInv c ->
  (forall i, nodeIndex 0 n (cNames c) = Some i -> exists x, zget (cDefs c) i = Some x /\ x = None) ->
  match addNode n true c with
  | ROk i c1 =>
      tokInv c1 /\ length (cNames c1) = length (cDefs c1) /\ cTokens c1 = cTokens c /\ 0 <= i < zlen (cDefs c1) /\ zget (cDefs c1) i = Some (Some (CGroup false false [])) /\
      (forall j, j <> i -> zget (cDefs c1) j = zget (cDefs c) j) /\ (zget (cDefs c) i = Some None \/ zget (cDefs c) i = None) /\ zlen (cDefs c) <= zlen (cDefs c1)
  | _ => False
  end.
Proof.
  intros [[A1 A2 A3] B C D] U. unfold addNode, bind, get, modify, ret, orCrash. destruct (nodeIndex 0 n (cNames c)) as [i|] eqn:NI.
  - destruct (U i eq_refl) as (x & GX & ->). rewrite GX. cbn. pose proof (zget_in _ _ _ GX) as R. assert (LE : zlen (upd (cDefs c) (Z.to_nat i) (Some (CGroup false false []))) = zlen (cDefs c)) by (unfold zlen; rewrite upd_length; reflexivity).
    split; [constructor; assumption|]. split; [rewrite upd_length; exact B|]. split; [reflexivity|]. rewrite LE. split; [exact R|]. split; [rewrite zget_updZ, Z.eqb_refl by exact R; reflexivity|].
    split; [intros j J; rewrite zget_updZ by exact R; destruct (Z.eqb_spec j i); [contradiction|reflexivity]|]. split; [left; exact GX|lia].
  - cbn. assert (ZL : zlen (cDefs c ++ [Some (CGroup false false [])]) = zlen (cDefs c) + 1) by (rewrite zlen_app; reflexivity). assert (ZN : zlen (cNames c) = zlen (cDefs c)) by (unfold zlen; lia). rewrite ZN.
    assert (P0 : 0 <= zlen (cDefs c)) by (unfold zlen; lia).
    split; [constructor; assumption|]. split; [rewrite !app_length; cbn; lia|]. split; [reflexivity|]. rewrite ZL. split; [lia|].
    assert (G1 : zget (cDefs c ++ [Some (CGroup false false [])]) (zlen (cDefs c)) = Some (Some (CGroup false false []))). { rewrite zget_nth by exact P0. unfold zlen. rewrite Nat2Z.id, nth_error_app2, Nat.sub_diag by lia. reflexivity. }
    split; [exact G1|]. split; [|split; [|lia]].
    + intros j J. destruct (Z.ltb_spec j (zlen (cDefs c))) as [L|L]; [apply zget_app1, L|]. rewrite !zget_nth by lia. unfold zlen in *. rewrite nth_error_app2 by lia. destruct (Z.to_nat j - length (cDefs c))%nat eqn:X; [lia|]. cbn. symmetry. replace (nth_error (@nil (option chunk)) n0) with (@None (option chunk)) by (destruct n0; reflexivity). apply nth_error_None. lia.
    + right. rewrite zget_nth by exact P0. apply nth_error_None. unfold zlen. lia.
Qed.
Lemma t_nodeDef fuel n nm : (4 * n + 4 <= fuel)%nat -> triple (fun c => inp n c /\ nodesInv c /\ (forall i, nodeIndex 0 nm (cNames c) = Some i -> exists x, zget (cDefs c) i = Some x /\ x = None)) (parseNodeDef fuel nm) (fun _ c => (exists m, n = S m /\ inp m c) /\ nodesInv c /\ cDefs c <> []).
Proof.
  intros L c (I & NI & U). pose proof (t_define nm c NI U) as DF. pose proof (k_addNode nm true c) as KA. unfold parseNodeDef, bind at 1. destruct (addNode nm true c) as [i c1|e c1| |] eqn:AN; try contradiction. destruct DF as (T1 & N1 & TK & R1 & G1 & O1 & GI & LE1).
  assert (I1 : inp n c1) by (exact (HD_same n _ _ (KA _ _ eq_refl) I)).
  assert (G : grown c1 c1 (fun _ => False) (fun _ => False)). { constructor; auto; try (intros; contradiction); [exists O; rewrite app_nil_r; reflexivity|intros j J; lia|lia]. }
  cut (triple (NP n c1 (fun _ => False) (fun _ => False)) (skipOne equTok ;;; (let* l := parseGroup fuel in skipOne semicolonTok ;;; modify (fun c2 => setNodes (cNames c2) (upd (cDefs c2) (Z.to_nat i) (Some (CGroup false false l))) c2))) (fun _ c0 => (exists m, n = S m /\ inp m c0) /\ nodesInv c0 /\ cDefs c0 <> [])); [intros X; apply (X c1); split; assumption|].
  clear G I1 KA AN U I.
  eapply t_bind; [eapply t_post; [apply (t_skip equTok n _ (grown_stable c1 _ _) noEof_equ)|]; cbv beta|].
  { intros x c0 ((t & GT) & G). exact (conj (got_inp _ _ _ _ GT) G). }
  intros u. eapply t_bind; [apply (t_chunks fuel n c1); lia|]. intros l. unfold gotChunks. apply t_pull. intros (NE & WL). intros c2 (m & -> & (I2 & G2)). revert c2 I2 G2. 
  match goal with |- forall c2, inp m c2 -> grown c1 c2 ?SS ?TT -> _ => intros c2 I2 G2; pose proof (t_skip semicolonTok m _ (grown_stable c1 SS TT) noEof_semicolon c2 (conj I2 G2)) as X end.
  unfold bind, modify. destruct (skipOne semicolonTok c2) as [u2 c3|e c3| |]; auto. destruct X as ((t3 & GT3) & G3). apply got_inp in GT3. clear c2 I2 G2. destruct G3 as [A B (k & C) D E F GL].
  assert (R3 : 0 <= i < zlen (cDefs c3)) by (rewrite C, zlen_app; unfold zlen in *; lia).
  assert (LL : zlen (upd (cDefs c3) (Z.to_nat i) (Some (CGroup false false l))) = zlen (cDefs c3)) by (unfold zlen; rewrite upd_length; reflexivity).
  assert (GG : forall j, zget (upd (cDefs c3) (Z.to_nat i) (Some (CGroup false false l))) j = if j =? i then Some (Some (CGroup false false l)) else zget (cDefs c3) j) by (intros j; apply zget_updZ, R3).
  assert (OLD : forall j d, j <> i -> zget (cDefs c3) j = Some (Some d) -> zget (cDefs c) j = Some (Some d)).
  { intros j d J H. rewrite <- (O1 j J). rewrite C in H. destruct (Z.ltb_spec j (zlen (cDefs c1))) as [LT|LT]; [rewrite zget_app1 in H by exact LT; exact H|]. exfalso. pose proof (zget_in _ _ _ H) as R. rewrite zget_nth in H by lia. unfold zlen in *. rewrite nth_error_app2 in H by lia. apply nth_error_In, repeat_spec in H. discriminate. }
  assert (KEEP : forall j d, zget (cDefs c) j = Some (Some d) -> zget (cDefs c3) j = Some (Some d) /\ j <> i).
  { intros j d H. assert (J : j <> i) by (intros ->; destruct GI as [GI|GI]; rewrite GI in H; discriminate). split; [|exact J]. pose proof (zget_in _ _ _ H). rewrite C, zget_app1 by lia. rewrite (O1 j J). exact H. }
  assert (ME : forall d j, d = CGroup false false l -> mentions d j -> 0 <= j < zlen (cDefs c3)) by (intros d j -> M; apply mentions_group in M; apply E; right; exact M).
  destruct NI as [NT NN [W1 W2 W3] NK]. split; [exists m; split; [reflexivity|]; eapply inp_same; [|exact GT3]; repeat split|]. split.
  - constructor; cbn.
    + destruct A as [A1 A2 A3]. constructor; assumption.
    + rewrite upd_length. exact B.
    + constructor.
      * intros j d H. unfold defined in H. rewrite GG in H. destruct (Z.eqb_spec j i) as [->|J]; [injection H as <-; constructor; [exact NE|discriminate|exact WL]|]. apply (W1 j d), OLD; assumption.
      * intros j q (d & H & M). rewrite LL. unfold defined in H. rewrite GG in H. destruct (Z.eqb_spec j i) as [->|J]; [injection H as <-; eapply ME; [reflexivity|exact M]|]. assert (X : refers (cDefs c) j q) by (exists d; split; [apply OLD; assumption|exact M]). apply W2 in X. rewrite C, zlen_app. unfold zlen in *. lia.
      * intros j H. rewrite GG in H. destruct (Z.eqb_spec j i) as [E0|J]; [discriminate|]. destruct (Z.ltb_spec j (zlen (cDefs c1))) as [LT|LT].
        -- rewrite C, zget_app1, (O1 j J) in H by exact LT. destruct (W3 j H) as (q & d & HQ & M). destruct (KEEP q d HQ) as (K1 & K2). exists q, d. split; [|exact M]. unfold defined. rewrite GG. destruct (Z.eqb_spec q i); [contradiction|exact K1].
        -- pose proof (zget_in _ _ _ H) as R. destruct (D j ltac:(lia)) as [[]|M]. exists i, (CGroup false false l). split; [unfold defined; rewrite GG, Z.eqb_refl; reflexivity|]. apply mentions_group. exact M.
    + intros j d t H M. unfold defined in H. rewrite GG in H. destruct (Z.eqb_spec j i) as [->|J]; [injection H as <-; apply F; right; apply mentionsT_group in M; exact M|]. pose proof (NK j d t (OLD j d J H) M). rewrite TK in GL. lia.
  - cbn. intros X. rewrite X in LL. unfold zlen in *. cbn in LL. lia.
Qed.
Lemma op_kind t : nameEqb (typeName (tKind t)) opTok = true -> tKind t = KOp.
Proof. destruct (tKind t); intros H; try reflexivity; discriminate H. Qed.
Lemma t_nodes : forall fuel n t, (4 * n + 5 <= fuel)%nat -> triple (fun c => inp n c /\ nodesInv c /\ ((isEof t = false /\ tKind t <> KOp) \/ cDefs c <> [])) (readNodes fuel t) (fun _ c => nodesInv c /\ cDefs c <> []).
Proof.
  induction fuel as [|f IH]; intros n t L; [lia|]. cbn [readNodes]. destruct (isEof t) eqn:EO; [apply t_ret; intros c (_ & X & [(Y & _)|Y]); [discriminate|split; assumption]|].
  eapply t_bind with (Q := fun _ c => inp n c /\ nodesInv c /\ cDefs c <> []).
  - destruct (nameEqb (typeName (tKind t)) opTok) eqn:OP.
    + apply op_kind in OP. eapply t_pre; [|eapply t_post; [apply (t_layer (fun c => nodesInv c /\ cDefs c <> []) f n t)|]].
      * intros c (I & X & [(_ & Y)|Y]); [contradiction|]. exact (conj I (conj X Y)).
      * intros c i tl s (X & Y). split; [apply nodes_stable, X|exact Y].
      * intros c v ([[A1 A2 A3] B C D] & Y). split; [|exact Y]. constructor; try assumption. constructor; assumption.
      * lia.
      * cbv beta. tauto.
    + eapply t_pre with (P' := fun c => inp n c /\ nodesInv c); [tauto|]. eapply t_bind; [apply t_get with (Q := fun v c => (inp n c /\ nodesInv c) /\ v = cNames c); auto|]. intros names.
      eapply t_bind with (Q := fun _ c => inp n c /\ nodesInv c /\ (forall i, nodeIndex 0 (tText t) (cNames c) = Some i -> exists x, zget (cDefs c) i = Some x /\ x = None)).
      * destruct (nodeIndex 0 (tText t) names) as [i|] eqn:NI.
        -- eapply t_bind; [apply t_get with (Q := fun v c => (inp n c /\ nodesInv c /\ names = cNames c) /\ v = cDefs c); tauto|]. intros defs. intros c ((I & NV & E) & ->). subst names. pose proof NI as NI'. apply nodeIndex_ok in NI'. destruct NI' as (R & _). pose proof (ni_names _ NV). assert (R' : 0 <= i < zlen (cDefs c)) by (unfold zlen in *; lia). destruct (zget_range _ _ R') as (d & GD & _). unfold bind, orCrash. rewrite GD. cbn. destruct d; cbn; [exact Logic.I|]. split; [exact I|]. split; [exact NV|]. intros j J. assert (j = i) by congruence. subst j. exists None. split; [exact GD|reflexivity].
        -- apply t_ret. intros c ((I & NV) & ->). split; [exact I|]. split; [exact NV|]. intros j J. congruence.
      * intros u. eapply t_post; [apply t_nodeDef; lia|]. cbv beta. intros x c ((m & -> & I) & NV & Y). split; [eapply inp_le; [exact I|lia]|]. split; assumption.
  - intros u. eapply t_bind; [eapply t_pre; [|apply (t_strict_any _ n (fun c => nodesInv c /\ cDefs c <> []))]|].
    + tauto.
    + intros c i tl s (X & Y). split; [apply nodes_stable, X|exact Y].
    + intros t'. intros c ([GT|(EO' & _ & _ & I0)] & NV & Y).
      * destruct GT as [m -> I TT MT _ _]. apply (IH m t'); [lia|]. auto.
      * destruct f as [|f']; [lia|]. cbn [readNodes]. rewrite EO'. cbn. split; assumption.
Qed.
Section W.
Variable compiles : name -> bool.
Lemma t_description fuel n : (4 * n + 5 <= fuel)%nat -> triple (HD n) (readDescription compiles fuel) (fun _ c => nodesInv c /\ cDefs c <> []).
Proof.
  intros L. unfold readDescription. eapply t_bind; [apply (t_head compiles fuel n); lia|]. intros t. apply t_pull. intros K. apply t_pull. intros TT.
  eapply t_bind with (Q := fun _ c => inp n c /\ nodesInv c).
  - eapply t_post; [apply (t_frame (inp n) _ _ _ (HD_same n) k_finish t_finish)|]. cbv beta. intros u c (I & T & E1 & E2). split; [exact I|]. constructor; rewrite ?E1, ?E2; auto.
    + constructor; intros; unfold refers, defined in *.
      * unfold zget in H. destruct (i <? 0); [discriminate|]. destruct (Z.to_nat i); discriminate.
      * destruct H as (d & H & _). unfold zget in H. destruct (i <? 0); [discriminate|]. destruct (Z.to_nat i); discriminate.
      * unfold zget in H. destruct (j <? 0); [discriminate|]. destruct (Z.to_nat j); discriminate.
    + intros i d t0 H. unfold defined, zget in H. destruct (i <? 0); [discriminate|]. destruct (Z.to_nat i); discriminate.
  - intros u. eapply t_pre; [|apply (t_nodes fuel n t L)]. intros c (I & NV). split; [exact I|]. split; [exact NV|]. left. split; [apply taken_kind, TT|rewrite K; discriminate].
Qed.
End W.
