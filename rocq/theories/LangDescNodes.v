(** The rest of a description: types that are not defined, literals, nodes; what has been collected is what the records say
    (LangDescSpec.v). *)
From Coq Require Import ZArith List Bool Lia.
From Verif Require Import Base BaseProofs Grammar LangBuild LangTypes LangText LangTextSpec LangTextTotal LangDescSpec LangDescParse LangDescFacts LangDescHead.
Import ListNotations.
Open Scope Z_scope.

(** ** Types that are not defined *)
Lemma filter_filter {A} (f g : A -> bool) l : filter f (filter g l) = filter g (filter f l).
Proof. induction l as [|x l IH]; cbn; [reflexivity|]. destruct (f x) eqn:F, (g x) eqn:G; cbn; rewrite ?F, ?G, ?IH; reflexivity. Qed.
Lemma firsts_filter (f : name -> bool) l : firsts (filter f l) = filter f (firsts l).
Proof.
  induction l as [|x l IH]; cbn; [reflexivity|]. destruct (f x) eqn:F; cbn; rewrite IH.
  - f_equal. apply filter_filter.
  - rewrite filter_filter. symmetry. apply filter_none. intros y I. apply filter_In in I. destruct I as (_ & FY). apply negb_true_iff, nameEqb_not. intros ->. congruence.
Qed.
Lemma early_undefined D : forall rs k, (forall n, In n k \/ In n (defined rs) -> In n D) -> filter (notIn D) (early k rs) = filter (notIn D) (typesIn any rs).
Proof.
  induction rs as [|r rs IH]; intros k H; [reflexivity|]. change (r :: rs) with ([r] ++ rs) at 2. rewrite typesIn_app, filter_app.
  assert (G : forall ns, filter (notIn D) (filter (fun n => negb (mem n k)) ns) = filter (notIn D) ns).
  { intros ns. rewrite filter_filter. apply filter_none. intros x I. apply filter_In in I. destruct I as (_ & I). unfold notIn in I. apply negb_true_iff in I. apply negb_true_iff. apply mem_not. apply mem_not in I. intros J. apply I, H. auto. }
  destruct r as [d l|n ps|n ps|l|n l]; cbn [early]; rewrite ?filter_app, ?G; try (rewrite IH; [reflexivity|intros m I; apply H; exact I]).
  rewrite IH; [reflexivity|]. intros m I. apply H. cbn. destruct I as [[I|I]|I]; auto.
Qed.
Lemma undefined_early rs : undefined rs = filter (notIn (defined rs)) (firsts (early [] rs)).
Proof. unfold undefined. rewrite <- !firsts_filter. f_equal. symmetry. apply early_undefined. intros n [[]|I]; exact I. Qed.
Lemma undefined_new rs n : In n (undefined rs) -> ~ In n (defined rs).
Proof. unfold undefined. rewrite filter_In. intros (_ & H). apply mem_not, negb_true_iff, H. Qed.

Section Extern.
Variables (D : list name) (ex : list extra) (ts : list gtoken) (g fl : name -> Z).
Hypothesis ND : NoDup (map eName ex).
Hypothesis V : Forall (fun e => ~ In (eName e) D -> eGroup e = g (eName e) /\ eFlags e = fl (eName e)) ex.
Hypothesis LT : zlen ts = zlen D.
Definition extTok (n : name) : gtoken := mkTok n [] (g n) (fl n).
Definition takenOf (l : list extra) : list name := filter (notIn D) (map eName l).
Record ExtSt (done todo : list extra) (c0 c : ctx) : Prop := mkES {
  es_tokens : cTokens c = ts ++ map extTok (takenOf done);
  es_index : forall n, nget n (cTokenIndex c) = if mem n (D ++ takenOf done) then Some (position n (D ++ takenOf done)) else None;
  es_extra : cExtra c = ex;
  es_xindex : forall n, nget n (cExtraIndex c) = if notIn D n && mem n (map eName todo) then Some (position n (map eName ex)) else None;
  es_rest : cLiterals c = cLiterals c0 /\ cGroup c = cGroup c0 /\ cRestrictTypes c = cRestrictTypes c0 /\ cRestrictLiterals c = cRestrictLiterals c0 /\ cLayers c = cLayers c0 /\ cNames c = cNames c0 /\ cDefs c = cDefs c0
}.
Definition stepE (et : extra) : M unit :=
  let* index := get cExtraIndex in
  match nget (eName et) index with
  | None => ret tt
  | Some _ => if hasFlag (eFlags et) ExternalToken then addToken (eName et) [] (eFlags et) else fail (RE_undefinedToken (eName et))
  end.
Definition isExtern (e : extra) : Prop := ~ In (eName e) D -> hasFlag (fl (eName e)) ExternalToken = true.
Lemma extern_run c0 : forall todo done c, done ++ todo = ex -> ExtSt done todo c0 c ->
  match each stepE todo c with
  | ROk _ c' => Forall isExtern todo /\ ExtSt ex [] c0 c'
  | RFail e _ => exists p x q, todo = p ++ x :: q /\ Forall isExtern p /\ ~ In (eName x) D /\ hasFlag (fl (eName x)) ExternalToken = false /\ e = RE_undefinedToken (eName x)
  | _ => False
  end.
Proof.
  induction todo as [|e todo IH]; intros done c EX H.
  - rewrite app_nil_r in EX. subst done. split; [constructor|exact H].
  - cbn [each]. unfold bind at 1. assert (IE : In e ex) by (rewrite <- EX; apply in_or_app; right; left; reflexivity). rewrite <- EX, map_app in ND. cbn [map] in ND. assert (NE : ~ In (eName e) (map eName todo)) by (apply NoDup_remove_2 in ND; intros I; apply ND, in_or_app; right; exact I). assert (NDn : ~ In (eName e) (map eName done)) by (apply NoDup_remove_2 in ND; intros I; apply ND, in_or_app; left; exact I). assert (EX' : (done ++ [e]) ++ todo = ex) by (rewrite <- app_assoc; exact EX).
    destruct H as [H1 H2 H3 H4 H5]. unfold stepE at 1. rewrite (bind_ok (get cExtraIndex) _ c (cExtraIndex c) c eq_refl). rewrite H4. unfold notIn. cbn [map mem existsb]. rewrite nameEqb_refl. cbn [orb]. rewrite andb_true_r. destruct (mem (eName e) D) eqn:MD; cbn [negb].
    + (* it has been defined *)
      cbn [ret]. unfold ret. assert (TD : takenOf (done ++ [e]) = takenOf done) by (unfold takenOf; rewrite map_app, filter_app; cbn [map filter]; unfold notIn at 2; rewrite MD; apply app_nil_r).
      assert (S : ExtSt (done ++ [e]) todo c0 c). { constructor; rewrite ?TD; auto. intros n. rewrite H4. cbn [map]. change (mem n (eName e :: map eName todo)) with (nameEqb n (eName e) || mem n (map eName todo)). destruct (nameEqb n (eName e)) eqn:E; [|reflexivity]. apply nameEqb_ok in E. subst n. unfold notIn. rewrite MD. reflexivity. }
      specialize (IH _ _ EX' S). destruct (each stepE todo c); try exact IH.
      * destruct IH as (A & B). split; [constructor; [|exact A]|exact B]. intros N. apply mem_not in N. congruence.
      * destruct IH as (p & x & q & -> & P1 & P2). exists (e :: p), x, q. split; [reflexivity|]. split; [constructor; [|exact P1]|exact P2]. intros N. apply mem_not in N. congruence.
    + pose proof MD as MD'. apply mem_not in MD'. rewrite Forall_forall in V. destruct (V e IE MD') as (VG & VF). destruct (hasFlag (eFlags e) ExternalToken) eqn:HF.
      2:{ cbn. exists [], e, todo. rewrite <- VF. auto. }
      assert (TD : takenOf (done ++ [e]) = takenOf done ++ [eName e]) by (unfold takenOf; rewrite map_app, filter_app; cbn [map filter]; unfold notIn at 2; rewrite MD; reflexivity).
      assert (KG : zget ex (position (eName e) (map eName ex)) = Some e).
      { rewrite <- EX, map_app. cbn [map]. rewrite position_after by exact NDn. cbn [position]. rewrite nameEqb_refl. rewrite Z.add_0_r. rewrite zget_nth by (unfold zlen; lia). unfold zlen. rewrite Nat2Z.id, map_length, nth_error_app2, Nat.sub_diag by lia. reflexivity. }
      assert (AT : addToken (eName e) [] (eFlags e) c = ROk tt (setTokenIndex (nput (eName e) (zlen (cTokens c)) (cTokenIndex c)) (setTokens (cTokens c ++ [extTok (eName e)]) (setExtra ex (ndel (eName e) (cExtraIndex c)) c)))).
      { unfold addToken. rewrite (bind_ok (get cExtraIndex) _ c (cExtraIndex c) c eq_refl). rewrite H4. unfold notIn. rewrite MD. cbn [map mem existsb negb]. rewrite nameEqb_refl. cbn [orb andb]. unfold bind, get, orCrash, modify, ret. rewrite H3, KG. cbn. rewrite VG, VF, Z.lor_diag, H3. reflexivity. }
      rewrite AT. set (c1 := setTokenIndex _ _).
      assert (S : ExtSt (done ++ [e]) todo c0 c1).
      { constructor; rewrite ?TD.
        - cbn. rewrite H1, map_app, app_assoc. reflexivity.
        - intros n. change (cTokenIndex c1) with (nput (eName e) (zlen (cTokens c)) (cTokenIndex c)). rewrite nput_get, H2, app_assoc. rewrite (mem_app _ (D ++ takenOf done)), mem_one. assert (NI : ~ In (eName e) (D ++ takenOf done)). { rewrite in_app_iff. intros [I|I]; [exact (MD' I)|]. unfold takenOf in I. apply filter_In in I. apply NDn, I. }
          destruct (nameEqb n (eName e)) eqn:E.
          + apply nameEqb_ok in E. subst n. rewrite orb_true_r, position_new by exact NI. rewrite H1. unfold zlen in *. rewrite !app_length, map_length. f_equal. lia.
          + rewrite orb_false_r. destruct (mem n (D ++ takenOf done)) eqn:M; [|reflexivity]. rewrite (position_app n (D ++ takenOf done)); [reflexivity|apply mem_In, M].
        - reflexivity.
        - intros n. change (cExtraIndex c1) with (ndel (eName e) (cExtraIndex c)). rewrite nget_ndel, H4. cbn [map]. change (mem n (eName e :: map eName todo)) with (nameEqb n (eName e) || mem n (map eName todo)). destruct (nameEqb n (eName e)) eqn:E; [|reflexivity]. apply nameEqb_ok in E. subst n. rewrite (proj2 (mem_not _ _) NE), andb_false_r. reflexivity.
        - exact H5. }
      specialize (IH _ _ EX' S). destruct (each stepE todo c1); try exact IH.
      * destruct IH as (A & B). split; [constructor; [|exact A]|exact B]. intros _. rewrite <- VF. exact HF.
      * destruct IH as (p & x & q & -> & P1 & P2). exists (e :: p), x, q. split; [reflexivity|]. split; [constructor; [|exact P1]|exact P2]. intros _. rewrite <- VF. exact HF.
Qed.
End Extern.

(** ** Before nodes are read *)
Section R.
Variable compiles : name -> bool.
Notation Inv := (Inv compiles). Notation regs := (regs compiles).
Lemma raw_extern n rs : hasFlag (rawFlags n rs) ExternalToken = listed DExtern n rs.
Proof. unfold rawFlags. destruct (listed DSide n rs), (listed DCaseless n rs), (listed DError n rs), (listed DExtern n rs), (listed DLiteral n rs); reflexivity. Qed.
Lemma raw_literal n rs : hasFlag (rawFlags n rs) LiteralToken = false.
Proof. unfold rawFlags. destruct (listed DSide n rs), (listed DCaseless n rs), (listed DError n rs), (listed DExtern n rs), (listed DLiteral n rs); reflexivity. Qed.
Lemma raw_flags n rs : flagsOf n rs = if some (typesIn (dirEqb DLiteral) rs) then Z.lxor (rawFlags n rs) NoLiteralsToken else rawFlags n rs.
Proof.
  unfold flagsOf, rawFlags, some. destruct (typesIn (dirEqb DLiteral) rs) as [|x l] eqn:E.
  - assert (L : listed DLiteral n rs = false) by (unfold listed; rewrite E; reflexivity). rewrite L. destruct (listed DSide n rs), (listed DCaseless n rs), (listed DError n rs), (listed DExtern n rs); reflexivity.
  - destruct (listed DSide n rs), (listed DCaseless n rs), (listed DError n rs), (listed DExtern n rs), (listed DLiteral n rs); reflexivity.
Qed.
Lemma flags_unused n rs : hasFlag (flagsOf n rs) unusedToken = listed DSide n rs || listed DError n rs.
Proof. unfold flagsOf. destruct (listed DSide n rs), (listed DCaseless n rs), (listed DError n rs), (listed DExtern n rs), (listed DLiteral n rs), (typesIn (dirEqb DLiteral) rs); reflexivity. Qed.
Definition types (rs : list record) (res : list (name * name)) : list gtoken := map (typeTokenNow rs) (res ++ map (fun n => (n, [])) (undefined rs)).
(** the state while nodes are read: [rs] are the records before nodes, [N] are nodes mentioned, [U] are literals used *)
Record St (rs : list record) (res : list (name * name)) (N U : list name) (df : name -> option chunk) (ls : list glayer) (c : ctx) : Prop := mkSt {
  s_tokens : cTokens c = types rs res ++ map (literalTokenNow rs) (firsts (stringsIn any rs ++ U));
  s_index : forall n, nget n (cTokenIndex c) = if mem n (typeNames rs) then Some (position n (typeNames rs)) else None;
  s_lindex : forall s, nget s (cLiteralIndex c) = if mem s (stringsIn any rs ++ U) then Some (zlen (typeNames rs) + position s (firsts (stringsIn any rs ++ U))) else None;
  s_used : stringsIn (dirEqb DLiteral) rs <> [] -> forall s, In s U -> In s (stringsIn any rs);
  s_restrict : cRestrictLiterals c = some (stringsIn (dirEqb DLiteral) rs);
  s_layers : cLayers c = ls;
  s_names : cNames c = firsts N;
  s_defs : cDefs c = map df (firsts N);
  s_new : forall x, ~ In x N -> df x = None;
  s_res : map fst res = defined rs
}.
Lemma types_names rs res : map fst res = defined rs -> map gtName (types rs res) = typeNames rs.
Proof. intros E. unfold types, typeNames. rewrite map_map. change (map (fun x => gtName (typeTokenNow rs x))) with (map (@fst name name)). rewrite map_app, E, map_map. cbn [fst]. rewrite map_id. reflexivity. Qed.
Lemma types_len rs res : map fst res = defined rs -> zlen (types rs res) = zlen (typeNames rs).
Proof. intros E. rewrite <- (types_names rs res E). unfold zlen. rewrite map_length. reflexivity. Qed.
Definition stepL (lt : name * Z) : M unit := useLiteralToken (fst lt) (snd lt) ;;; ret tt.
Lemma literals_run rs res : forall todo don c, map fst res = defined rs -> NoDup (don ++ todo) -> cTokens c = types rs res ++ map (literalTokenNow rs) don -> (forall s, nget s (cLiteralIndex c) = if mem s don then Some (zlen (typeNames rs) + position s don) else None) ->
  exists ts li, each stepL (map (rawLiteral rs) todo) c = ROk tt (setLiteralIndex li (setTokens ts c)) /\ ts = types rs res ++ map (literalTokenNow rs) (don ++ todo) /\ forall s, nget s li = if mem s (don ++ todo) then Some (zlen (typeNames rs) + position s (don ++ todo)) else None.
Proof.
  induction todo as [|x todo IH]; intros don c ER ND TK LI.
  - exists (cTokens c), (cLiteralIndex c). rewrite app_nil_r. split; [destruct c; reflexivity|]. split; [exact TK|exact LI].
  - cbn [map each]. unfold stepL at 1. rewrite bind_assoc. cbn [rawLiteral fst snd]. assert (NI : ~ In x don) by (apply NoDup_remove_2 in ND; intros I; apply ND, in_or_app; left; exact I). assert (EQ : don ++ x :: todo = (don ++ [x]) ++ todo) by (rewrite <- app_assoc; reflexivity).
    unfold useLiteralToken. unfold bind, get, modify, ret. rewrite LI, (proj2 (mem_not _ _) NI).
    set (c1 := setLiteralIndex _ _). destruct (IH (don ++ [x]) c1 ER) as (ts & li & E & E1 & E2).
    + rewrite <- EQ. exact ND.
    + unfold c1. cbn [cTokens setLiteralIndex setTokens]. rewrite TK, map_app, app_assoc. reflexivity.
    + intros s. unfold c1. change (cLiteralIndex (setLiteralIndex (nput x (zlen (cTokens c)) (cLiteralIndex c)) (setTokens (cTokens c ++ [mkTok x [] 0 (Z.lor (flag (reservedNow x rs) ReservedToken) LiteralToken)]) c))) with (nput x (zlen (cTokens c)) (cLiteralIndex c)).
      rewrite nput_get, LI, mem_app, mem_one. destruct (nameEqb s x) eqn:Q.
      * apply nameEqb_ok in Q. subst s. rewrite orb_true_r, position_new by exact NI. rewrite TK, <- (types_len rs res ER). unfold zlen. rewrite app_length, map_length. f_equal. lia.
      * rewrite orb_false_r. destruct (mem s don) eqn:M; [|reflexivity]. rewrite position_app; [reflexivity|apply mem_In, M].
    + exists ts, li. rewrite EQ. split; [exact E|]. split; [exact E1|exact E2].
Qed.
Definition noDefs : name -> option chunk := fun _ => None.
Definition fitsIn (rs : list record) : Prop := zlen (defined rs) + zlen (firsts (early [] rs)) < 63.
Definition externs (rs : list record) : Prop := forall n, In n (undefined rs) -> In n (typesIn (dirEqb DExtern) rs).
Lemma map_nr ts rs : Forall (fun t => gtGroup t = groupNow (gtName t) rs /\ gtFlags t = rawFlags (gtName t) rs) ts -> ts = map (fun d => mkTok (fst d) (snd d) (groupNow (fst d) rs) (rawFlags (fst d) rs)) (map nr ts).
Proof. induction 1 as [|t ts (G & F) _ IH]; cbn [map]; [reflexivity|]. rewrite <- IH. f_equal. destruct t. cbn in *. congruence. Qed.
Lemma finish_run rs c : Inv rs c ->
  match finishTokens c with
  | ROk _ c' => fitsIn rs /\ externs rs /\ exists res, option_map snd (regs [] rs) = Some res /\ St rs res [] [] noDefs (layersOf rs) c'
  | RFail e _ => ~ fitsIn rs /\ e = RE_tokenNumber \/ fitsIn rs /\ exists p n q, undefined rs = p ++ n :: q /\ Forall (fun n => In n (typesIn (dirEqb DExtern) rs)) p /\ ~ In n (typesIn (dirEqb DExtern) rs) /\ e = RE_undefinedToken n
  | _ => False
  end.
Proof.
  intros [T A2 A3 A4 A5 A6 A7 A8 A9 A10]. destruct T as [B1 B2 B3 B4 B5 B6 B7 B8 (B9 & _)]. unfold finishTokens. rewrite (bind_ok (get _) _ c _ c eq_refl).
  assert (LN : zlen (cTokens c) + zlen (cExtra c) = zlen (defined rs) + zlen (firsts (early [] rs))) by (rewrite <- B2, <- B6; unfold zlen; rewrite !map_length; reflexivity). rewrite LN. unfold fitsIn. destruct (Z.geb_spec (zlen (defined rs) + zlen (firsts (early [] rs))) MaxTokenType) as [GE|LT]; unfold MaxTokenType in *; [left; split; [lia|reflexivity]|].
  change addExterns with (let* ex := get cExtra in each stepE ex). rewrite bind_assoc. rewrite (bind_ok (get cExtra) _ c (cExtra c) c eq_refl). unfold bind at 1.
  assert (S0 : ExtSt (defined rs) (cExtra c) (cTokens c) (fun n => groupNow n rs) (fun n => rawFlags n rs) [] (cExtra c) c c).
  { constructor; cbn [takenOf map filter]; unfold takenOf; cbn [map filter]; rewrite ?app_nil_r; auto; [|repeat split]. intros n. rewrite B8, B6, mem_firsts. reflexivity. }
  assert (NX : NoDup (map eName (cExtra c))) by (rewrite B6; apply firsts_NoDup). assert (LD : zlen (cTokens c) = zlen (defined rs)) by (rewrite <- B2; unfold zlen; rewrite map_length; reflexivity).
  pose proof (extern_run (defined rs) (cExtra c) (cTokens c) (fun n => groupNow n rs) (fun n => rawFlags n rs) NX B7 LD c (cExtra c) [] c eq_refl S0) as X.
  assert (UN : takenOf (defined rs) (cExtra c) = undefined rs) by (unfold takenOf; rewrite B6, undefined_early; reflexivity).
  assert (EXT : Forall (isExtern (defined rs) (fun n => rawFlags n rs)) (cExtra c) <-> externs rs).
  { unfold isExtern. rewrite Forall_forall. unfold externs. rewrite <- UN. split.
    - intros H n I. unfold takenOf in I. apply filter_In in I. destruct I as (I & N). apply in_map_iff in I. destruct I as (e & <- & IE). specialize (H e IE). rewrite raw_extern in H. apply mem_In, H. apply mem_not, negb_true_iff, N.
    - intros H e IE N. rewrite raw_extern. apply mem_In, H. apply filter_In. split; [apply in_map, IE|apply negb_true_iff, mem_not, N]. }
  destruct (each stepE (cExtra c) c) as [u c1|e c1| |]; try exact X.
  2:{ right. split; [exact LT|]. destruct X as (p & x & q & EQ & P & ND & HF & ->). rewrite <- UN, EQ. unfold takenOf. rewrite map_app, filter_app. cbn [map filter]. unfold notIn at 2. rewrite (proj2 (mem_not _ _) ND). cbn [negb]. eexists _, _, _. split; [reflexivity|]. split; [|split; [|reflexivity]].
      - apply Forall_forall. intros n I. apply filter_In in I. destruct I as (I & N). apply in_map_iff in I. destruct I as (e & <- & IE). rewrite Forall_forall in P. specialize (P e IE). unfold isExtern in P. rewrite raw_extern in P. apply mem_In, P. apply mem_not, negb_true_iff, N.
      - rewrite raw_extern in HF. unfold listed in HF. apply mem_not in HF. exact HF. }
  destruct X as (X & [C1 C2 C3 C4 (E1 & E2 & E3 & E4 & E5 & E6 & E7)]). rewrite UN in *. clear u.
  set (tk := if cRestrictTypes c then flipLiterals (cTokens c1) else cTokens c1).
  set (res := map nr (cTokens c)).
  assert (ER : map fst res = defined rs) by (unfold res; rewrite map_map; exact B2).
  assert (TK : tk = types rs res).
  { unfold tk. assert (RAW : cTokens c1 = map (fun d => mkTok (fst d) (snd d) (groupNow (fst d) rs) (rawFlags (fst d) rs)) (res ++ map (fun n => (n, [])) (undefined rs))). { rewrite C1, map_app, map_map. rewrite (map_nr _ _ B4) at 1. reflexivity. }
    rewrite RAW. rewrite flip_ok by (apply Forall_map, Forall_forall; intros d _; cbn; apply raw_literal). rewrite A5. unfold types, typeTokenNow. destruct (some (typesIn (dirEqb DLiteral) rs)) eqn:SM; rewrite ?map_map; apply map_ext; intros d; rewrite raw_flags, SM; reflexivity. }
  set (c2 := setLiteralIndex [] (setTokens tk c1)).
  assert (R2 : forall k : M unit, (modify (fun c => if cRestrictTypes c then setTokens (flipLiterals (cTokens c)) c else c) ;;; modify (setLiteralIndex []) ;;; k) c1 = k c2).
  { intros k. unfold bind, modify, c2, tk. rewrite E3. destruct (cRestrictTypes c); [reflexivity|]. destruct c1; reflexivity. }
  rewrite R2. rewrite (bind_ok (get cLiterals) _ c2 (cLiterals c1) c2 eq_refl). rewrite E1, A2. change (fun lt => useLiteralToken (fst lt) (snd lt) ;;; ret tt) with stepL.
  destruct (literals_run rs res (firsts (stringsIn any rs)) [] c2 ER) as (ts & li & -> & TS & LI); [apply firsts_NoDup|cbn [map]; rewrite app_nil_r; exact TK|reflexivity|].
  split; [exact LT|]. split; [apply EXT, X|]. exists res. split; [rewrite B1; reflexivity|]. cbn [app] in *. constructor; rewrite ?app_nil_r.
  - exact TS.
  - intros n. cbn. rewrite C2. reflexivity.
  - intros s. cbn [cLiteralIndex setLiteralIndex]. rewrite LI, mem_firsts. reflexivity.
  - intros _ s [].
  - cbn. rewrite E4. exact A6.
  - cbn. rewrite E5. exact A7.
  - cbn. rewrite E6. exact A8.
  - cbn. rewrite E7. exact A9.
  - reflexivity.
  - exact ER.
Qed.
(** ** Nodes *)
Lemma nodeIndex_is n : forall names i, nodeIndex i n names = if mem n names then Some (i + position n names) else None.
Proof.
  induction names as [|x names IH]; intros i; [reflexivity|]. cbn [nodeIndex position]. change (mem n (x :: names)) with (nameEqb n x || mem n names). destruct (nameEqb n x); cbn [orb]; [rewrite Z.add_0_r; reflexivity|]. rewrite IH. destruct (mem n names); [|reflexivity]. f_equal. lia.
Qed.
Lemma zget_map {A B} (f : A -> B) l i : zget (map f l) i = option_map f (zget l i).
Proof. unfold zget. destruct (_ <? _); try reflexivity; try (destruct (_ <? _); try reflexivity); generalize (Z.to_nat i); induction l as [|x l IH]; intros [|k]; cbn; auto. Qed.
Lemma upd_map {B} (df : name -> B) l n b : NoDup l -> In n l -> upd (map df l) (Z.to_nat (position n l)) b = map (fun x => if nameEqb x n then b else df x) l.
Proof.
  induction l as [|x l IH]; intros ND [].
  - subst x. cbn [position map]. rewrite nameEqb_refl. cbn. f_equal. inversion ND as [|? ? N _]; subst. apply map_ext_in. intros y I. rewrite (proj2 (nameEqb_not y n)); [reflexivity|intros ->; contradiction].
  - inversion ND as [|? ? N ND']; subst. cbn [position map]. assert (NE : n <> x) by (intros ->; contradiction). rewrite (proj2 (nameEqb_not n x) NE), (proj2 (nameEqb_not x n) (not_eq_sym NE)). pose proof (position_range n l H). replace (Z.to_nat (1 + position n l)) with (S (Z.to_nat (position n l))) by lia. cbn. f_equal. apply IH; assumption.
Qed.
Section Nodes.
Variables (rs : list record) (res : list (name * name)).
Notation strs := (stringsIn any rs).
Definition runs {X} (m : M X) (ok : Prop) (ns us : list name) (val : list name -> list name -> X) : Prop :=
  forall N U df ls c, St rs res N U df ls c ->
  match m c with
  | ROk x c' => ok /\ St rs res (N ++ ns) (U ++ us) df ls c' /\ forall N' U', x = val (firsts (N ++ ns ++ N')) (firsts (strs ++ U ++ us ++ U'))
  | RFail _ _ => ~ ok
  | _ => False
  end.
Lemma runs_ret {X} (x : X) : runs (ret x) True [] [] (fun _ _ => x).
Proof. intros N U df ls c S. cbn. rewrite !app_nil_r. auto. Qed.
Lemma runs_map {X Y} (m : M X) (g : X -> Y) ok ns us val : runs m ok ns us val -> runs (let* x := m in ret (g x)) ok ns us (fun a b => g (val a b)).
Proof. intros R N U df ls c S. unfold bind. specialize (R N U df ls c S). destruct (m c); try exact R. destruct R as (A & B & D). split; [exact A|]. split; [exact B|]. intros N' U'. f_equal. apply D. Qed.
Lemma runs_each {A X} (f : A -> M X) (ok : A -> Prop) (ns us : A -> list name) (val : A -> list name -> list name -> X) l : Forall (fun a => runs (f a) (ok a) (ns a) (us a) (val a)) l ->
  runs (mapM f l) (Forall ok l) (flat ns l) (flat us l) (fun a b => map (fun x => val x a b) l).
Proof.
  induction 1 as [|a l R F IH]; intros N U df ls c S.
  - cbn. rewrite !app_nil_r. auto.
  - cbn [mapM]. unfold bind. specialize (R N U df ls c S). destruct (f a c) as [x c1|e c1| |]; try exact R; [|intros X0; apply R; inversion X0; assumption]. destruct R as (O1 & S1 & V1). specialize (IH _ _ _ _ _ S1). destruct (mapM f l c1) as [y c2|e c2| |]; try exact IH; [|intros X0; apply IH; inversion X0; assumption]. destruct IH as (O2 & S2 & V2). unfold ret.
    rewrite !flat_cons. rewrite <- !app_assoc in *. split; [constructor; assumption|]. split; [exact S2|]. intros N' U'. rewrite <- !app_assoc. cbn [map]. f_equal; [apply V1|]. rewrite (V2 N' U'). apply map_ext. intros z. rewrite <- !app_assoc. reflexivity.
Qed.
(** any extension of [df] *)
Lemma st_node N U df ls c n : St rs res N U df ls c -> ~ In n N -> forall df', (forall x, x <> n -> df' x = df x) -> St rs res (N ++ [n]) U df' ls (setNodes (cNames c ++ [n]) (cDefs c ++ [df' n]) c).
Proof.
  intros [B1 B2 B3 B4 B5 B6 B7 B8 B9 B10] NI df' H. assert (F : firsts (N ++ [n]) = firsts N ++ [n]) by (rewrite firsts_snoc, (proj2 (mem_not _ _) NI); reflexivity). constructor; cbn; rewrite ?F; auto.
  - rewrite B7. reflexivity.
  - rewrite B8, map_app. f_equal. apply map_ext_in. intros x I. symmetry. apply H. intros ->. apply NI, firsts_In, I.
  - intros x I. rewrite in_app_iff in I. rewrite H; [apply B9; tauto|]. intros ->. apply I. right. left. reflexivity.
Qed.
Lemma st_again N U df ls c n : St rs res N U df ls c -> In n N -> forall df' b, (forall x, x <> n -> df' x = df x) -> b = df' n -> St rs res (N ++ [n]) U df' ls (setNodes (cNames c) (upd (cDefs c) (Z.to_nat (position n (firsts N))) b) c).
Proof.
  intros [B1 B2 B3 B4 B5 B6 B7 B8 B9 B10] I df' b H ->. assert (F : firsts (N ++ [n]) = firsts N) by (rewrite firsts_snoc, (proj2 (mem_In _ _) I); reflexivity). constructor; cbn; rewrite ?F; auto.
  - rewrite B8, upd_map; [|apply firsts_NoDup|apply firsts_In, I]. apply map_ext. intros x. destruct (nameEqb x n) eqn:E; [apply nameEqb_ok in E; subst x; reflexivity|]. symmetry. apply H. apply nameEqb_not, E.
  - intros x NI. rewrite in_app_iff in NI. rewrite H; [apply B9; tauto|]. intros ->. tauto.
Qed.
Lemma def_at N U df ls c n : St rs res N U df ls c -> In n N -> nodeIndex 0 n (cNames c) = Some (position n (firsts N)) /\ zget (cDefs c) (position n (firsts N)) = Some (df n).
Proof.
  intros S I. rewrite (s_names _ _ _ _ _ _ _ S), (s_defs _ _ _ _ _ _ _ S). rewrite nodeIndex_is, mem_firsts, (proj2 (mem_In _ _) I). split; [reflexivity|]. rewrite zget_map, position_get by (apply firsts_In, I). reflexivity.
Qed.
Lemma no_def N U df ls c n : St rs res N U df ls c -> ~ In n N -> nodeIndex 0 n (cNames c) = None.
Proof. intros S I. rewrite (s_names _ _ _ _ _ _ _ S), nodeIndex_is, mem_firsts, (proj2 (mem_not _ _) I). reflexivity. Qed.
Definition nodeDf (n : name) (define : bool) (df : name -> option chunk) : name -> option chunk :=
  fun x => match df x with None => if define && nameEqb x n then Some (CGroup false false []) else None | d => d end.
Lemma addNode_run N U df ls c n define : St rs res N U df ls c -> exists c', addNode n define c = ROk (position n (firsts (N ++ [n]))) c' /\ St rs res (N ++ [n]) U (nodeDf n define df) ls c'.
Proof.
  intros S. assert (O : forall x, x <> n -> nodeDf n define df x = df x) by (intros x NE; unfold nodeDf; rewrite (proj2 (nameEqb_not x n) NE), andb_false_r; destruct (df x); reflexivity).
  unfold addNode. rewrite (bind_ok (get cNames) _ c (cNames c) c eq_refl). destruct (In_dec_name n N) as [I|I].
  - destruct (def_at _ _ _ _ _ n S I) as (E1 & E2). rewrite E1. unfold bind, get, orCrash, modify, ret. rewrite E2. assert (F : firsts (N ++ [n]) = firsts N) by (rewrite firsts_snoc, (proj2 (mem_In _ _) I); reflexivity). rewrite F. eexists. split; [reflexivity|]. destruct (df n) as [d|] eqn:D.
    + assert (W : setNodes (cNames c) (cDefs c) c = setNodes (cNames c) (upd (cDefs c) (Z.to_nat (position n (firsts N))) (Some d)) c).
      { f_equal. symmetry. apply upd_same. rewrite zget_nth in E2; [exact E2|]. apply position_range, firsts_In, I. }
      rewrite W. apply (st_again _ _ _ _ _ _ S I); [exact O|]. unfold nodeDf. rewrite D. reflexivity.
    + apply (st_again _ _ _ _ _ _ S I); [exact O|]. unfold nodeDf. rewrite D, nameEqb_refl, andb_true_r. reflexivity.
  - rewrite (no_def _ _ _ _ _ _ S I). unfold bind, modify, ret. assert (F : firsts (N ++ [n]) = firsts N ++ [n]) by (rewrite firsts_snoc, (proj2 (mem_not _ _) I); reflexivity). rewrite F, position_new by (rewrite firsts_In; exact I). eexists. split; [rewrite (s_names _ _ _ _ _ _ _ S); reflexivity|].
    assert (W : (if define then Some (CGroup false false []) else None) = nodeDf n define df n) by (unfold nodeDf; rewrite (s_new _ _ _ _ _ _ _ S n I), nameEqb_refl, andb_true_r; reflexivity). rewrite W. rewrite <- (s_names _ _ _ _ _ _ _ S). eapply st_node; eassumption.
Qed.
Lemma st_ext N U df df' ls c : (forall x, df x = df' x) -> St rs res N U df ls c -> St rs res N U df' ls c.
Proof. intros H [B1 B2 B3 B4 B5 B6 B7 B8 B9 B10]. constructor; auto; [rewrite B8; apply map_ext, H|intros x I; rewrite <- H; auto]. Qed.
(** *** Variants *)
Definition okVar (v : variant) : Prop :=
  (forall x, In x (typesUsed v) -> In x (typeNames rs) /\ listed DSide x rs = false /\ listed DError x rs = false) /\
  (stringsIn (dirEqb DLiteral) rs <> [] -> forall s, In s (literalsIn v) -> In s strs).
Fixpoint chunkW (names lits : list name) (v : variant) : chunk :=
  match v with
  | VNode n => CNode (position n names)
  | VType n => CTok (position n (typeNames rs))
  | VEnd => CEoi
  | VLiteral s => CTok (zlen (typeNames rs) + position s lits)
  | VList b l => CGroup (match b with Round => false | _ => true end) (match b with Curly => true | _ => false end) (map (fun i => oneOf (map (chunkW names lits) i)) l)
  end.
Lemma runs_ok {X} (m : M X) ok ok' ns us val : (ok <-> ok') -> runs m ok ns us val -> runs m ok' ns us val.
Proof. intros E R N U df ls c S. specialize (R N U df ls c S). destruct (m c); tauto. Qed.
Lemma runs_var : forall v, runs (iVar v) (okVar v) (nodesIn v) (literalsIn v) (fun a b => chunkW a b v).
Proof.
  apply variant_nested.
  - intros n. cbn [iVar nodesIn literalsIn chunkW]. apply (runs_ok _ True); [unfold okVar; cbn; split; [intros _; split; [intros x []|intros _ s []]|auto]|]. apply (runs_map _ CNode _ _ _ (fun a _ => position n a)). intros N U df ls c S. destruct (addNode_run N U df ls c n false S) as (c' & E & S'). rewrite E. rewrite app_nil_r. split; [exact I|]. split; [eapply st_ext; [|exact S']; intros x; unfold nodeDf; cbn [andb]; destruct (df x); reflexivity|].
    intros N' U'. rewrite app_assoc. symmetry. apply position_firsts. apply in_or_app. right. left. reflexivity.
  - intros n N U df ls c S. cbn [iVar nodesIn literalsIn chunkW]. rewrite !app_nil_r. unfold typeRef. rewrite (bind_ok (get cTokenIndex) _ c (cTokenIndex c) c eq_refl). rewrite (s_index _ _ _ _ _ _ _ S). destruct (mem n (typeNames rs)) eqn:M.
    + rewrite (bind_ok (get cTokens) _ c (cTokens c) c eq_refl). rewrite (s_tokens _ _ _ _ _ _ _ S). apply mem_In in M. pose proof (s_res _ _ _ _ _ _ _ S) as ER.
      assert (G : exists re, zget (types rs res ++ map (literalTokenNow rs) (firsts (strs ++ U))) (position n (typeNames rs)) = Some (typeTokenNow rs (n, re))).
      { rewrite <- (types_names rs res ER) in *. destruct (key_get gtName (types rs res) n M) as (t & G & K & IT). pose proof (position_range n _ M) as PR. unfold zlen in PR. rewrite map_length in PR. rewrite zget_app1 by apply PR. rewrite G. unfold types in IT. apply in_map_iff in IT. destruct IT as ((n', re) & <- & _). cbn in K. subst n'. exists re. reflexivity. }
      destruct G as (re & G). unfold orCrash. unfold bind at 1. rewrite G. cbn [typeTokenNow gtFlags fst]. rewrite flags_unused. destruct (listed DSide n rs || listed DError n rs) eqn:FL.
      * intros (X & _). destruct (X n (or_introl eq_refl)) as (_ & X1 & X2). rewrite X1, X2 in FL. discriminate.
      * apply orb_false_iff in FL. cbn. split; [|split; [exact S|reflexivity]]. split; [|intros _ s []]. intros x [<- |[]]. tauto.
    + intros (X & _). apply mem_not in M. apply M, (X n (or_introl eq_refl)).
  - cbn [iVar nodesIn literalsIn chunkW]. apply (runs_ok _ True); [unfold okVar; cbn; split; [intros _; split; [intros x []|intros _ s []]|auto]|]. apply runs_ret.
  - intros s N U df ls c S. cbn [iVar nodesIn literalsIn chunkW]. rewrite !app_nil_r. unfold literalRef. rewrite (bind_ok (get cLiteralIndex) _ c (cLiteralIndex c) c eq_refl). rewrite (s_lindex _ _ _ _ _ _ _ S).
    assert (FIN : forall U', firsts (strs ++ U ++ [s] ++ U') = firsts ((strs ++ U ++ [s]) ++ U')) by (intros U'; rewrite <- !app_assoc; reflexivity). assert (IS : In s (strs ++ U ++ [s])) by (rewrite !in_app_iff; right; right; left; reflexivity).
    destruct (mem s (strs ++ U)) eqn:M.
    + cbn. assert (F : firsts (strs ++ U ++ [s]) = firsts (strs ++ U)) by (rewrite app_assoc, firsts_snoc, M; reflexivity). assert (US : stringsIn (dirEqb DLiteral) rs <> [] -> In s strs). { intros R. apply mem_In in M. apply in_app_iff in M. destruct M as [M|M]; [exact M|]. apply (s_used _ _ _ _ _ _ _ S R s M). }
      split; [split; [intros x []|intros R x [<- |[]]; apply US, R]|]. split.
      * destruct S as [B1 B2 B3 B4 B5 B6 B7 B8 B9 B10]. constructor; rewrite ?F; auto; [|intros R x I; apply in_app_iff in I; destruct I as [I|[<- |[]]]; auto]. intros x. rewrite B3. rewrite (app_assoc strs), (mem_app x (strs ++ U)), mem_one. destruct (nameEqb x s) eqn:E; [apply nameEqb_ok in E; subst x; rewrite M; reflexivity|rewrite orb_false_r; reflexivity].
      * intros N' U'. f_equal. f_equal. cbn [app] in FIN. rewrite FIN, (position_firsts s (strs ++ U ++ [s]) U') by exact IS. rewrite F. reflexivity.
    + rewrite (bind_ok (get cRestrictLiterals) _ c (cRestrictLiterals c) c eq_refl). rewrite (s_restrict _ _ _ _ _ _ _ S). pose proof (proj1 (mem_not _ _) M) as NI. rewrite in_app_iff in NI. destruct (stringsIn (dirEqb DLiteral) rs) as [|x0 l0] eqn:RL; cbn [some].
      2:{ intros (_ & X). rewrite RL in X. apply NI. left. apply X; [discriminate|left; reflexivity]. }
      unfold useLiteralToken. rewrite bind_assoc. rewrite (bind_ok (get cLiteralIndex) _ c (cLiteralIndex c) c eq_refl). rewrite (s_lindex _ _ _ _ _ _ _ S), M. unfold bind, get, modify, ret.
      assert (F : firsts (strs ++ U ++ [s]) = firsts (strs ++ U) ++ [s]) by (rewrite app_assoc, firsts_snoc, M; reflexivity). assert (NF : ~ In s (firsts (strs ++ U))) by (rewrite firsts_In, in_app_iff; exact NI).
      assert (LN : zlen (cTokens c) = zlen (typeNames rs) + zlen (firsts (strs ++ U))) by (rewrite (s_tokens _ _ _ _ _ _ _ S), <- (types_len rs res (s_res _ _ _ _ _ _ _ S)); unfold zlen; rewrite app_length, map_length; lia).
      split; [split; [intros x []|intros R; rewrite RL in R; congruence]|]. split.
      * destruct S as [B1 B2 B3 B4 B5 B6 B7 B8 B9 B10]. constructor; cbn [cTokens cTokenIndex cLiteralIndex setLiteralIndex setTokens cRestrictLiterals cLayers cNames cDefs]; rewrite ?F; auto; [| |rewrite RL; congruence].
        -- rewrite B1, map_app, <- app_assoc. do 2 f_equal. cbn [map]. f_equal. unfold literalTokenNow. f_equal. assert (NR : reservedNow s rs = false) by (apply reservedNow_none, mem_not; intros X; apply NI; left; exact X). rewrite NR. reflexivity.
        -- intros x. rewrite nput_get, B3, (app_assoc strs), (mem_app x (strs ++ U)), mem_one. destruct (nameEqb x s) eqn:E.
           ++ apply nameEqb_ok in E. subst x. rewrite orb_true_r, position_new by exact NF. rewrite LN. reflexivity.
           ++ rewrite orb_false_r. destruct (mem x (strs ++ U)) eqn:MX; [|reflexivity]. rewrite position_app; [reflexivity|apply firsts_In, mem_In, MX].
      * intros N' U'. f_equal. cbn [app] in FIN |- *. rewrite FIN, (position_firsts s (strs ++ U ++ [s]) U') by exact IS. rewrite F, position_new by exact NF. exact LN.
  - intros b l F. cbn [iVar nodesIn literalsIn chunkW].
    apply (runs_ok _ (Forall (Forall okVar) l)).
    { unfold okVar. split.
      - intros H. split.
        + intros x I. cbn [typesUsed] in I. apply flat_In in I. destruct I as (i & I1 & I). apply flat_In in I. destruct I as (v & I2 & I). rewrite Forall_forall in H. specialize (H i I1). rewrite Forall_forall in H. apply (H v I2), I.
        + intros R x I. cbn [literalsIn] in I. apply flat_In in I. destruct I as (i & I1 & I). apply flat_In in I. destruct I as (v & I2 & I). rewrite Forall_forall in H. specialize (H i I1). rewrite Forall_forall in H. apply (H v I2); assumption.
      - intros (H1 & H2). apply Forall_forall. intros i I1. apply Forall_forall. intros v I2. split.
        + intros x I. apply H1. cbn [typesUsed]. apply flat_In. exists i. split; [exact I1|]. apply flat_In. exists v. auto.
        + intros R x I. apply (H2 R). cbn [literalsIn]. apply flat_In. exists i. split; [exact I1|]. apply flat_In. exists v. auto. }
    apply (runs_map _ (CGroup _ _) _ _ _ (fun a b => map (fun i => oneOf (map (chunkW a b) i)) l)). apply (runs_each _ (Forall okVar) (flat nodesIn) (flat literalsIn) (fun i a b => oneOf (map (chunkW a b) i))). eapply Forall_impl; [|exact F]. intros i Fi. apply (runs_map _ oneOf _ _ _ (fun a b => map (chunkW a b) i)). apply (runs_each _ okVar nodesIn literalsIn (fun v a b => chunkW a b v)). exact Fi.
Qed.
Definition okSeq (l : sequence) : Prop := okVar (VList Round l).
Definition seqW (a b : list name) (l : sequence) : list chunk := map (fun i => oneOf (map (chunkW a b) i)) l.
Lemma runs_seq l : runs (iSeq l) (okSeq l) (seqNodes l) (seqLiterals l) (fun a b => seqW a b l).
Proof.
  pose proof (runs_var (VList Round l)) as R. cbn [iVar] in R. change (mapM (fun vs : list variant => let* xs := mapM iVar vs in ret (oneOf xs)) l) with (iSeq l) in R. intros N U df ls c S. specialize (R N U df ls c S). unfold bind in R. destruct (iSeq l c) as [x c'|e c'| |]; try exact R. cbn in R. destruct R as (R1 & R2 & R3). split; [exact R1|]. split; [exact R2|]. intros N' U'. specialize (R3 N' U'). injection R3 as ->. reflexivity.
Qed.
(** *** Definitions of nodes *)
Definition mentioned (l : list record) : list name := flat (fun r => match r with RNode n s => n :: seqNodes s | _ => [] end) l.
Definition defines (x : name) (r : record) : bool := match r with RNode n _ => nameEqb x n | _ => false end.
Definition defsOf (a b : list name) (l : list record) (x : name) : option chunk :=
  match find (defines x) l with Some (RNode _ s) => Some (CGroup false false (seqW a b s)) | _ => None end.
Lemma find_snoc {A} (p : A -> bool) l x : find p (l ++ [x]) = match find p l with Some y => Some y | None => if p x then Some x else None end.
Proof. induction l as [|y l IH]; cbn; [destruct (p x); reflexivity|]. destruct (p y); [reflexivity|exact IH]. Qed.
Lemma defsOf_none a b l x : defsOf a b l x = None <-> ~ In x (nodesDefined l).
Proof.
  unfold defsOf, nodesDefined. induction l as [|r l IH]; cbn [find]; [split; [intros _ []|reflexivity]|]. rewrite flat_cons, in_app_iff. destruct r as [d args|n ps|n ps|y|n s]; cbn [defines In]; try (rewrite IH; tauto). destruct (nameEqb x n) eqn:E.
  - apply nameEqb_ok in E. subst n. split; [discriminate|]. intros N. exfalso. apply N. auto.
  - apply nameEqb_not in E. rewrite IH. split; [intros N [[X|[]]|X]; [congruence|exact (N X)]|intros N X; apply N; auto].
Qed.
Lemma st_same N N' U df ls c : firsts N = firsts N' -> St rs res N U df ls c -> St rs res N' U df ls c.
Proof. intros E [B1 B2 B3 B4 B5 B6 B7 B8 B9 B10]. rewrite E in *. constructor; auto. intros x I. apply B9. rewrite <- firsts_In, E, firsts_In. exact I. Qed.
Definition okRecord (r : record) : Prop := match r with RNode _ l => okSeq l | _ => True end.
Lemma nodeFree_run N U df ls c n : St rs res N U df ls c -> match nodeFree n c with ROk _ c' => df n = None /\ c' = c | RFail _ _ => df n <> None | _ => False end.
Proof.
  intros S. unfold nodeFree. rewrite (bind_ok (get cNames) _ c (cNames c) c eq_refl). destruct (In_dec_name n N) as [I|I].
  - destruct (def_at _ _ _ _ _ n S I) as (E1 & E2). rewrite E1. unfold bind, get, orCrash. rewrite E2. destruct (df n); [cbn; discriminate|cbn; auto].
  - rewrite (no_def _ _ _ _ _ _ S I). cbn. split; [apply (s_new _ _ _ _ _ _ _ S n I)|reflexivity].
Qed.
Lemma node_run l N U df ls c n : St rs res N U df ls c ->
  match iRecord compiles (RNode n l) c with
  | ROk _ c' => df n = None /\ okSeq l /\ forall N' U', exists df', St rs res (N ++ n :: seqNodes l) (U ++ seqLiterals l) df' ls c' /\ forall x, df' x = if nameEqb x n then Some (CGroup false false (seqW (firsts (N ++ (n :: seqNodes l) ++ N')) (firsts (strs ++ U ++ seqLiterals l ++ U')) l)) else df x
  | RFail _ _ => ~ (df n = None /\ okSeq l)
  | _ => False
  end.
Proof.
  intros S. cbn [iRecord]. pose proof (nodeFree_run N U df ls c n S) as F. unfold bind at 1. destruct (nodeFree n c) as [u c0|e c0| |]; try exact F; [|tauto]. destruct F as (DN & ->). clear u. destruct (addNode_run N U df ls c n true S) as (c1 & E1 & S1). rewrite (bind_ok _ _ _ _ _ E1). pose proof (runs_seq l _ _ _ _ _ S1) as R. unfold bind. destruct (iSeq l c1) as [cs c2|e c2| |]; try exact R; [|tauto]. destruct R as (O & S2 & V). unfold modify. split; [exact DN|]. split; [exact O|]. intros N' U'.
  set (df' := fun x => if nameEqb x n then Some (CGroup false false cs) else df x). exists df'. split.
  - assert (I : In n ((N ++ [n]) ++ seqNodes l)) by (rewrite !in_app_iff; left; right; left; reflexivity). rewrite <- (position_firsts n (N ++ [n]) (seqNodes l)) by (apply in_or_app; right; left; reflexivity).
    assert (O' : forall x, x <> n -> df' x = nodeDf n true df x) by (intros x NE; unfold df', nodeDf; rewrite (proj2 (nameEqb_not x n) NE); cbn [andb]; destruct (df x); reflexivity).
    pose proof (st_again _ _ _ _ _ n S2 I df' (Some (CGroup false false cs)) O') as T. eapply st_same; [|apply T; unfold df'; rewrite nameEqb_refl; reflexivity]. rewrite firsts_snoc, (proj2 (mem_In _ _) I). rewrite <- app_assoc. reflexivity.
  - intros x. unfold df'. destruct (nameEqb x n); [|reflexivity]. f_equal. f_equal. rewrite (V N' U'). rewrite <- !app_assoc. reflexivity.
Qed.
Lemma mentioned_snoc l r : mentioned (l ++ [r]) = mentioned l ++ (match r with RNode n s => n :: seqNodes s | _ => [] end).
Proof. unfold mentioned. rewrite flat_app, flat_one. reflexivity. Qed.
Lemma used_snoc l r : usedLiterals (l ++ [r]) = usedLiterals l ++ (match r with RNode n s => seqLiterals s | _ => [] end).
Proof. unfold usedLiterals. rewrite flat_app, flat_one. reflexivity. Qed.
Lemma nodes_run (a b : list name) : forall todo don c, a = firsts (mentioned (don ++ todo)) -> b = firsts (strs ++ usedLiterals (don ++ todo)) ->
  St rs res (mentioned don) (usedLiterals don) (defsOf a b don) (layersOf rs ++ layersOf don) c -> NoDup (nodesDefined don) -> Forall laterRecord todo ->
  match iRecords compiles todo c with
  | ROk _ c' => NoDup (nodesDefined (don ++ todo)) /\ Forall okRecord todo /\ St rs res (mentioned (don ++ todo)) (usedLiterals (don ++ todo)) (defsOf a b (don ++ todo)) (layersOf rs ++ layersOf (don ++ todo)) c'
  | RFail _ _ => ~ (NoDup (nodesDefined (don ++ todo)) /\ Forall okRecord todo)
  | _ => False
  end.
Proof.
  induction todo as [|r todo IH]; intros don c EA EB S ND LR.
  - rewrite app_nil_r. cbn. auto.
  - pose proof (Forall_inv LR) as L1. pose proof (Forall_inv_tail LR) as L2. unfold iRecords. cbn [each]. unfold bind. replace (don ++ r :: todo) with ((don ++ [r]) ++ todo) in * by (rewrite <- app_assoc; reflexivity).
    assert (G : forall c1, okRecord r -> St rs res (mentioned (don ++ [r])) (usedLiterals (don ++ [r])) (defsOf a b (don ++ [r])) (layersOf rs ++ layersOf (don ++ [r])) c1 -> NoDup (nodesDefined (don ++ [r])) ->
      match each (iRecord compiles) todo c1 with
      | ROk _ c' => NoDup (nodesDefined ((don ++ [r]) ++ todo)) /\ Forall okRecord (r :: todo) /\ St rs res (mentioned ((don ++ [r]) ++ todo)) (usedLiterals ((don ++ [r]) ++ todo)) (defsOf a b ((don ++ [r]) ++ todo)) (layersOf rs ++ layersOf ((don ++ [r]) ++ todo)) c'
      | RFail _ _ => ~ (NoDup (nodesDefined ((don ++ [r]) ++ todo)) /\ Forall okRecord (r :: todo))
      | _ => False end).
    { intros c1 OK S1 ND1. specialize (IH (don ++ [r]) c1 EA EB S1 ND1 L2). unfold iRecords in IH. destruct (each (iRecord compiles) todo c1); try exact IH; [destruct IH as (H1 & H2 & H3); auto|]. intros (H1 & H2). apply IH. inversion H2; auto. }
    destruct r as [d args|n ps|n ps|y|n l]; try (destruct L1 as [[]|[]]).
    + apply (G (setLayers (cLayers c ++ [y]) c)); [exact I| |unfold nodesDefined in *; rewrite flat_app; cbn; rewrite app_nil_r; exact ND]. rewrite mentioned_snoc, used_snoc, !app_nil_r. destruct S as [B1 B2 B3 B4 B5 B6 B7 B8 B9 B10].
      assert (E : forall x, defsOf a b (don ++ [RLayer y]) x = defsOf a b don x) by (intros x; unfold defsOf; rewrite find_snoc; cbn [defines]; destruct (find (defines x) don); reflexivity).
      constructor; auto.
      * cbn. rewrite B6, layersOf_app, app_assoc. reflexivity.
      * cbn. rewrite B8. apply map_ext. intros x. symmetry. apply E.
      * intros x NI. rewrite E. apply B9, NI.
    + pose proof (node_run l _ _ _ _ _ n S) as R. destruct (iRecord compiles (RNode n l) c) as [u c1|e c1| |]; try exact R.
      * destruct R as (DN & OK & R). destruct (R (mentioned todo) (usedLiterals todo)) as (df' & S1 & E). apply G; [exact OK| |].
        -- rewrite mentioned_snoc, used_snoc. replace (layersOf (don ++ [RNode n l])) with (layersOf don) by (rewrite layersOf_app; symmetry; apply app_nil_r). eapply st_ext; [|exact S1]. intros x. rewrite E. unfold defsOf at 2. rewrite find_snoc. cbn [defines]. destruct (nameEqb x n) eqn:Q.
           ++ apply nameEqb_ok in Q. subst x. unfold defsOf in DN. destruct (find (defines n) don) as [r|] eqn:FD.
              ** apply find_some in FD. destruct FD as (_ & FD). destruct r; try discriminate FD. discriminate DN.
              ** f_equal. f_equal. rewrite EA, EB. unfold mentioned, usedLiterals. rewrite !flat_app, !flat_one, <- !app_assoc. reflexivity.
           ++ unfold defsOf. destruct (find (defines x) don); reflexivity.
        -- apply defsOf_none in DN. unfold nodesDefined in *. rewrite flat_app, flat_one. apply (NoDup_Add (a := n) (l := nodesDefined don)); [|split; [exact ND|exact DN]]. rewrite <- (app_nil_r (nodesDefined don)) at 1. apply Add_app.
      * intros (H1 & H2). apply R. split; [|inversion H2; assumption]. apply (proj2 (defsOf_none a b don n)). unfold nodesDefined in H1. rewrite flat_app in H1. apply NoDup_left in H1. rewrite flat_app, flat_one in H1. apply NoDup_remove_2 in H1. rewrite app_nil_r in H1. exact H1.
Qed.
End Nodes.
End R.
