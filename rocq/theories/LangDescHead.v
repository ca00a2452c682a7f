(** The part of a description before the first node: what has been collected is what the records read say (LangDescSpec.v). *)
From Coq Require Import ZArith List Bool Lia.
From Verif Require Import Base BaseProofs Grammar LangBuild LangTypes LangText LangTextSpec LangTextTotal LangDescSpec LangDescParse LangDescFacts.
Import ListNotations.
Open Scope Z_scope.

Section R.
Variable compiles : name -> bool.
(** ** Regular expressions *)
Definition regStep (env : list (name * name)) (r : record) : option (list (name * name) * list (name * name)) :=
  match r with
  | RTemplate n ps => do re <- joined env ps ; if compiles re && negb (mem n (map fst env)) then Some ((n, re) :: env, []) else None
  | RType n ps => do re <- joined env ps ; if compiles re then Some (env, [(n, re)]) else None
  | _ => Some (env, [])
  end.
Fixpoint regs (env : list (name * name)) (rs : list record) : option (list (name * name) * list (name * name)) :=
  match rs with
  | [] => Some (env, [])
  | r :: rs => do p <- regStep env r ; do q <- regs (fst p) rs ; Some (fst q, snd p ++ snd q)
  end.
Lemma regexps_regs rs : forall env, regexps compiles env rs = option_map snd (regs env rs).
Proof.
  induction rs as [|r rs IH]; intros env; [reflexivity|]. destruct r as [d l|n ps|n ps|l|n l]; cbn [regexps regs regStep obind fst snd app]; rewrite ?IH.
  - destruct (regs env rs); reflexivity.
  - destruct (joined env ps) as [re|]; cbn [obind]; [|reflexivity]. destruct (compiles re && negb (mem n (map fst env))); cbn [obind fst snd]; [|reflexivity]. rewrite IH. destruct (regs _ rs); reflexivity.
  - destruct (joined env ps) as [re|]; cbn [obind]; [|reflexivity]. destruct (compiles re); cbn [obind fst snd]; [|reflexivity]. destruct (regs _ rs); reflexivity.
  - destruct (regs env rs); reflexivity.
  - destruct (regs env rs); reflexivity.
Qed.
Lemma regs_app a : forall env b, regs env (a ++ b) = do p <- regs env a ; do q <- regs (fst p) b ; Some (fst q, snd p ++ snd q).
Proof.
  induction a as [|r a IH]; intros env b; cbn [app regs obind fst snd].
  - destruct (regs env b) as [(x, y)|]; reflexivity.
  - destruct (regStep env r) as [(x, y)|]; cbn [obind fst snd]; [|reflexivity]. rewrite IH. destruct (regs x a) as [(x', y')|]; cbn [obind fst snd]; [|reflexivity]. destruct (regs x' b) as [(x'', y'')|]; cbn [obind fst snd]; [|reflexivity]. rewrite app_assoc. reflexivity.
Qed.
Lemma regs_snoc a r env : regs env (a ++ [r]) = do p <- regs env a ; do q <- regStep (fst p) r ; Some (fst q, snd p ++ snd q).
Proof. rewrite regs_app. destruct (regs env a) as [(x, y)|]; cbn [obind fst snd regs]; [|reflexivity]. destruct (regStep x r) as [(x', y')|]; cbn [obind fst snd]; [|reflexivity]. rewrite app_nil_r. reflexivity. Qed.
Lemma regs_plus rs d args env : regs env (plus rs d args) = regs env rs.
Proof. unfold plus. rewrite regs_snoc. destruct (regs env rs) as [(x, y)|]; cbn; [rewrite app_nil_r|]; reflexivity. Qed.
Lemma nget_mem {V} n (m : list (name * V)) : match nget n m with Some _ => true | None => false end = mem n (map fst m).
Proof. induction m as [|(k, v) m IH]; [reflexivity|]. cbn [nget map fst]. change (mem n (k :: map fst m)) with (nameEqb n k || mem n (map fst m)). destruct (nameEqb n k); [reflexivity|exact IH]. Qed.
(** regular expressions are not empty *)
Definition solid (r : record) : Prop :=
  match r with
  | RTemplate _ ps | RType _ ps => ps <> [] /\ Forall (fun p => match p with PRegexp re => re <> [] | _ => True end) ps
  | _ => True
  end.
Lemma joined_solid (env : list (name * name)) ps (re : name) : ps <> [] -> Forall (fun p => match p with PRegexp re => re <> [] | _ => True end) ps -> Forall (fun p => snd p <> []) env -> joined env ps = Some re -> re <> [].
Proof.
  intros NE F E. destruct ps as [|p ps]; [contradiction|]. inversion F as [|? ? H _]; subst. cbn [joined]. intros J X. subst re. destruct p as [r|n]; cbn [obind] in J.
  - destruct (joined env ps); cbn [obind] in J; [|discriminate]. injection J as J. apply app_eq_nil in J. tauto.
  - destruct (nget n env) as [s|] eqn:G; cbn [obind] in J; [|discriminate]. destruct (joined env ps); cbn [obind] in J; [|discriminate]. injection J as J. apply app_eq_nil in J. destruct J as (-> & _). clear - G E. induction E as [|(k, v) env H E IH]; [discriminate|]. cbn in G. destruct (nameEqb n k); [injection G as ->; apply H; reflexivity|auto].
Qed.

(** ** Types *)
Definition nr (t : gtoken) : name * name := (gtName t, gtRe t).
Record InvT (rs : list record) (tpl : list (name * name)) (ts : list gtoken) (ix : list (name * Z)) (ex : list extra) (xi : list (name * Z)) : Prop := mkT' {
  t_regs : regs [] rs = Some (tpl, map nr ts);
  t_names : map gtName ts = defined rs;
  t_nodup : NoDup (defined rs);
  t_val : Forall (fun t => gtGroup t = groupNow (gtName t) rs /\ gtFlags t = rawFlags (gtName t) rs) ts;
  t_index : forall n, nget n ix = if mem n (defined rs) then Some (position n (defined rs)) else None;
  t_extra : map eName ex = firsts (early [] rs);
  t_extraV : Forall (fun e => ~ In (eName e) (defined rs) -> eGroup e = groupNow (eName e) rs /\ eFlags e = rawFlags (eName e) rs) ex;
  t_xindex : forall n, nget n xi = if negb (mem n (defined rs)) && mem n (early [] rs) then Some (position n (firsts (early [] rs))) else None;
  t_solid : Forall (fun t => gtRe t <> []) ts /\ Forall (fun p => snd p <> []) tpl
}.
Definition InvTc (rs : list record) (c : ctx) : Prop := InvT rs (cTemplates c) (cTokens c) (cTokenIndex c) (cExtra c) (cExtraIndex c).
Definition setTT ts ex xi c := setTokens ts (setExtra ex xi c).
(** one more mention of a type *)
Record adds (rs rs' : list record) (n : name) (gg ff : Z -> Z) : Prop := mkAdds {
  ad_regs : regs [] rs' = regs [] rs;
  ad_defined : defined rs' = defined rs;
  ad_early : early [] rs' = early [] rs ++ filter (notIn (defined rs)) [n];
  ad_other : forall m, m <> n -> groupNow m rs' = groupNow m rs /\ rawFlags m rs' = rawFlags m rs;
  ad_this : groupNow n rs' = gg (groupNow n rs) /\ rawFlags n rs' = ff (rawFlags n rs)
}.
Definition touchTok (gg ff : Z -> Z) (t : gtoken) := mkTok (gtName t) (gtRe t) (gg (gtGroup t)) (ff (gtFlags t)).
Definition touchExtra (gg ff : Z -> Z) (t : extra) := mkExtra (eName t) (gg (eGroup t)) (ff (eFlags t)).
Lemma map_if {X Y} (f : X -> Y) (b : X -> bool) (g : X -> X) l : (forall x, f (g x) = f x) -> map f (map (fun y => if b y then g y else y) l) = map f l.
Proof. intros H. rewrite map_map. apply map_ext. intros x. destruct (b x); auto. Qed.
Lemma touch_known rs rs' n gg ff tpl ts ix ex xi : adds rs rs' n gg ff -> InvT rs tpl ts ix ex xi -> In n (defined rs) ->
  exists t, nget n ix = Some (position n (defined rs)) /\ zget ts (position n (defined rs)) = Some t /\ gtGroup t = groupNow n rs /\ InvT rs' tpl (upd ts (Z.to_nat (position n (defined rs))) (touchTok gg ff t)) ix ex xi.
Proof.
  intros [A1 A2 A3 A4 A5] [T1 T2 T3 T4 T5 T6 T7 T8 T9] I. rewrite <- T2 in I. destruct (key_get gtName ts n I) as (t & G & K & IT). rewrite <- T2. exists t. pose proof (proj2 (mem_In _ _) I) as MI. split; [rewrite T5, <- T2, MI; reflexivity|]. split; [exact G|].
  split; [rewrite Forall_forall in T4; rewrite <- K; apply T4, IT|]. rewrite (key_upd gtName (touchTok gg ff) ts n t); [|rewrite T2; exact T3|exact G|exact I]. assert (EE : early [] rs' = early [] rs) by (rewrite A3; cbn [filter]; unfold notIn; rewrite <- T2, MI; apply app_nil_r).
  constructor; rewrite ?A1, ?A2, ?EE; try assumption.
  - rewrite map_if; [exact T1|reflexivity].
  - rewrite map_if; [exact T2|reflexivity].
  - rewrite Forall_forall in *. intros t' I'. apply in_map_iff in I'. destruct I' as (y & <- & IY). destruct (T4 y IY) as (G1 & F1). destruct (nameEqb (gtName y) n) eqn:E; [apply nameEqb_ok in E|apply nameEqb_not in E].
    + cbn. rewrite E in *. destruct A5 as (-> & ->). rewrite G1, F1. auto.
    + destruct (A4 _ E) as (-> & ->). auto.
  - rewrite Forall_forall in *. intros e IE NI. destruct (T7 e IE NI) as (G1 & F1). assert (N : eName e <> n) by (intros X; apply NI; rewrite X, <- T2; exact I). destruct (A4 _ N) as (-> & ->). auto.
  - destruct T9 as (T9 & T10). split; [|exact T10]. rewrite Forall_forall in *. intros t' I'. apply in_map_iff in I'. destruct I' as (y & <- & IY). destruct (nameEqb (gtName y) n); [apply (T9 y IY)|apply (T9 y IY)].
Qed.
Lemma touch_extra rs rs' n gg ff c : adds rs rs' n gg ff -> InvTc rs c -> ~ In n (defined rs) -> (~ In n (typesIn any rs) -> groupNow n rs = 0 /\ rawFlags n rs = 0) ->
  nget n (cTokenIndex c) = None /\ exists ex xi, (let* i := addExtraToken n in changeExtra i (touchExtra gg ff)) c = ROk tt (setTT (cTokens c) ex xi c) /\ InvT rs' (cTemplates c) (cTokens c) (cTokenIndex c) ex xi.
Proof.
  intros [A1 A2 A3 A4 A5] [T1 T2 T3 T4 T5 T6 T7 T8 T9] I Z0. pose proof (proj2 (mem_not _ _) I) as MI. split; [rewrite T5, MI; reflexivity|].
  assert (EE : early [] rs' = early [] rs ++ [n]) by (rewrite A3; cbn [filter]; unfold notIn; rewrite MI; reflexivity). unfold addExtraToken, bind, get. rewrite T8, MI. cbn [negb andb].
  assert (TV : forall ts, Forall (fun t => gtGroup t = groupNow (gtName t) rs /\ gtFlags t = rawFlags (gtName t) rs) ts -> ~ In n (map gtName ts) -> Forall (fun t => gtGroup t = groupNow (gtName t) rs' /\ gtFlags t = rawFlags (gtName t) rs') ts).
  { intros ts FT NI. rewrite Forall_forall in *. intros t IT. destruct (FT t IT) as (G1 & F1). assert (N : gtName t <> n) by (intros <-; apply NI, in_map, IT). destruct (A4 _ N) as (-> & ->). auto. }
  assert (EV : forall e, (~ In (eName e) (defined rs) -> eGroup e = groupNow (eName e) rs /\ eFlags e = rawFlags (eName e) rs) -> ~ In (eName e) (defined rs) -> let e' := (if nameEqb (eName e) n then touchExtra gg ff e else e) in eGroup e' = groupNow (eName e') rs' /\ eFlags e' = rawFlags (eName e') rs').
  { intros e H NI. destruct (H NI) as (G1 & F1). destruct (nameEqb (eName e) n) eqn:E; [apply nameEqb_ok in E|apply nameEqb_not in E]; cbn.
    - rewrite E in *. destruct A5 as (-> & ->). rewrite G1, F1. auto.
    - destruct (A4 _ E) as (-> & ->). auto. }
  destruct (mem n (early [] rs)) eqn:ME.
  - assert (EE' : firsts (early [] rs') = firsts (early [] rs)) by (rewrite EE, firsts_snoc, ME; reflexivity). assert (IX : In n (map eName (cExtra c))) by (rewrite T6; apply firsts_In, mem_In, ME). destruct (key_get eName (cExtra c) n IX) as (e & G & K & IE). rewrite T6 in G. cbn [ret]. unfold ret, changeExtra. rewrite G.
    exists (upd (cExtra c) (Z.to_nat (position n (firsts (early [] rs)))) (touchExtra gg ff e)), (cExtraIndex c). split; [reflexivity|]. rewrite <- T6 in G |- *. rewrite (key_upd eName (touchExtra gg ff) (cExtra c) n e); [|rewrite T6; apply firsts_NoDup|exact G|exact IX].
    constructor; rewrite ?A1, ?A2, ?EE'; try assumption.
    + apply TV; [exact T4|rewrite T2; exact I].
    + rewrite map_if; [exact T6|reflexivity].
    + rewrite Forall_forall in *. intros e' I'. apply in_map_iff in I'. destruct I' as (y & <- & IY). intros NI. apply (EV y (T7 y IY)). destruct (nameEqb (eName y) n); exact NI.
    + intros m. rewrite T8. f_equal. rewrite EE, mem_app, mem_one. destruct (nameEqb m n) eqn:E; [apply nameEqb_ok in E; subst m; rewrite ME; reflexivity|rewrite orb_false_r; reflexivity].
  - cbn [modify ret]. unfold modify, ret, changeExtra. cbn [cExtra setExtra]. assert (GN : zget (cExtra c ++ [mkExtra n 0 0]) (zlen (cExtra c)) = Some (mkExtra n 0 0)). { rewrite zget_nth by (unfold zlen; lia). unfold zlen. rewrite Nat2Z.id, nth_error_app2, Nat.sub_diag by lia. reflexivity. }
    rewrite GN. assert (UP : upd (cExtra c ++ [mkExtra n 0 0]) (Z.to_nat (zlen (cExtra c))) (touchExtra gg ff (mkExtra n 0 0)) = cExtra c ++ [touchExtra gg ff (mkExtra n 0 0)]).
    { unfold zlen. rewrite Nat2Z.id. generalize (cExtra c) as l. induction l as [|x l IH]; cbn; [reflexivity|]. f_equal. exact IH. }
    rewrite UP. exists (cExtra c ++ [touchExtra gg ff (mkExtra n 0 0)]), (nput n (zlen (cExtra c)) (cExtraIndex c)). split; [reflexivity|]. assert (NX : ~ In n (map eName (cExtra c))) by (rewrite T6, firsts_In, <- mem_not; exact ME). assert (EE' : firsts (early [] rs') = firsts (early [] rs) ++ [n]) by (rewrite EE, firsts_snoc, ME; reflexivity).
    assert (NA : ~ In n (typesIn any rs)) by (rewrite <- (early_in n rs []); [apply mem_not, ME|intros []|exact I]). destruct (Z0 NA) as (Z1 & Z2).
    constructor; rewrite ?A1, ?A2, ?EE'; try assumption.
    + apply TV; [exact T4|rewrite T2; exact I].
    + rewrite map_app, T6. reflexivity.
    + apply Forall_app. split; [|constructor; [|constructor]].
      * rewrite Forall_forall in *. intros e IE NI. assert (N : eName e <> n) by (intros <-; apply NX, in_map, IE). destruct (A4 _ N) as (-> & ->). apply T7; assumption.
      * intros _. cbn. destruct A5 as (-> & ->). rewrite Z1, Z2. auto.
    + intros m. cbn [cExtraIndex setExtra]. rewrite nput_get, T8, EE, mem_app, mem_one. destruct (nameEqb m n) eqn:E.
      * apply nameEqb_ok in E. subst m. rewrite MI, orb_true_r. cbn. f_equal. rewrite position_new; [rewrite <- T6; unfold zlen; rewrite map_length; reflexivity|rewrite firsts_In, <- mem_not; exact ME].
      * rewrite orb_false_r. destruct (negb (mem m (defined rs)) && mem m (early [] rs)) eqn:B; [|reflexivity]. f_equal. symmetry. apply position_app, firsts_In, mem_In. apply andb_true_iff in B. tauto.
Qed.
(** directives *)
Lemma zero_unlisted n rs : ~ In n (typesIn any rs) -> groupNow n rs = 0 /\ rawFlags n rs = 0.
Proof. intros N. split; [apply groupNow_none; intros I; apply N, group_any, I|apply rawFlags_none, N]. Qed.
Lemma adds_flag rs d args n : d <> DGroup -> adds (plus rs d args) (plus rs d (args ++ [AType n])) n (fun x => x) (fun x => Z.lor x (dirFlags d)).
Proof.
  intros D. constructor.
  - rewrite !regs_plus. reflexivity.
  - rewrite !defined_plus. reflexivity.
  - rewrite early_arg, defined_plus. reflexivity.
  - intros m N. rewrite !groupNow_plus by exact D. rewrite rawFlags_arg. cbn [argType]. rewrite mem_one, (proj2 (nameEqb_not m n) N). auto.
  - rewrite !groupNow_plus by exact D. rewrite rawFlags_arg. cbn [argType]. rewrite mem_one, nameEqb_refl. auto.
Qed.
Lemma adds_group rs args n : adds (plus rs DGroup args) (plus rs DGroup (args ++ [AType n])) n (fun _ => 1 + groups rs) (fun x => x).
Proof.
  constructor.
  - rewrite !regs_plus. reflexivity.
  - rewrite !defined_plus. reflexivity.
  - rewrite early_arg, defined_plus. reflexivity.
  - intros m N. rewrite !groupNow_group, rawFlags_arg. cbn [argType]. rewrite flat_app, flat_one, mem_app. cbn [argType]. rewrite mem_one, (proj2 (nameEqb_not m n) N), orb_false_r. auto.
  - rewrite groupNow_group, rawFlags_arg. cbn [argType]. rewrite flat_app, flat_one, mem_app. cbn [argType]. rewrite mem_one, nameEqb_refl, orb_true_r. cbn [dirFlags]. rewrite Z.lor_0_r. auto.
Qed.
Lemma addFlag_run rs d args n c : d <> DGroup -> InvTc (plus rs d args) c ->
  exists ts ex xi, addTokenFlag n (dirFlags d) c = ROk tt (setTT ts ex xi c) /\ InvT (plus rs d (args ++ [AType n])) (cTemplates c) ts (cTokenIndex c) ex xi.
Proof.
  intros D H. pose proof (adds_flag rs d args n D) as A. unfold addTokenFlag. destruct (In_dec_name n (defined (plus rs d args))) as [I|I].
  - destruct (touch_known _ _ _ _ _ _ _ _ _ _ A H I) as (t & G1 & G2 & _ & T). unfold bind, get. rewrite G1. unfold changeToken. rewrite G2. exists (upd (cTokens c) (Z.to_nat (position n (defined (plus rs d args)))) (tokFlag (dirFlags d) t)), (cExtra c), (cExtraIndex c). split; [reflexivity|exact T].
  - destruct (touch_extra _ _ _ _ _ _ A H I (zero_unlisted _ _)) as (G1 & ex & xi & G2 & T). unfold bind, get. rewrite G1. exists (cTokens c), ex, xi. split; [exact G2|exact T].
Qed.
Lemma group_run rs args n c : (In n (defined rs) -> ~ In n (typesIn (dirEqb DGroup) (plus rs DGroup args))) -> cGroup c = 1 + groups rs -> InvTc (plus rs DGroup args) c ->
  exists ts ex xi, groupToken n c = ROk tt (setTT ts ex xi c) /\ InvT (plus rs DGroup (args ++ [AType n])) (cTemplates c) ts (cTokenIndex c) ex xi.
Proof.
  intros NI CG H. pose proof (adds_group rs args n) as A. unfold groupToken. destruct (In_dec_name n (defined (plus rs DGroup args))) as [I|I].
  - destruct (touch_known _ _ _ _ _ _ _ _ _ _ A H I) as (t & G1 & G2 & G3 & T). unfold bind, get, orCrash. rewrite G1, G2. rewrite defined_plus in I. rewrite groupNow_none in G3 by exact (NI I). rewrite G3, CG. cbn [Z.eqb]. unfold changeToken. rewrite G2.
    exists (upd (cTokens c) (Z.to_nat (position n (defined (plus rs DGroup args)))) (mkTok (gtName t) (gtRe t) (1 + groups rs) (gtFlags t))), (cExtra c), (cExtraIndex c). split; [reflexivity|exact T].
  - destruct (touch_extra _ _ _ _ _ _ A H I (zero_unlisted _ _)) as (G1 & ex & xi & G2 & T). unfold bind, get. rewrite G1, CG. exists (cTokens c), ex, xi. split; [exact G2|exact T].
Qed.
Lemma group_fails rs args n c : In n (defined rs) -> In n (typesIn (dirEqb DGroup) (plus rs DGroup args)) -> InvTc (plus rs DGroup args) c -> groupToken n c = RFail (RE_reassignedGroup n) c.
Proof.
  intros I J H. pose proof (adds_group rs args n) as A. unfold groupToken. rewrite <- (defined_plus rs DGroup args) in I. destruct (touch_known _ _ _ _ _ _ _ _ _ _ A H I) as (t & G1 & G2 & G3 & T). unfold bind, get, orCrash. rewrite G1, G2. apply groupNow_pos in J. rewrite G3. destruct (Z.eqb_spec (groupNow n (plus rs DGroup args)) 0); [lia|reflexivity].
Qed.

(** ** All that is collected *)
Definition some {A} (l : list A) : bool := match l with [] => false | _ => true end.
Lemma some_snoc {A} (l : list A) x : some (l ++ [x]) = true. Proof. destruct l; reflexivity. Qed.
Definition found {V} (s : name) (m : list (name * V)) : bool := match nget s m with Some _ => true | None => false end.
Definition rawLiteral (rs : list record) (s : name) : name * Z := (s, flag (reservedNow s rs) ReservedToken).
Record Inv (rs : list record) (c : ctx) : Prop := mkI {
  v_types : InvTc rs c;
  v_lits : cLiterals c = map (rawLiteral rs) (firsts (stringsIn any rs));
  v_lindex : forall s, found s (cLiteralIndex c) = mem s (stringsIn any rs);
  v_group : cGroup c = groups rs;
  v_rt : cRestrictTypes c = some (typesIn (dirEqb DLiteral) rs);
  v_rl : cRestrictLiterals c = some (stringsIn (dirEqb DLiteral) rs);
  v_layers : cLayers c = layersOf rs;
  v_names : cNames c = [];
  v_defs : cDefs c = [];
  v_kept : groupsKept rs
}.
Definition fitArg (d : directive) (a : arg) : Prop := match a with AType _ => d <> DReserved | AString _ => d = DReserved \/ d = DLiteral end.
Definition act (d : directive) (a : arg) : M unit :=
  match d with
  | DGroup => match a with AType n => groupToken n | _ => ret tt end
  | DReserved => match a with AString s => addLiteralToken s ReservedToken | _ => ret tt end
  | DLiteral => match a with
                | AType n => modify (fun c => setRestrict true (cRestrictLiterals c) c) ;;; addTokenFlag n NoLiteralsToken
                | AString s => modify (fun c => setRestrict (cRestrictTypes c) true c) ;;; addLiteralToken s 0
                end
  | _ => match a with AType n => addTokenFlag n (dirFlags d) | _ => ret tt end
  end.
Lemma iDirective_is d args c : iDirective d args c = each (act d) args (match d with DGroup => setGroup (cGroup c + 1) c | _ => c end).
Proof. destruct d; reflexivity. Qed.
Lemma groups_arg rs d args args' : groups (plus rs d args) = groups (plus rs d args').
Proof. unfold plus. rewrite !groups_app. destruct d; reflexivity. Qed.
Lemma reserved_any s rs P : In s (stringsIn P rs) -> In s (stringsIn any rs).
Proof. unfold stringsIn. rewrite !flat_In. intros (r & I & J). exists r. split; [exact I|]. destruct r; try exact J. destruct (P d); [exact J|destruct J]. Qed.
Definition fitRecord (r : record) : Prop := match r with RDirective d args => Forall (fitArg d) args | _ => True end.
Lemma strings_two s rs : Forall fitRecord rs -> In s (stringsIn any rs) -> In s (stringsIn (dirEqb DReserved) rs) \/ In s (stringsIn (dirEqb DLiteral) rs).
Proof.
  intros F. unfold stringsIn. rewrite !flat_In. intros (r & I & J). rewrite Forall_forall in F. specialize (F r I). destruct r as [d l| | | |]; try destruct J. cbn in J, F. assert (D : d = DReserved \/ d = DLiteral).
  { apply flat_In in J. destruct J as (a & IA & JA). rewrite Forall_forall in F. specialize (F a IA). destruct a; [destruct JA|exact F]. }
  destruct D as [-> | ->]; [left|right]; eexists; (split; [exact I|exact J]).
Qed.
Lemma typeArg rs d args n ts ex xi c rt : Inv (plus rs d args) c -> d <> DReserved -> rt = some (typesIn (dirEqb DLiteral) (plus rs d (args ++ [AType n]))) ->
  InvT (plus rs d (args ++ [AType n])) (cTemplates c) ts (cTokenIndex c) ex xi -> groupsKept (plus rs d (args ++ [AType n])) -> Inv (plus rs d (args ++ [AType n])) (setTT ts ex xi (setRestrict rt (cRestrictLiterals c) c)).
Proof.
  intros [A1 A2 A3 A4 A5 A6 A7 A8 A9 A10] D -> T KP. assert (S0 : forall P, stringsIn P (plus rs d (args ++ [AType n])) = stringsIn P (plus rs d args)) by (intros P; rewrite stringsIn_arg; cbn [argString]; destruct (P d); apply app_nil_r).
  constructor; cbn; rewrite ?layersOf_plus in *; try assumption.
  - rewrite A2, S0. apply map_ext_in. intros x IX. apply (proj1 (firsts_In _ _)), (proj2 (mem_In _ _)) in IX. unfold rawLiteral. rewrite reservedNow_arg, IX. reflexivity.
  - intros s. rewrite S0. apply A3.
  - rewrite A4. apply groups_arg.
  - reflexivity.
  - rewrite S0. exact A6.
Qed.
Lemma setRestrict_same c : setRestrict (cRestrictTypes c) (cRestrictLiterals c) c = c. Proof. destruct c; reflexivity. Qed.
Lemma stringArg rs d args s c fl rl : Inv (plus rs d args) c -> d = DReserved /\ fl = ReservedToken \/ d = DLiteral /\ fl = 0 -> rl = some (stringsIn (dirEqb DLiteral) (plus rs d (args ++ [AString s]))) ->
  exists c', addLiteralToken s fl (setRestrict (cRestrictTypes c) rl c) = ROk tt c' /\ Inv (plus rs d (args ++ [AString s])) c'.
Proof.
  intros [A1 A2 A3 A4 A5 A6 A7 A8 A9 A10] D ->. set (rs1 := plus rs d (args ++ [AString s])). set (rs0 := plus rs d args) in *.
  assert (S1 : forall P, stringsIn P rs1 = stringsIn P rs0 ++ (if P d then [s] else [])) by (intros P; apply stringsIn_arg).
  assert (T1 : forall P, typesIn P rs1 = typesIn P rs0) by (intros P; unfold rs1, rs0; rewrite typesIn_arg; cbn [argType]; destruct (P d); apply app_nil_r).
  assert (DG : d <> DGroup) by (destruct D as [(-> & _)|(-> & _)]; discriminate).
  assert (I1 : InvTc rs1 c).
  { assert (LI : forall d' m, listed d' m rs1 = listed d' m rs0) by (intros d' m; unfold listed; rewrite T1; reflexivity). assert (RW : forall m, rawFlags m rs1 = rawFlags m rs0) by (intros m; unfold rawFlags; rewrite !LI; reflexivity). assert (GR : forall m, groupNow m rs1 = groupNow m rs0) by (intros m; unfold rs1, rs0; rewrite !groupNow_plus by exact DG; reflexivity).
    assert (DF : defined rs1 = defined rs0) by (unfold rs1, rs0; rewrite !defined_plus; reflexivity). assert (ER : early [] rs1 = early [] rs0) by (unfold rs1, rs0; rewrite early_arg; cbn; apply app_nil_r).
    destruct A1 as [B1 B2 B3 B4 B5 B6 B7 B8 B9]. constructor; rewrite ?DF, ?ER; try assumption.
    - rewrite <- B1. unfold rs1, rs0. rewrite !regs_plus. reflexivity.
    - eapply Forall_impl; [|exact B4]. intros t. cbn. rewrite GR, RW. auto.
    - eapply Forall_impl; [|exact B7]. intros t. cbn. rewrite GR, RW. auto. }
  assert (G1 : groups rs1 = groups rs0) by apply groups_arg. assert (L1 : layersOf rs1 = layersOf rs0) by (unfold rs1, rs0; rewrite !layersOf_plus; reflexivity).
  assert (SA : stringsIn any rs1 = stringsIn any rs0 ++ [s]) by (rewrite S1; reflexivity).
  unfold addLiteralToken, modify. cbn [cLiteralIndex setRestrict]. pose proof (A3 s) as A3s. unfold found in A3s. destruct (nget s (cLiteralIndex c)) as [i|] eqn:GI.
  - (* listed before *)
    symmetry in A3s. exists (setRestrict (cRestrictTypes c) (some (stringsIn (dirEqb DLiteral) rs1)) c). split; [reflexivity|]. constructor; cbn; rewrite ?G1, ?L1, ?T1; try assumption.
    + rewrite A2, SA, firsts_snoc, A3s. apply map_ext_in. intros x IX. apply (proj1 (firsts_In _ _)), (proj2 (mem_In _ _)) in IX. unfold rawLiteral. f_equal. f_equal. unfold rs1. rewrite reservedNow_arg. fold rs0. rewrite IX. reflexivity.
    + intros x. rewrite A3, SA, mem_app, mem_one. destruct (nameEqb x s) eqn:E; [|rewrite orb_false_r; reflexivity]. apply nameEqb_ok in E. subst x. rewrite A3s. reflexivity.
    + reflexivity.
    + apply kept_other; [intros l E; injection E as E; contradiction|]. apply kept_prefix in A10. exact A10.
  - symmetry in A3s. eexists. split; [reflexivity|]. constructor; cbn; rewrite ?G1, ?L1, ?T1; try assumption.
    + rewrite A2, SA, firsts_snoc, A3s, map_app. f_equal.
      * apply map_ext_in. intros x IX. apply (proj1 (firsts_In _ _)), (proj2 (mem_In _ _)) in IX. unfold rawLiteral. f_equal. f_equal. unfold rs1. rewrite reservedNow_arg. fold rs0. rewrite IX. reflexivity.
      * cbn. f_equal. unfold rawLiteral. f_equal. unfold rs1. rewrite reservedNow_arg. fold rs0. rewrite A3s. cbn [argString]. rewrite mem_one, nameEqb_refl. destruct D as [(-> & ->)|(-> & ->)]; reflexivity.
    + intros x. unfold found. rewrite nput_get, SA, mem_app, mem_one. destruct (nameEqb x s); [rewrite orb_true_r; reflexivity|]. rewrite orb_false_r. apply A3.
    + reflexivity.
    + apply kept_other; [intros l E; injection E as E; contradiction|]. apply kept_prefix in A10. exact A10.
Qed.
(** a type has been defined and is in a group *)
Definition regroups (rs : list record) (d : directive) (args : list arg) (n : name) : Prop := d = DGroup /\ In n (defined rs) /\ In n (typesIn (dirEqb DGroup) (plus rs d args)).
Lemma act_run rs d args a c : fitArg d a -> Inv (plus rs d args) c ->
  (exists c', act d a c = ROk tt c' /\ Inv (plus rs d (args ++ [a])) c') \/ (exists n c', a = AType n /\ regroups rs d args n /\ act d a c = RFail (RE_reassignedGroup n) c').
Proof.
  intros FA H. destruct a as [n|s]; cbn in FA.
  - assert (KO : d <> DGroup -> groupsKept (plus rs d (args ++ [AType n]))) by (intros D; apply kept_other; [intros l E; injection E as E _; contradiction|exact (kept_prefix _ _ (v_kept _ _ H))]).
    assert (FL : d <> DGroup -> d <> DLiteral -> exists c', addTokenFlag n (dirFlags d) c = ROk tt c' /\ Inv (plus rs d (args ++ [AType n])) c').
    { intros D1 D2. destruct (addFlag_run rs d args n c D1 (v_types _ _ H)) as (ts & ex & xi & E & T). rewrite E. eexists. split; [reflexivity|]. rewrite <- (setRestrict_same c) at 1. apply typeArg; auto. rewrite (v_rt _ _ H), typesIn_arg. destruct d; try congruence; cbn [dirEqb]; rewrite app_nil_r; reflexivity. }
    destruct d; try (left; apply FL; discriminate); [| |contradiction]; clear FL; cbn [act].
    + assert (CG : cGroup c = 1 + groups rs) by (rewrite (v_group _ _ H); unfold plus; rewrite groups_app; change (groups [RDirective DGroup args]) with 1; lia).
      destruct (In_dec_name n (defined rs)) as [ID|ID]; [destruct (In_dec_name n (typesIn (dirEqb DGroup) (plus rs DGroup args))) as [IG|IG]|].
      * right. exists n, c. split; [reflexivity|]. split; [split; auto|]. apply (group_fails rs args); auto. apply H.
      * left. destruct (group_run rs args n c (fun _ => IG) CG (v_types _ _ H)) as (ts & ex & xi & E & T). rewrite E. eexists. split; [reflexivity|]. rewrite <- (setRestrict_same c) at 1. apply typeArg; auto; [rewrite (v_rt _ _ H), typesIn_arg; cbn [dirEqb]; rewrite app_nil_r; reflexivity|]. apply kept_arg; [apply H|auto].
      * left. assert (NI : In n (defined rs) -> ~ In n (typesIn (dirEqb DGroup) (plus rs DGroup args))) by (intros X; contradiction). destruct (group_run rs args n c NI CG (v_types _ _ H)) as (ts & ex & xi & E & T). rewrite E. eexists. split; [reflexivity|]. rewrite <- (setRestrict_same c) at 1. apply typeArg; auto; [rewrite (v_rt _ _ H), typesIn_arg; cbn [dirEqb]; rewrite app_nil_r; reflexivity|]. apply kept_arg; [apply H|auto].
    + left. unfold bind at 1, modify at 1. destruct (addFlag_run rs DLiteral args n (setRestrict true (cRestrictLiterals c) c) ltac:(discriminate) (v_types _ _ H)) as (ts & ex & xi & E & T). cbn [dirFlags] in E. rewrite E. eexists. split; [reflexivity|]. apply typeArg; auto; [|apply KO; discriminate]. rewrite typesIn_arg. cbn [dirEqb argType]. rewrite some_snoc. reflexivity.
  - left. destruct FA as [-> | ->]; cbn [act].
    + pose proof (stringArg rs DReserved args s c ReservedToken (cRestrictLiterals c)) as X. rewrite setRestrict_same in X. apply X; auto. clear X. rewrite (v_rl _ _ H), stringsIn_arg. cbn [dirEqb]. rewrite app_nil_r. reflexivity.
    + unfold bind at 1, modify at 1. apply stringArg; auto. rewrite stringsIn_arg. cbn [dirEqb argString]. rewrite some_snoc. reflexivity.
Qed.
Lemma acts_run rs d : forall args' args c, Forall (fitArg d) args' -> Inv (plus rs d args) c ->
  (exists c', each (act d) args' c = ROk tt c' /\ Inv (plus rs d (args ++ args')) c') \/
  (exists p n q c', args' = p ++ AType n :: q /\ regroups rs d (args ++ p) n /\ groupsKept (plus rs d (args ++ p)) /\ each (act d) args' c = RFail (RE_reassignedGroup n) c').
Proof.
  induction args' as [|a args' IH]; intros args c FA H.
  - left. exists c. rewrite app_nil_r. split; [reflexivity|exact H].
  - inversion FA as [|? ? F1 F2]; subst. cbn [each]. destruct (act_run rs d args a c F1 H) as [(c1 & E1 & H1)|(n & c1 & -> & R & E1)].
    + rewrite (bind_ok _ _ _ _ _ E1). destruct (IH (args ++ [a]) c1 F2 H1) as [(c2 & E2 & H2)|(p & n & q & c2 & -> & R & K & E2)].
      * left. exists c2. rewrite <- app_assoc in H2. auto.
      * right. exists (a :: p), n, q, c2. rewrite <- app_assoc in R, K. auto.
    + right. exists [], n, args', c1. rewrite app_nil_r. split; [reflexivity|]. split; [exact R|]. split; [apply H|]. unfold bind. rewrite E1. reflexivity.
Qed.
Lemma directive_run rs d args c : Forall (fitArg d) args -> Inv rs c ->
  (exists c', iDirective d args c = ROk tt c' /\ Inv (plus rs d args) c') \/
  (exists p n q c', args = p ++ AType n :: q /\ regroups rs d p n /\ groupsKept (plus rs d p) /\ iDirective d args c = RFail (RE_reassignedGroup n) c').
Proof.
  intros FA H. rewrite iDirective_is. apply (acts_run rs d args []); auto. destruct H as [A1 A2 A3 A4 A5 A6 A7 A8 A9 A10].
  assert (I1 : InvTc (plus rs d []) c).
  { destruct A1 as [B1 B2 B3 B4 B5 B6 B7 B8 B9]. assert (GR : forall m, groupNow m (plus rs d []) = groupNow m rs). { intros m. assert (DD : d = DGroup \/ d <> DGroup) by (destruct d; (left; reflexivity) || (right; discriminate)). destruct DD as [-> |DD]; [|apply groupNow_plus, DD]. rewrite groupNow_group. reflexivity. }
    assert (ER : early [] (plus rs d []) = early [] rs) by (rewrite early_plus; apply app_nil_r).
    constructor; rewrite ?defined_plus, ?ER, ?regs_plus; try assumption.
    - eapply Forall_impl; [|exact B4]. intros t. cbn. rewrite GR, rawFlags_start. auto.
    - eapply Forall_impl; [|exact B7]. intros t. cbn. rewrite GR, rawFlags_start. auto. }
  assert (G : forall c', cGroup c' = groups (plus rs d []) -> (InvTc (plus rs d []) c' /\ cLiterals c' = cLiterals c /\ cLiteralIndex c' = cLiteralIndex c /\ cRestrictTypes c' = cRestrictTypes c /\ cRestrictLiterals c' = cRestrictLiterals c /\ cLayers c' = cLayers c /\ cNames c' = cNames c /\ cDefs c' = cDefs c) -> Inv (plus rs d []) c').
  { intros c' G (I & E1 & E2 & E3 & E4 & E5 & E6 & E7). constructor; rewrite ?E1, ?E2, ?E3, ?E4, ?E5, ?E6, ?E7, ?typesIn_start, ?stringsIn_start, ?layersOf_plus; try assumption; try (intros s; rewrite stringsIn_start; apply A3); [|apply kept_start, A10]. rewrite A2. apply map_ext_in. intros x IX. apply (proj1 (firsts_In _ _)), (proj2 (mem_In _ _)) in IX. unfold rawLiteral. rewrite reservedNow_plus, IX. reflexivity. }
  apply G; [|destruct d; repeat split; try exact I1; apply I1]. unfold plus. rewrite groups_app. destruct d; cbn; rewrite A4; lia.
Qed.
(** *** Other records *)
Definition isDirective (r : record) : bool := match r with RDirective _ _ => true | _ => false end.
Section Quiet.
Variables (rs : list record) (r : record).
Hypothesis Q : isDirective r = false.
Lemma q_types P : typesIn P (rs ++ [r]) = typesIn P rs.
Proof. rewrite typesIn_app. destruct r; try discriminate; apply app_nil_r. Qed.
Lemma q_strings P : stringsIn P (rs ++ [r]) = stringsIn P rs.
Proof. rewrite stringsIn_app. destruct r; try discriminate; apply app_nil_r. Qed.
Lemma q_groups : groups (rs ++ [r]) = groups rs.
Proof. rewrite groups_app. destruct r; try discriminate; apply Z.add_0_r. Qed.
Lemma q_raw n : rawFlags n (rs ++ [r]) = rawFlags n rs.
Proof. unfold rawFlags, listed. rewrite !q_types. reflexivity. Qed.
Lemma q_groupNow n : groupNow n (rs ++ [r]) = groupNow n rs.
Proof. unfold groupNow. rewrite lastGroup_app. apply lastGroup_none. destruct r; try discriminate; intros []. Qed.
Lemma q_reserved s : reservedNow s (rs ++ [r]) = reservedNow s rs.
Proof. rewrite reservedNow_app. destruct (mem s (stringsIn any rs)) eqn:E; [reflexivity|]. rewrite (reservedNow_none s rs E). apply reservedNow_none. destruct r; try discriminate; reflexivity. Qed.
Lemma q_kept : groupsKept rs -> groupsKept (rs ++ [r]).
Proof. apply kept_other. intros args E. rewrite E in Q. discriminate. Qed.
Lemma q_early : early [] (rs ++ [r]) = early [] rs.
Proof. rewrite early_snoc. destruct r; try discriminate; apply app_nil_r. Qed.
End Quiet.
Lemma inv_quiet rs r tpl tpl' ts ix ex xi : isDirective r = false -> defined [r] = [] -> InvT rs tpl ts ix ex xi -> regs [] (rs ++ [r]) = Some (tpl', map nr ts) -> Forall (fun p => snd p <> []) tpl' -> InvT (rs ++ [r]) tpl' ts ix ex xi.
Proof.
  intros Q D [B1 B2 B3 B4 B5 B6 B7 B8 B9] RG SO. assert (DF : defined (rs ++ [r]) = defined rs) by (rewrite defined_app, D; apply app_nil_r). constructor; rewrite ?DF, ?q_early by exact Q; try assumption.
  - eapply Forall_impl; [|exact B4]. intros t. cbn. rewrite q_groupNow, q_raw by exact Q. auto.
  - eapply Forall_impl; [|exact B7]. intros t. cbn. rewrite q_groupNow, q_raw by exact Q. auto.
  - split; [apply B9|exact SO].
Qed.
Lemma inv_rest rs r c c' : isDirective r = false -> Inv rs c -> InvTc (rs ++ [r]) c' -> cLayers c' = layersOf (rs ++ [r]) ->
  cLiterals c' = cLiterals c /\ cLiteralIndex c' = cLiteralIndex c /\ cGroup c' = cGroup c /\ cRestrictTypes c' = cRestrictTypes c /\ cRestrictLiterals c' = cRestrictLiterals c /\ cNames c' = cNames c /\ cDefs c' = cDefs c -> Inv (rs ++ [r]) c'.
Proof.
  intros Q [A1 A2 A3 A4 A5 A6 A7 A8 A9 A10] I L (E1 & E2 & E3 & E4 & E5 & E6 & E7). constructor; rewrite ?E1, ?E2, ?E3, ?E4, ?E5, ?E6, ?E7, ?q_types, ?q_strings, ?q_groups by exact Q; try assumption.
  - rewrite A2. apply map_ext. intros x. unfold rawLiteral. rewrite q_reserved by exact Q. reflexivity.
  - apply q_kept; assumption.
Qed.
Lemma iJoin_is ps c : match joined (cTemplates c) ps with Some re => iJoin ps c = ROk re c | None => exists e, iJoin ps c = RFail e c end.
Proof.
  induction ps as [|p ps IH]; cbn [joined iJoin]; [reflexivity|]. destruct p as [re|n]; cbn [obind].
  - destruct (joined (cTemplates c) ps) as [t|]; cbn [obind]; unfold bind, ret; [rewrite IH; reflexivity|destruct IH as (e & ->); eauto].
  - unfold bind, get, ret. destruct (nget n (cTemplates c)) as [s|]; cbn [obind]; [|cbn; eauto]. destruct (joined (cTemplates c) ps) as [t|]; cbn [obind]; [rewrite IH; reflexivity|destruct IH as (e & ->); eauto].
Qed.
Lemma iRegexp_is ps c : match joined (cTemplates c) ps with Some re => if compiles re then iRegexp compiles ps c = ROk re c else exists e, iRegexp compiles ps c = RFail e c | None => exists e, iRegexp compiles ps c = RFail e c end.
Proof.
  pose proof (iJoin_is ps c) as J. unfold iRegexp, bind. destruct (joined (cTemplates c) ps) as [re|]; [|destruct J as (e & ->); eauto]. rewrite J. destruct (compiles re); [reflexivity|eexists; reflexivity].
Qed.
Lemma typeDefined_is rs n c : InvTc rs c -> typeDefined n c = ROk (mem n (defined rs)) c.
Proof.
  intros [B1 B2 B3 B4 B5 B6 B7 B8 B9]. unfold typeDefined, bind, get. rewrite B5. destruct (mem n (defined rs)) eqn:M; [|reflexivity]. rewrite <- B2 in *. apply mem_In in M. destruct (key_get gtName (cTokens c) n M) as (t & G & K & I). unfold orCrash. rewrite G. unfold ret.
  destruct B9 as (B9 & _). rewrite Forall_forall in B9. specialize (B9 t I). destruct (gtRe t); [contradiction|]. reflexivity.
Qed.
Lemma addToken_run rs n re ps c : InvTc rs c -> ~ In n (defined rs) -> joined (cTemplates c) ps = Some re -> compiles re = true -> re <> [] ->
  exists ts ex xi ix, addToken n re 0 c = ROk tt (setTokenIndex ix (setTT ts ex xi c)) /\ InvT (rs ++ [RType n ps]) (cTemplates c) ts ix ex xi.
Proof.
  intros [B1 B2 B3 B4 B5 B6 B7 B8 B9] N J C0 NE. pose proof (proj2 (mem_not _ _) N) as MN. set (r := RType n ps). assert (Q : isDirective r = false) by reflexivity.
  assert (G : exists e xi, (match nget n (cExtraIndex c) with
       | Some i => let* ex := get cExtra in let* t := orCrash (zget ex i) in modify (fun c => setExtra (cExtra c) (ndel n (cExtraIndex c)) c) ;;; ret t
       | None => ret (mkExtra [] 0 0)
       end) c = ROk e (setExtra (cExtra c) xi c) /\ eGroup e = groupNow n rs /\ eFlags e = rawFlags n rs /\ forall m, nget m xi = if nameEqb m n then None else nget m (cExtraIndex c)).
  { rewrite B8, MN. cbn [negb andb]. destruct (mem n (early [] rs)) eqn:ME.
    - assert (IX : In n (map eName (cExtra c))) by (rewrite B6; apply firsts_In, mem_In, ME). destruct (key_get eName (cExtra c) n IX) as (e & G & K & IE). rewrite B6 in G. unfold bind, get, orCrash. rewrite G. unfold modify, ret. exists e, (ndel n (cExtraIndex c)). split; [reflexivity|]. rewrite Forall_forall in B7. specialize (B7 e IE). rewrite K in B7. destruct (B7 N) as (-> & ->). split; [reflexivity|]. split; [reflexivity|]. intros m. apply nget_ndel.
    - exists (mkExtra [] 0 0), (cExtraIndex c). split; [destruct c; reflexivity|]. destruct (zero_unlisted n rs) as (Z1 & Z2); [rewrite <- (early_in n rs []); [apply mem_not, ME|intros []|exact N]|]. rewrite Z1, Z2. split; [reflexivity|]. split; [reflexivity|]. intros m. destruct (nameEqb m n) eqn:E; [|reflexivity]. apply nameEqb_ok in E. subst m. rewrite B8, ME, andb_false_r. reflexivity. }
  destruct G as (e & xi & G & E1 & E2 & E3). unfold addToken. rewrite (bind_ok (get cExtraIndex) _ c (cExtraIndex c) c eq_refl). rewrite (bind_ok _ _ _ _ _ G). exists (cTokens c ++ [mkTok n re (eGroup e) (Z.lor 0 (eFlags e))]), (cExtra c), xi, (nput n (zlen (cTokens c)) (cTokenIndex c)).
  split; [reflexivity|]. assert (DF : defined (rs ++ [r]) = defined rs ++ [n]) by (rewrite defined_app; reflexivity).
  constructor; rewrite ?DF, ?q_early by exact Q.
  - rewrite regs_snoc, B1. cbn [obind fst snd regStep r]. rewrite J. cbn [obind]. rewrite C0. cbn [obind fst snd]. rewrite map_app. reflexivity.
  - rewrite map_app, B2. reflexivity.
  - apply (NoDup_Add (a := n) (l := defined rs)); [|split; [exact B3|exact N]]. rewrite <- (app_nil_r (defined rs)) at 1. apply Add_app.
  - apply Forall_app. split; [|constructor; [|constructor]]; [eapply Forall_impl; [|exact B4]; intros t; cbn|cbn]; rewrite q_groupNow, q_raw by exact Q; [auto|]. rewrite E1, E2. auto.
  - intros m. rewrite nput_get, B5, mem_app, mem_one. destruct (nameEqb m n) eqn:E.
    + apply nameEqb_ok in E. subst m. rewrite orb_true_r, position_new by exact N. rewrite <- B2. unfold zlen. rewrite map_length. reflexivity.
    + rewrite orb_false_r. destruct (mem m (defined rs)) eqn:M; [|reflexivity]. rewrite position_app; [reflexivity|apply mem_In, M].
  - exact B6.
  - eapply Forall_impl; [|exact B7]. intros x. cbn. rewrite q_groupNow, q_raw by exact Q. intros H NI. apply H. intros I. apply NI, in_or_app. left. exact I.
  - intros m. rewrite E3, B8, mem_app, mem_one. destruct (nameEqb m n); [rewrite orb_true_r; reflexivity|rewrite orb_false_r; reflexivity].
  - destruct B9 as (B9 & B10). split; [|exact B10]. apply Forall_app. split; [exact B9|]. constructor; [exact NE|constructor].
Qed.
Definition headOk (rs : list record) : Prop := regs [] rs <> None /\ NoDup (defined rs) /\ groupsKept rs.
Definition named (r : record) : Prop := match r with RType n _ => n <> [] | _ => True end.
Lemma headOk_inv rs c : Inv rs c -> headOk rs.
Proof. intros H. destruct (v_types _ _ H). split; [congruence|]. split; [assumption|apply H]. Qed.
Lemma record_run rs r c : Inv rs c -> ~ isNode r -> fitRecord r -> solid r -> named r ->
  match iRecord compiles r c with
  | ROk _ c' => Inv (rs ++ [r]) c'
  | RFail _ _ => ~ headOk (rs ++ [r])
  | _ => False
  end.
Proof.
  intros H NN FR SO NM. pose proof (v_types _ _ H) as T. destruct r as [d args|n ps|n ps|l|n l]; cbn [iRecord]; [| | | |exfalso; apply NN; exact I].
  - destruct (directive_run rs d args c FR H) as [(c' & -> & H')|(p & n & q & c' & -> & (-> & R1 & R2) & _ & ->)]; [exact H'|]. intros (_ & _ & K). destruct (K rs p n q [] eq_refl R1) as (K1 & K2). unfold plus in R2. rewrite typesIn_app, typesIn_dir in R2. cbn [dirEqb] in R2. apply in_app_iff in R2. destruct R2 as [R2|R2]; [exact (K1 R2)|]. apply flat_In in R2. destruct R2 as (a & IA & JA). destruct a as [m|m]; [|destruct JA]. destruct JA as [-> |[]]. exact (K2 IA).
  - unfold bind at 1, get at 1. pose proof (nget_mem n (cTemplates c)) as NG. assert (RS : regs [] (rs ++ [RTemplate n ps]) = do p <- regStep (cTemplates c) (RTemplate n ps) ; Some (fst p, map nr (cTokens c))). { rewrite regs_snoc, (t_regs _ _ _ _ _ _ T). cbn [obind fst snd]. cbn [regStep]. destruct (joined (cTemplates c) ps) as [re|]; cbn [obind]; [|reflexivity]. destruct (compiles re && _); cbn [obind fst snd]; [|reflexivity]. rewrite app_nil_r. reflexivity. }
    destruct (nget n (cTemplates c)) as [s|].
    + intros (X & _). apply X. rewrite RS. cbn [regStep]. rewrite <- NG. destruct (joined (cTemplates c) ps) as [re|]; cbn [obind]; [|reflexivity]. rewrite andb_false_r. reflexivity.
    + pose proof (iRegexp_is ps c) as J. unfold bind at 1. cbn [regStep] in RS. destruct (joined (cTemplates c) ps) as [re|] eqn:JE; [|destruct J as (e & ->); intros (X & _); apply X, RS]. cbn [obind] in RS. destruct (compiles re) eqn:CE; [|destruct J as (e & ->); intros (X & _); apply X, RS]. rewrite J. unfold modify. rewrite <- NG in RS. cbn [negb andb obind fst] in RS.
      apply (inv_rest _ _ c); [reflexivity|exact H| |rewrite layersOf_app; cbn; rewrite (v_layers _ _ H); symmetry; apply app_nil_r|cbn; repeat split]. apply (inv_quiet rs _ (cTemplates c)); [reflexivity|reflexivity|exact T|exact RS|]. destruct SO as (S1 & S2). constructor; [|apply T]. cbn. apply (joined_solid (cTemplates c) ps); [exact S1|exact S2|apply T|exact JE].
  - rewrite (bind_ok _ _ _ _ _ (typeDefined_is rs n c T)). destruct (mem n (defined rs)) eqn:M; cbn [orb].
    + intros (_ & X & _). rewrite defined_app in X. change (defined [RType n ps]) with [n] in X. apply NoDup_remove_2 in X. rewrite app_nil_r in X. apply X, mem_In, M.
    + cbn in NM. rewrite (proj2 (nameEqb_not n []) NM). pose proof (iRegexp_is ps c) as J. unfold bind at 1.
      assert (RS : regs [] (rs ++ [RType n ps]) = do p <- regStep (cTemplates c) (RType n ps) ; Some (fst p, map nr (cTokens c) ++ snd p)) by (rewrite regs_snoc, (t_regs _ _ _ _ _ _ T); reflexivity). cbn [regStep] in RS.
      destruct (joined (cTemplates c) ps) as [re|] eqn:JE; [|destruct J as (e & ->); intros (X & _); apply X, RS]. cbn [obind] in RS. destruct (compiles re) eqn:CE; [|destruct J as (e & ->); intros (X & _); apply X, RS]. rewrite J. destruct SO as (S1 & S2).
      destruct (addToken_run rs n re ps c T) as (ts & ex & xi & ix & -> & T'); [apply mem_not, M|exact JE|exact CE|apply (joined_solid (cTemplates c) ps); [exact S1|exact S2|apply T|exact JE]|].
      apply (inv_rest _ _ c); [reflexivity|exact H|exact T'|rewrite layersOf_app; cbn; rewrite (v_layers _ _ H); symmetry; apply app_nil_r|cbn; repeat split].
  - unfold modify. apply (inv_rest _ _ c); [reflexivity|exact H| |rewrite layersOf_app; cbn; rewrite (v_layers _ _ H); reflexivity|cbn; repeat split]. apply (inv_quiet rs _ (cTemplates c)); [reflexivity|reflexivity|exact T| |apply T]. rewrite regs_snoc, (t_regs _ _ _ _ _ _ T). cbn. rewrite app_nil_r. reflexivity.
Qed.
Lemma headOk_prefix a b : headOk (a ++ b) -> headOk a.
Proof. intros (X & Y & K). split; [|split; [rewrite defined_app in Y; apply NoDup_left in Y; exact Y|apply kept_prefix in K; exact K]]. rewrite regs_app in X. intros E. rewrite E in X. apply X. reflexivity. Qed.
Lemma head_run : forall rs rs0 c, Inv rs0 c -> Forall fitRecord rs -> Forall (fun r => ~ isNode r) rs -> Forall solid rs -> Forall named rs ->
  match iRecords compiles rs c with
  | ROk _ c' => Inv (rs0 ++ rs) c'
  | RFail _ _ => ~ headOk (rs0 ++ rs)
  | _ => False
  end.
Proof.
  induction rs as [|r rs IH]; intros rs0 c H FIT NN SO NM.
  - rewrite app_nil_r. exact H.
  - unfold iRecords. cbn [each]. unfold bind. inversion NN as [|? ? N1 N2]; subst. inversion SO as [|? ? S1 S2]; subst. inversion NM as [|? ? M1 M2]; subst. replace (rs0 ++ r :: rs) with ((rs0 ++ [r]) ++ rs) in * by (rewrite <- app_assoc; reflexivity). inversion FIT as [|? ? F1 F2]; subst.
    pose proof (record_run rs0 r c H N1 F1 S1 M1) as R. destruct (iRecord compiles r c) as [u c1|e c1| |]; try exact R.
    + apply IH; auto.
    + intros X. apply R. apply headOk_prefix in X. exact X.
Qed.
Lemma inv_start : Inv [] start.
Proof. constructor; cbn; auto; [|intros a p n q b E; destruct a; discriminate]. constructor; cbn; auto; [constructor]. Qed.
End R.
