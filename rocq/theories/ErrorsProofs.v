(** Messages are as specified. *)
From Coq Require Import String ZArith List Bool Lia.
From Verif Require Import Base BaseProofs Utf8 LangString LangStringSpec Gen GoSpec GenProofs Source SourceSpec SourceProofs Prop_Source Prop_LangString Errors ErrorsSpec.
From Verif Require LangText.
Import ListNotations.
Local Open Scope string_scope.
Local Open Scope list_scope.
Open Scope Z_scope.

(** ** Numbers *)
Lemma digits_of f n : 0 <= n < 10 ^ Z.of_nat f -> (f <> 0)%nat -> digitsOf 10 decDigit n (digits f n).
Proof.
  revert n. induction f as [|f IH]; intros n H N; [congruence|]. clear N. rewrite Nat2Z.inj_succ, Z.pow_succ_r in H by lia. cbn [digits]. destruct (Z.ltb_spec n 10).
  - apply (DO_one 10 decDigit). lia.
  - assert (Q : 1 <= n / 10 < 10 ^ Z.of_nat f) by (split; [apply Z.div_le_lower_bound; lia|apply Z.div_lt_upper_bound; lia]). pose proof (Z.mod_pos_bound n 10 ltac:(lia)) as M.
    rewrite (Z.div_mod n 10) at 1 by lia. rewrite (Z.mul_comm 10). apply (DO_more 10 decDigit); [lia|lia|]. apply IH; [lia|]. intros ->. cbn in Q. lia.
Qed.
Lemma hexes_of f n : 0 <= n < 16 ^ Z.of_nat f -> (f <> 0)%nat -> digitsOf 16 hexDigit n (hexes f n).
Proof.
  assert (HC : forall d, hexChar d = hexDigit d) by (intros d; unfold hexChar, hexDigit; destruct (d <? 10); lia).
  revert n. induction f as [|f IH]; intros n H N; [congruence|]. clear N. rewrite Nat2Z.inj_succ, Z.pow_succ_r in H by lia. cbn [hexes]. rewrite !HC. destruct (Z.ltb_spec n 16).
  - apply (DO_one 16 hexDigit). lia.
  - assert (Q : 1 <= n / 16 < 16 ^ Z.of_nat f) by (split; [apply Z.div_le_lower_bound; lia|apply Z.div_lt_upper_bound; lia]). pose proof (Z.mod_pos_bound n 16 ltac:(lia)) as M.
    rewrite (Z.div_mod n 16) at 1 by lia. rewrite (Z.mul_comm 16). apply (DO_more 16 hexDigit); [lia|lia|]. apply IH; [lia|]. intros ->. cbn in Q. lia.
Qed.
Lemma shows_dec n : goInt n -> shows (Number n) (dec n).
Proof.
  unfold goInt. change (2 ^ 63) with 9223372036854775808. intros H. unfold dec. destruct (Z.ltb_spec n 0); [apply SH_negative|apply SH_number]; auto; apply digits_of; try discriminate; change (10 ^ Z.of_nat 20) with 100000000000000000000; lia.
Qed.

(** ** Messages *)
Section M.
Variable isPrint : Z -> bool.
Hypothesis PR : forall r, isPrint r = true -> 32 <= r /\ r <> 65279.
Notation sprintf := (sprintf isPrint).
(** how pieces are asked for *)
Definition noVerb (s : text) : bool := forallb (fun b => negb (b =? 37)) s.
Definition pieceFormat (p : piece) : text :=
  match p with Says s => bytes s | Plain _ => bytes "%s" | Quoted _ => bytes "%q" | Number _ => bytes "%d" | Char _ => bytes "%c" | Hexadecimal _ => bytes "%x" end.
Definition pieceArg (p : piece) : list arg :=
  match p with Says s => [] | Plain s | Quoted s => [AString s] | Number n | Char n | Hexadecimal n => [AInt n] end.
Definition pieceOk (p : piece) : Prop :=
  match p with Says s => noVerb (bytes s) = true | Plain _ => True | Quoted s => Forall byteZ s | Number n => goInt n | Char r => aRune r | Hexadecimal n => 0 <= n < 2 ^ 63 end.
Lemma sprintf_words s f args : noVerb s = true -> sprintf (s ++ f) args = s ++ sprintf f args.
Proof. induction s as [|b s IH]; [reflexivity|]. cbn [noVerb forallb app]. rewrite andb_true_iff, negb_true_iff. intros (B & N). cbn [Errors.sprintf]. rewrite B. f_equal. apply IH, N. Qed.
Lemma validRune_ok r : aRune r -> validRune r = true.
Proof. unfold aRune, validRune, between. rewrite orb_true_iff, !andb_true_iff, !Z.leb_le. lia. Qed.
Lemma quote_shown s : Forall byteZ s -> shows (Quoted s) (quote isPrint s).
Proof. intros F. apply SH_quoted. rewrite <- (app_nil_r (quote isPrint s)). rewrite (run_quote isPrint PR s false [] F). reflexivity. Qed.
(** Formats and arguments made of pieces give the texts of the pieces, in the order. *)
Lemma sprintf_pieces ps f args : Forall pieceOk ps -> exists u, reads ps u /\ sprintf (concat (map pieceFormat ps) ++ f) (concat (map pieceArg ps) ++ args) = u ++ sprintf f args.
Proof.
  induction ps as [|p ps IH]; intros F; [exists []; split; [constructor|reflexivity]|]. apply Forall_cons_iff in F as (P & F). destruct (IH F) as (v & R & E).
  enough (X : exists u, shows p u /\ forall f args, sprintf (pieceFormat p ++ f) (pieceArg p ++ args) = u ++ sprintf f args).
  { destruct X as (u & S & X). exists (u ++ v). split; [constructor; assumption|]. cbn [map concat]. rewrite <- !app_assoc, X, E. reflexivity. }
  destruct p; cbn [pieceOk pieceFormat pieceArg app] in *.
  - exists (bytes s). split; [constructor|]. intros. apply sprintf_words, P.
  - exists s. split; [constructor|]. reflexivity.
  - exists (quote isPrint s). split; [apply quote_shown, P|]. reflexivity.
  - exists (dec n). split; [apply shows_dec, P|]. reflexivity.
  - exists (runeText r). split; [|reflexivity]. apply SH_char, utf8_iff; [exact P|]. unfold runeText. rewrite validRune_ok by exact P. reflexivity.
  - exists (hexOf n). split; [|reflexivity]. apply SH_hex; [lia|]. unfold hexOf. destruct (Z.ltb_spec n 0); [lia|]. apply hexes_of; [|discriminate]. change (16 ^ Z.of_nat 16) with 18446744073709551616. change (2 ^ 63) with 9223372036854775808 in P. lia.
Qed.
Lemma sprintf_all ps : Forall pieceOk ps -> reads ps (sprintf (concat (map pieceFormat ps)) (concat (map pieceArg ps))).
Proof. intros F. destruct (sprintf_pieces ps [] [] F) as (u & R & E). rewrite !app_nil_r in E. rewrite E. exact R. Qed.
Lemma reads_app a b u v : reads a u -> reads b v -> reads (a ++ b) (u ++ v).
Proof. intros A B. induction A; [exact B|]. rewrite <- app_assoc. cbn [app]. constructor; assumption. Qed.

(** places of tokens: a column is 0 only if the line is *)
Definition placeOk (w : place) : Prop := goInt (pLine w) /\ goInt (pCol w) /\ (pCol w = 0 <-> pLine w = 0).
Lemma newError_tells code ps msg w : placeOk w -> reads ps msg -> tells (newError isPrint code msg (pName w) (pLine w) (pCol w)) code w ps.
Proof.
  intros (GL & GC & LC) R. unfold tells, newError. cbn [eCode eSourceName eLine eCol eMessage]. repeat (split; [reflexivity|]). unfold whereText.
  assert (N0 : negb (zlen (pName w) =? 0) = (0 <? zlen (pName w))) by (pose proof (zlen_nonneg (pName w)); destruct (Z.eqb_spec (zlen (pName w)) 0); destruct (Z.ltb_spec 0 (zlen (pName w))); cbn; try reflexivity; lia). rewrite N0.
  replace (negb (pCol w =? 0)) with (negb (pLine w =? 0)) by (f_equal; apply eq_true_iff_eq; rewrite !Z.eqb_eq; tauto).
  destruct (0 <? zlen (pName w)); cbn [andb]; [|rewrite app_nil_r; exact R]. destruct (negb (pLine w =? 0)); cbn [andb]; [|rewrite app_nil_r; exact R]. apply reads_app; [exact R|].
  apply (sprintf_all [Says " in "; Plain (pName w); Says " at line "; Number (pLine w); Says " col "; Number (pCol w)]).
  repeat (apply Forall_cons; [cbn [pieceOk]; try reflexivity; try exact Logic.I; assumption|]); apply Forall_nil.
Qed.
Definition placeOfTok (t : etok) : place := mkPlace (etSourceName t) (etLine t) (etCol t).
Lemma formatErrorPos_tells t code ps : placeOk (placeOfTok t) -> Forall pieceOk ps -> concat (map pieceArg ps) <> [] ->
  tells (formatErrorPos isPrint t code (concat (map pieceFormat ps)) (concat (map pieceArg ps))) code (placeOfTok t) ps.
Proof.
  intros W F N. unfold formatErrorPos. apply (newError_tells code ps _ (placeOfTok t) W). unfold formatted. destruct (Z.ltb_spec 0 (zlen (concat (map pieceArg ps)))) as [L|L]; [apply sprintf_all, F|].
  destruct (concat (map pieceArg ps)); [congruence|]. rewrite zlen_cons in L. pose proof (zlen_nonneg l). lia.
Qed.
Lemma formatErrorPos_words t code s : placeOk (placeOfTok t) -> tells (formatErrorPos isPrint t code (bytes s) []) code (placeOfTok t) [Says s].
Proof. intros W. apply (newError_tells code [Says s] _ (placeOfTok t) W). cbn. rewrite <- (app_nil_r (bytes s)). repeat constructor. Qed.
Lemma nowhere_ok : placeOk nowhere.
Proof. repeat split; cbn; unfold goInt; change (2 ^ 63) with 9223372036854775808; lia. Qed.
Lemma formatError_tells code ps : Forall pieceOk ps -> concat (map pieceArg ps) <> [] ->
  tells (formatError isPrint code (concat (map pieceFormat ps)) (concat (map pieceArg ps))) code nowhere ps.
Proof. intros F N. exact (formatErrorPos_tells (mkEtok 0 [] [] [] 0 0) code ps nowhere_ok F N). Qed.
End M.

(** ** Parts *)
Lemma short_ok s : shortened s (shortText s).
Proof.
  unfold shortened, shortText. destruct (Z.ltb_spec 10 (zlen s)); [right|left; auto]. split; [assumption|]. exists (firstn 7 s), (skipn 7 s). rewrite firstn_skipn. repeat split.
  unfold zlen in *. rewrite firstn_length. lia.
Qed.
Lemma bytes_ok s : Forall byteZ (bytes s).
Proof. unfold LangText.bytes. apply Forall_forall. intros b I. apply in_map_iff in I as (a & <- & _). unfold byteZ. pose proof (Ascii.nat_ascii_bounded a). lia. Qed.
Lemma short_bytes s : Forall byteZ s -> Forall byteZ (shortText s).
Proof.
  intros F. unfold shortText. destruct (10 <? zlen s); [|exact F]. apply Forall_app. split; [|apply bytes_ok]. rewrite <- (firstn_skipn 7 s) in F. apply Forall_app in F. apply F.
Qed.

(** ** Lines and columns *)
Lemma runes_short c : (length (runes c) <= length c)%nat.
Proof.
  unfold runes. generalize (length c) as f. intros f. revert c. induction f as [|f IH]; intros c; [destruct c; cbn; lia|]. destruct c as [|b c]; cbn [runes_fuel length]; [lia|]. specialize (IH (skipn (Z.to_nat (snd (decodeRune (b :: c)))) (b :: c))). lia.
Qed.
Lemma take_short l : (length (take_until_lf l) <= length l)%nat.
Proof. induction l as [|b l IH]; cbn; [lia|]. destruct (b =? 10); cbn; lia. Qed.
Lemma line_col_bounds c pos : 1 <= fst (line_col_spec c pos) <= 1 + zlen c /\ 1 <= snd (line_col_spec c pos) <= 1 + zlen c.
Proof.
  unfold line_col_spec. cbn [fst snd]. set (b := firstn _ c). assert (LB : (length b <= length c)%nat) by (unfold b; rewrite firstn_length; lia).
  assert (L1 : (lf_count b <= length b)%nat) by (unfold lf_count; clear LB; induction b as [|x b IH]; cbn [filter length]; [lia|]; destruct (10 =? x); cbn [length]; lia).
  assert (L2 : (length (runes (last_line b)) <= length b)%nat).
  { pose proof (runes_short (last_line b)) as X. pose proof (take_short (rev b)) as Y. unfold last_line in *. rewrite rev_length in *. lia. }
  unfold zlen. lia.
Qed.
Section S.
Context {S : Type} (content : S -> text) (sourceName : S -> text) (sourceNow : S -> src).
Hypothesis US : usedSources content sourceNow.
(** contents of sources have less than 2^63 - 1 bytes *)
Hypothesis SZ : forall s, zlen (content s) < 2 ^ 63 - 1.
Lemma now_ok s : srcOK (content s) (sourceNow s).
Proof.
  destruct (US s) as (ops & s0 & outs & N & R). destruct (newSrc_OK (content s)) as (s1 & E & K). rewrite N in E. injection E as <-.
  destruct (src_run_sound (content s) ops s0 K) as (s' & E' & K'). rewrite R in E'. injection E' as <- _. exact K'.
Qed.
Lemma where_is s pos : whereIs sourceName sourceNow s pos = Some (let w := placeOf content sourceName s pos in (pName w, (pLine w, pCol w))).
Proof.
  destruct s as [s|]; [|reflexivity]. unfold whereIs. destruct (lineCol_spec (content s) (sourceNow s) pos (now_ok s)) as (s' & -> & _). cbn [obind placeOf pName pLine pCol]. destruct (line_col_spec (content s) pos). reflexivity.
Qed.
Lemma place_ok s pos : placeOk (placeOf content sourceName s pos).
Proof.
  destruct s as [s|]; [|apply nowhere_ok]. unfold placeOk. cbn [placeOf pLine pCol]. pose proof (line_col_bounds (content s) pos) as (A & B). specialize (SZ s). unfold goInt. change (2 ^ 63) with 9223372036854775808 in *. lia.
Qed.
End S.
