(** The scalar styles of the writer and the decoders for quoted scalars. *)
From Coq Require Import String.
From Verif Require Import Base BaseProofs TokModel TokProofs LexModel LexSpec EscapeProofs LexProofs
  ParseModel TreeModel FmtModel FmtSpec LexRunProofs.

(** ** Escaping *)

Lemma hex4_control c : is_control c = true ->
  Forall hex_char (hex4 c) /\ hex_num (hex4 c) = c /\ valid_char c = true.
Proof.
  unfold is_control. intros H.
  assert (In c (127%N :: map N.of_nat (seq 0 32))) as Hi.
  { apply orb_prop in H as [H|H]; [|apply N.eqb_eq in H; subst; now left]. apply N.ltb_lt in H. right.
    apply in_map_iff. exists (N.to_nat c). split; [apply N2Nat.id|]. apply in_seq. lia. }
  cbn in Hi. repeat (destruct Hi as [<-|Hi];
    [split; [repeat constructor; unfold hex_char; cbn; lia|split; vm_compute; reflexivity]|]). contradiction.
Qed.

Lemma escape_char_decodes c s v : decodes s v -> decodes (escape_char c ++ s) (c :: v).
Proof.
  intros H. unfold escape_char.
  destruct (N.eqb_spec c cDQ) as [->|H1]; [apply dec_simple; [cbn; auto 10|assumption]|].
  destruct (N.eqb_spec c cBSL) as [->|H2]; [apply dec_simple; [cbn; auto 10|assumption]|].
  destruct (N.eqb_spec c cLF) as [->|H3]; [apply dec_simple; [cbn; auto 10|assumption]|].
  destruct (N.eqb_spec c cCR) as [->|H4]; [apply dec_simple; [cbn; auto 10|assumption]|].
  destruct (N.eqb_spec c cTAB) as [->|H5]; [apply dec_simple; [cbn; auto 10|assumption]|].
  destruct (is_control c) eqn:E.
  - destruct (hex4_control c E) as (Hf & Hnum & Hv).
    replace (([cBSL; cu; cLB] ++ hex4 c ++ [cRB]) ++ s) with (cBSL :: cu :: cLB :: hex4 c ++ cRB :: s)
      by (cbn [app]; now rewrite <- app_assoc).
    rewrite <- Hnum at 2. apply dec_brace; auto; [discriminate|now rewrite Hnum].
  - cbn [app]. now apply dec_plain.
Qed.

Lemma escape_decodes s : decodes (escape_quoted s) s.
Proof.
  unfold escape_quoted. destruct (existsb (fun c => is_escaped c || is_control c) s) eqn:E.
  - clear E. induction s as [|c s IH]; cbn [flat_map]; [constructor|]. now apply escape_char_decodes.
  - induction s as [|c s IH]; [constructor|]. cbn in E. apply orb_false_iff in E as [E1 E2].
    apply dec_plain; [|now apply IH]. intros ->. discriminate.
Qed.

Lemma hex_not_special c : hex_char c -> c <> cDQ /\ c <> cBSL.
Proof. unfold hex_char. lia. Qed.

Lemma escape_char_safe c : quote_safe (escape_char c).
Proof.
  unfold escape_char.
  destruct (N.eqb_spec c cDQ) as [->|H1]; [apply qs_esc; constructor|].
  destruct (N.eqb_spec c cBSL) as [->|H2]; [apply qs_esc; constructor|].
  destruct (N.eqb_spec c cLF) as [->|H3]; [apply qs_esc; constructor|].
  destruct (N.eqb_spec c cCR) as [->|H4]; [apply qs_esc; constructor|].
  destruct (N.eqb_spec c cTAB) as [->|H5]; [apply qs_esc; constructor|].
  destruct (is_control c) eqn:E.
  - destruct (hex4_control c E) as (Hf & _). apply (qs_esc cu).
    apply (quote_safe_app [cLB]); [apply qs_plain; [discriminate|discriminate|constructor]|].
    apply quote_safe_app; [|apply qs_plain; [discriminate|discriminate|constructor]].
    induction Hf as [|x l Hx _ IH]; [constructor|]. destruct (hex_not_special _ Hx). now apply qs_plain.
  - apply qs_plain; auto. constructor.
Qed.

Lemma escape_safe s : quote_safe (escape_quoted s).
Proof.
  unfold escape_quoted. destruct (existsb (fun c => is_escaped c || is_control c) s) eqn:E.
  - clear E. induction s as [|c s IH]; cbn [flat_map]; [constructor|]. apply quote_safe_app; [apply escape_char_safe|assumption].
  - induction s as [|c s IH]; [constructor|]. cbn in E. apply orb_false_iff in E as [E1 E2].
    apply qs_plain; [| |now apply IH]; intros ->; discriminate.
Qed.

Lemma reads_quoted_text s rest : reads (quoted_text s) rest s Quoted.
Proof. apply reads_quoted; [apply escape_safe|apply escape_decodes]. Qed.

(** ** The decoders *)

Lemma push_code_ok h r : h <> [] -> Forall hex_char h -> valid_char (hex_num h) = true -> push_code h r = hex_num h :: r.
Proof.
  intros Hn Hf Hv. unfold push_code. rewrite parse_hex_num by assumption.
  pose proof (valid_char_small _ Hv) as Hs. apply N.ltb_lt in Hs. rewrite Hs. unfold char_from. now rewrite Hv.
Qed.

Lemma hex_not_brace c : hex_char c -> (c =? cRB)%N = false /\ (c =? cLB)%N = false.
Proof. unfold hex_char. rewrite !N.eqb_neq. lia. Qed.

Section Decoder.
  (** Both lenient decoders go through the same cases on text that decodes. *)
  Variable dec : option str -> str -> str.
  Hypothesis dec_end : dec None [] = [].
  Hypothesis dec_char : forall c s, c <> cBSL -> dec None (c :: s) = c :: dec None s.
  Hypothesis dec_esc : forall d c s, In (d, c) [(cBSL, cBSL); (cDQ, cDQ); (cn, cLF); (cr, cCR); (ct, cTAB)] ->
    dec None (cBSL :: d :: s) = c :: dec None s.
  Hypothesis dec_four : forall a b c d s, hex_char a -> hex_char b -> hex_char c -> hex_char d ->
    dec None (cBSL :: cu :: a :: b :: c :: d :: s) = push_code [a; b; c; d] (dec None s).
  Hypothesis dec_open : forall s, dec None (cBSL :: cu :: cLB :: s) = dec (Some []) s.
  Hypothesis dec_digit : forall hex c s, hex_char c -> dec (Some hex) (c :: s) = dec (Some (hex ++ [c])) s.
  Hypothesis dec_close : forall hex s, dec (Some hex) (cRB :: s) = push_code hex (dec None s).

  Lemma dec_digits h hex s : Forall hex_char h -> dec (Some hex) (h ++ cRB :: s) = push_code (hex ++ h) (dec None s).
  Proof.
    revert hex. induction h as [|c h IH]; intros hex Hf; cbn [app].
    - now rewrite dec_close, app_nil_r.
    - inversion Hf; subst. rewrite dec_digit, IH by assumption. now rewrite <- app_assoc.
  Qed.

  Lemma decoder_ok s v : decodes s v -> dec None s = v.
  Proof.
    induction 1 as [|c s v Hc _ IH|d c s v Hin _ IH|h s v Hl Hf Hv _ IH|h s v Hn Hf Hv _ IH].
    - exact dec_end.
    - now rewrite dec_char, IH.
    - now rewrite (dec_esc d c), IH.
    - destruct h as [|a [|b [|c [|d [|e h]]]]]; try discriminate. cbn [app].
      pose proof Hf as Hf0. rewrite !Forall_cons_iff in Hf0. destruct Hf0 as (Ha & Hb & Hc & Hd & _).
      rewrite dec_four by assumption. now rewrite push_code_ok, IH.
    - rewrite dec_open, dec_digits by assumption. cbn [app]. now rewrite push_code_ok, IH.
  Qed.
End Decoder.

Lemma esc_in d c : In (d, c) [(cBSL, cBSL); (cDQ, cDQ); (cn, cLF); (cr, cCR); (ct, cTAB)] ->
  (d, c) = (cBSL, cBSL) \/ (d, c) = (cDQ, cDQ) \/ (d, c) = (cn, cLF) \/ (d, c) = (cr, cCR) \/ (d, c) = (ct, cTAB).
Proof. cbn. intuition congruence. Qed.

Ltac esc_cases H := apply esc_in in H; repeat (destruct H as [H|H]; [injection H as -> ->; reflexivity|]); injection H as -> ->; reflexivity.

Lemma unescape_evt_ok s v : decodes s v -> unescape_evt None s = v.
Proof.
  apply decoder_ok.
  - reflexivity.
  - intros c r H. cbn [unescape_evt]. now replace (c =? cBSL)%N with false by (symmetry; now apply N.eqb_neq).
  - intros d c r H. esc_cases H.
  - intros a b c d r Ha Hb Hc Hd. cbn [unescape_evt N.eqb Pos.eqb negb].
    destruct (hex_not_brace _ Ha) as [_ ->]. apply is_hex_iff in Ha, Hb, Hc, Hd. now rewrite Ha, Hb, Hc, Hd.
  - reflexivity.
  - intros hex c r H. cbn [unescape_evt]. now destruct (hex_not_brace _ H) as [-> _].
  - reflexivity.
Qed.

Lemma unescape_sc_ok s v : decodes s v -> unescape_sc None s = v.
Proof.
  apply decoder_ok.
  - reflexivity.
  - intros c r H. cbn [unescape_sc]. now replace (c =? cBSL)%N with false by (symmetry; now apply N.eqb_neq).
  - intros d c r H. esc_cases H.
  - intros a b c d r Ha Hb Hc Hd. cbn [unescape_sc N.eqb Pos.eqb negb].
    destruct (hex_not_brace _ Ha) as [_ ->]. apply is_hex_iff in Ha, Hb, Hc, Hd. now rewrite Ha, Hb, Hc, Hd.
  - reflexivity.
  - intros hex c r H. cbn [unescape_sc]. now destruct (hex_not_brace _ H) as [-> _].
  - reflexivity.
Qed.

Lemma unescape_quoted_ok s v : decodes s v -> unescape_quoted s = v.
Proof.
  intros H. unfold unescape_quoted. destruct (contains_char cBSL s) eqn:E; [now apply unescape_evt_ok|].
  apply contains_char_false in E. now apply decodes_no_bsl in H.
Qed.

Lemma unescape_scalar_ok s v : decodes s v -> unescape_scalar s = v.
Proof.
  intros H. unfold unescape_scalar. destruct (contains_char cBSL s) eqn:E; [now apply unescape_sc_ok|].
  apply contains_char_false in E. now apply decodes_no_bsl in H.
Qed.

Lemma unquote_quoted s : unquote (cDQ :: s ++ [cDQ]) = Some s.
Proof. unfold unquote. rewrite rev_app_distr. cbn. now rewrite rev_involutive. Qed.

Lemma unescape_serde_ok s v : decodes s v -> unescape_serde (cDQ :: s ++ [cDQ]) = v.
Proof. intros H. unfold unescape_serde. rewrite unquote_quoted. now apply unescape_scalar_ok. Qed.

(** ** The CST's decoder *)

Lemma cst_hex h r : Forall hex_char h -> unescape_cst_in (h ++ r) = h ++ unescape_cst_in r.
Proof.
  induction 1 as [|c h Hc _ IH]; [reflexivity|]. cbn [app unescape_cst_in].
  destruct (hex_not_special _ Hc) as [_ Hb]. apply N.eqb_neq in Hb. now rewrite Hb, IH.
Qed.

Lemma decodes_cst s v : decodes s v ->
  (uses_u s /\ length v < length (unescape_cst_in s)) \/ (~ uses_u s /\ unescape_cst_in s = v).
Proof.
  induction 1 as [|c s v Hc _ IH|d c s v Hin _ IH|h s v Hl Hf Hv _ IH|h s v Hn Hf Hv _ IH].
  - right. split; [inversion 1|reflexivity].
  - cbn [unescape_cst_in]. replace (c =? cBSL)%N with false by (symmetry; now apply N.eqb_neq).
    destruct IH as [[Hu IH]|[Hu IH]].
    + left. split; [now constructor|cbn; lia].
    + right. split; [|now rewrite IH]. inversion 1; subst; first [congruence|contradiction].
  - assert (unescape_cst_in (cBSL :: d :: s) = c :: unescape_cst_in s) as E by (clear IH; esc_cases Hin).
    rewrite E. assert (d <> cu) as Hd by (intros ->; cbn in Hin; intuition congruence).
    destruct IH as [[Hu IH]|[Hu IH]].
    + left. split; [now apply uu_simple|cbn; lia].
    + right. split; [|now rewrite IH]. inversion 1; subst; first [congruence|contradiction].
  - left. split; [constructor|]. cbn [unescape_cst_in N.eqb Pos.eqb]. rewrite cst_hex by assumption.
    assert (length v <= length (unescape_cst_in s)) by (destruct IH as [[_ IH]|[_ IH]]; [lia|now rewrite IH]).
    cbn [length]. rewrite app_length. unfold char, str in *. lia.
  - left. split; [constructor|]. cbn [unescape_cst_in N.eqb Pos.eqb]. rewrite cst_hex by assumption.
    assert (length v <= length (unescape_cst_in s)) by (destruct IH as [[_ IH]|[_ IH]]; [lia|now rewrite IH]).
    cbn [unescape_cst_in N.eqb Pos.eqb length]. rewrite app_length. cbn [length]. unfold char, str in *. lia.
Qed.

Lemma cst_agrees s v : decodes s v -> (unescape_cst (cDQ :: s ++ [cDQ]) = v <-> ~ uses_u s).
Proof.
  intros H. unfold unescape_cst. rewrite unquote_quoted. destruct (decodes_cst _ _ H) as [[Hu Hl]|[Hu E]].
  - split; [intros <-; lia|contradiction].
  - split; auto.
Qed.

(** ** Bare scalars *)

Lemma can_be_bare_facts s : can_be_bare s = true <->
  s <> [] /\ starts_with [cSLASH; cSLASH] s = false /\ starts_with [cr; cHASH] s = false /\
  starts_with [cLT; cLT] s = false /\ forall c, In c s -> bare_special c = false.
Proof.
  unfold can_be_bare. destruct s as [|c s].
  - split; [discriminate|]. intros (H & _). congruence.
  - rewrite andb_true_iff, !negb_true_iff, !orb_false_iff.
    assert (existsb bare_special (c :: s) = false <-> forall x, In x (c :: s) -> bare_special x = false) as ->.
    { split.
      - intros H x Hx. destruct (bare_special x) eqn:E; [|reflexivity].
        assert (existsb bare_special (c :: s) = true) by (apply existsb_exists; eauto). congruence.
      - intros H. destruct (existsb bare_special (c :: s)) eqn:E; [|reflexivity]. apply existsb_exists in E as (x & Hx & E).
        rewrite H in E by assumption. discriminate. }
    intuition discriminate.
Qed.

Lemma not_special_bare c : bare_special c = false -> c <> cGT -> is_bare_char c = true.
Proof.
  unfold bare_special, is_bare_char. rewrite !orb_false_iff, !N.eqb_neq. intros H Hg.
  rewrite andb_true_iff, !negb_true_iff, !orb_false_iff, !N.eqb_neq. intuition.
Qed.

Lemma can_be_bare_text s : can_be_bare s = true -> ~ In cGT s -> bare_text s.
Proof.
  intros H Hg. apply can_be_bare_facts in H as (Hn & H1 & H2 & H3 & Hs). unfold bare_text. splits; auto.
  - apply forallb_forall. intros c Hc. apply not_special_bare; [now apply Hs|]. intros ->. contradiction.
  - destruct s as [|c s]; [congruence|]. specialize (Hs c (or_introl eq_refl)).
    destruct (N.eqb_spec c cSLASH) as [->|Hc]; [now right|left].
    assert (c <> cGT) as Hcg by (intros ->; apply Hg; now left).
    unfold bare_special in Hs. rewrite !orb_false_iff, !N.eqb_neq in Hs. unfold is_bare_start.
    rewrite andb_true_iff, !negb_true_iff, !orb_false_iff, !N.eqb_neq. intuition.
Qed.

(** A text with [>] in it is never one bare token: bare tokens do not contain [>]. *)
Lemma bare_iff s rest pos : can_be_bare s = true -> bare_ends rest -> (s = [cr] -> forall x, rest <> cDQ :: x) ->
  (next_token (mkts (s ++ rest) pos None) = emit BareScalar s rest pos None <-> ~ In cGT s).
Proof.
  intros Hs He Hr. split.
  - intros E Hi. pose proof (next_token_good (mkts (s ++ rest) pos None) I) as G. rewrite E in G.
    assert (forallb is_bare_char s = true) as Hb.
    { clear G. apply can_be_bare_facts in Hs as (Hn & H1 & H2 & H3 & Hs). destruct s as [|c s]; [congruence|].
      assert (c <> cGT) as Hc. { intros ->. cbn in E. discriminate E. }
      pose proof (Hs c (or_introl eq_refl)) as Hc1. unfold bare_special in Hc1. rewrite !orb_false_iff, !N.eqb_neq in Hc1.
      cbn [next_token ts_hd ts_rem ts_pos app] in E.
      repeat match type of E with
      | context [if (c =? ?d)%N then _ else _] => replace (c =? d)%N with false in E by (symmetry; apply N.eqb_neq; tauto)
      end.
      destruct (c =? cSLASH)%N.
      { destruct (starts_with [cSLASH; cSLASH] (s ++ rest)); [destruct (span_while not_eol _); discriminate E|].
        destruct (starts_with [cSLASH] (s ++ rest)); [destruct (span_while not_eol _); discriminate E|].
        destruct (span_while is_bare_char _) as [a b] eqn:Es. pose proof (f_equal (fun x => tk_text (fst x)) E) as Et. cbn in Et. subst a.
        now apply span_while_all in Es. }
      destruct ((c =? cLT)%N && starts_with [cLT] (s ++ rest)).
      { destruct (s ++ rest) as [|y r']; [discriminate E|]. destruct (opt_is is_upper (peek r')); [|discriminate E].
        unfold tok_heredoc_start in E. destruct (span_while is_delim_char r'). destruct (16 <? _); [discriminate E|].
        destruct (scan_lang _). destruct (scan_eol _). discriminate E. }
      destruct ((c =? cr)%N && opt_is is_hash_or_dq (peek (s ++ rest))).
      { unfold tok_raw in E. destruct (span_while (N.eqb cHASH) (s ++ rest)) as [hs r1]. destruct r1 as [|q r2]; [discriminate E|].
        destruct (q =? cDQ)%N; [|discriminate E]. destruct (scan_raw _ r2) as [[a b] k]. destruct k; discriminate E. }
      destruct (is_blank c). { destruct (span_while is_blank _). discriminate E. }
      destruct (c =? cLF)%N; [discriminate E|]. destruct ((c =? cCR)%N && _); [discriminate E|].
      destruct (is_bare_start c); [|discriminate E].
      destruct (span_while is_bare_char _) as [a b] eqn:Es. pose proof (f_equal (fun x => tk_text (fst x)) E) as Et. cbn in Et. subst a.
      now apply span_while_all in Es. }
    rewrite forallb_forall in Hb. specialize (Hb _ Hi). discriminate.
  - intros Hg. apply next_bare; auto. now apply can_be_bare_text.
Qed.

(** ** Raw scalars *)

Lemma occurs_length p s : occurs p s -> length p <= length s.
Proof. intros (a & b & ->). rewrite !app_length. lia. Qed.

Lemma raw_hashes_spec fuel n s : length s < fuel + n ->
  n <= raw_hashes fuel n s /\ ~ occurs (cDQ :: repeat cHASH (raw_hashes fuel n s)) s /\
  forall m, n <= m < raw_hashes fuel n s -> occurs (cDQ :: repeat cHASH m) s.
Proof.
  revert n. induction fuel as [|f IH]; intros n Hl; cbn [raw_hashes].
  - splits; [lia| |lia]. intros Ho. apply occurs_length in Ho. cbn in Ho. rewrite repeat_length in Ho. lia.
  - destruct (contains_sub _ s) eqn:E.
    + destruct (IH (S n)) as (H1 & H2 & H3); [lia|]. splits; [lia|assumption|]. intros m Hm.
      destruct (Nat.eq_dec m n) as [->|]; [now apply contains_sub_iff|]. apply H3. lia.
    + splits; [lia| |lia]. intros Ho. apply contains_sub_iff in Ho. congruence.
Qed.

Lemma reads_raw_text s rest : ~ occurs (cDQ :: repeat cHASH 255) s -> reads (raw_text s) rest s Raw.
Proof.
  intros H. unfold raw_text. destruct (raw_hashes_spec (S (length s)) 0 s) as (_ & H2 & H3); [lia|].
  apply reads_raw; [|assumption]. destruct (Nat.le_gt_cases (raw_hashes (S (length s)) 0 s) 255) as [|Hgt]; [assumption|].
  exfalso. apply H, H3. lia.
Qed.

Lemma occurs_prefix p q s : occurs (p ++ q) s -> occurs p s.
Proof. intros (a & b & ->). exists a, (q ++ b). now rewrite <- !app_assoc. Qed.

Lemma reads_raw_one s rest : ~ occurs [cDQ; cHASH] s -> reads (raw_text s) rest s Raw.
Proof.
  intros H. apply reads_raw_text. intros Ho. apply H. apply (occurs_prefix [cDQ; cHASH] (repeat cHASH 254)). exact Ho.
Qed.

(** ** Heredocs *)

Lemma pick_delim_in s : In (pick_delim s) delimiters.
Proof.
  unfold pick_delim. destruct (find _ delimiters) as [d|] eqn:E; [now apply find_some in E|]. now left.
Qed.

Lemma delimiters_names d : In d delimiters -> heredoc_name d.
Proof.
  intros H. cbv in H. repeat (destruct H as [<-|H]; [unfold heredoc_name; cbn; split; [reflexivity|split; [reflexivity|lia]]|]). contradiction.
Qed.

Lemma pick_delim_fresh s : (exists d, In d delimiters /\ ~ occurs d s) -> ~ occurs (pick_delim s) s.
Proof.
  intros (d & Hd & Hn). unfold pick_delim. destruct (find _ delimiters) as [e|] eqn:E.
  - apply find_some in E as [_ E]. apply negb_true_iff in E. intros Ho. apply contains_sub_iff in Ho. congruence.
  - apply find_none with (x := d) in E; [|assumption]. apply negb_false_iff, contains_sub_iff in E. contradiction.
Qed.

Lemma delim_line_occurs d s : delim_line d s -> occurs d s.
Proof. intros (a & ind & b & -> & _). exists (a ++ ind), b. now rewrite <- !app_assoc. Qed.

Lemma ends_with_char_iff c s : ends_with_char c s = true <-> exists a, s = a ++ [c].
Proof.
  unfold ends_with_char. split.
  - destruct (rev s) as [|d m] eqn:E; [discriminate|]. intros H. apply N.eqb_eq in H. subst d.
    exists (rev m). apply (f_equal (@rev _)) in E. now rewrite rev_involutive in E.
  - intros (a & ->). rewrite rev_app_distr. cbn. apply N.eqb_refl.
Qed.

Definition with_eol (s : str) : str := s ++ (if ends_with_char cLF s then [] else [cLF]).

Lemma with_eol_lines s : exists b, with_eol s = b ++ [cLF].
Proof.
  unfold with_eol. destruct (ends_with_char cLF s) eqn:E; [|now exists s].
  rewrite app_nil_r. now apply ends_with_char_iff in E.
Qed.

Lemma reads_heredoc_text s rest : line_ends rest -> ~ delim_line (pick_delim s) (with_eol s) ->
  reads (heredoc_text s) rest (with_eol s) Heredoc.
Proof.
  intros Hr Hn. unfold heredoc_text. cbn zeta.
  replace ([cLT; cLT] ++ pick_delim s ++ [cLF] ++ s ++ (if ends_with_char cLF s then [] else [cLF]) ++ pick_delim s)
    with ([cLT; cLT] ++ pick_delim s ++ [cLF] ++ with_eol s ++ pick_delim s) by (unfold with_eol; now rewrite <- !app_assoc).
  apply reads_heredoc; auto.
  - apply delimiters_names, pick_delim_in.
  - right. apply with_eol_lines.
Qed.

Lemma fresh_no_line d s : In d delimiters -> ~ occurs d s -> ~ delim_line d (with_eol s).
Proof.
  intros Hd Hn (a & ind & b & E & _ & Hind & Hb).
  assert (forallb is_delim_char d = true) as Hdc by (apply delimiters_names in Hd as (_ & H & _); exact H).
  apply Hn. unfold with_eol in E. destruct (ends_with_char cLF s).
  - rewrite app_nil_r in E. exists (a ++ ind), b. now rewrite <- app_assoc.
  - assert (b <> []) as Hbn by (destruct Hb as [(r & ->)|(r & ->)]; discriminate).
    destruct (exists_last Hbn) as (b' & x & ->). rewrite !app_assoc in E. apply app_inj_tail in E as [E _].
    exists (a ++ ind), b'. now rewrite <- app_assoc, E, <- !app_assoc.
Qed.
