(** What the Python lexer makes of scalars written by the Rust printer. *)
From Coq Require Import String.
From Verif Require LexSpec.
From Verif Require Import Base BaseProofs LexModel LexRunProofs FmtModel FmtSpec ScalarProofs PyModel PySpec PyProofs.
Notation length := List.length.

Lemma skip_none c r : py_blank c = false -> c <> cLF -> (c = cSLASH -> forall q, r <> cSLASH :: q) -> skip false (c :: r) = (false, false, c :: r).
Proof.
  intros B L S. cbn [skip]. rewrite (proj2 (N.eqb_neq _ _) L), B. destruct (c =? cSLASH)%N eqn:E; [|reflexivity]. eqs.
  destruct (starts_with [cSLASH] r) eqn:W; [|reflexivity]. apply starts_with_iff in W as (q & ->). now destruct (S eq_refl q).
Qed.

Section write.
Variable isupper : char -> bool.
Variable int16 : str -> option Z.
Hypothesis upper_ascii : forall c, (65 <= c <= 90)%N -> isupper c = true.
Hypothesis hex_ok : forall n, (n < 128)%N -> int16 (hex4 n) = Some (Z.of_N n).

Lemma chr16_hex4 n : (n < 128)%N -> chr16 int16 (hex4 n) = Some n.
Proof.
  intros H. unfold chr16. rewrite hex_ok by auto. replace ((0 <=? Z.of_N n) && (Z.of_N n <? 1114112))%Z with true by lia. f_equal. lia.
Qed.
Lemma flat_escape s : existsb (fun c => is_escaped c || is_control c) s = false -> flat_map escape_char s = s.
Proof.
  induction s as [|c s IH]; [reflexivity|]. cbn [existsb flat_map]. intros H. eqs. rewrite IH by auto.
  unfold is_escaped in H. eqs. unfold escape_char.
  repeat match goal with H : c <> _ |- _ => apply N.eqb_neq in H; rewrite H; clear H end. rewrite H1. reflexivity.
Qed.

Section source.
Variable total : str.
Notation at_ := (at_ total).

Lemma quoted_brace start rest acc c : forall hex h0, Forall (fun d => d <> cRB) hex -> chr16 int16 (h0 ++ hex) = Some c ->
  quoted int16 total start (QBrace h0) acc (hex ++ cRB :: rest) = quoted int16 total start QText (acc ++ [c]) rest.
Proof.
  induction hex as [|d hex IH]; intros h0 F C.
  - cbn [app quoted]. rewrite app_nil_r in C. rewrite N.eqb_refl, C. reflexivity.
  - inversion F; subst. cbn [app quoted]. rewrite (proj2 (N.eqb_neq _ _) H1). apply IH; auto. now rewrite <- app_assoc.
Qed.

Lemma quoted_escapes start rest : forall s acc, quoted int16 total start QText acc (flat_map escape_char s ++ cDQ :: rest) = POk (acc ++ s, rest).
Proof.
  induction s as [|c s IH]; intros acc.
  - cbn. now rewrite app_nil_r.
  - cbn [flat_map]. rewrite <- app_assoc. specialize (IH (acc ++ [c])). rewrite <- app_assoc in IH. cbn [app] in IH. unfold escape_char.
    destruct (c =? cDQ)%N eqn:E1; [eqs; exact IH|]. destruct (c =? cBSL)%N eqn:E2; [eqs; exact IH|].
    destruct (c =? cLF)%N eqn:E3; [eqs; exact IH|]. destruct (c =? cCR)%N eqn:E4; [eqs; exact IH|].
    destruct (c =? cTAB)%N eqn:E5; [eqs; exact IH|]. destruct (is_control c) eqn:E6.
    + assert (C : (c < 128)%N) by (unfold is_control in E6; lia). pose proof (chr16_hex4 c C) as X.
      destruct (hex4_control c E6) as (Hf & _). rewrite <- !app_assoc. cbn [app].
      etransitivity; [|exact IH]. refine (quoted_brace start (flat_map escape_char s ++ cDQ :: rest) acc c (hex4 c) [] _ X).
      eapply Forall_impl; [|exact Hf]. intros d Hd ->. unfold LexSpec.hex_char in Hd. lia.
    + cbn [app quoted]. now rewrite E1, E2, E3, E4.
Qed.

Lemma quoted_text_read p s suf : total = p ++ quoted_text s ++ suf ->
  next_token isupper int16 total (quoted_text s ++ suf)
  = POk (mkpytok KQuoted s (blen p) (blen (p ++ quoted_text s)) false false, suf).
Proof.
  intros T. unfold next_token.
  assert (E : escape_quoted s = flat_map escape_char s).
  { unfold escape_quoted. destruct (existsb (fun c => is_escaped c || is_control c) s) eqn:X; [reflexivity|]. symmetry. now apply flat_escape. }
  assert (A1 : at_ (quoted_text s ++ suf) = blen p) by now apply at_app.
  assert (A2 : at_ suf = blen (p ++ quoted_text s)) by (apply at_app; rewrite T; apply app_assoc).
  unfold quoted_text in *. rewrite <- app_comm_cons in *. rewrite skip_none by (try discriminate; reflexivity). cbn [single N.eqb Pos.eqb].
  assert (A3 : at_ (cDQ :: escape_quoted s ++ cDQ :: suf) = blen p) by (rewrite <- A1; f_equal; f_equal; now rewrite <- app_assoc).
  rewrite <- app_assoc. cbn [app]. rewrite E in *. rewrite quoted_escapes. cbn -[PyModel.at_ app].
  apply (f_equal POk). apply f_equal2; [|reflexivity]. f_equal; [exact A3|exact A2].
Qed.

Lemma hashes_span n q : match q with [] => True | c :: _ => c <> cHASH end -> span_while (N.eqb cHASH) (repeat cHASH n ++ q) = (repeat cHASH n, q).
Proof.
  intros H. apply span_while_intro.
  - apply forallb_forall. intros x X. apply repeat_spec in X as ->. reflexivity.
  - destruct q; auto. apply N.eqb_neq. congruence.
Qed.
Lemma raw_body_found close : close <> [] -> forall s acc suf, (forall a b, s ++ close ++ suf = a ++ close ++ b -> length s <= length a) ->
  raw_body close acc (s ++ close ++ suf) = Some (acc ++ s, suf).
Proof.
  intros Hc s acc suf F. pose proof (raw_body_spec close Hc (s ++ close ++ suf) acc) as R.
  destruct (raw_body close acc (s ++ close ++ suf)) as [[t q]|].
  - destruct R as (m & -> & E & M). assert (L : length m = length s).
    { pose proof (F _ _ E). pose proof (M s suf eq_refl). lia. }
    assert (s = m) as ->.
    { apply (f_equal (firstn (length s))) in E. rewrite !firstn_app, Nat.sub_diag, <- L, Nat.sub_diag in E. rewrite !firstn_O, !app_nil_r in E.
      rewrite firstn_all in E. rewrite L in E. now rewrite firstn_all in E. }
    apply app_inv_head in E. apply app_inv_head in E. now subst.
  - now destruct (R s suf).
Qed.

(** Where the closing pattern does not occur inside the text, it is not found before the end either. *)
Lemma close_first h s suf : ~ FmtSpec.occurs (cDQ :: repeat cHASH h) s ->
  forall a b, s ++ (cDQ :: repeat cHASH h) ++ suf = a ++ (cDQ :: repeat cHASH h) ++ b -> length s <= length a.
Proof.
  intros N a b E. destruct (le_lt_dec (length s) (length a)) as [L|L]; [exact L|exfalso].
  (* [s = a ++ cDQ :: x], and [x] begins with the hashes or is made of them and followed by a quote *)
  assert (S : exists x, s = a ++ cDQ :: x /\ x ++ (cDQ :: repeat cHASH h) ++ suf = repeat cHASH h ++ b).
  { clear N. revert a E L. induction s as [|c s IH]; intros [|d a] E L; cbn in *; try lia.
    - injection E as -> E. exists s. auto.
    - injection E as <- E. destruct (IH a E ltac:(lia)) as (x & -> & X). exists x. auto. }
  destruct S as (x & -> & X). apply N. 
  assert (Q : forall n (x y z : str), x ++ cDQ :: y = repeat cHASH n ++ z -> exists w, x = repeat cHASH n ++ w).
  { induction n as [|n IH]; intros u y z H; cbn in *; [eauto|]. destruct u as [|v u]; cbn in H; [discriminate|]. injection H as -> H.
    apply IH in H as (w & ->). exists w. reflexivity. }
  destruct (Q _ _ _ _ X) as (w & ->). exists a, w. reflexivity.
Qed.

Lemma raw_text_read p s suf : total = p ++ raw_text s ++ suf ->
  next_token isupper int16 total (raw_text s ++ suf) = POk (mkpytok KRaw s (blen p) (blen (p ++ raw_text s)) false false, suf).
Proof.
  intros T. unfold next_token.
  assert (A1 : at_ (raw_text s ++ suf) = blen p) by now apply at_app.
  assert (A2 : at_ suf = blen (p ++ raw_text s)) by (apply at_app; rewrite T; apply app_assoc).
  unfold raw_text in *. set (h := raw_hashes (S (length s)) 0 s) in *.
  assert (H : ~ FmtSpec.occurs (cDQ :: repeat cHASH h) s) by (apply raw_hashes_spec; lia).
  rewrite <- app_comm_cons in *. rewrite skip_none by (try discriminate; reflexivity).
  replace (single cr) with (@None pykind) by reflexivity. replace (cr =? cAT)%N with false by reflexivity. replace (cr =? cDQ)%N with false by reflexivity.
  replace (opt_is (fun d : char => ((d =? cDQ) || (d =? cHASH))%N) (peek ((repeat cHASH h ++ cDQ :: s ++ cDQ :: repeat cHASH h) ++ suf))) with true
    by (destruct h; reflexivity). cbn [andb]. replace (cr =? cr)%N with true by reflexivity.
  rewrite <- app_assoc, hashes_span by discriminate. cbn [tl app].
  replace ((s ++ cDQ :: repeat cHASH h) ++ suf) with (s ++ (cDQ :: repeat cHASH h) ++ suf) by now rewrite <- app_assoc.
  rewrite raw_body_found by (try discriminate; now apply close_first). cbn [app].
  apply (f_equal POk). apply f_equal2; [|reflexivity]. f_equal; [|exact A2].
  rewrite <- A1. repeat first [rewrite <- app_assoc | progress cbn [app]]. reflexivity.
Qed.

(** *** Bare words *)
(** What may follow a bare word *)
Definition stop (c : char) : Prop := In c [cLF; cSP; cRP; cRB; cCOMMA].
Lemma bare_read p s suf : total = p ++ s ++ suf -> can_be_bare s = true -> ~ In cGT s -> ends_at stop suf ->
  next_token isupper int16 total (s ++ suf) = POk (mkpytok KScalar s (blen p) (blen (p ++ s)) false false, suf).
Proof.
  intros T B G E. unfold next_token.
  assert (A1 : at_ (s ++ suf) = blen p) by now apply at_app.
  assert (A2 : at_ suf = blen (p ++ s)) by (apply at_app; rewrite T; apply app_assoc).
  destruct s as [|c s]; [discriminate|]. unfold can_be_bare in B. apply andb_true_iff in B as [B1 B2].
  apply negb_true_iff in B1. apply negb_true_iff in B2. apply orb_false_iff in B1 as [B1 B3]. apply orb_false_iff in B1 as [B1 B4].
  assert (Sp : forall d, In d (c :: s) -> bare_special d = false /\ d <> cGT).
  { intros d D. split; [|intros ->; auto]. destruct (bare_special d) eqn:X; [|reflexivity].
    rewrite (proj2 (existsb_exists _ _)) in B2; [discriminate|eauto]. }
  assert (Ns : forall d, In d (c :: s) -> py_special d = false).
  { intros d D. destruct (Sp d D) as [X Y]. unfold bare_special in X. eqs. destruct (py_special d) eqn:Z; [|reflexivity].
    apply special_iff in Z. unfold delimits, blank in Z. destruct Z as [->|[->|[->|[->|[->|[->|[->|[[->| ->]|[->| ->]]]]]]]]]; try congruence; discriminate. }
  destruct (Sp c (or_introl eq_refl)) as [Xc Yc]. pose proof (Ns c (or_introl eq_refl)) as Nc.
  assert (Hc : c <> cLB /\ c <> cRB /\ c <> cLP /\ c <> cRP /\ c <> cCOMMA /\ c <> cDQ /\ c <> cAT /\ c <> cLF /\ py_blank c = false).
  { unfold py_special in Nc. unfold bare_special in Xc. eqs. splits; auto. unfold py_blank.
    repeat match goal with H : c <> _ |- _ => apply N.eqb_neq in H; rewrite ?H end. reflexivity. }
  destruct Hc as (C1 & C2 & C3 & C4 & C5 & C6 & C7 & C8 & C9).
  rewrite <- app_comm_cons in *. rewrite skip_none; auto.
  2:{ intros -> q X. destruct s as [|d s].
      - destruct E as [->|(x & r & -> & Es)]; [discriminate|]; cbn in Es; decompose [or] Es; subst; try contradiction; discriminate.
      - cbn in X. injection X as -> _. cbn in B1. discriminate. }
  replace (single c) with (@None pykind).
  2:{ unfold single. repeat match goal with H : c <> _ |- _ => apply N.eqb_neq in H; rewrite ?H; clear H end. reflexivity. }
  rewrite (proj2 (N.eqb_neq _ _) C7), (proj2 (N.eqb_neq _ _) C6).
  replace ((c =? cr)%N && opt_is (fun d : char => ((d =? cDQ) || (d =? cHASH))%N) (peek (s ++ suf))) with false.
  2:{ destruct (c =? cr)%N eqn:Er; [|reflexivity]. eqs. cbn [andb]. destruct s as [|d s].
      - destruct E as [->|(x & r & -> & Es)]; [reflexivity|]; cbn in Es; decompose [or] Es; subst; try contradiction; reflexivity.
      - cbn. destruct (Sp d (or_intror (or_introl eq_refl))) as [X _]. destruct (d =? cDQ)%N eqn:D1; [eqs; discriminate|].
        destruct (d =? cHASH)%N eqn:D2; [eqs; cbn in B4; discriminate|reflexivity]. }
  replace ((c =? cLT)%N && starts_with [cLT] (s ++ suf)) with false.
  2:{ destruct (c =? cLT)%N eqn:Er; [|reflexivity]. eqs. cbn [andb]. symmetry. apply starts_with_false. intros r X. destruct s as [|d s].
      - destruct E as [->|(x & q & -> & Es)]; [discriminate|]; cbn in Es; decompose [or] Es; subst; try contradiction; discriminate.
      - cbn in X. injection X as -> _. cbn in B3. discriminate. }
  match goal with |- context [span_while ?f ?l] => replace (span_while f l) with (c :: s, suf) end;
    [|symmetry; apply (span_while_intro (fun d => negb (py_special d)) (c :: s) suf)].
  - apply (f_equal POk). apply f_equal2; [|reflexivity]. f_equal; [exact A1|exact A2].
  - apply forallb_forall. intros d D. rewrite (Ns d D). reflexivity.
  - destruct E as [->|(x & r & -> & Es)]; [reflexivity|]; cbn in Es; decompose [or] Es; subst; try contradiction; reflexivity.
Qed.

(** *** Heredocs *)
Lemma heredoc_body_no_close bare : (exists c r, bare = c :: r /\ ~ blank c /\ c <> cLF) -> no_lf bare -> forall s text line suf,
  full_lines (text ++ line ++ s) -> no_lf line -> ~ FmtSpec.occurs bare (line ++ s) -> ends_at (eq cLF) suf ->
  heredoc_body bare text line (s ++ bare ++ suf) = Some (text ++ line ++ s, suf).
Proof.
  intros Hb Lb. assert (Bf : exists c r, bare = c :: r /\ ~ blank c) by (destruct Hb as (c & r & ? & ? & ?); eauto).
  assert (Cl : closes bare = fun t l => closes bare t l) by reflexivity.
  assert (Rb : forall b0 text line suf, no_lf b0 -> ends_at (eq cLF) suf -> line ++ b0 <> [] ->
             heredoc_body bare text line (b0 ++ suf) = match closes bare text (line ++ b0) with Some t => Some (t, suf) | None => heredoc_body bare text (line ++ b0) suf end).
  { induction b0 as [|x b0 IH]; intros text line suf L E Ne.
    - cbn [app]. rewrite app_nil_r in *. destruct E as [->|(c & r & -> & <-)]; cbn [heredoc_body].
      + destruct line; [congruence|]. destruct (closes bare text (_ :: _)); reflexivity.
      + rewrite N.eqb_refl. destruct (closes bare text line); reflexivity.
    - cbn [app heredoc_body]. assert (x <> cLF) by (intros ->; apply L; now left). rewrite (proj2 (N.eqb_neq _ _) H).
      rewrite IH; auto; [now rewrite <- app_assoc | intros Y; apply L; now right | rewrite <- app_assoc; destruct line; discriminate]. }
  induction s as [|c s IH]; intros text line suf F L O E.
  - cbn [app]. rewrite app_nil_r in *. rewrite Rb; auto.
    2:{ destruct Hb as (? & ? & -> & _). destruct line; discriminate. }
    assert (line = []) as ->.
    { destruct F as [F|(b & F)]; [destruct text, line; (reflexivity || discriminate)|].
      destruct (list_eq_dec N.eq_dec line []) as [|N]; auto. destruct (exists_last N) as (l & x & ->). rewrite app_assoc in F.
      apply app_inj_tail in F as [_ ->]. destruct L. apply in_or_app. right. now left. }
    cbn [app]. unfold closes. rewrite str_eqb_refl. now rewrite app_nil_r.
  - cbn [app heredoc_body]. destruct (c =? cLF)%N eqn:Ec; eqs.
    + pose proof (closes_spec bare Bf text line) as K. destruct (closes bare text line) as [t|].
      { exfalso. destruct K as (ind & -> & _). apply O. exists ind, (cLF :: s). now rewrite <- app_assoc. }
      rewrite IH; auto.
      * repeat first [rewrite <- app_assoc | progress cbn [app]]. reflexivity.
      * rewrite <- !app_assoc. exact F.
      * intros [].
      * cbn [app]. intros (a & b & ->). apply O. exists (line ++ cLF :: a), b. now rewrite <- app_assoc.
    + rewrite IH; auto.
      * now rewrite <- app_assoc.
      * rewrite <- app_assoc. exact F.
      * unfold no_lf. rewrite in_app_iff. intros [X|[X|[]]]; auto.
      * rewrite <- app_assoc. exact O.
Qed.

Lemma pick_delim_ok s : (exists d, In d delimiters /\ ~ FmtSpec.occurs d s) -> In (pick_delim s) delimiters /\ ~ FmtSpec.occurs (pick_delim s) s.
Proof.
  intros (d & I & O). unfold pick_delim. destruct (find (fun d => negb (contains_sub d s)) delimiters) as [x|] eqn:F.
  - apply find_some in F as [F1 F2]. split; [exact F1|]. intros X. apply contains_sub_iff in X. rewrite X in F2. discriminate.
  - exfalso. pose proof (find_none _ _ F d I) as X. cbn in X. apply negb_false_iff in X. apply O. now apply contains_sub_iff.
Qed.
Lemma delimiter_shape d : In d delimiters -> (exists c r, d = c :: r /\ (65 <= c <= 90)%N) /\ forallb (fun c => not_char cLF c && not_char cCOMMA c) d = true.
Proof. cbn. intros H. repeat destruct H as [<-|H]; try contradiction; (split; [cbn; eexists _, _; split; [reflexivity|lia]|reflexivity]). Qed.

Lemma heredoc_read p s suf : total = p ++ heredoc_text s ++ suf -> full_lines s -> s <> [] -> (exists d, In d delimiters /\ ~ FmtSpec.occurs d s) ->
  ends_at (eq cLF) suf ->
  next_token isupper int16 total (heredoc_text s ++ suf)
  = POk (mkpytok KHeredoc s (blen p) (blen (p ++ heredoc_text s)) false false, suf).
Proof.
  intros T F Ne D E. unfold next_token.
  assert (A1 : at_ (heredoc_text s ++ suf) = blen p) by now apply at_app.
  assert (A2 : at_ suf = blen (p ++ heredoc_text s)) by (apply at_app; rewrite T; apply app_assoc).
  destruct (pick_delim_ok s D) as [I O]. destruct (delimiter_shape _ I) as [(x & dr & Ed & Ux) All].
  unfold heredoc_text in *.
  assert (Lf : ends_with_char cLF s = true).
  { destruct F as [->|(b & ->)]; [congruence|]. unfold ends_with_char. rewrite rev_app_distr. reflexivity. }
  rewrite Lf in *. cbn [app] in *. set (d := pick_delim s) in *.
  rewrite skip_none by (try discriminate; reflexivity).
  replace (single cLT) with (@None pykind) by reflexivity.
  replace (cLT =? cAT)%N with false by reflexivity. replace (cLT =? cDQ)%N with false by reflexivity. replace (cLT =? cr)%N with false by reflexivity.
  replace (cLT =? cLT)%N with true by reflexivity. cbn [andb starts_with strip_prefix N.eqb Pos.eqb tl].
  replace (opt_is isupper (peek ((d ++ cLF :: s ++ d) ++ suf))) with true by (rewrite Ed; cbn; symmetry; now apply upper_ascii).
  assert (Ds : span_while (not_char cLF) ((d ++ cLF :: s ++ d) ++ suf) = (d, cLF :: s ++ d ++ suf)).
  { replace ((d ++ cLF :: s ++ d) ++ suf) with (d ++ cLF :: s ++ d ++ suf) by (repeat first [rewrite <- app_assoc | progress cbn [app]]; reflexivity).
    apply span_while_intro; [|reflexivity]. apply forallb_forall. intros y Y. rewrite forallb_forall in All. apply All, andb_true_iff in Y. tauto. }
  unfold starts_with, strip_prefix. cbn [N.eqb Pos.eqb]. rewrite Ds.
  assert (Db : span_while (not_char cCOMMA) d = (d, [])).
  { pose proof (span_while_intro (not_char cCOMMA) d []) as X. rewrite app_nil_r in X. apply X; [|exact Logic.I]. apply forallb_forall. intros y Y.
    rewrite forallb_forall in All. apply All, andb_true_iff in Y. tauto. }
  rewrite Db. cbn [tl]. rewrite heredoc_body_no_close; auto.
  - cbn [app]. apply (f_equal POk). apply f_equal2; [|reflexivity]. f_equal; [exact A1|exact A2].
  - exists x, dr. splits; auto; [intros [|]; lia|lia].
  - intros Y. rewrite forallb_forall in All. apply All in Y. discriminate.
  - intros [].
Qed.
End source.
End write.
