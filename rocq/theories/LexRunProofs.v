(** Which lexeme the lexer makes of a given text. *)
From Verif Require Import Base BaseProofs TokModel TokProofs LexModel LexSpec EscapeProofs LexProofs FmtSpec.

(** The part of [next_lexeme] after whitespace has been skipped. *)
Definition lexeme_of (tok : token) (st : lstate) : res (lexeme * lstate) :=
  let sp := tk_span tok in
  match tk_kind tok with
  | Eof => Ok (LxEof, st)
  | LBrace => Ok (LxObjStart sp, st)
  | RBrace => Ok (LxObjEnd sp, st)
  | LParen => Ok (LxSeqStart sp, st)
  | RParen => Ok (LxSeqEnd sp, st)
  | Comma => Ok (LxComma sp, st)
  | Gt => Ok (LxError sp MsgGt, st)
  | Newline => Ok (LxNewline sp, st)
  | LineComment => Ok (LxComment sp (tk_text tok), st)
  | DocComment => Ok (LxDoc sp (tk_text tok), st)
  | At =>
    let (nx, st1) := peek_token st in
    if (sp_start (tk_span nx) =? sp_end sp) && tkind_eqb (tk_kind nx) BareScalar then
      let (bad, st2) := lex_token st1 in
      Ok (LxError (mkspan (sp_start sp) (sp_end (tk_span bad))) MsgInvalidTag, st2)
    else Ok (LxUnit sp, st1)
  | Tag =>
    do name <- of_opt (drop_bytes 1 (tk_text tok));
    let is_chained := contains_sub [cSLASH; cAT] name in
    let (pt, st1) := peek_token st in
    let adjacent := sp_start (tk_span pt) =? sp_end sp in
    let valid := match tk_kind pt with
                 | LBrace | LParen | QuotedScalar | RawScalar | At | Tag => true
                 | _ => false end in
    if adjacent && negb valid && tkind_eqb (tk_kind pt) BareScalar then
      let (bad, st2) := lex_token st1 in
      Ok (LxError (mkspan (sp_start sp) (sp_end (tk_span bad))) MsgInvalidTag, st2)
    else Ok (LxTag sp name (is_chained || (adjacent && valid)), st1)
  | BareScalar =>
    let (nx, st1) := peek_token st in
    let gt_end := sp_end (tk_span nx) in
    if tkind_eqb (tk_kind nx) Gt && (sp_start (tk_span nx) =? sp_end sp) then
      let (_, st2) := lex_token st1 in
      let (vt, st3) := peek_token st2 in
      let gt_span := mkspan (gt_end - 1) gt_end in
      if tkind_eqb (tk_kind vt) Newline || tkind_eqb (tk_kind vt) Eof then
        Ok (LxError gt_span MsgExpectedValue, st3)
      else if tkind_eqb (tk_kind vt) Whitespace then Ok (LxError gt_span MsgWsAfterGt, st3)
      else Ok (LxAttrKey (mkspan (sp_start sp) gt_end) sp (tk_text tok), st3)
    else Ok (LxScalar sp (tk_text tok) Bare, st1)
  | QuotedScalar =>
    do inner <- of_opt (slice (tk_text tok) 1 (blen (tk_text tok) - 1));
    match process_escapes inner with
    | inl v => Ok (LxScalar sp v Quoted, st)
    | inr m => Ok (LxError sp m, st)
    end
  | RawScalar =>
    do tl <- of_opt (drop_bytes 1 (tk_text tok));
    let h := length (fst (span_while (N.eqb cHASH) tl)) in
    do content <- of_opt (slice (tk_text tok) (1 + h + 1) (blen (tk_text tok) - h - 1));
    Ok (LxScalar sp content Raw, st)
  | HeredocStart => heredoc_loop (lex_fuel st) sp [] 0 st
  | HeredocContent | HeredocEnd => Ok (LxError sp MsgHeredocTok, st)
  | Whitespace => Panic
  | TError => Ok (LxError sp MsgTokenizer, st)
  end.

Lemma next_lexeme_eq st0 : next_lexeme st0 =
  do (tok, st) <- skip_ws (lex_fuel st0) st0; lexeme_of tok st.
Proof. reflexivity. Qed.

(** ** Standing before a text *)

Lemma at_text_new src : at_text (lex_new src) src 0.
Proof. now left. Qed.

Lemma at_text_plain rem pos : at_text (mkls (mkts rem pos None) None) rem pos.
Proof. now left. Qed.

Lemma lex_token_at st rem pos : at_text st rem pos ->
  lex_token st = (fst (next_token (mkts rem pos None)), mkls (snd (next_token (mkts rem pos None))) None).
Proof.
  intros [[E1 E2]|(t & E1 & E2)]; unfold lex_token; rewrite E1.
  - rewrite E2. now destruct (next_token _).
  - now rewrite E2.
Qed.

Lemma peek_token_at st rem pos : at_text st rem pos ->
  fst (peek_token st) = fst (next_token (mkts rem pos None)) /\ at_text (snd (peek_token st)) rem pos.
Proof.
  intros [[E1 E2]|(t & E1 & E2)]; unfold peek_token; rewrite E1.
  - rewrite E2. destruct (next_token (mkts rem pos None)) as [t ts] eqn:E. cbn [fst snd]. split; [reflexivity|].
    right. exists t. cbn. auto.
  - cbn [fst snd]. rewrite E2. split; [reflexivity|]. right. eauto.
Qed.

Lemma peek_token_at' st rem pos t st' : at_text st rem pos -> peek_token st = (t, st') ->
  t = fst (next_token (mkts rem pos None)) /\ at_text st' rem pos.
Proof. intros H E. pose proof (peek_token_at st rem pos H) as [A B]. rewrite E in A, B. auto. Qed.

(** After a token that leaves the tokenizer outside of a heredoc, the lexer stands before the rest. *)
Lemma lex_token_emit st rem pos k used rest : at_text st rem pos ->
  next_token (mkts rem pos None) = emit k used rest pos None ->
  exists st', lex_token st = (mktok k (mkspan pos (pos + blen used)) used, st') /\ at_text st' rest (pos + blen used).
Proof.
  intros H E. rewrite (lex_token_at _ _ _ H), E. cbn. eexists. split; [reflexivity|]. now left.
Qed.

(** ** Tokens of given texts *)

Lemma next_blank c s pos : is_blank c = true ->
  next_token (mkts (c :: s) pos None) = let (a, b) := span_while is_blank (c :: s) in emit Whitespace a b pos None.
Proof.
  intros H. cbn [next_token ts_hd ts_rem ts_pos]. unfold is_blank in H. apply orb_prop in H as [H|H]; apply N.eqb_eq in H; subst c;
    reflexivity.
Qed.

Definition blanks (s : str) : Prop := forall c, In c s -> c = cSP \/ c = cTAB.

Lemma blanks_forallb s : blanks s <-> forallb is_blank s = true.
Proof.
  unfold blanks. rewrite forallb_forall. unfold is_blank. split; intros H x Hx; specialize (H x Hx).
  - apply orb_true_iff. rewrite !N.eqb_eq. exact H.
  - apply orb_true_iff in H. now rewrite !N.eqb_eq in H.
Qed.

Definition no_blank_head (s : str) : Prop := match s with [] => True | c :: _ => is_blank c = false end.

Lemma span_while_exact p a b : forallb p a = true -> (match b with [] => True | c :: _ => p c = false end) ->
  span_while p (a ++ b) = (a, b).
Proof.
  induction a as [|c a IH]; intros Ha Hb; cbn in *.
  - destruct b as [|d b]; [reflexivity|]. cbn. now rewrite Hb.
  - apply andb_prop in Ha as [Hc Ha]. rewrite Hc, IH; auto.
Qed.

Lemma next_blanks a rest pos : a <> [] -> forallb is_blank a = true -> no_blank_head rest ->
  next_token (mkts (a ++ rest) pos None) = emit Whitespace a rest pos None.
Proof.
  intros Hn Ha Hr. destruct a as [|c a]; [congruence|]. cbn [app]. rewrite next_blank by (cbn in Ha; now apply andb_prop in Ha).
  change (c :: a ++ rest) with ((c :: a) ++ rest). rewrite span_while_exact; auto.
Qed.

Lemma no_blank_not_ws rest pos : no_blank_head rest -> tkind_eqb (tk_kind (fst (next_token (mkts rest pos None)))) Whitespace = false.
Proof.
  intros H. destruct rest as [|c r]; [reflexivity|]. cbn in H. cbn [next_token ts_hd ts_rem ts_pos].
  repeat match goal with
  | |- context [if ?b then _ else _] => destruct b eqn:?; try reflexivity; try congruence
  | |- context [match ?x with _ => _ end] => destruct x eqn:?; try reflexivity; try congruence
  | |- context [tok_at_or_tag] => unfold tok_at_or_tag
  | |- context [tok_quoted] => unfold tok_quoted
  | |- context [tok_heredoc_start] => unfold tok_heredoc_start
  | |- context [tok_raw] => unfold tok_raw
  end.
Qed.

Lemma skip_ws_at st a rest pos fuel : at_text st (a ++ rest) pos -> blanks a -> no_blank_head rest ->
  skip_ws (S (S fuel)) st
  = Ok (fst (next_token (mkts rest (pos + blen a) None)), mkls (snd (next_token (mkts rest (pos + blen a) None))) None).
Proof.
  intros Hst Ha Hr. apply blanks_forallb in Ha.
  assert (forall st' fuel', at_text st' rest (pos + blen a) -> skip_ws (S fuel') st' =
    Ok (fst (next_token (mkts rest (pos + blen a) None)), mkls (snd (next_token (mkts rest (pos + blen a) None))) None)) as Done.
  { intros st' fuel' H. cbn [skip_ws]. pose proof (peek_token_at _ _ _ H) as [E1 E2].
    destruct (peek_token st') as [t st1]. cbn [fst snd] in E1, E2. subst t.
    rewrite no_blank_not_ws by assumption. now rewrite (lex_token_at _ _ _ E2). }
  destruct a as [|c a].
  - cbn [blen] in *. replace (pos + 0) with pos in * by lia. now apply Done.
  - cbn [skip_ws]. pose proof (peek_token_at _ _ _ Hst) as [E1 E2]. destruct (peek_token st) as [t st1]. cbn [fst snd] in E1, E2.
    assert (next_token (mkts ((c :: a) ++ rest) pos None) = emit Whitespace (c :: a) rest pos None) as E
      by (apply next_blanks; [discriminate|assumption|assumption]).
    rewrite E in E1. cbn in E1. subst t. cbn [tk_kind tkind_eqb].
    destruct (lex_token_emit _ _ _ _ _ _ E2 E) as (st2 & E3 & E4). rewrite E3. cbn [snd]. now apply Done.
Qed.

Lemma next_lexeme_at st a rest pos : at_text st (a ++ rest) pos -> blanks a -> no_blank_head rest ->
  next_lexeme st = let (t, ts) := next_token (mkts rest (pos + blen a) None) in lexeme_of t (mkls ts None).
Proof.
  intros H Ha Hr. rewrite next_lexeme_eq. unfold lex_fuel. change (4 + 2 * length (ts_rem (ls_tok st)))
    with (S (S (2 + 2 * length (ts_rem (ls_tok st))))).
  rewrite (skip_ws_at _ _ _ _ _ H Ha Hr). now destruct (next_token _).
Qed.

(** ** Bare scalars *)

Lemma not_bare_ends rest : bare_ends rest -> match rest with [] => True | c :: _ => is_bare_char c = false end.
Proof.
  destruct rest as [|c r]; [auto|]. cbn [bare_ends]. unfold is_bare_char. intros [H|H].
  - cbn in H. repeat (destruct H as [<-|H]; [reflexivity|]). contradiction.
  - rewrite H. cbn. apply andb_false_r.
Qed.

Lemma bare_ends_iff rest : bare_ends rest <-> match rest with [] => True | c :: _ => is_bare_char c = false end.
Proof.
  split; [apply not_bare_ends|]. destruct rest as [|c r]; [auto|]. unfold is_bare_char, bare_ends.
  intros H. apply andb_false_iff in H as [H|H]; apply negb_false_iff in H; [left|now right].
  cbn [In]. repeat (apply orb_prop in H as [H|H]); apply N.eqb_eq in H; auto 10.
Qed.

(** A text that the tokenizer takes as one bare scalar. *)
Definition bare_text (s : str) : Prop :=
  s <> [] /\ forallb is_bare_char s = true /\
  (match s with c :: _ => is_bare_start c = true \/ c = cSLASH | [] => False end) /\
  starts_with [cSLASH; cSLASH] s = false /\ starts_with [cLT; cLT] s = false /\
  starts_with [cr; cHASH] s = false.

Lemma is_bare_start_facts c : is_bare_start c = true ->
  (c <> cLB /\ c <> cRB /\ c <> cLP /\ c <> cRP /\ c <> cCOMMA /\ c <> cDQ /\ c <> cEQ /\ c <> cAT /\ c <> cGT /\ c <> cSLASH)
  /\ is_ws c = false.
Proof.
  unfold is_bare_start. rewrite andb_true_iff, !negb_true_iff, !orb_false_iff, !N.eqb_neq. intuition.
Qed.

Lemma not_ws_facts c : is_ws c = false -> c <> cSP /\ c <> cTAB /\ c <> cLF /\ c <> cCR.
Proof. intros H. splits; intros ->; discriminate. Qed.

Lemma bare_not_dq r rest : forallb is_bare_char r = true -> starts_with [cr; cHASH] (cr :: r) = false ->
  bare_ends rest -> opt_is is_hash_or_dq (peek (r ++ rest)) = true -> r = [] /\ exists x, rest = cDQ :: x.
Proof.
  intros Hb Hs He H. destruct r as [|d r].
  - cbn in H. split; [reflexivity|]. destruct rest as [|c x]; [discriminate|]. cbn in H.
    unfold is_hash_or_dq in H. apply orb_prop in H as [H|H]; apply N.eqb_eq in H; subst; [|eauto].
    apply bare_ends_iff in He. discriminate.
  - exfalso. cbn in H. unfold is_hash_or_dq in H. apply orb_prop in H as [H|H]; apply N.eqb_eq in H; subst d; discriminate.
Qed.

(** A single [r] before a quote starts a raw string; every other bare text is read as it stands. *)
Lemma next_bare s rest pos : bare_text s -> bare_ends rest -> (s = [cr] -> forall x, rest <> cDQ :: x) ->
  next_token (mkts (s ++ rest) pos None) = emit BareScalar s rest pos None.
Proof.
  intros (Hn & Hb & Hh & H1 & H2 & H3) He Hr.
  assert (span_while is_bare_char (s ++ rest) = (s, rest)) as Sp.
  { apply span_while_exact; [assumption|]. now apply not_bare_ends. }
  destruct s as [|c s]; [congruence|]. cbn [app] in *.
  cbn [next_token ts_hd ts_rem ts_pos].
  assert (forall d, In d [cLB; cRB; cLP; cRP; cCOMMA; cGT; cDQ] -> (c =? d)%N = false) as Hd.
  { intros d Hi. apply N.eqb_neq. intros <-. cbn in Hb. apply andb_prop in Hb as [Hb _].
    cbn in Hi. repeat (destruct Hi as [<-|Hi]; [discriminate|]). contradiction. }
  rewrite (Hd cLB), (Hd cRB), (Hd cLP), (Hd cRP), (Hd cCOMMA), (Hd cGT), (Hd cDQ) by (cbn; tauto).
  destruct Hh as [Hh| ->].
  - destruct (is_bare_start_facts _ Hh) as [(Ha & Hb1 & Hc & Hd1 & He1 & Hf & Hg & Hi & Hj & Hk) Hw].
    destruct (not_ws_facts _ Hw) as (W1 & W2 & W3 & W4).
    replace (c =? cAT)%N with false by (symmetry; now apply N.eqb_neq).
    replace (c =? cSLASH)%N with false by (symmetry; now apply N.eqb_neq).
    replace ((c =? cLT)%N && starts_with [cLT] (s ++ rest)) with false.
    2:{ symmetry. apply andb_false_iff. destruct (N.eqb_spec c cLT) as [->|]; [right|now left].
        apply starts_with_false. intros r E. destruct s as [|d s].
        - cbn in E. subst rest. apply bare_ends_iff in He. discriminate.
        - cbn in E. injection E as E1 _. subst d. discriminate. }
    replace ((c =? cr)%N && opt_is is_hash_or_dq (peek (s ++ rest))) with false.
    2:{ symmetry. apply andb_false_iff. destruct (N.eqb_spec c cr) as [->|]; [right|now left].
        destruct (opt_is is_hash_or_dq (peek (s ++ rest))) eqn:E; [|reflexivity].
        cbn in Hb. apply bare_not_dq in E as (-> & x & ->); auto. exfalso. exact (Hr eq_refl x eq_refl). }
    replace (is_blank c) with false by (symmetry; unfold is_blank; apply orb_false_iff; split; now apply N.eqb_neq).
    replace (c =? cLF)%N with false by (symmetry; now apply N.eqb_neq).
    replace (c =? cCR)%N with false by (symmetry; now apply N.eqb_neq).
    cbn [andb]. rewrite Hh. rewrite Sp. reflexivity.
  - cbn [N.eqb Pos.eqb].
    assert (starts_with [cSLASH] (s ++ rest) = false) as Sf.
    { apply starts_with_false. intros r E. destruct s as [|d s].
      - cbn in E. subst rest. apply bare_ends_iff in He. discriminate.
      - cbn in E. injection E as E1 _. subst d. discriminate. }
    assert (starts_with [cSLASH; cSLASH] (s ++ rest) = false) as Sf2.
    { apply starts_with_false. intros r E. apply starts_with_false with (r := [cSLASH] ++ r) in Sf. apply Sf.
      rewrite E. reflexivity. }
    rewrite Sf, Sf2, Sp. reflexivity.
Qed.

Lemma no_blank_bare s rest : bare_text s -> no_blank_head (s ++ rest).
Proof.
  intros (Hn & Hb & _). destruct s as [|c s]; [congruence|]. cbn. cbn in Hb. apply andb_prop in Hb as [Hb _].
  unfold is_bare_char in Hb. apply andb_prop in Hb as [_ Hb]. apply negb_true_iff in Hb. destruct (not_ws_facts _ Hb) as (H1 & H2 & _).
  unfold is_blank. apply orb_false_iff. split; now apply N.eqb_neq.
Qed.

Lemma not_gt_token rest pos : (forall r, rest <> cGT :: r) ->
  tkind_eqb (tk_kind (fst (next_token (mkts rest pos None)))) Gt = false.
Proof.
  intros H. destruct rest as [|c r]; [reflexivity|]. cbn [next_token ts_hd ts_rem ts_pos].
  destruct (N.eqb_spec c cGT) as [->|Hc]; [exfalso; now apply (H r)|].
  repeat match goal with
  | |- context [if ?b then _ else _] => destruct b eqn:?; try reflexivity; try congruence
  | |- context [match ?x with _ => _ end] => destruct x eqn:?; try reflexivity; try congruence
  | |- context [tok_at_or_tag] => unfold tok_at_or_tag
  | |- context [tok_quoted] => unfold tok_quoted
  | |- context [tok_heredoc_start] => unfold tok_heredoc_start
  | |- context [tok_raw] => unfold tok_raw
  end.
Qed.

Lemma reads_bare s rest : bare_text s -> scalar_ends rest -> (s = [cr] -> forall x, rest <> cDQ :: x) ->
  reads s rest s Bare.
Proof.
  intros Hs [He Hg] Hr st pre pos Hst Hp. rewrite (next_lexeme_at _ _ _ _ Hst Hp) by now apply no_blank_bare.
  rewrite next_bare by assumption. cbn [emit lexeme_of tk_kind tk_span tk_text].
  pose proof (peek_token_at _ _ _ (at_text_plain rest (pos + blen pre + blen s))) as [E1 E2].
  destruct (peek_token _) as [nx st1]. cbn [fst snd] in E1, E2. subst nx. rewrite not_gt_token by assumption. cbn [andb].
  eauto.
Qed.

(** ** Quoted scalars *)

(** No quote ends the scalar early: every quote and every backslash is escaped. *)
Inductive quote_safe : str -> Prop :=
| qs_nil : quote_safe []
| qs_plain c s : c <> cDQ -> c <> cBSL -> quote_safe s -> quote_safe (c :: s)
| qs_esc d s : quote_safe s -> quote_safe (cBSL :: d :: s).

Lemma quote_safe_app a b : quote_safe a -> quote_safe b -> quote_safe (a ++ b).
Proof. induction 1; intros Hb; cbn; [assumption|apply qs_plain; auto|apply qs_esc; auto]. Qed.

Lemma scan_quoted_safe s rest : quote_safe s -> scan_quoted (s ++ cDQ :: rest) = (s ++ [cDQ], rest, true).
Proof.
  induction 1 as [|c s H1 H2 Hs IH|d s Hs IH]; cbn [app].
  - reflexivity.
  - cbn [scan_quoted]. replace (c =? cDQ)%N with false by (symmetry; now apply N.eqb_neq).
    replace (c =? cBSL)%N with false by (symmetry; now apply N.eqb_neq). now rewrite IH.
  - cbn [scan_quoted N.eqb Pos.eqb]. now rewrite IH.
Qed.

Lemma next_quoted s rest pos : quote_safe s ->
  next_token (mkts ((cDQ :: s ++ [cDQ]) ++ rest) pos None) = emit QuotedScalar (cDQ :: s ++ [cDQ]) rest pos None.
Proof.
  intros H. cbn [app]. rewrite <- app_assoc. cbn [app]. cbn [next_token ts_hd ts_rem ts_pos N.eqb Pos.eqb].
  unfold tok_quoted. now rewrite scan_quoted_safe.
Qed.

Lemma reads_quoted s rest v : quote_safe s -> decodes s v -> reads (cDQ :: s ++ [cDQ]) rest v Quoted.
Proof.
  intros Hq Hd st pre pos Hst Hp. rewrite (next_lexeme_at _ _ _ _ Hst Hp) by reflexivity.
  rewrite next_quoted by assumption. cbn [emit lexeme_of tk_kind tk_span tk_text]. rewrite quoted_inner. cbn [of_opt bind].
  apply process_escapes_decodes in Hd. rewrite Hd. eexists. split; [reflexivity|]. now left.
Qed.

(** ** Raw scalars *)

Lemma contains_sub_iff p s : contains_sub p s = true <-> occurs p s.
Proof.
  unfold occurs. induction s as [|c s IH]; cbn [contains_sub].
  - rewrite orb_false_r, starts_with_iff. split.
    + intros (r & E). exists [], r. exact E.
    + intros (a & b & E). destruct a; [|discriminate]. cbn in E. eauto.
  - rewrite orb_true_iff, starts_with_iff, IH. split.
    + intros [(r & E)|(a & b & ->)]; [exists [], r; exact E|]. exists (c :: a), b. reflexivity.
    + intros (a & b & E). destruct a as [|x a]; cbn in E; [left; eauto|]. injection E as <- ->. right. eauto.
Qed.

Lemma occurs_cons p c s : occurs p s -> occurs p (c :: s).
Proof. intros (a & b & ->). exists (c :: a), b. reflexivity. Qed.

Lemma strip_hash_self n s : strip_prefix (repeat cHASH n) (repeat cHASH n ++ s) = Some s.
Proof. apply strip_prefix_app. Qed.

(** If a quote in [s] were followed by [h] hashes, the hashes would have to come from [s] itself. *)
Lemma strip_hash_in h c s rest : strip_prefix (repeat cHASH h) (s ++ cDQ :: rest) = Some c ->
  exists r, s = repeat cHASH h ++ r.
Proof.
  revert s. induction h as [|h IH]; intros s H; cbn [repeat strip_prefix] in H; [exists s; reflexivity|].
  destruct s as [|x s]; cbn [app strip_prefix] in H; [discriminate|].
  destruct (N.eqb_spec cHASH x) as [<-|E]; [|discriminate]. apply IH in H as (r & ->). exists r. reflexivity.
Qed.

Lemma scan_raw_safe h s rest : ~ occurs (cDQ :: repeat cHASH h) s ->
  scan_raw h (s ++ cDQ :: repeat cHASH h ++ rest) = (s ++ cDQ :: repeat cHASH h, rest, true).
Proof.
  induction s as [|c s IH]; intros H; cbn [app scan_raw].
  - rewrite N.eqb_refl, strip_hash_self. reflexivity.
  - assert (~ occurs (cDQ :: repeat cHASH h) s) as H' by (intros Ho; apply H; now apply occurs_cons).
    specialize (IH H'). destruct (N.eqb_spec c cDQ) as [->|Hc]; [|now rewrite IH].
    destruct (strip_prefix _ _) as [x|] eqn:E; [|now rewrite IH].
    exfalso. apply strip_hash_in in E as (r & ->). apply H. exists [], r. reflexivity.
Qed.

Lemma next_raw h s rest pos : h <= 255 -> ~ occurs (cDQ :: repeat cHASH h) s ->
  next_token (mkts ((cr :: repeat cHASH h ++ cDQ :: s ++ cDQ :: repeat cHASH h) ++ rest) pos None)
  = emit RawScalar (cr :: repeat cHASH h ++ cDQ :: s ++ cDQ :: repeat cHASH h) rest pos None.
Proof.
  intros Hh Ho. cbn [app].
  assert (tok_raw cr ((repeat cHASH h ++ cDQ :: s ++ cDQ :: repeat cHASH h) ++ rest) pos
    = emit RawScalar (cr :: repeat cHASH h ++ cDQ :: s ++ cDQ :: repeat cHASH h) rest pos None) as E.
  { unfold tok_raw. rewrite <- app_assoc. cbn [app]. rewrite <- app_assoc. cbn [app].
    rewrite span_while_exact; [|apply forallb_forall; intros x Hx; apply repeat_spec in Hx; now subst|reflexivity].
    rewrite N.eqb_refl, repeat_length. replace (Nat.min 255 h) with h by lia. now rewrite scan_raw_safe. }
  destruct h as [|h]; cbn [repeat app] in *; cbn [next_token ts_hd ts_rem ts_pos N.eqb Pos.eqb andb starts_with strip_prefix peek nth_error opt_is is_hash_or_dq orb];
    exact E.
Qed.

Lemma reads_raw h s rest : h <= 255 -> ~ occurs (cDQ :: repeat cHASH h) s ->
  reads (cr :: repeat cHASH h ++ cDQ :: s ++ cDQ :: repeat cHASH h) rest s Raw.
Proof.
  intros Hh Ho st pre pos Hst Hp. rewrite (next_lexeme_at _ _ _ _ Hst Hp) by reflexivity.
  rewrite next_raw by assumption. cbn [emit]. pose proof (raw_inner h s Hh) as E. cbn zeta in E.
  replace (Nat.min 255 h) with h in E by lia. unfold lexeme_of. cbn [tk_kind tk_span tk_text].
  remember (cr :: repeat cHASH h ++ cDQ :: s ++ cDQ :: repeat cHASH h) as t eqn:Et. clear Et.
  destruct (of_opt (drop_bytes 1 t)) as [tl| |]; cbn [bind] in *; try discriminate.
  rewrite E. cbn [bind]. eexists. split; [reflexivity|]. now left.
Qed.

(** ** Heredocs *)

Lemma find_delim_here d rest : d <> [] -> forallb is_delim_char d = true -> line_ends rest ->
  find_delim d (d ++ rest) = Some 0.
Proof.
  intros Hn Hd Hr. unfold find_delim.
  assert (span_while is_blank (d ++ rest) = ([], d ++ rest)) as ->.
  { destruct d as [|c d]; [congruence|]. cbn [app span_while]. replace (is_blank c) with false; [reflexivity|].
    symmetry. destruct (is_blank c) eqn:E; [|reflexivity]. cbn in Hd. apply andb_prop in Hd as [Hd _].
    unfold is_blank in E. apply orb_prop in E as [E|E]; apply N.eqb_eq in E; subst; discriminate. }
  rewrite strip_prefix_app. destruct Hr as [->|[(r & ->)|(r & ->)]]; reflexivity.
Qed.

Lemma lf_split (a x y z : str) : a ++ x = y ++ z -> ~ In cLF y -> In cLF a -> exists b', a = y ++ b' /\ z = b' ++ x.
Proof.
  revert a. induction y as [|c y IH]; intros a E Hy Ha; cbn in *.
  - eauto.
  - destruct a as [|e a]; [contradiction|]. cbn in E. injection E as -> E.
    destruct Ha as [->|Ha]; [exfalso; apply Hy; now left|].
    destruct (IH a E) as (b' & -> & ->); [tauto|assumption|]. eauto.
Qed.

Lemma delim_no_lf d : forallb is_delim_char d = true -> ~ In cLF d.
Proof. intros H Hi. rewrite forallb_forall in H. specialize (H _ Hi). discriminate. Qed.

Lemma find_delim_none d a b rest : forallb is_delim_char d = true ->
  (a = [] \/ exists a', a = a' ++ [cLF]) -> In cLF b -> ~ delim_line d (a ++ b) ->
  find_delim d (b ++ d ++ rest) = None.
Proof.
  intros Hd Ha Hb Hn. destruct (find_delim d (b ++ d ++ rest)) as [i|] eqn:E; [|reflexivity]. exfalso. apply Hn.
  unfold find_delim in E. destruct (span_while is_blank _) as [ind after] eqn:Es.
  pose proof (span_while_app _ _ _ _ Es) as E1. pose proof (span_while_all _ _ _ _ Es) as E2.
  destruct (strip_prefix d after) as [ad|] eqn:Ep; [|discriminate]. apply strip_prefix_some in Ep. subst after.
  rewrite app_assoc in E1.
  assert (~ In cLF (ind ++ d)) as Hlf.
  { intros Hi. apply in_app_or in Hi as [Hi|Hi]; [|now apply delim_no_lf in Hi].
    rewrite forallb_forall in E2. specialize (E2 _ Hi). discriminate. }
  rewrite <- app_assoc in E1. rewrite (app_assoc ind d ad) in E1.
  destruct (lf_split b _ _ _ E1 Hlf Hb) as (b' & Eb & Ead). exists a, ind, b'. subst b.
  rewrite <- app_assoc. splits; auto; [now apply blanks_forallb|].
  assert (In cLF b') as Hb' by (apply in_app_or in Hb as [Hb|Hb]; [contradiction|assumption]).
  subst ad. destruct b' as [|c b']; [contradiction|]. cbn [app] in E.
  destruct (N.eqb_spec c cLF) as [->|Hc]; [left; eauto|]. cbn [orb] in E.
  destruct (N.eqb_spec c cCR) as [->|Hc2]; [|discriminate]. cbn [andb] in E.
  destruct b' as [|e b']; [destruct Hb' as [Hb'|[]]; discriminate|]. cbn [app peek nth_error opt_is] in E.
  destruct (N.eqb_spec cLF e) as [<-|He]; [|discriminate]. right. eauto.
Qed.

Lemma last_lf_in (b : str) c : In c (b ++ [c]).
Proof. apply in_or_app. right. now left. Qed.

Lemma scan_heredoc_body d rest : d <> [] -> forallb is_delim_char d = true -> line_ends rest -> forall n a b, length b <= n ->
  ~ delim_line d (a ++ b ++ [cLF]) ->
  scan_heredoc d (b ++ [cLF] ++ d ++ rest) = (b ++ [cLF], d ++ rest, Some 0).
Proof.
  intros Hn Hd Hr. induction n as [|n IH]; intros a b Hl Hno.
  { destruct b; [|cbn in Hl; lia]. cbn [app scan_heredoc N.eqb Pos.eqb]. now rewrite find_delim_here. }
  destruct b as [|c b].
  { cbn [app scan_heredoc N.eqb Pos.eqb]. now rewrite find_delim_here. }
  cbn in Hl. cbn [app scan_heredoc].
  assert (forall p q, c :: b = p ++ q -> length q <= n -> scan_heredoc d (q ++ [cLF] ++ d ++ rest) = (q ++ [cLF], d ++ rest, Some 0)) as Rec.
  { intros p q E Hq. apply IH with (a := a ++ p); [assumption|]. rewrite <- app_assoc, (app_assoc p), <- E. exact Hno. }
  assert (forall p q, c :: b = (p ++ [cLF]) ++ q -> find_delim d (q ++ [cLF] ++ d ++ rest) = None) as Fd.
  { intros p q E. rewrite (app_assoc q). apply find_delim_none with (a := a ++ p ++ [cLF]); auto.
    - right. exists (a ++ p). now rewrite <- app_assoc.
    - apply last_lf_in.
    - rewrite <- app_assoc, (app_assoc (p ++ _)), <- E. exact Hno. }
  cbn [app] in Rec, Fd.
  destruct (N.eqb_spec c cLF) as [->|Hc].
  - rewrite (Fd [] b) by reflexivity. rewrite (Rec [cLF] b) by (auto; lia). reflexivity.
  - destruct b as [|e b]; cbn [app].
    + rewrite N.eqb_refl. destruct (N.eqb_spec c cCR) as [->|Hc2]; cbn [andb].
      * now rewrite find_delim_here.
      * pose proof (Rec [c] []) as R. cbn [app] in R. rewrite R by (auto; cbn; lia). reflexivity.
    + destruct ((c =? cCR) && (e =? cLF))%N eqn:E.
      * apply andb_prop in E as [E1 E2]. apply N.eqb_eq in E1, E2. subst.
        rewrite (Fd [cCR] b) by reflexivity. cbn in Hl. rewrite (Rec [cCR; cLF] b) by (auto; lia). reflexivity.
      * pose proof (Rec [c] (e :: b)) as R. cbn [app] in R. rewrite R by (auto; lia). reflexivity.
Qed.

(** [body] is empty or ends a line. *)
Definition whole_lines (body : str) : Prop := body = [] \/ exists b, body = b ++ [cLF].

Lemma heredoc_content d hi body rest pos : d <> [] -> forallb is_delim_char d = true -> line_ends rest ->
  body <> [] -> whole_lines body -> ~ delim_line d body ->
  next_token (mkts (body ++ d ++ rest) pos (Some (mkhs d hi))) = emit HeredocContent body (d ++ rest) pos (Some (mkhs d (Some 0))).
Proof.
  intros Hn Hd Hr Hb Hw Hno. destruct Hw as [->|(b & ->)]; [congruence|].
  cbn [next_token ts_hd ts_rem ts_pos]. unfold tok_heredoc_content. cbn [hs_delim].
  rewrite (find_delim_none d [] (b ++ [cLF]) rest); auto; [|apply last_lf_in]. rewrite <- app_assoc.
  rewrite (scan_heredoc_body d rest Hn Hd Hr (length b) [] b (le_n _) Hno). now destruct b.
Qed.

Lemma heredoc_end d hi rest pos : d <> [] -> forallb is_delim_char d = true -> line_ends rest ->
  next_token (mkts (d ++ rest) pos (Some (mkhs d hi))) = emit HeredocEnd d rest pos None.
Proof.
  intros Hn Hd Hr. cbn [next_token ts_hd ts_rem ts_pos]. unfold tok_heredoc_content. cbn [hs_delim].
  rewrite find_delim_here by assumption. cbn [plus]. f_equal.
  - rewrite firstn_app, firstn_all, Nat.sub_diag. cbn. apply app_nil_r.
  - rewrite skipn_app, skipn_all, Nat.sub_diag. reflexivity.
Qed.

Definition heredoc_name (d : str) : Prop :=
  (match d with c :: _ => is_upper c = true | [] => False end) /\ forallb is_delim_char d = true /\ length d <= 16.

Lemma next_heredoc d body pos : heredoc_name d ->
  next_token (mkts (([cLT; cLT] ++ d ++ [cLF]) ++ body) pos None)
  = emit HeredocStart ([cLT; cLT] ++ d ++ [cLF]) body pos (Some (mkhs d None)).
Proof.
  intros (Hu & Hd & Hl). cbn [app]. rewrite <- app_assoc. cbn [app].
  destruct d as [|c d]; [contradiction|]. cbn [next_token ts_hd ts_rem ts_pos app N.eqb Pos.eqb andb starts_with strip_prefix peek nth_error opt_is].
  rewrite Hu. unfold tok_heredoc_start. change (c :: d ++ cLF :: body) with ((c :: d) ++ cLF :: body).
  rewrite span_while_exact; [|assumption|reflexivity]. replace (16 <? length (c :: d)) with false by (symmetry; apply Nat.ltb_ge; lia).
  reflexivity.
Qed.

Lemma reads_heredoc d body rest : heredoc_name d -> line_ends rest -> whole_lines body -> ~ delim_line d body ->
  reads ([cLT; cLT] ++ d ++ [cLF] ++ body ++ d) rest body Heredoc.
Proof.
  intros Hd Hr Hw Hno st pre pos Hst Hp. rewrite (next_lexeme_at _ _ _ _ Hst Hp) by reflexivity.
  replace (([cLT; cLT] ++ d ++ [cLF] ++ body ++ d) ++ rest) with (([cLT; cLT] ++ d ++ [cLF]) ++ body ++ d ++ rest)
    by (rewrite <- !app_assoc; reflexivity).
  rewrite next_heredoc by assumption. destruct Hd as (Hu & Hd & Hl).
  assert (d <> []) as Hn by (destruct d; [contradiction|discriminate]).
  cbn [emit]. unfold lexeme_of. cbn [tk_kind tk_span]. unfold lex_fuel. cbn [ls_tok ts_rem].
  set (q := pos + blen pre). set (h := [cLT; cLT] ++ d ++ [cLF]).
  assert (forall f ts p hi, ts = mkts (d ++ rest) p (Some (mkhs d hi)) -> (hi = None \/ hi = Some 0) ->
    heredoc_loop (S f) (mkspan q (q + blen h)) body 0 (mkls ts None)
    = Ok (LxScalar (mkspan q (p + blen d)) body Heredoc, mkls (mkts rest (p + blen d) None) None)) as Fin.
  { intros f ts p hi -> Hi. cbn [heredoc_loop ls_tok ts_hd hs_indent].
    unfold lex_token. cbn [ls_peek ls_tok]. rewrite heredoc_end by assumption. cbn [emit tk_kind tk_span tk_text sp_end sp_start].
    destruct Hi as [->| ->]; reflexivity. }
  assert (q + blen ([cLT; cLT] ++ d ++ [cLF] ++ body ++ d) = q + blen h + blen body + blen d) as Ee
    by (subst h; rewrite !blen_app; lia).
  rewrite Ee. destruct body as [|c body].
  - cbn [app blen]. change (4 + 2 * length (d ++ rest)) with (S (3 + 2 * length (d ++ rest))).
    rewrite (Fin _ _ (q + blen h) None) by auto. replace (q + blen h + 0) with (q + blen h) by lia.
    eexists. split; [reflexivity|]. now left.
  - remember (c :: body) as bd eqn:Eb. assert (bd <> []) as Hbn by (subst; discriminate). clear Eb c body.
    match goal with |- context [heredoc_loop ?f _ _ _ _] => change f with (S (S (2 + 2 * length (bd ++ d ++ rest)))) end.
    remember (2 + 2 * length (bd ++ d ++ rest)) as f eqn:Ef. clear Ef. remember (S f) as g eqn:Eg.
    cbn [heredoc_loop ls_tok ts_hd hs_indent].
    unfold lex_token at 1. cbn [ls_peek ls_tok]. rewrite heredoc_content by assumption. cbn [emit tk_kind tk_text app].
    subst g.
    rewrite (Fin _ _ _ (Some 0) eq_refl) by auto. eexists. split; [reflexivity|]. now left.
Qed.
