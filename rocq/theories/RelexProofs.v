(** Reading text piece by piece: [lexd pos s ls] builds the lexemes of a text from the lexemes of its parts. *)
From Verif Require Import Base BaseProofs TokModel TokProofs LexModel LexSpec FmtSpec EscapeProofs LexProofs LexRunProofs.

(** Wherever the lexer meets [text] (possibly after blanks) with [rest] behind it, it consumes exactly [text]
    and makes the lexeme [mk n] of it, [n] being the place of the text. *)
Definition reads_as (text rest : str) (mk : nat -> lexeme) : Prop :=
  forall st pre pos, at_text st (pre ++ text ++ rest) pos -> blanks pre ->
    exists st', next_lexeme st = Ok (mk (pos + blen pre), st') /\ at_text st' rest (pos + blen pre + blen text).

Inductive lexd : nat -> str -> list lexeme -> Prop :=
| ld_end pos pre : blanks pre -> lexd pos pre []
| ld_tok pos pre text rest mk ls : blanks pre -> text <> [] -> reads_as text rest mk ->
    (forall n, mk n <> LxEof) -> (forall n, sp_start (lx_span (mk n)) = n) ->
    lexd (pos + blen pre + blen text) rest ls -> lexd pos (pre ++ text ++ rest) (mk (pos + blen pre) :: ls).

Lemma lexd_blanks pre pos s ls : blanks pre -> lexd (pos + blen pre) s ls -> lexd pos (pre ++ s) ls.
Proof.
  intros Hp H. assert (Hb : forall q, blanks q -> blanks (pre ++ q)) by (intros q Hq c Hc; apply in_app_or in Hc as [Hc|Hc]; auto).
  inversion H as [? q Hq|? q text rest mk ls' Hq Ht Hr He Hs Hl]; subst.
  - apply ld_end. auto.
  - rewrite app_assoc. replace (pos + blen pre + blen q) with (pos + blen (pre ++ q)) by (rewrite blen_app; lia). apply ld_tok; auto.
    rewrite blen_app. now rewrite Nat.add_assoc.
Qed.

Lemma lexd_starts pos s ls : lexd pos s ls -> Forall (fun l => pos <= sp_start (lx_span l)) ls.
Proof.
  induction 1 as [|pos pre text rest mk ls Hp Ht Hr He Hs _ IH]; [constructor|]. constructor; [rewrite Hs; lia|]. eapply Forall_impl; [|exact IH]. cbn. intros; lia.
Qed.

Lemma lexd_no_eof pos s ls : lexd pos s ls -> ~ In LxEof ls.
Proof. induction 1 as [|pos pre text rest mk ls Hp Ht Hr He Hs _ IH]; intros []; auto. eapply He; eauto. Qed.

Lemma lexd_run pos s ls : lexd pos s ls -> forall st, at_text st s pos -> forall fuel, length s < fuel -> lexemes_from fuel st = Ok ls.
Proof.
  induction 1 as [pos pre Hp|pos pre text rest mk ls Hp Ht Hr He Hs _ IH]; intros st Hst fuel Hf; (destruct fuel as [|fuel]; [lia|]); cbn [lexemes_from].
  - rewrite <- (app_nil_r pre) in Hst. rewrite (next_lexeme_at _ _ _ _ Hst Hp I). reflexivity.
  - destruct (Hr _ _ _ Hst Hp) as (st' & -> & Hst'). cbn [bind]. rewrite !app_length in Hf. assert (0 < length text) by (destruct text; [congruence|cbn; lia]).
    rewrite (IH _ Hst') by lia. cbn [bind]. destruct (mk (pos + blen pre)) eqn:E; try reflexivity. now destruct (He (pos + blen pre)).
Qed.

Lemma lexd_lexemes s ls : lexd 0 s ls -> lexemes s = Ok ls.
Proof. intros H. apply (lexd_run _ _ _ H); [apply at_text_new|lia]. Qed.

(** Without blanks in front *)
Lemma lexd_next pos text rest mk ls : text <> [] -> reads_as text rest mk -> (forall n, mk n <> LxEof) -> (forall n, sp_start (lx_span (mk n)) = n) ->
  lexd (pos + blen text) rest ls -> lexd pos (text ++ rest) (mk pos :: ls).
Proof.
  intros Ht Hr He Hs H. pose proof (ld_tok pos [] text rest mk ls) as L. cbn [app blen] in L. rewrite Nat.add_0_r in L. apply L; auto. intros c [].
Qed.

(** ** The pieces *)

Lemma lexd_scalar pos text rest v k ls : text <> [] -> reads text rest v k -> lexd (pos + blen text) rest ls ->
  lexd pos (text ++ rest) (LxScalar (mkspan pos (pos + blen text)) v k :: ls).
Proof. intros Ht Hr H. apply (lexd_next pos text rest (fun n => LxScalar (mkspan n (n + blen text)) v k)); auto; discriminate. Qed.

Definition sym_lexeme (c : char) (sp : span) : lexeme :=
  if (c =? cLB)%N then LxObjStart sp else if (c =? cRB)%N then LxObjEnd sp else if (c =? cLP)%N then LxSeqStart sp
  else if (c =? cRP)%N then LxSeqEnd sp else if (c =? cCOMMA)%N then LxComma sp else LxNewline sp.

Lemma lexd_sym c pos rest ls : In c [cLB; cRB; cLP; cRP; cCOMMA; cLF] -> lexd (S pos) rest ls ->
  lexd pos (c :: rest) (sym_lexeme c (mkspan pos (S pos)) :: ls).
Proof.
  intros Hc H. assert (blen [c] = 1) as Hb by (cbn in Hc; decompose [or] Hc; subst; try reflexivity; contradiction).
  replace (S pos) with (pos + 1) by lia.
  apply (lexd_next pos [c] rest (fun n => sym_lexeme c (mkspan n (n + 1)))).
  - discriminate.
  - intros st pre p Hst Hp. rewrite (next_lexeme_at _ _ _ _ Hst Hp) by (cbn in Hc; decompose [or] Hc; subst; try reflexivity; contradiction).
    exists (mkls (mkts rest (p + blen pre + blen [c]) None) None). split; [|apply at_text_plain]. rewrite Hb.
    cbn in Hc. decompose [or] Hc; subst; try contradiction; cbn; rewrite ?Nat.add_1_r; reflexivity.
  - intros n. cbn in Hc. decompose [or] Hc; subst; try contradiction; discriminate.
  - intros n. cbn in Hc. decompose [or] Hc; subst; try contradiction; reflexivity.
  - rewrite Hb. now rewrite Nat.add_1_r.
Qed.

(** Text behind a value: the end, a blank, a line end, a closing bracket or a comma. *)
Definition soft (rest : str) : Prop := match rest with [] => True | c :: _ => In c [cLF; cSP; cRP; cRB; cCOMMA] end.

Lemma soft_scalar_ends rest : soft rest -> scalar_ends rest.
Proof.
  destruct rest as [|c r]; [split; [exact I|discriminate]|]. cbn. intros H. split; [|intros r' [= -> ->]; decompose [or] H; discriminate || contradiction].
  cbn. decompose [or] H; subst; auto 10; try contradiction.
Qed.
Lemma soft_no_quote rest x : soft rest -> rest <> cDQ :: x.
Proof. destruct rest as [|c r]; [discriminate|]. cbn. intros H [= -> ->]. decompose [or] H; discriminate || contradiction. Qed.

Lemma soft_token rest pos : soft rest ->
  match tk_kind (fst (next_token (mkts rest pos None))) with Eof | Newline | Whitespace | RParen | RBrace | Comma => True | _ => False end.
Proof.
  destruct rest as [|c r]; [intros _; exact I|]. cbn. intros H. decompose [or] H; subst; try contradiction; try exact I.
  destruct (span_while is_blank r). exact I.
Qed.

Lemma lexd_unit pos rest ls : soft rest -> lexd (S pos) rest ls -> lexd pos (cAT :: rest) (LxUnit (mkspan pos (S pos)) :: ls).
Proof.
  intros Hs H. replace (S pos) with (pos + 1) by lia. apply (lexd_next pos [cAT] rest (fun n => LxUnit (mkspan n (n + 1)))); try discriminate; auto.
  - intros st pre p Hst Hp. rewrite (next_lexeme_at _ _ _ _ Hst Hp) by reflexivity. cbn [app next_token ts_hd ts_rem ts_pos N.eqb Pos.eqb].
    assert (tok_at_or_tag cAT rest (p + blen pre) = emit At [cAT] rest (p + blen pre) None) as ->.
    { destruct rest as [|c r]; [reflexivity|]. cbn in Hs. unfold tok_at_or_tag. decompose [or] Hs; subst; try contradiction; reflexivity. }
    cbn [emit lexeme_of tk_kind tk_span]. change (blen [cAT]) with 1.
    pose proof (peek_token_at _ _ _ (at_text_plain rest (p + blen pre + 1))) as [E1 E2]. destruct (peek_token _) as [nx st1]. cbn [fst snd] in E1, E2. subst nx.
    exists st1. split; [|exact E2]. pose proof (soft_token rest (p + blen pre + 1) Hs) as Ht. destruct (tk_kind _); try contradiction; cbn; now rewrite andb_false_r.
  - change (blen [cAT]) with 1. now rewrite Nat.add_1_r.
Qed.

Definition tag_stop (rest : str) : Prop := match rest with [] => True | c :: _ => is_tag_char c = false /\ c <> cSLASH end.

Lemma tag_char_not_raw c : is_tag_char c = true -> is_hash_or_dq c = false.
Proof.
  intros H. unfold is_hash_or_dq. apply orb_false_iff. split; apply N.eqb_neq; intros ->; discriminate.
Qed.

Lemma scan_tag_name n rest : forallb is_tag_char n = true -> tag_stop rest -> (forall m x, n = m ++ [cr] -> rest <> cDQ :: x /\ rest <> cHASH :: x) -> scan_tag (n ++ rest) = (n, rest).
Proof.
  intros Hn Hr Hq. induction n as [|c n IH].
  - destruct rest as [|c r]; [reflexivity|]. destruct Hr as [H1 H2]. cbn [app scan_tag]. rewrite H1. replace (c =? cSLASH)%N with false by (symmetry; now apply N.eqb_neq).
    now destruct ((c =? cr)%N && _).
  - cbn [app forallb] in *. apply andb_prop in Hn as [Hc Hn]. cbn [scan_tag]. rewrite Hc.
    replace ((c =? cr)%N && opt_is is_hash_or_dq (peek (n ++ rest))) with false.
    + rewrite IH; auto. intros m x ->. apply (Hq (c :: m)). reflexivity.
    + symmetry. apply andb_false_iff. destruct (N.eqb_spec c cr) as [->|]; [right|now left]. destruct n as [|d n].
      * cbn [app]. destruct rest as [|d r]; [reflexivity|]. cbn. destruct (Hq [] r eq_refl) as [H1 H2]. unfold is_hash_or_dq.
        apply orb_false_iff. split; apply N.eqb_neq; intros ->; congruence.
      * cbn in Hn. apply andb_prop in Hn as [Hd _]. cbn. now apply tag_char_not_raw.
Qed.

Definition tagged_name (n : str) : Prop := exists c r, n = c :: r /\ is_tag_start c = true /\ forallb is_tag_char r = true.

Lemma name_no_chain n : tagged_name n -> contains_sub [cSLASH; cAT] n = false.
Proof.
  intros (c & r & -> & Hc & Hr). apply not_true_iff_false. intros H. apply contains_sub_iff in H as (a & b & E).
  assert (In cSLASH (c :: r)) as Hi by (rewrite E; apply in_or_app; right; now left). destruct Hi as [->|Hi]; [discriminate|].
  rewrite forallb_forall in Hr. apply Hr in Hi. discriminate.
Qed.

Lemma lexd_tag pos n rest ls (hp : bool) : tagged_name n ->
  (if hp then (exists x, rest = cLP :: x \/ rest = cLB :: x) \/ exists q x, quote_safe q /\ rest = (cDQ :: q ++ [cDQ]) ++ x /\ forall m, n <> m ++ [cr] else soft rest) ->
  lexd (pos + 1 + blen n) rest ls -> lexd pos (cAT :: n ++ rest) (LxTag (mkspan pos (pos + 1 + blen n)) n hp :: ls).
Proof.
  intros Hn Hr H. pose proof Hn as (c & r & -> & Hc & Hcr).
  assert (Hlen : forall p, p + blen (cAT :: c :: r) = p + 1 + blen (c :: r)) by (intros p; change (blen (cAT :: c :: r)) with (1 + blen (c :: r)); lia).
  assert (Hstop : tag_stop rest /\ forall m x, r = m ++ [cr] -> rest <> cDQ :: x /\ rest <> cHASH :: x).
  { destruct hp.
    - destruct Hr as [[x [-> | ->]]|(q & x & Hq & -> & Hm)]; (split; [split; [reflexivity|discriminate]|]); intros m y E; try (split; discriminate). destruct (Hm (c :: m)). now rewrite E.
    - destruct rest as [|d x]; [split; [exact I|intros; split; discriminate]|]. cbn in Hr. decompose [or] Hr; subst; try contradiction; (split; [split; [reflexivity|discriminate]|intros; split; discriminate]). }
  change (cAT :: (c :: r) ++ rest) with ((cAT :: c :: r) ++ rest). rewrite <- Hlen in *.
  apply (lexd_next pos (cAT :: c :: r) rest (fun n => LxTag (mkspan n (n + blen (cAT :: c :: r))) (c :: r) hp)); try discriminate; auto.
  intros st pre p Hst Hp. rewrite (next_lexeme_at _ _ _ _ Hst Hp) by reflexivity. cbn [app next_token ts_hd ts_rem ts_pos N.eqb Pos.eqb tok_at_or_tag].
  rewrite Hc, scan_tag_name by tauto. cbn [emit lexeme_of tk_kind tk_span tk_text].
  change (drop_bytes 1 (cAT :: c :: r)) with (drop_bytes 0 (c :: r)). cbn [drop_bytes of_opt bind].
  pose proof (peek_token_at _ _ _ (at_text_plain rest (p + blen pre + blen (cAT :: c :: r)))) as [E1 E2]. destruct (peek_token _) as [nx st1]. cbn [fst snd] in E1, E2.
  exists st1. split; [|exact E2]. rewrite name_no_chain by assumption. cbn [orb sp_start sp_end]. subst nx. destruct hp.
  - assert (exists k u x, next_token (mkts rest (p + blen pre + blen (cAT :: c :: r)) None) = emit k u x (p + blen pre + blen (cAT :: c :: r)) None /\ In k [LParen; LBrace; QuotedScalar]) as (k & u & x & -> & Hk).
    { destruct Hr as [[x [-> | ->]]|(q & x & Hq & -> & _)]; [eexists LParen, _, _; split; [reflexivity|cbn; auto]|eexists LBrace, _, _; split; [reflexivity|cbn; auto]|].
      eexists QuotedScalar, _, _. split; [now apply next_quoted|cbn; auto]. }
    cbn [emit fst tk_kind tk_span sp_start]. rewrite Nat.eqb_refl. cbn in Hk. decompose [or] Hk; subst; try contradiction; reflexivity.
  - pose proof (soft_token rest (p + blen pre + blen (cAT :: c :: r)) Hr) as Ht. destruct (tk_kind _); try contradiction; cbn; rewrite ?andb_false_r; reflexivity.
Qed.

(** A line comment for documentation, up to its line end *)
Lemma lexd_doc pos l rest ls : forallb not_eol l = true -> match rest with [] => True | c :: _ => not_eol c = false end ->
  lexd (pos + blen (cSLASH :: cSLASH :: cSLASH :: l)) rest ls ->
  lexd pos ((cSLASH :: cSLASH :: cSLASH :: l) ++ rest) (LxDoc (mkspan pos (pos + blen (cSLASH :: cSLASH :: cSLASH :: l))) (cSLASH :: cSLASH :: cSLASH :: l) :: ls).
Proof.
  intros Hl Hr H. remember (cSLASH :: cSLASH :: cSLASH :: l) as t eqn:Et.
  apply (lexd_next pos t rest (fun n => LxDoc (mkspan n (n + blen t)) t)); try discriminate; auto; [subst; discriminate|].
  intros st pre p Hst Hp. rewrite (next_lexeme_at _ _ _ _ Hst Hp) by (subst; reflexivity).
  exists (mkls (mkts rest (p + blen pre + blen t) None) None). split; [|apply at_text_plain].
  assert (span_while not_eol (t ++ rest) = (t, rest)) as Hs.
  { apply span_while_exact; [|exact Hr]. subst t. cbn [forallb]. rewrite Hl. reflexivity. }
  subst t. cbn [app next_token ts_hd ts_rem ts_pos N.eqb Pos.eqb]. change (starts_with [cSLASH; cSLASH] (cSLASH :: cSLASH :: l ++ rest)) with true. cbn [app] in Hs. rewrite Hs. reflexivity.
Qed.
