(** The lexemes of the texts that the source formatter writes. *)
From Verif Require Import Base BaseProofs TokModel TokProofs LexModel LexSpec FmtSpec EscapeProofs LexProofs LexRunProofs RetokProofs RelexProofs CstShapeProofs AgreeLex.
Local Open Scope nat_scope.

(** ** From tokens to lexemes *)
Lemma lexes_one t rest k : lexes t rest [(k, t)] -> forall p, next_token (mkts (t ++ rest) p None) = emit k t rest p None.
Proof.
  intros H p. destruct (H p) as (p' & S). inversion S as [|st tk st1 l st2 N K S']; subst. inversion S'; subst.
  destruct (next_token_step _ _ _ N) as (_ & Sp & Pos). cbn [ts_pos] in Sp, Pos. rewrite N. clear N. destruct tk as [k0 sp0 t0]. cbn [tk_span tk_text tk_kind] in *. unfold emit. now rewrite Pos, Sp.
Qed.
Lemma emit_no_blank s p k t rest : next_token (mkts s p None) = emit k t rest p None -> k <> Whitespace -> no_blank_head s.
Proof.
  intros H K. destruct s as [|c s]; [exact I|]. cbn. destruct (is_blank c) eqn:B; [|reflexivity]. rewrite next_blank in H by exact B.
  match type of H with (let (_, _) := ?x in _) = _ => destruct x as [a b] end. apply (f_equal (fun x => tk_kind (fst x))) in H. cbn [emit fst tk_kind] in H. now destruct K.
Qed.
Lemma reads_token k t rest mk : lexes t rest [(k, t)] -> k <> Whitespace ->
  (forall p, exists st', lexeme_of (mktok k (mkspan p (p + blen t)) t) (mkls (mkts rest (p + blen t) None) None) = Ok (mk p, st') /\ at_text st' rest (p + blen t)) ->
  reads_as t rest mk.
Proof.
  intros L K M st pre pos Hst Hp. pose proof (lexes_one _ _ _ L) as N.
  rewrite (next_lexeme_at _ _ _ _ Hst Hp) by (eapply emit_no_blank; [apply (N 0)|exact K]). rewrite N. cbn [emit]. apply M.
Qed.
Lemma lexd_as k pos t rest mk ls : t <> [] -> lexes t rest [(k, t)] -> k <> Whitespace -> (forall n, mk n <> LxEof) -> (forall n, sp_start (lx_span (mk n)) = n) ->
  (forall p, exists st', lexeme_of (mktok k (mkspan p (p + blen t)) t) (mkls (mkts rest (p + blen t) None) None) = Ok (mk p, st') /\ at_text st' rest (p + blen t)) ->
  lexd (pos + blen t) rest ls -> lexd pos (t ++ rest) (mk pos :: ls).
Proof. intros Ht L K E S M H. apply lexd_next; auto. eapply reads_token; eauto. Qed.

Lemma lexd_bare pos t rest ls : t <> [] -> lexes t rest [(BareScalar, t)] -> (forall r, rest <> cGT :: r) ->
  lexd (pos + blen t) rest ls -> lexd pos (t ++ rest) (LxScalar (mkspan pos (pos + blen t)) t Bare :: ls).
Proof.
  intros Ht L G. apply (lexd_as BareScalar pos t rest (fun n => LxScalar (mkspan n (n + blen t)) t Bare)); auto; try discriminate.
  intros p. unfold lexeme_of. cbn [tk_kind tk_span tk_text].
  pose proof (peek_token_at _ _ _ (at_text_plain rest (p + blen t))) as [E1 E2]. destruct (peek_token _) as [nx st1]. cbn [fst snd] in E1, E2. subst nx. rewrite not_gt_token by assumption. cbn [andb]. eauto.
Qed.
Lemma lexd_quoted pos a v rest ls : lexes (cDQ :: a ++ [cDQ]) rest [(QuotedScalar, cDQ :: a ++ [cDQ])] -> decodes a v ->
  lexd (pos + blen (cDQ :: a ++ [cDQ])) rest ls -> lexd pos ((cDQ :: a ++ [cDQ]) ++ rest) (LxScalar (mkspan pos (pos + blen (cDQ :: a ++ [cDQ]))) v Quoted :: ls).
Proof.
  intros L D. apply (lexd_as QuotedScalar pos _ rest (fun n => LxScalar (mkspan n (n + blen (cDQ :: a ++ [cDQ]))) v Quoted)); auto; try discriminate.
  intros p. unfold lexeme_of. cbn [tk_kind tk_span tk_text]. rewrite quoted_inner. cbn [of_opt bind]. apply process_escapes_decodes in D. rewrite D. eexists. split; [reflexivity|]. now left.
Qed.
Definition raw_scalar (n : nat) (v : str) : str := cr :: repeat cHASH n ++ cDQ :: v ++ cDQ :: repeat cHASH n.
Lemma lexd_raw pos n v rest ls : n < 256 -> lexes (raw_scalar n v) rest [(RawScalar, raw_scalar n v)] ->
  lexd (pos + blen (raw_scalar n v)) rest ls -> lexd pos (raw_scalar n v ++ rest) (LxScalar (mkspan pos (pos + blen (raw_scalar n v))) v Raw :: ls).
Proof.
  intros Hn L. apply (lexd_as RawScalar pos _ rest (fun m => LxScalar (mkspan m (m + blen (raw_scalar n v))) v Raw)); auto; try discriminate.
  intros p. unfold lexeme_of. cbn [tk_kind tk_span tk_text]. pose proof (raw_inner n v ltac:(lia)) as E. cbn zeta in E.
  replace (Nat.min 255 n) with n in E by lia. fold (raw_scalar n v) in E. revert E. generalize (raw_scalar n v). intros t E.
  destruct (of_opt (drop_bytes 1 t)) as [tl| |]; cbn [bind] in *; try discriminate. rewrite E. cbn [bind]. eexists. split; [reflexivity|]. now left.
Qed.
Lemma lexd_comment pos t rest ls : t <> [] -> lexes t rest [(LineComment, t)] -> lexd (pos + blen t) rest ls -> lexd pos (t ++ rest) (LxComment (mkspan pos (pos + blen t)) t :: ls).
Proof.
  intros Ht L. apply (lexd_as LineComment pos t rest (fun n => LxComment (mkspan n (n + blen t)) t)); auto; try discriminate.
  intros p. eexists. split; [reflexivity|]. now left.
Qed.
Lemma lexd_docline pos t rest ls : t <> [] -> lexes t rest [(DocComment, t)] -> lexd (pos + blen t) rest ls -> lexd pos (t ++ rest) (LxDoc (mkspan pos (pos + blen t)) t :: ls).
Proof.
  intros Ht L. apply (lexd_as DocComment pos t rest (fun n => LxDoc (mkspan n (n + blen t)) t)); auto; try discriminate.
  intros p. eexists. split; [reflexivity|]. now left.
Qed.

(** ** Tags *)
Lemma next_start s p : sp_start (tk_span (fst (next_token (mkts s p None)))) = p.
Proof. destruct (next_token_step0 (mkts s p None)) as (_ & E & _). rewrite E. reflexivity. Qed.
Lemma lexd_chain pos name rest ls hp : lexes (cAT :: name) rest [(Tag, cAT :: name)] ->
  (forall p, tk_kind (fst (next_token (mkts rest p None))) <> BareScalar /\ hp = contains_sub [cSLASH; cAT] name || valid_payload (tk_kind (fst (next_token (mkts rest p None))))) ->
  lexd (pos + blen (cAT :: name)) rest ls -> lexd pos ((cAT :: name) ++ rest) (LxTag (mkspan pos (pos + blen (cAT :: name))) name hp :: ls).
Proof.
  intros L Hk. apply (lexd_as Tag pos (cAT :: name) rest (fun n => LxTag (mkspan n (n + blen (cAT :: name))) name hp)); auto; try discriminate.
  intros p. destruct (Hk (p + blen (cAT :: name))) as [K1 K2]. unfold lexeme_of. cbn [tk_kind tk_span tk_text].
  change (drop_bytes 1 (cAT :: name)) with (drop_bytes 0 name). rewrite drop_bytes_0. cbn [of_opt bind].
  pose proof (peek_token_at _ _ _ (at_text_plain rest (p + blen (cAT :: name)))) as [E1 E2]. destruct (peek_token _) as [nx st1]. cbn [fst snd] in E1, E2. subst nx.
  rewrite next_start. cbn [sp_end]. rewrite Nat.eqb_refl. cbn [andb].
  replace (tkind_eqb (tk_kind (fst (next_token (mkts rest (p + blen (cAT :: name)) None)))) BareScalar) with false
    by (symmetry; destruct (tkind_eqb _ _) eqn:Q; [apply tkind_eqb_eq in Q; now destruct K1|reflexivity]).
  rewrite andb_false_r. exists st1. split; [|exact E2]. rewrite K2. reflexivity.
Qed.

(** ** Attributes *)
Lemma lexd_attr pos t rest ls : t <> [] -> lexes t (cGT :: rest) [(BareScalar, t)] ->
  (forall p, ~ In (tk_kind (fst (next_token (mkts rest p None)))) [Newline; Eof; Whitespace]) ->
  lexd (pos + blen t + 1) rest ls ->
  lexd pos (t ++ cGT :: rest) (LxAttrKey (mkspan pos (pos + blen t + 1)) (mkspan pos (pos + blen t)) t :: ls).
Proof.
  intros Ht L NK H. change (cGT :: rest) with ([cGT] ++ rest). rewrite app_assoc.
  apply (lexd_next pos (t ++ [cGT]) rest (fun n => LxAttrKey (mkspan n (n + blen t + 1)) (mkspan n (n + blen t)) t)); try discriminate; [destruct t; discriminate| |reflexivity|rewrite blen_app, Nat.add_assoc; exact H].
  intros st pre q Hst Hp. rewrite <- app_assoc in Hst. pose proof (lexes_one _ _ _ L) as N.
  rewrite (next_lexeme_at _ _ _ _ Hst Hp) by (eapply emit_no_blank; [apply (N 0)|discriminate]). change ([cGT] ++ rest) with (cGT :: rest). rewrite N. cbn [emit]. set (p := q + blen pre).
  unfold lexeme_of. cbn [tk_kind tk_span tk_text].
  pose proof (peek_token_at _ _ _ (at_text_plain (cGT :: rest) (p + blen t))) as [E1 E2]. destruct (peek_token _) as [nx st1]. cbn [fst snd] in E1, E2. subst nx.
  assert (G : next_token (mkts (cGT :: rest) (p + blen t) None) = emit Gt [cGT] rest (p + blen t) None) by reflexivity.
  rewrite G. cbn [emit fst tk_kind tk_span sp_start sp_end tkind_eqb andb]. rewrite Nat.eqb_refl. change (blen [cGT]) with 1.
  destruct (lex_token_emit _ _ _ _ _ _ E2 G) as (st2 & -> & E3). change (blen [cGT]) with 1 in E3.
  pose proof (peek_token_at _ _ _ E3) as [E4 E5]. destruct (peek_token st2) as [vt st3]. cbn [fst snd] in E4, E5. subst vt.
  specialize (NK (p + blen t + 1)). cbn [In] in NK.
  destruct (tkind_eqb (tk_kind (fst (next_token (mkts rest (p + blen t + 1) None)))) Newline) eqn:Q1; [apply tkind_eqb_eq in Q1; rewrite Q1 in NK; tauto|].
  destruct (tkind_eqb (tk_kind (fst (next_token (mkts rest (p + blen t + 1) None)))) Eof) eqn:Q2; [apply tkind_eqb_eq in Q2; rewrite Q2 in NK; tauto|].
  destruct (tkind_eqb (tk_kind (fst (next_token (mkts rest (p + blen t + 1) None)))) Whitespace) eqn:Q3; [apply tkind_eqb_eq in Q3; rewrite Q3 in NK; tauto|].
  exists st3. split; [reflexivity|]. rewrite blen_app, Nat.add_assoc. exact E5.
Qed.

(** ** Heredocs *)
Lemma steps_inv st k s l st2 : steps st ((k, s) :: l) st2 -> exists t st1, next_token st = (t, st1) /\ tk_kind t = k /\ tk_text t = s /\ steps st1 l st2.
Proof. intros H. inversion H; subst. eexists _, _. splits; [eassumption|reflexivity|reflexivity|assumption]. Qed.
Lemma lex_plain ts : lex_token (mkls ts None) = (fst (next_token ts), mkls (snd (next_token ts)) None).
Proof. unfold lex_token. cbn. now destruct (next_token ts). Qed.
Lemma lexd_heredoc_empty pos s e rest ls : lexes (s ++ e) rest [(HeredocStart, s); (HeredocEnd, e)] -> s <> [] ->
  lexd (pos + blen (s ++ e)) rest ls -> lexd pos ((s ++ e) ++ rest) (LxScalar (mkspan pos (pos + blen (s ++ e))) [] Heredoc :: ls).
Proof.
  intros L Hs. apply (lexd_next pos (s ++ e) rest (fun n => LxScalar (mkspan n (n + blen (s ++ e))) [] Heredoc)); try discriminate; [destruct s; [contradiction|discriminate]| |reflexivity].
  intros st pre q Hst Hp. destruct (L (q + blen pre)) as (p' & S).
  apply steps_inv in S as (t1 & st1 & N1 & K1 & T1 & S). apply steps_inv in S as (t2 & st2 & N2 & K2 & T2 & S). inversion S as [st0 E0|]. subst st0 st2. clear S.
  rewrite (next_lexeme_at _ _ _ _ Hst Hp).
  2:{ unfold no_blank_head. destruct ((s ++ e) ++ rest) as [|c r] eqn:Er; [exact I|]. destruct (is_blank c) eqn:B; [|reflexivity]. rewrite next_blank in N1 by exact B. destruct (span_while _ _). injection N1 as <- _. discriminate K1. }
  rewrite N1. unfold lexeme_of. rewrite K1. change (lex_fuel (mkls st1 None)) with (S (3 + 2 * length (ts_rem st1))). cbn [heredoc_loop ls_tok]. rewrite lex_plain, N2. cbn [fst snd]. rewrite K2.
  pose proof (next_token_clean (mkts ((s ++ e) ++ rest) (q + blen pre) None) _ _ eq_refl N1) as C. unfold start_ok in C. rewrite K1 in C. destruct C as (d & lang & eol & _ & _ & _ & _ & _ & Hd). rewrite Hd. cbn [hs_indent Nat.ltb Nat.leb].
  destruct (next_token_step _ _ _ N1) as (_ & Sp1 & Ps1). destruct (next_token_step _ _ _ N2) as (_ & Sp2 & Ps2). cbn [ts_pos] in *. rewrite T1 in *. rewrite T2 in *.
  rewrite Sp1, Sp2. cbn [sp_start sp_end]. replace (ts_pos st1 + blen e) with (q + blen pre + blen (s ++ e)) by (rewrite blen_app; lia). eexists. split; [reflexivity|]. left. split; [reflexivity|]. cbn. f_equal. rewrite blen_app; lia.
Qed.
Lemma lexd_heredoc pos s b e ind d v rest ls : lexes (s ++ b ++ e) rest [(HeredocStart, s); (HeredocContent, b); (HeredocEnd, e)] -> s <> [] ->
  e = ind ++ d -> Forall blank_char ind -> d <> [] -> forallb is_delim_char d = true -> heredoc_value (length ind) b v ->
  lexd (pos + blen (s ++ b ++ e)) rest ls -> lexd pos ((s ++ b ++ e) ++ rest) (LxScalar (mkspan pos (pos + blen (s ++ b ++ e))) v Heredoc :: ls).
Proof.
  intros L Hs He Hi Hd Hdc Hv. apply (lexd_next pos (s ++ b ++ e) rest (fun n => LxScalar (mkspan n (n + blen (s ++ b ++ e))) v Heredoc)); try discriminate; [destruct s; [contradiction|discriminate]| |reflexivity].
  intros st pre q Hst Hp. destruct (L (q + blen pre)) as (p' & S).
  apply steps_inv in S as (t1 & st1 & N1 & K1 & T1 & S). apply steps_inv in S as (t2 & st2 & N2 & K2 & T2 & S). apply steps_inv in S as (t3 & st3 & N3 & K3 & T3 & S). inversion S as [st0 E0|]. subst st0 st3. clear S.
  rewrite (next_lexeme_at _ _ _ _ Hst Hp).
  2:{ unfold no_blank_head. destruct ((s ++ b ++ e) ++ rest) as [|c r] eqn:Er; [exact I|]. destruct (is_blank c) eqn:B; [|reflexivity]. rewrite next_blank in N1 by exact B. destruct (span_while _ _). injection N1 as <- _. discriminate K1. }
  rewrite N1. unfold lexeme_of. rewrite K1. change (lex_fuel (mkls st1 None)) with (S (S (2 + 2 * length (ts_rem st1)))). cbn [heredoc_loop ls_tok]. rewrite lex_plain, N2. cbn [fst snd]. rewrite K2. cbn [ls_tok]. rewrite lex_plain, N3. cbn [fst snd]. rewrite K3.
  pose proof (next_token_clean (mkts ((s ++ b ++ e) ++ rest) (q + blen pre) None) _ _ eq_refl N1) as C. unfold start_ok in C. rewrite K1 in C. destruct C as (d' & lang & eol & _ & Nd' & Dd' & _ & _ & Hd').
  destruct (next_token_heredoc _ _ _ _ Hd' Nd' N2) as [(i & K & _)|[(i & b' & _ & Hn & _ & Hf & _)|(K & _)]]; [congruence| |congruence].
  destruct (next_token_heredoc _ _ _ _ Hn Nd' N3) as [(i2 & _ & _ & Ht & Hb & Hf2)|[(i2 & b2 & K & _)|(K & _)]]; [|congruence|congruence]. cbn [hs_delim] in *.
  rewrite Hf in Hf2. injection Hf2 as ->. rewrite Hn. cbn [hs_indent].
  assert (ind = i2) as <-.
  { rewrite T3, He in Ht. clear - Hi Hb Hd Hdc Nd' Dd' Ht. revert i2 Hb Ht. induction Hi as [|c i Hc Hi IH]; intros [|c' i'] Hb Ht; cbn in Ht; auto.
    - exfalso. apply Forall_inv in Hb. destruct d as [|x d]; [contradiction|]. injection Ht as -> _. cbn in Hdc. apply andb_prop in Hdc as [F _]. destruct Hb as [-> | ->]; discriminate F.
    - exfalso. destruct d' as [|x d']; [contradiction|]. injection Ht as -> _. cbn in Dd'. apply andb_prop in Dd' as [F _]. destruct Hc as [-> | ->]; discriminate F.
    - injection Ht as -> Ht. f_equal. apply IH; auto. inversion Hb; auto. }
  assert (Ev : (if 0 <? length ind then dedent ([] ++ tk_text t2) (length ind) else [] ++ tk_text t2) = v).
  { cbn [app]. rewrite T2. eapply heredoc_value_fun; [|exact Hv]. destruct (length ind) as [|n]; cbn [Nat.ltb Nat.leb]; [|apply dedent_value]. pattern b at 2. rewrite <- (dedent_0 b). apply dedent_value. }
  rewrite Ev. destruct (next_token_step _ _ _ N1) as (_ & Sp1 & Ps1). destruct (next_token_step _ _ _ N2) as (_ & Sp2 & Ps2). destruct (next_token_step _ _ _ N3) as (_ & Sp3 & Ps3). cbn [ts_pos] in *. rewrite T1 in *. rewrite T2 in *. rewrite T3 in *.
  rewrite Sp1, Sp3. cbn [sp_start sp_end]. replace (ts_pos st2 + blen e) with (q + blen pre + blen (s ++ b ++ e)) by (rewrite !blen_app; lia). eexists. split; [reflexivity|]. left. split; [reflexivity|]. cbn. f_equal. rewrite !blen_app; lia.
Qed.
