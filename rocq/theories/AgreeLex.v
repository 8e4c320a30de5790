(** The tokens of a source and its lexemes. *)
From Verif Require Import Base BaseProofs TokModel TokSpec TokProofs LexModel LexSpec LexProofs.
Local Open Scope nat_scope.

(** ** Token streams *)
Inductive tstream : tstate -> list token -> Prop :=
| tm_end st e e0 st' : next_token st = (e0, st') -> tk_kind e0 = Eof -> tk_kind e = Eof -> tstream st [e]
| tm_more st t st' r : next_token st = (t, st') -> tk_kind t <> Eof -> tstream st' r -> tstream st (t :: r).

Lemma tokens_tstream e : tk_kind e = Eof -> forall f st ts, tokens_from f st = Some ts -> tstream st (ts ++ [e]).
Proof.
  intros He. induction f as [|f IH]; intros st ts H; [discriminate|]. cbn [tokens_from] in H. destruct (next_token st) as [t st'] eqn:N.
  destruct (is_eof_kind (tk_kind t)) eqn:K.
  - injection H as <-. apply (tm_end _ _ t st'); auto. destruct (tk_kind t); (reflexivity || discriminate).
  - destruct (tokens_from f st') as [r|] eqn:E; [|discriminate]. injection H as <-. cbn. apply (tm_more _ _ st'); auto. intros Q. rewrite Q in K. discriminate.
Qed.

Definition lstream (st : lstate) (ts : list token) : Prop :=
  match ls_peek st with
  | None => tstream (ls_tok st) ts
  | Some t => (tk_kind t = Eof /\ exists e, ts = [e] /\ tk_kind e = Eof) \/ (tk_kind t <> Eof /\ exists r, ts = t :: r /\ tstream (ls_tok st) r)
  end.

Lemma lex_stream st ts t st' : lstream st ts -> lex_token st = (t, st') ->
  ls_peek st' = None /\ ((tk_kind t = Eof /\ exists e, ts = [e] /\ tk_kind e = Eof) \/ (tk_kind t <> Eof /\ exists r, ts = t :: r /\ lstream st' r)).
Proof.
  unfold lstream, lex_token. destruct (ls_peek st) as [t0|].
  - intros H [= <- <-]. cbn. auto.
  - intros H. destruct (next_token (ls_tok st)) as [t1 ts1] eqn:N. intros [= <- <-]. cbn. split; [reflexivity|]. inversion H as [? e e0 st2 N' K0 Ke|? t2 st2 r N' K Hr]; subst; rewrite N in N'; injection N' as -> ->.
    + left. eauto.
    + right. eauto.
Qed.
Lemma peek_stream st ts t st' : lstream st ts -> peek_token st = (t, st') -> lstream st' ts /\ ls_peek st' = Some t.
Proof.
  unfold lstream, peek_token. destruct (ls_peek st) as [t0|] eqn:E.
  - intros H [= <- <-]. rewrite E. auto.
  - intros H. destruct (next_token (ls_tok st)) as [t1 ts1] eqn:N. intros [= <- <-]. cbn. split; [|reflexivity]. inversion H as [? e e0 st2 N' K0 Ke|? t2 st2 r N' K Hr]; subst; rewrite N in N'; injection N' as -> ->.
    + left. eauto.
    + right. eauto.
Qed.
Definition head (ts : list token) : token := hd (mktok Eof (mkspan 0 0) []) ts.
Lemma peeked st ts t : lstream st ts -> ls_peek st = Some t -> tk_kind t = tk_kind (head ts) /\ (tk_kind t <> Eof -> t = head ts).
Proof. unfold lstream. intros H E. rewrite E in H. destruct H as [(K & e & -> & Ke)|(K & r & -> & _)]; cbn; split; congruence. Qed.

Lemma skip_ws_stream f : forall st ts t st', lstream st ts -> skip_ws f st = Ok (t, st') ->
  exists ws r, ts = ws ++ r /\ Forall (fun t => tk_kind t = Whitespace) ws /\ ls_peek st' = None /\ tk_kind t <> Whitespace /\
    ((tk_kind t = Eof /\ exists e, r = [e] /\ tk_kind e = Eof) \/ (tk_kind t <> Eof /\ exists r', r = t :: r' /\ lstream st' r')).
Proof.
  induction f as [|f IH]; intros st ts t st' Hs H; [discriminate|]. cbn [skip_ws] in H. destruct (peek_token st) as [t1 st1] eqn:P.
  destruct (peek_stream _ _ _ _ Hs P) as [Hs1 Hp]. destruct (lex_token st1) as [t2 st2] eqn:L.
  assert (t2 = t1) as -> by (unfold lex_token in L; rewrite Hp in L; congruence).
  destruct (lex_stream _ _ _ _ Hs1 L) as [Hp2 Hc]. destruct (tkind_eqb (tk_kind t1) Whitespace) eqn:K.
  - apply tkind_eqb_eq in K. destruct Hc as [[Q _]|(_ & r & -> & Hr)]; [congruence|]. destruct (IH _ _ _ _ Hr H) as (ws & r' & -> & Hw & G). exists (t1 :: ws), r'. split; [reflexivity|]. split; [now constructor|exact G].
  - injection H as <- <-. exists [], ts. splits; auto. intros Q. rewrite Q in K. discriminate.
Qed.

(** ** The tokens of one lexeme *)
Inductive scalar_tokens : list token -> str -> skind -> Prop :=
| st_bare t : tk_kind t = BareScalar -> scalar_tokens [t] (tk_text t) Bare
| st_quoted t a v : tk_kind t = QuotedScalar -> tk_text t = cDQ :: a ++ [cDQ] -> decodes a v -> scalar_tokens [t] v Quoted
| st_raw t n v : tk_kind t = RawScalar -> n < 256 -> tk_text t = cr :: repeat cHASH n ++ cDQ :: v ++ cDQ :: repeat cHASH n -> scalar_tokens [t] v Raw
| st_empty s e : tk_kind s = HeredocStart -> tk_kind e = HeredocEnd -> scalar_tokens [s; e] [] Heredoc
| st_heredoc s b e ind d v : tk_kind s = HeredocStart -> tk_kind b = HeredocContent -> tk_kind e = HeredocEnd -> tk_text e = ind ++ d ->
    Forall blank_char ind -> d <> [] -> forallb is_delim_char d = true -> heredoc_value (length ind) (tk_text b) v -> scalar_tokens [s; b; e] v Heredoc.
Definition span_of (ts : list token) : span := mkspan (sp_start (tk_span (head ts))) (sp_end (tk_span (last ts (head ts)))).
Definition symbol (k : tkind) (t : token) : option lexeme :=
  let sp := tk_span t in
  match k with
  | LBrace => Some (LxObjStart sp) | RBrace => Some (LxObjEnd sp) | LParen => Some (LxSeqStart sp) | RParen => Some (LxSeqEnd sp)
  | Comma => Some (LxComma sp) | Newline => Some (LxNewline sp) | At => Some (LxUnit sp)
  | LineComment => Some (LxComment sp (tk_text t)) | DocComment => Some (LxDoc sp (tk_text t))
  | _ => None
  end.
Definition valid_payload (k : tkind) : bool := match k with LBrace | LParen | QuotedScalar | RawScalar | At | Tag => true | _ => false end.
(** [group g l r]: the tokens [g] make the lexeme [l] when the tokens [r] follow. *)
Inductive group : list token -> lexeme -> list token -> Prop :=
| gp_symbol t l r : symbol (tk_kind t) t = Some l -> group [t] l r
| gp_scalar ss v k r : scalar_tokens ss v k -> group ss (LxScalar (span_of ss) v k) r
| gp_tag t name hp r : tk_kind t = Tag -> tk_text t = cAT :: name ->
    hp = contains_sub [cSLASH; cAT] name || ((sp_start (tk_span (head r)) =? sp_end (tk_span t)) && valid_payload (tk_kind (head r))) ->
    ~ (sp_start (tk_span (head r)) = sp_end (tk_span t) /\ tk_kind (head r) = BareScalar) -> group [t] (LxTag (tk_span t) name hp) r
| gp_attr t g asp r : tk_kind t = BareScalar -> tk_kind g = Gt -> ~ In (tk_kind (head r)) [Newline; Eof; Whitespace] ->
    group [t; g] (LxAttrKey asp (tk_span t) (tk_text t)) r.

Inductive lexed : list token -> list lexeme -> Prop :=
| ld_end e : tk_kind e = Eof -> lexed [e] []
| ld_blank t r ls : tk_kind t = Whitespace -> lexed r ls -> lexed (t :: r) ls
| ld_group g l r ls : group g l r -> lexed r ls -> lexed (g ++ r) (l :: ls).

Lemma tkind_dec (a b : tkind) : {a = b} + {a <> b}. Proof. decide equality. Qed.
Lemma head_kind st ts t : lstream st ts -> ls_peek st = Some t -> tk_kind t = tk_kind (head ts).
Proof. intros H E. apply (peeked _ _ _ H E). Qed.

Lemma quoted_text src sp v t : lexeme_ok src (LxScalar sp v Quoted) -> slice src (sp_start sp) (sp_end sp) = Some t -> exists a, t = cDQ :: a ++ [cDQ] /\ decodes a v.
Proof. intros (t' & Ht & H) E. unfold lexeme_text in Ht. cbn [lx_span] in Ht. rewrite E in Ht. now injection Ht as <-. Qed.
Lemma raw_text src sp v t : lexeme_ok src (LxScalar sp v Raw) -> slice src (sp_start sp) (sp_end sp) = Some t -> exists n w, t = cr :: repeat cHASH n ++ cDQ :: v ++ w ++ cDQ :: repeat cHASH (Nat.min 255 n) /\ blen w = n - 255.
Proof. intros (t' & Ht & H) E. unfold lexeme_text in Ht. cbn [lx_span] in Ht. rewrite E in Ht. now injection Ht as <-. Qed.

(** The rest of a heredoc. *)
Lemma heredoc_stream s d f st ts l st' : ls_peek st = None -> lstream st ts -> ts_hd (ls_tok st) = Some (mkhs d None) -> d <> [] -> forallb is_delim_char d = true -> tk_kind s = HeredocStart ->
  heredoc_loop f (tk_span s) [] 0 st = Ok (l, st') -> is_err l = false ->
  exists ss v r, ts = ss ++ r /\ scalar_tokens (s :: ss) v Heredoc /\ l = LxScalar (span_of (s :: ss)) v Heredoc /\ lstream st' r.
Proof.
  intros Hp Hs Hd Hne Hdc Hk H Hl. destruct f as [|f]; [discriminate|]. cbn [heredoc_loop] in H. destruct (lex_token st) as [t st1] eqn:L.
  assert (next_token (ls_tok st) = (t, ls_tok st1)) as En.
  { unfold lex_token in L. rewrite Hp in L. destruct (next_token (ls_tok st)). now injection L as <- <-. }
  destruct (lex_stream _ _ _ _ Hs L) as [Hp1 Hc]. rewrite Hd in H. cbn [hs_indent] in H.
  destruct (next_token_heredoc _ _ _ _ Hd Hne En) as [(ind & K & Hn & Ht & Hb & Hf)|[(i & b & K & Hn & Hf & Hf' & Ht)|(K & Hn)]]; rewrite K in H.
  - destruct Hc as [[Q _]|(_ & r & -> & Hr)]; [congruence|]. injection H as <- <-. exists [t], [], r. splits; auto. now apply (st_empty s t).
  - destruct Hc as [[Q _]|(_ & r & -> & Hr)]; [congruence|]. destruct f as [|f]; [discriminate|]. cbn [heredoc_loop] in H. destruct (lex_token st1) as [t2 st2] eqn:L2.
    assert (next_token (ls_tok st1) = (t2, ls_tok st2)) as En2.
    { unfold lex_token in L2. rewrite Hp1 in L2. destruct (next_token (ls_tok st1)). now injection L2 as <- <-. }
    destruct (lex_stream _ _ _ _ Hr L2) as [Hp2 Hc2]. rewrite Hn in H. cbn [hs_indent] in H.
    destruct (next_token_heredoc _ _ _ _ Hn Hne En2) as [(ind & K2 & Hn2 & Ht2 & Hb2 & Hf2)|[(i2 & b2 & K2 & Hn2 & Hf2 & _)|(K2 & Hn2)]]; rewrite K2 in H; cbn [hs_delim] in *.
    + destruct Hc2 as [[Q _]|(_ & r2 & -> & Hr2)]; [congruence|]. injection H as <- <-. rewrite Hf' in Hf2. injection Hf2 as ->.
      exists [t; t2]. eexists. exists r2. splits; auto. apply (st_heredoc s t t2 ind d); auto. cbn [app].
      destruct (length ind) as [|n]; cbn [Nat.ltb Nat.leb]; [|apply dedent_value]. rewrite <- dedent_0. apply dedent_value.
    + congruence.
    + injection H as <- <-. discriminate.
  - injection H as <- <-. discriminate.
Qed.

Lemma span_one t : span_of [t] = tk_span t.
Proof. unfold span_of. cbn. now destruct (tk_span t). Qed.

Lemma next_group src st ts l st' : linv src st -> lclean st -> ~ has_hash_run 256 src -> lstream st ts -> next_lexeme st = Ok (l, st') -> is_err l = false ->
  (l = LxEof /\ exists ws e, ts = ws ++ [e] /\ Forall (fun t => tk_kind t = Whitespace) ws /\ tk_kind e = Eof) \/
  (l <> LxEof /\ exists ws g r, ts = ws ++ g ++ r /\ Forall (fun t => tk_kind t = Whitespace) ws /\ group g l r /\ lstream st' r).
Proof.
  intros Hi Hcl Hh Hs H Hl. destruct (next_lexeme_facts src st Hi Hcl Hh) as (l' & st'' & E & F). rewrite H in E. injection E as <- <-.
  pose proof (lf_ok _ _ _ _ F) as Hok. clear F. unfold next_lexeme in H.
  destruct (skip_ws (lex_fuel st) st) as [[t st1]| |] eqn:W; try discriminate. cbn [bind] in H.
  destruct (skip_ws_stream _ _ _ _ _ Hs W) as (ws & r0 & -> & Hw & Hp1 & Knw & Hc).
  destruct (skip_ws_facts src _ st Hi (lex_fuel_ok st)) as (t' & st1' & W' & _ & _ & _ & (pre & post & Hat) & _ & _ & _ & _ & _ & Cl). rewrite W in W'. injection W' as <- <-.
  pose proof (tok_at_slice _ _ _ _ Hat) as Hsl. pose proof Hat as (_ & _ & Hsh). specialize (Cl Hcl).
  destruct Hc as [(Ke & e & -> & Kee)|(Kne & r & -> & Hr)].
  { rewrite Ke in H. injection H as <- <-. left. split; [reflexivity|]. exists ws, e. auto. }
  right. assert (Hsym : forall l', symbol (tk_kind t) t = Some l' -> l = l' -> st' = st1 -> l <> LxEof /\ exists ws' g r', ws ++ t :: r = ws' ++ g ++ r' /\ Forall (fun t => tk_kind t = Whitespace) ws' /\ group g l r' /\ lstream st' r').
  { intros l' Es -> ->. split; [intros ->; destruct (tk_kind t); discriminate|]. exists ws, [t], r. splits; auto. now constructor. }
  destruct (peek_token st1) as [nx st2] eqn:P. destruct (peek_stream _ _ _ _ Hr P) as [Hs2 Hp2]. destruct (peeked _ _ _ Hs2 Hp2) as [Hk2 Ht2].
  destruct (tk_kind t) eqn:Ek; try (now destruct Kne); try (now destruct Knw); cbn [tok_shape] in Hsh;
    try (injection H as <- <-; discriminate); try (injection H as <- <-; now apply (Hsym _ eq_refl)).
  - (* At *)
    destruct ((sp_start (tk_span nx) =? sp_end (tk_span t)) && tkind_eqb (tk_kind nx) BareScalar) eqn:Eb.
    + destruct (lex_token st2). injection H as <- <-. discriminate.
    + injection H as <- <-. split; [discriminate|]. exists ws, [t], r. splits; auto. constructor. rewrite Ek. reflexivity.
  - (* Tag *)
    destruct Hsh as (d & a & Et & Hd & Ha). rewrite Et in H. change (drop_bytes 1 (cAT :: d :: a)) with (drop_bytes 0 (d :: a)) in H. rewrite drop_bytes_0 in H. cbn [of_opt bind] in H.
    match type of H with context [if ?b then _ else _] => destruct b eqn:Eb end; [destruct (lex_token st2); injection H as <- <-; discriminate|].
    injection H as <- <-. split; [discriminate|]. exists ws, [t], r. splits; auto. apply gp_tag; auto.
    + f_equal. change (match tk_kind nx with LBrace | LParen | At | Tag | QuotedScalar | RawScalar => true | _ => false end) with (valid_payload (tk_kind nx)).
      destruct (tkind_dec (tk_kind nx) Eof) as [Q|Q]; [rewrite <- Hk2, Q; cbn; now rewrite !andb_false_r|now rewrite <- (Ht2 Q)].
    + intros [Q1 Q2]. rewrite <- Hk2 in Q2. rewrite <- (Ht2 ltac:(congruence)) in Q1. rewrite Q1, Q2, Nat.eqb_refl in Eb. discriminate.
  - (* BareScalar *)
    destruct (tkind_eqb (tk_kind nx) Gt && (sp_start (tk_span nx) =? sp_end (tk_span t))) eqn:Eb.
    + apply andb_prop in Eb as [Eb1 Eb2]. apply tkind_eqb_eq in Eb1. destruct (lex_token st2) as [g st3] eqn:E3. destruct (lex_stream _ _ _ _ Hs2 E3) as [Hp3 Hc3].
      assert (g = nx) as -> by (unfold lex_token in E3; rewrite Hp2 in E3; congruence). destruct Hc3 as [[Q _]|(_ & r' & -> & Hr')]; [congruence|].
      destruct (peek_token st3) as [vt st4] eqn:E4. destruct (peek_stream _ _ _ _ Hr' E4) as [Hs4 Hp4]. destruct (peeked _ _ _ Hs4 Hp4) as [Hk4 _].
      match type of H with context [if ?b then _ else _] => destruct b eqn:Eb3 end; [injection H as <- <-; discriminate|].
      match type of H with context [if ?b then _ else _] => destruct b eqn:Eb4 end; [injection H as <- <-; discriminate|].
      injection H as <- <-. split; [discriminate|]. exists ws, [t; nx], r'. splits; auto. apply gp_attr; auto. rewrite <- Hk4. intros Q. cbn [In] in Q.
      apply orb_false_iff in Eb3 as [Eb3 Eb5]. destruct Q as [Q|[Q|[Q|[]]]]; rewrite <- Q in *; discriminate.
    + injection H as <- <-. split; [discriminate|]. exists ws, [t], r. splits; auto. rewrite <- span_one. apply gp_scalar. now constructor.
  - (* QuotedScalar *)
    destruct (slice (tk_text t) 1 (blen (tk_text t) - 1)) as [inner|]; [|discriminate]. cbn [of_opt bind] in H. destruct (process_escapes inner) as [v|m]; [|injection H as <- <-; discriminate].
    injection H as <- <-. split; [discriminate|]. exists ws, [t], r. splits; auto. destruct (quoted_text _ _ _ _ (Hok ltac:(discriminate)) Hsl) as (a & Et & Hd). rewrite <- span_one. apply gp_scalar. now apply (st_quoted t a).
  - (* RawScalar *)
    destruct (drop_bytes 1 (tk_text t)) as [tl|]; [|discriminate]. cbn [of_opt bind] in H. destruct (slice (tk_text t) _ _) as [v|]; [|discriminate]. cbn [of_opt bind] in H.
    injection H as <- <-. split; [discriminate|]. exists ws, [t], r. splits; auto. destruct (raw_text _ _ _ _ (Hok ltac:(discriminate)) Hsl) as (n & w & Et & Ew). rewrite <- span_one. apply gp_scalar.
    destruct (le_lt_dec 256 n) as [Ln|Ln]; [|apply (st_raw t n); auto; assert (w = []) as -> by (apply blen_nil_iff; lia); rewrite Et, Nat.min_r by lia; reflexivity].
    exfalso. apply Hh. destruct Hat as (Es & _). rewrite Es, Et.
    exists (pre ++ [cr]), (repeat cHASH (n - 256) ++ cDQ :: v ++ w ++ (cDQ :: repeat cHASH (Nat.min 255 n)) ++ post).
    replace n with (256 + (n - 256)) at 1 by lia. rewrite repeat_app. cbn [app]. rewrite <- !app_assoc. cbn [app]. do 4 f_equal. rewrite <- !app_assoc. reflexivity.
  - (* HeredocStart *)
    unfold start_ok in Cl. rewrite Ek in Cl. destruct Cl as (d & lang & eol & _ & Hd & Hdc & _ & _ & Hhd).
    destruct (heredoc_stream t d _ st1 r l st' Hp1 Hr Hhd Hd Hdc Ek H Hl) as (ss & v & r' & -> & Hst & -> & Hr'). split; [discriminate|].
    exists ws, (t :: ss), r'. splits; auto. now apply gp_scalar.
Qed.

Definition no_lex_error (ls : list lexeme) : Prop := Forall (fun l => is_err l = false) ls.
Lemma lexed_blanks ws r ls : Forall (fun t => tk_kind t = Whitespace) ws -> lexed r ls -> lexed (ws ++ r) ls.
Proof. intros H Hr. induction H as [|t w Ht _ IH]; [exact Hr|]. cbn [app]. now apply ld_blank. Qed.
Lemma lexemes_lexed src fuel : ~ has_hash_run 256 src -> forall st ts ls, linv src st -> lclean st -> lstream st ts -> lexemes_from fuel st = Ok ls -> no_lex_error ls -> lexed ts ls.
Proof.
  intros Hh. induction fuel as [|f IH]; intros st ts ls Hi Hc Hs H Hn; [discriminate|]. cbn [lexemes_from] in H.
  destruct (next_lexeme_facts src st Hi Hc Hh) as (l & st' & E & F). rewrite E in H. cbn [bind] in H.
  assert (Hcase : (l = LxEof /\ ls = []) \/ (exists ls', lexemes_from f st' = Ok ls' /\ ls = l :: ls' /\ l <> LxEof)).
  { destruct l; try (destruct (lexemes_from f st') as [ls'| |]; try discriminate; injection H as <-; right; exists ls'; splits; auto; discriminate). left. injection H as <-. auto. }
  destruct Hcase as [[-> ->]|(ls' & Hls & -> & Hne)].
  - destruct (next_group src st ts _ st' Hi Hc Hh Hs E eq_refl) as [(_ & ws & e & -> & Hw & He)|[Hne _]]; [|now destruct Hne]. apply lexed_blanks; auto. now constructor.
  - inversion_clear Hn as [|? ? Hl Hn']. destruct (next_group src st ts _ st' Hi Hc Hh Hs E Hl) as [[Q _]|(_ & ws & g & r & -> & Hw & Hg & Hr)]; [now destruct Hne|].
    apply lexed_blanks; auto. constructor; auto. apply (IH st'); auto; apply F.
Qed.
Lemma source_lexed src ts ls e : ~ has_hash_run 256 src -> tokens src = Some ts -> lexemes src = Ok ls -> no_lex_error ls -> tk_kind e = Eof -> lexed (ts ++ [e]) ls.
Proof.
  intros Hh Ht Hl Hn He. apply (lexemes_lexed src _ Hh (lex_new src) (ts ++ [e]) ls (linv_new src) (lclean_new src)) with (2 := Hl); auto. unfold lstream. cbn. eapply tokens_tstream; eauto.
Qed.
