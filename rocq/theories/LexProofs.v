(** Lemmas about the lexer model. *)
From Verif Require Import Base BaseProofs TokModel TokProofs LexModel LexSpec EscapeProofs.

Lemma tkind_eqb_eq a b : tkind_eqb a b = true <-> a = b.
Proof. split; [|intros ->; destruct b; reflexivity]. destruct a, b; cbn; congruence. Qed.

(** ** Dedenting *)

Lemma is_blank_iff c : is_blank c = true <-> blank_char c.
Proof. unfold is_blank, blank_char. now rewrite orb_true_iff, !N.eqb_eq. Qed.

Lemma strip_blanks_dedented n l : dedented n l (strip_blanks n l).
Proof.
  revert l. induction n as [|n IH]; intros l; cbn [strip_blanks].
  { exists []. splits; auto. }
  destruct l as [|c l].
  { exists []. splits; auto; [cbn; lia|]. right. discriminate. }
  destruct (is_blank c) eqn:E.
  - destruct (IH l) as (p & E1 & Hb & Hl & Hs). exists (c :: p). splits; auto.
    + cbn. now f_equal.
    + constructor; [now apply is_blank_iff|assumption].
    + cbn. lia.
    + destruct Hs as [Hs|Hs]; [left; cbn; lia|now right].
  - exists []. splits; auto; [cbn; lia|]. right. intros c' r [= <- <-] Hb. apply is_blank_iff in Hb. congruence.
Qed.

Lemma split_on_spec x s : split_on x s <> [] /\ Forall (fun l => ~ In x l) (split_on x s).
Proof.
  induction s as [|c s [IH1 IH2]]; cbn [split_on]; [split; [discriminate|auto]|].
  destruct (N.eqb_spec c x) as [->|Hc].
  - split; [discriminate|]. constructor; [cbn; tauto|assumption].
  - destruct (split_on x s) as [|p ps]; [congruence|]. split; [discriminate|].
    inversion IH2; subst. constructor; [|assumption]. cbn. intros [H|H]; [congruence|contradiction].
Qed.

Lemma glue_cons l r : r <> [] -> glue_lines (l :: r) = l ++ cLF :: glue_lines r.
Proof. destruct r; [congruence|reflexivity]. Qed.

Lemma glue_split s : glue_lines (split_on cLF s) = s.
Proof.
  induction s as [|c s IH]; cbn [split_on]; [reflexivity|].
  pose proof (split_on_spec cLF s) as [Hn _].
  destruct (N.eqb_spec c cLF) as [->|Hc].
  - rewrite glue_cons by assumption. now rewrite IH.
  - destruct (split_on cLF s) as [|p ps] eqn:E; [congruence|]. destruct ps as [|q qs].
    + cbn in IH |- *. now rewrite IH.
    + rewrite glue_cons in IH |- * by discriminate. rewrite <- IH. reflexivity.
Qed.

Lemma join_glue ls : join [cLF] ls = glue_lines ls.
Proof. induction ls as [|l r IH]; [reflexivity|]. destruct r; [reflexivity|]. cbn [join glue_lines] in *. now rewrite IH. Qed.

Lemma dedent_value n body : heredoc_value n body (dedent body n).
Proof.
  unfold dedent. exists (split_on cLF body), (map (strip_blanks n) (split_on cLF body)).
  destruct (split_on_spec cLF body) as [H1 H2]. splits; auto.
  - now rewrite glue_split.
  - clear H1 H2. induction (split_on cLF body); cbn; constructor; auto. apply strip_blanks_dedented.
  - apply join_glue.
Qed.

Lemma map_id_strip ls : map (strip_blanks 0) ls = ls.
Proof. induction ls as [|l ls IH]; cbn [map]; [reflexivity|]. now rewrite IH. Qed.

Lemma dedent_0 body : dedent body 0 = body.
Proof. unfold dedent. now rewrite map_id_strip, join_glue, glue_split. Qed.

Lemma dedented_fun n l a b : dedented n l a -> dedented n l b -> a = b.
Proof.
  intros (p & E1 & B1 & L1 & S1) (q & E2 & B2 & L2 & S2). subst l.
  assert (forall (p q : str) a b k, p ++ a = q ++ b -> Forall blank_char p -> length p <= length q -> length q <= k ->
     (length p = k \/ forall c r, a = c :: r -> ~ blank_char c) -> Forall blank_char q -> a = b) as Key.
  { clear. intros p. induction p as [|x p IH]; intros q a b k E Bp Hle Hn Hs Bq.
    - destruct q as [|y q]; [exact E|]. cbn in E. subst a. destruct Hs as [Hs|Hs].
      + cbn in Hs, Hn. lia.
      + inversion Bq; subst. exfalso. eapply Hs; [reflexivity|assumption].
    - destruct q as [|y q]; [cbn in Hle; lia|]. cbn in E. injection E as -> E.
      inversion Bp; inversion Bq; subst. cbn in Hle, Hn, Hs.
      apply (IH q a b (k - 1)); auto; try lia. destruct Hs as [Hs|Hs]; [left; lia|now right]. }
  destruct (Nat.le_ge_cases (length p) (length q)) as [Hle|Hle].
  - apply (Key p q a b n E2 B1 Hle L2 S1 B2).
  - symmetry. apply (Key q p b a n (eq_sym E2) B2 Hle L1 S2 B1).
Qed.

Lemma glue_inj a b : a <> [] -> b <> [] -> Forall (fun l => ~ In cLF l) a -> Forall (fun l => ~ In cLF l) b ->
  glue_lines a = glue_lines b -> a = b.
Proof.
  assert (forall (l m r r' : str), ~ In cLF l -> ~ In cLF m -> l ++ cLF :: r = m ++ cLF :: r' -> l = m /\ r = r') as Key.
  { induction l as [|c l IH]; intros [|d m] r r' Hl Hm E; cbn in E.
    - injection E. auto.
    - injection E as E1 E2. subst. elim Hm. now left.
    - injection E as E1 E2. subst. elim Hl. now left.
    - injection E as E1 E2. subst. destruct (IH m r r') as [-> ->]; auto.
      + intros H. apply Hl. now right.
      + intros H. apply Hm. now right. }
  intros Ha Hb. revert b Hb. induction a as [|l a IH]; [congruence|]. intros b Hb Na Nb E.
  destruct b as [|m b]; [congruence|]. inversion Na; inversion Nb; subst.
  destruct a as [|l2 a], b as [|m2 b].
  - cbn in E. now subst.
  - rewrite (glue_cons m) in E by discriminate. cbn [glue_lines] in E. subst l. elim H1. apply in_or_app. right. now left.
  - rewrite (glue_cons l) in E by discriminate. cbn [glue_lines] in E. subst m. elim H5. apply in_or_app. right. now left.
  - rewrite !glue_cons in E by discriminate. apply Key in E as [-> E]; auto. f_equal. apply IH; auto; discriminate.
Qed.

Lemma heredoc_value_fun n body v w : heredoc_value n body v -> heredoc_value n body w -> v = w.
Proof.
  intros (a & a' & Ha & Na & -> & Da & ->) (b & b' & Hb & Nb & E & Db & ->).
  apply glue_inj in E; auto. subst b. f_equal. clear Ha Na Hb Nb. revert b' Db.
  induction Da as [|x y l l' Hxy Hl IH]; intros b' Db; inversion Db; subst; [reflexivity|].
  f_equal; [now apply (dedented_fun n x)|now apply IH].
Qed.

Lemma dedent_iff n body v : dedent body n = v <-> heredoc_value n body v.
Proof.
  split; [intros <-; apply dedent_value|]. intros H. apply (heredoc_value_fun n body); [apply dedent_value|exact H].
Qed.

(** ** Invariant of lexer states *)

Definition lpos (st : lstate) : nat :=
  match ls_peek st with Some t => sp_start (tk_span t) | None => ts_pos (ls_tok st) end.

(** [t] stands in [src] at its span. *)
Definition tok_at (src : str) (t : token) (pre post : str) : Prop :=
  src = pre ++ tk_text t ++ post /\ tk_span t = mkspan (blen pre) (blen pre + blen (tk_text t))
  /\ tok_shape (tk_kind t) (tk_text t).

Definition linv (src : str) (st : lstate) : Prop :=
  hd_ok (ts_hd (ls_tok st)) /\
  match ls_peek st with
  | None => exists pre, src = pre ++ ts_rem (ls_tok st) /\ ts_pos (ls_tok st) = blen pre
  | Some t => exists pre, tok_at src t pre (ts_rem (ls_tok st)) /\ ts_pos (ls_tok st) = blen pre + blen (tk_text t)
       /\ (tk_kind t = Eof -> ts_rem (ls_tok st) = [] /\ ts_hd (ls_tok st) = None)
  end.

Lemma linv_new src : linv src (lex_new src).
Proof. split; [exact I|]. cbn. now exists []. Qed.

Definition lmeas (st : lstate) : nat :=
  measure (ls_tok st) + match ls_peek st with
                        | Some t => if is_eof_kind (tk_kind t) then 0 else 1
                        | None => 0
                        end.

Arguments lmeas : simpl never.
Arguments measure : simpl never.

Record tokfacts (src : str) (st : lstate) (t : token) (st' : lstate) : Prop := {
  tf_inv : linv src st';
  tf_at : exists pre post, tok_at src t pre post;
  tf_start : sp_start (tk_span t) = lpos st;
  tf_eof : tk_kind t = Eof -> ts_rem (ls_tok st') = [] /\ ts_hd (ls_tok st') = None
}.

Lemma next_token_facts src ts t ts' pre : hd_ok (ts_hd ts) -> src = pre ++ ts_rem ts -> ts_pos ts = blen pre ->
  next_token ts = (t, ts') ->
  hd_ok (ts_hd ts') /\ tok_at src t pre (ts_rem ts') /\ ts_pos ts' = blen pre + blen (tk_text t) /\
  (tk_kind t = Eof -> ts_rem ts' = [] /\ ts_hd ts' = None /\ ts' = ts) /\
  (tk_kind t <> Eof -> measure ts' < measure ts).
Proof.
  intros Hok Hsrc Hpos E.
  pose proof (next_token_good ts Hok) as (Hs & Hh & He & _). 
  pose proof (next_token_eof ts Hok) as Heof. rewrite E in *. cbn [fst snd] in *.
  pose proof (next_token_step _ _ _ E) as (H1 & H2 & H3).
  split; [exact Hh|]. split.
  { split; [now rewrite Hsrc, H1|]. split; [now rewrite H2, Hpos|exact Hs]. }
  split; [now rewrite H3, Hpos|]. split.
  - intros Hk. specialize (Heof Hk). subst ts'. destruct (He Hk). auto.
  - intros Hk. now apply (next_token_measure ts t ts').
Qed.

Lemma peek_token_facts src st t st' : linv src st -> peek_token st = (t, st') ->
  tokfacts src st t st' /\ ls_peek st' = Some t /\ lpos st' = lpos st /\ lmeas st' <= lmeas st.
Proof.
  intros [Hok Hp] H. unfold peek_token in H. destruct (ls_peek st) as [t0|] eqn:Ep.
  - injection H as -> ->. destruct Hp as (pre & Hat & Hpos & He). split; [|now rewrite Ep].
    split.
    + split; [exact Hok|]. rewrite Ep. exists pre. auto.
    + eauto.
    + unfold lpos. now rewrite Ep.
    + exact He.
  - destruct Hp as (pre & Hsrc & Hpos). destruct (next_token (ls_tok st)) as [t1 ts] eqn:E. injection H as -> <-.
    destruct (next_token_facts src _ _ _ pre Hok Hsrc Hpos E) as (H1 & H2 & H3 & H4 & H5).
    assert (sp_start (tk_span t) = lpos st) as Hst.
    { destruct H2 as (_ & -> & _). cbn. unfold lpos. now rewrite Ep. }
    split; [|split; [reflexivity|split]].
    + split; [split; [exact H1|]; cbn; exists pre; split; [exact H2|]; split; [exact H3|]; intros Hk; destruct (H4 Hk) as (?&?&?); auto| |exact Hst|].
      * eauto.
      * cbn. intros Hk. destruct (H4 Hk) as (?&?&?); auto.
    + cbn. exact Hst.
    + unfold lmeas. rewrite Ep. cbn [ls_tok ls_peek]. destruct (is_eof_kind (tk_kind t)) eqn:Ek.
      * assert (tk_kind t = Eof) as Hk by (destruct (tk_kind t); try discriminate; reflexivity).
        destruct (H4 Hk) as (_ & _ & ->). lia.
      * assert (tk_kind t <> Eof) as Hk by (intros Hk; rewrite Hk in Ek; discriminate). specialize (H5 Hk). lia.
Qed.

Lemma lex_token_facts src st t st' : linv src st -> lex_token st = (t, st') ->
  tokfacts src st t st' /\ ls_peek st' = None /\ lpos st' = sp_end (tk_span t) /\
  (tk_kind t <> Eof -> lmeas st' < lmeas st).
Proof.
  intros [Hok Hp] H. unfold lex_token in H. destruct (ls_peek st) as [t0|] eqn:Ep.
  - injection H as -> <-. destruct Hp as (pre & Hat & Hpos & He). cbn.
    split; [|split; [reflexivity|split]].
    + split; cbn; auto.
      * split; [exact Hok|]. cbn. exists (pre ++ tk_text t). destruct Hat as (-> & _). rewrite blen_app, <- app_assoc. auto.
      * eauto.
      * unfold lpos. now rewrite Ep.
    + destruct Hat as (_ & -> & _). unfold lpos. cbn. exact Hpos.
    + unfold lmeas. rewrite Ep. cbn [ls_tok ls_peek]. intros Hk. destruct (tk_kind t); cbn; try lia. now elim Hk.
  - destruct Hp as (pre & Hsrc & Hpos). destruct (next_token (ls_tok st)) as [t1 ts] eqn:E. injection H as -> <-.
    destruct (next_token_facts src _ _ _ pre Hok Hsrc Hpos E) as (H1 & H2 & H3 & H4 & H5). cbn.
    split; [|split; [reflexivity|split]].
    + split; cbn.
      * split; [exact H1|]. cbn. exists (pre ++ tk_text t). destruct H2 as (-> & _). rewrite blen_app, <- app_assoc. auto.
      * eauto.
      * destruct H2 as (_ & -> & _). cbn. unfold lpos. now rewrite Ep.
      * intros Hk. destruct (H4 Hk) as (?&?&?); auto.
    + destruct H2 as (_ & -> & _). unfold lpos. cbn. exact H3.
    + unfold lmeas. rewrite Ep. cbn [ls_tok ls_peek]. intros Hk. specialize (H5 Hk); lia.
Qed.

Lemma lex_fuel_ok st : lmeas st < lex_fuel st.
Proof.
  unfold lmeas, lex_fuel, measure. destruct (ts_hd (ls_tok st)), (ls_peek st) as [t|]; try destruct (is_eof_kind (tk_kind t)); lia.
Qed.

Lemma tok_at_slice src t pre post : tok_at src t pre post ->
  slice src (sp_start (tk_span t)) (sp_end (tk_span t)) = Some (tk_text t).
Proof. intros (-> & -> & _). cbn. apply slice_app. Qed.

Lemma tok_at_span src t pre post : tok_at src t pre post ->
  sp_start (tk_span t) <= sp_end (tk_span t) /\ sp_end (tk_span t) <= blen src.
Proof. intros (-> & -> & _). cbn. rewrite !blen_app. lia. Qed.

Lemma linv_lpos src st : linv src st -> lpos st <= blen src.
Proof.
  intros [_ H]. unfold lpos. destruct (ls_peek st) as [t|].
  - destruct H as (pre & Hat & _). apply tok_at_span in Hat. lia.
  - destruct H as (pre & -> & ->). rewrite blen_app. lia.
Qed.

(** ** Heredoc mode *)

(** What the tokenizer state is right after token [t], when it was outside of a heredoc before. *)
Definition start_ok (t : token) (ts : tstate) : Prop :=
  match tk_kind t with
  | HeredocStart => exists d lang eol, tk_text t = cLT :: cLT :: d ++ lang ++ eol /\ d <> [] /\
      forallb is_delim_char d = true /\
      (lang = [] \/ exists a, lang = cCOMMA :: a /\ forallb is_lang_char a = true) /\
      In eol [[]; [cLF]; [cCR]; [cCR; cLF]] /\ ts_hd ts = Some (mkhs d None)
  | HeredocContent | HeredocEnd => False
  | _ => ts_hd ts = None
  end.

Lemma scan_lang_spec s a b : scan_lang s = (a, b) -> a = [] \/ exists a', a = cCOMMA :: a' /\ forallb is_lang_char a' = true.
Proof.
  destruct s as [|c s]; cbn [scan_lang]; [injection 1 as <- <-; now left|].
  destruct (N.eqb_spec c cCOMMA) as [->|]; [|injection 1 as <- <-; now left].
  destruct s as [|d s]; [injection 1 as <- <-; right; exists []; easy|].
  destruct (is_lower d); [|injection 1 as <- <-; right; exists []; easy].
  destruct (span_while is_lang_char (d :: s)) as [x y] eqn:E. injection 1 as <- <-. right. exists x. split; [reflexivity|].
  now apply span_while_all in E.
Qed.

Lemma scan_eol_spec s a b : scan_eol s = (a, b) -> In a [[]; [cLF]; [cCR]; [cCR; cLF]].
Proof.
  unfold scan_eol. destruct s as [|c s]; [injection 1 as <- <-; cbn; tauto|].
  destruct (N.eqb_spec c cCR) as [->|].
  - destruct s as [|d s]; [injection 1 as <- <-; cbn; tauto|].
    destruct (N.eqb_spec d cLF) as [->|]; injection 1 as <- <-; cbn; tauto.
  - destruct (N.eqb_spec c cLF) as [->|]; injection 1 as <- <-; cbn; tauto.
Qed.

Lemma next_token_clean ts t ts' : ts_hd ts = None -> next_token ts = (t, ts') -> start_ok t ts'.
Proof.
  destruct ts as [rem pos hd]. cbn [ts_hd]. intros ->. unfold next_token. cbn [ts_rem ts_pos ts_hd].
  destruct rem as [|c r]; [now injection 1 as <- <-|].
  destruct (c =? cLB)%N; [now injection 1 as <- <-|].
  destruct (c =? cRB)%N; [now injection 1 as <- <-|].
  destruct (c =? cLP)%N; [now injection 1 as <- <-|].
  destruct (c =? cRP)%N; [now injection 1 as <- <-|].
  destruct (c =? cCOMMA)%N; [now injection 1 as <- <-|].
  destruct (c =? cGT)%N; [now injection 1 as <- <-|].
  destruct (c =? cAT)%N.
  { unfold tok_at_or_tag. destruct r as [|d r]; [now injection 1 as <- <-|].
    destruct (is_tag_start d); [|now injection 1 as <- <-]. destruct (scan_tag r). now injection 1 as <- <-. }
  destruct (c =? cDQ)%N.
  { unfold tok_quoted. destruct (scan_quoted r) as [[a b] []]; now injection 1 as <- <-. }
  destruct (c =? cSLASH)%N.
  { destruct (starts_with [cSLASH; cSLASH] r); [destruct (span_while _ _); now injection 1 as <- <-|].
    destruct (starts_with [cSLASH] r); destruct (span_while _ _); now injection 1 as <- <-. }
  destruct (_ && starts_with [cLT] r).
  { destruct r as [|d r]; [now injection 1 as <- <-|].
    destruct (opt_is is_upper (peek r)) eqn:Eu; [|now injection 1 as <- <-].
    unfold tok_heredoc_start. destruct (span_while is_delim_char r) as [dl r1] eqn:E1.
    destruct (16 <? length dl); [now injection 1 as <- <-|].
    destruct (scan_lang r1) as [lg r2] eqn:E2. destruct (scan_eol r2) as [nl r3] eqn:E3. injection 1 as <- <-.
    exists dl, lg, nl. splits; auto.
    - destruct r as [|u r]; [discriminate|]. cbn in Eu. cbn [span_while] in E1.
      unfold is_delim_char in E1 at 1. rewrite Eu in E1. cbn in E1.
      destruct (span_while is_delim_char r). injection E1 as <- _. discriminate.
    - now apply span_while_all in E1.
    - now apply scan_lang_spec in E2.
    - now apply scan_eol_spec in E3. }
  destruct (_ && opt_is is_hash_or_dq _).
  { unfold tok_raw. destruct (span_while _ r) as [hs r1]. destruct r1 as [|q r2]; [now injection 1 as <- <-|].
    destruct (q =? cDQ)%N; [|now injection 1 as <- <-]. destruct (scan_raw _ r2) as [[a b] []]; now injection 1 as <- <-. }
  destruct (is_blank c); [destruct (span_while _ _); now injection 1 as <- <-|].
  destruct (c =? cLF)%N; [now injection 1 as <- <-|].
  destruct (_ && opt_is _ _); [now injection 1 as <- <-|].
  destruct (is_bare_start c); [destruct (span_while _ _); now injection 1 as <- <-|].
  now injection 1 as <- <-.
Qed.

(** Between lexemes the lexer is never inside a heredoc. *)
Definition lclean (st : lstate) : Prop :=
  match ls_peek st with
  | None => ts_hd (ls_tok st) = None
  | Some t => start_ok t (ls_tok st)
  end.

Lemma lclean_new src : lclean (lex_new src).
Proof. reflexivity. Qed.

Lemma peek_token_clean st t st' : lclean st -> peek_token st = (t, st') -> lclean st' /\ start_ok t (ls_tok st').
Proof.
  unfold lclean, peek_token. destruct (ls_peek st) as [t0|] eqn:E.
  - intros H [= <- <-]. rewrite E. auto.
  - intros H. destruct (next_token (ls_tok st)) as [t1 ts] eqn:En. intros [= <- <-]. cbn.
    pose proof (next_token_clean _ _ _ H En). auto.
Qed.

Lemma lex_token_clean st t st' : lclean st -> lex_token st = (t, st') -> start_ok t (ls_tok st').
Proof.
  unfold lclean, lex_token. destruct (ls_peek st) as [t0|] eqn:E.
  - intros H [= <- <-]. exact H.
  - intros H. destruct (next_token (ls_tok st)) as [t1 ts] eqn:En. intros [= <- <-]. cbn.
    apply (next_token_clean _ _ _ H En).
Qed.

(** ** Slices next to each other *)

Lemma prefix_blen p r q r' : p ++ r = q ++ r' -> blen p <= blen q -> exists m, q = p ++ m.
Proof.
  revert r q. induction p as [|c p IH]; intros r q E Hle; [exists q; reflexivity|].
  destruct q as [|d q].
  - cbn in Hle. pose proof (clen_pos c). lia.
  - cbn in E. injection E as -> E. cbn in Hle. destruct (IH r q E ltac:(lia)) as (m & ->). now exists m.
Qed.

Lemma slice_join src a b c x y : slice src a b = Some x -> slice src b c = Some y -> slice src a c = Some (x ++ y).
Proof.
  intros H1 H2. apply slice_some in H1 as (p & q & E1 & Ha & Hb). apply slice_some in H2 as (p' & q' & E2 & Hb' & Hc).
  assert (exists m, p' = (p ++ x) ++ m) as (m & ->).
  { apply (prefix_blen (p ++ x) q p' (y ++ q')); [now rewrite <- app_assoc, <- E1|]. rewrite blen_app. lia. }
  rewrite !blen_app in Hb'. assert (m = []) as -> by (apply blen_nil_iff; lia).
  rewrite app_nil_r in E2. rewrite <- app_assoc in E2.
  assert (src = p ++ (x ++ y) ++ q') as -> by (rewrite E2, <- !app_assoc; reflexivity).
  subst a. replace c with (blen p + blen (x ++ y)) by (rewrite blen_app; lia). apply slice_app.
Qed.

Lemma blank_gap_join src a b c : blank_gap src a b -> blank_gap src b c -> blank_gap src a c.
Proof.
  intros (x & Hx & Bx) (y & Hy & By). exists (x ++ y). split; [now apply (slice_join _ _ b)|].
  intros z Hz. apply in_app_iff in Hz as [Hz|Hz]; auto.
Qed.

Lemma blank_gap_refl pre post : blank_gap (pre ++ post) (blen pre) (blen pre).
Proof.
  exists []. split; [|now intros c []]. rewrite <- (Nat.add_0_r (blen pre)) at 2. apply (slice_app pre [] post).
Qed.


(** ** Skipping whitespace *)

Lemma skip_ws_facts src fuel st : linv src st -> lmeas st < fuel ->
  exists t st', skip_ws fuel st = Ok (t, st') /\ tk_kind t <> Whitespace /\
    linv src st' /\ ls_peek st' = None /\ (exists pre post, tok_at src t pre post) /\
    lpos st <= sp_start (tk_span t) /\ lpos st' = sp_end (tk_span t) /\
    (tk_kind t = Eof -> ts_rem (ls_tok st') = [] /\ ts_hd (ls_tok st') = None) /\
    (tk_kind t <> Eof -> lmeas st' < lmeas st) /\
    blank_gap src (lpos st) (sp_start (tk_span t)) /\
    (lclean st -> start_ok t (ls_tok st')).
Proof.
  revert st. induction fuel as [|f IH]; intros st Hinv Hm; [lia|]. cbn [skip_ws].
  destruct (peek_token st) as [t st1] eqn:Ep.
  destruct (peek_token_facts _ _ _ _ Hinv Ep) as (F1 & P1 & L1 & M1).
  destruct (lex_token st1) as [t2 st2] eqn:El.
  destruct (lex_token_facts _ _ _ _ (tf_inv _ _ _ _ F1) El) as (F2 & P2 & L2 & M2).
  assert (t2 = t) as ->.
  { unfold lex_token in El. rewrite P1 in El. now injection El. }
  pose proof (tf_at _ _ _ _ F1) as (pre & post & Hat).
  destruct (tkind_eqb (tk_kind t) Whitespace) eqn:Ek.
  - apply tkind_eqb_eq in Ek. cbn [snd]. assert (tk_kind t <> Eof) as Hne by (rewrite Ek; discriminate).
    specialize (M2 Hne).
    destruct (IH st2 (tf_inv _ _ _ _ F2) ltac:(lia)) as (t' & st' & E & K & I' & P' & A' & S' & L' & Z' & M' & G' & C').
    exists t', st'. splits; auto.
    + apply tok_at_span in Hat. pose proof (tf_start _ _ _ _ F2). lia.
    + intros Hk. specialize (M' Hk). lia.
    + apply (blank_gap_join _ _ (lpos st2)); [|exact G'].
      exists (tk_text t). rewrite L2, <- L1, <- (tf_start _ _ _ _ F2). split; [apply (tok_at_slice _ _ _ _ Hat)|].
      destruct Hat as (_ & _ & Hsh). rewrite Ek in Hsh. destruct Hsh as [_ Hb].
      rewrite forallb_forall in Hb. intros c Hc. apply is_blank_iff. auto.
    + intros Hc. apply C'. destruct (peek_token_clean _ _ _ Hc Ep) as [Hc1 _].
      pose proof (lex_token_clean _ _ _ Hc1 El) as Hs. unfold start_ok in Hs. rewrite Ek in Hs.
      unfold lclean. now rewrite P2.
  - exists t, st2. splits; auto.
    + intros Hk. rewrite Hk in Ek. discriminate.
    + apply (tf_inv _ _ _ _ F2).
    + eauto.
    + rewrite (tf_start _ _ _ _ F2). lia.
    + apply (tf_eof _ _ _ _ F2).
    + intros Hk. specialize (M2 Hk). lia.
    + rewrite <- L1, <- (tf_start _ _ _ _ F2). destruct Hat as (-> & -> & _). cbn. apply blank_gap_refl.
    + intros Hc. destruct (peek_token_clean _ _ _ Hc Ep) as [Hc1 _]. now apply (lex_token_clean _ _ _ Hc1 El).
Qed.

(** ** Heredocs *)

Lemma drop_bytes_prefix_slice a b c : 
  slice (a ++ b ++ c) (blen a) (blen a + blen b) = Some b.
Proof. apply slice_app. Qed.

Lemma slice_range src pre mid post i j : src = pre ++ mid ++ post -> i = blen pre -> j = blen pre + blen mid ->
  slice src i j = Some mid.
Proof. intros -> -> ->. apply slice_app. Qed.

(** Everything between the start of one token and the end of a later one is a slice. *)
Lemma tok_at_prefix src t1 pre1 post1 t2 pre2 post2 :
  tok_at src t1 pre1 post1 -> tok_at src t2 pre2 post2 -> sp_end (tk_span t1) <= sp_start (tk_span t2) ->
  exists mid, src = pre1 ++ (tk_text t1 ++ mid ++ tk_text t2) ++ post2 /\
    slice src (sp_start (tk_span t1)) (sp_end (tk_span t2)) = Some (tk_text t1 ++ mid ++ tk_text t2) /\
    blen (pre1 ++ tk_text t1 ++ mid) = sp_start (tk_span t2).
Proof.
  intros (E1 & S1 & _) (E2 & S2 & _) Hle. rewrite S1, S2 in Hle. cbn in Hle.
  assert (exists mid, pre2 = (pre1 ++ tk_text t1) ++ mid) as (mid & ->).
  { apply (prefix_blen _ post1 _ (tk_text t2 ++ post2)); [now rewrite <- app_assoc, <- E1|]. rewrite blen_app. lia. }
  exists mid. split; [rewrite E2; now rewrite <- !app_assoc|]. split.
  - rewrite S1, S2. cbn. apply (slice_range _ pre1 (tk_text t1 ++ mid ++ tk_text t2) post2).
    + rewrite E2. now rewrite <- !app_assoc.
    + reflexivity.
    + rewrite !blen_app. lia.
  - rewrite S2. cbn. now rewrite <- app_assoc.
Qed.

(** Result of one [next_lexeme] call. *)
Record lexfacts (src : str) (st : lstate) (l : lexeme) (st' : lstate) : Prop := {
  lf_inv : linv src st';
  lf_clean : lclean st';
  lf_ok : l <> LxEof -> lexeme_ok src l;
  lf_order : l <> LxEof -> lpos st <= sp_start (lx_span l) /\ sp_start (lx_span l) <= sp_end (lx_span l)
               /\ sp_end (lx_span l) <= lpos st';
  lf_meas : l <> LxEof -> lmeas st' < lmeas st;
  lf_gap : is_err l = false -> l <> LxEof ->
    blank_gap src (lpos st) (sp_start (lx_span l)) /\ lpos st' = sp_end (lx_span l);
  lf_end : l = LxEof -> blank_gap src (lpos st) (blen src);
  lf_eof : l = LxEof -> ts_rem (ls_tok st') = [] /\ ts_hd (ls_tok st') = None /\ ls_peek st' = None
}.

Lemma find_delim_nil d : d <> [] -> find_delim d [] = None.
Proof. destruct d; [congruence|reflexivity]. Qed.

Lemma scan_heredoc_lf d s a b i : d <> [] -> scan_heredoc d s = (a, b, Some i) -> exists a', a = a' ++ [cLF].
Proof.
  intros Hd. remember (length s) as n eqn:En. revert s En a b.
  induction n as [n IH] using lt_wf_ind; intros s En a b H.
  destruct s as [|c s]; cbn [scan_heredoc] in H; [rewrite find_delim_nil in H by assumption; discriminate|].
  cbn [length] in En.
  assert (Hdef : (let '(a, b, k) := scan_heredoc d s in (c :: a, b, k)) = (a, b, Some i) -> exists a', a = a' ++ [cLF]).
  { intros H0. destruct (scan_heredoc d s) as [[a' b'] k'] eqn:E.
    injection H0 as <- <- ->. destruct (IH (length s) ltac:(lia) s eq_refl a' b' E) as (x & ->). now exists (c :: x). }
  destruct (N.eqb_spec c cLF) as [->|].
  { destruct (find_delim d s) eqn:Ef; [injection H as <- <- <-; now exists []|]. now apply Hdef. }
  destruct s as [|e r2]; [now apply Hdef|].
  destruct (_ && _) eqn:Ecr; [|now apply Hdef].
  apply andb_prop in Ecr as [_ Ecr]. apply N.eqb_eq in Ecr as ->.
  destruct (find_delim d r2) eqn:Ef; [injection H as <- <- <-; now exists [c]|].
  destruct (scan_heredoc d r2) as [[a' b'] k'] eqn:E. injection H as <- <- ->.
  destruct (IH (length r2) ltac:(cbn in En; lia) r2 eq_refl a' b' E) as (x & ->). now exists (c :: cLF :: x).
Qed.

(** The tokens that can come out of a heredoc. *)
Lemma next_token_heredoc ts hs t ts' : ts_hd ts = Some hs -> hs_delim hs <> [] -> next_token ts = (t, ts') ->
  (exists ind, tk_kind t = HeredocEnd /\ ts_hd ts' = None /\ tk_text t = ind ++ hs_delim hs /\ Forall blank_char ind /\
     find_delim (hs_delim hs) (ts_rem ts) = Some (length ind)) \/
  (exists i b, tk_kind t = HeredocContent /\ ts_hd ts' = Some (mkhs (hs_delim hs) (Some i)) /\
     find_delim (hs_delim hs) (ts_rem ts) = None /\
     find_delim (hs_delim hs) (ts_rem ts') = Some i /\ tk_text t = b ++ [cLF]) \/
  (tk_kind t = TError /\ ts_hd ts' = None).
Proof.
  destruct ts as [rem pos hd]. cbn [ts_hd ts_rem]. intros -> Hd. unfold next_token. cbn [ts_rem ts_pos ts_hd].
  unfold tok_heredoc_content. destruct (find_delim (hs_delim hs) rem) as [i|] eqn:Ef.
  - destruct (find_delim_firstn _ _ _ Ef) as (ind & rest & -> & Hl & Hb & -> & ->).
    injection 1 as <- <-. left. exists ind. cbn. splits; auto.
    rewrite forallb_forall in Hb. apply Forall_forall. intros c Hc. now apply is_blank_iff, Hb.
  - destruct (scan_heredoc _ rem) as [[a b] [i|]] eqn:E.
    + pose proof (scan_heredoc_lf _ _ _ _ _ Hd E) as (a' & Ea).
      pose proof (scan_heredoc_found _ _ _ _ _ E). 
      destruct a as [|x a]; [now destruct a'|]. injection 1 as <- <-. right. left. exists i, a'. cbn. auto.
    + injection 1 as <- <-. auto.
Qed.

Definition hd_state (d content : str) (ts : tstate) : Prop :=
  (content = [] /\ ts_hd ts = Some (mkhs d None)) \/
  (exists i b, ts_hd ts = Some (mkhs d (Some i)) /\ find_delim d (ts_rem ts) = Some i /\ content = b ++ [cLF]).

Lemma dedent_nil n : dedent [] n = [].
Proof. now destruct n. Qed.

Lemma heredoc_loop_facts src fuel t0 pre0 post0 d lang eol content ind st :
  linv src st -> lmeas st < fuel -> tok_at src t0 pre0 post0 -> tk_kind t0 = HeredocStart ->
  tk_text t0 = cLT :: cLT :: d ++ lang ++ eol -> d <> [] -> forallb is_delim_char d = true ->
  (lang = [] \/ exists a, lang = cCOMMA :: a /\ forallb is_lang_char a = true) ->
  In eol [[]; [cLF]; [cCR]; [cCR; cLF]] ->
  sp_end (tk_span t0) + blen content = lpos st -> ls_peek st = None ->
  src = pre0 ++ tk_text t0 ++ content ++ ts_rem (ls_tok st) -> hd_state d content (ls_tok st) ->
  exists l st', heredoc_loop fuel (tk_span t0) content ind st = Ok (l, st') /\
    linv src st' /\ l <> LxEof /\ lexeme_ok src l /\ sp_start (tk_span t0) <= sp_start (lx_span l) /\
    sp_start (lx_span l) <= sp_end (lx_span l) /\ sp_end (lx_span l) <= lpos st' /\ lmeas st' <= lmeas st /\
    lclean st' /\
    (is_err l = false -> sp_start (lx_span l) = sp_start (tk_span t0) /\ lpos st' = sp_end (lx_span l)).
Proof.
  intros Hinv Hm Hat0 Hk0 Ht0 Hd Hdc Hlang Heol Hpos Hpk Hsrc Hst0.
  revert content ind st Hinv Hm Hpos Hpk Hsrc Hst0.
  induction fuel as [|f IH]; intros content ind st Hinv Hm Hpos Hpk Hsrc Hst0; [lia|].
  cbn [heredoc_loop].
  destruct (lex_token st) as [t st'] eqn:El.
  destruct (lex_token_facts _ _ _ _ Hinv El) as (F & P & L & M).
  pose proof (tf_at _ _ _ _ F) as (pre & post & Hat).
  pose proof (tok_at_span _ _ _ _ Hat) as [Hsp1 Hsp2].
  pose proof (tok_at_span _ _ _ _ Hat0) as [Hsp3 Hsp4].
  pose proof (tf_start _ _ _ _ F) as Hst.
  assert (next_token (ls_tok st) = (t, ls_tok st')) as En.
  { unfold lex_token in El. rewrite Hpk in El. destruct (next_token (ls_tok st)). now injection El as <- <-. }
  assert (exists hs, ts_hd (ls_tok st) = Some hs /\ hs_delim hs = d) as (hs & Ehs & Ed).
  { destruct Hst0 as [[_ ->]|(i & b & -> & _)]; eauto. }
  pose proof (next_token_heredoc _ hs _ _ Ehs ltac:(congruence) En) as Hcases. rewrite Ed in Hcases.
  rewrite Ehs.
  destruct Hcases as [(ind0 & Hk & Hn & Htx & Hb & Hf)|[(i & b & Hk & Hn & Hf & Hf' & Htx)|(Hk & Hn)]]; rewrite Hk.
  - (* HeredocEnd *)
    specialize (M ltac:(congruence)).
    eexists _, st'. split; [reflexivity|].
    split; [apply (tf_inv _ _ _ _ F)|]. split; [discriminate|].
    destruct (tok_at_prefix _ _ _ _ _ _ _ Hat0 Hat ltac:(lia)) as (mid & G1 & G2 & G3).
    assert (mid = content) as ->.
    { rewrite Hsrc in G1. apply app_inv_head in G1. rewrite <- app_assoc in G1. apply app_inv_head in G1.
      rewrite <- app_assoc in G1.
      assert (blen mid = blen content) as Hlen.
      { rewrite !blen_app in G3. destruct Hat0 as (_ & Hs0 & _). rewrite Hs0 in Hpos. cbn in Hpos. lia. }
      destruct (prefix_blen _ _ _ _ G1 ltac:(lia)) as (m & ->). rewrite blen_app in Hlen.
      assert (m = []) as -> by (apply blen_nil_iff; lia). now rewrite app_nil_r. }
    split.
    { eexists. split; [exact G2|]. cbn [lexeme_ok].
      exists d, lang, eol, content, ind0. splits; auto.
      - rewrite Ht0, Htx. cbn [app]. now rewrite <- !app_assoc.
      - destruct Hst0 as [[-> _]|(i & b & _ & _ & ->)]; eauto.
      - destruct Hst0 as [[-> _]|(i & b & E1 & E2 & _)].
        + replace (if 0 <? _ then _ else _) with (dedent [] (length ind0)); [apply dedent_value|].
          rewrite !dedent_nil. now destruct (0 <? _).
        + rewrite E1 in Ehs. injection Ehs as <-. cbn [hs_indent]. rewrite E2 in Hf. injection Hf as ->.
          destruct (length ind0) as [|k]; cbn [Nat.ltb Nat.leb]; [|apply dedent_value].
          rewrite <- dedent_0. apply dedent_value. }
    cbn [lx_span sp_start sp_end]. splits; try lia.
    unfold lclean. now rewrite P.
  - (* HeredocContent *)
    specialize (M ltac:(congruence)).
    destruct Hst0 as [[-> Eh]|(i' & b' & _ & E2 & _)]; [|congruence].
    assert (src = pre0 ++ tk_text t0 ++ ([] ++ tk_text t) ++ ts_rem (ls_tok st')) as Hsrc'.
    { pose proof (next_token_step _ _ _ En) as (E1 & _). rewrite Hsrc, E1. cbn. now rewrite !app_assoc. }
    assert (sp_end (tk_span t0) + blen ([] ++ tk_text t) = lpos st') as Hpos'.
    { cbn in Hpos |- *. rewrite L. destruct Hat as (_ & Hs & _). rewrite Hs in Hst |- *. cbn in Hst |- *. lia. }
    destruct (IH ([] ++ tk_text t) (match hs_indent hs with Some i => i | None => ind end) st'
                (tf_inv _ _ _ _ F) ltac:(lia) Hpos' P Hsrc')
      as (l & st2 & E & I1 & I2 & I3 & I4 & I5 & I6 & I7 & I8).
    { right. exists i, b. cbn. auto. }
    exists l, st2. split; [exact E|]. splits; auto; [lia| |]; apply I8.
  - (* TError *)
    specialize (M ltac:(congruence)).
    exists (LxError (tk_span t) MsgInHeredoc), st'. split; [reflexivity|].
    split; [apply (tf_inv _ _ _ _ F)|]. split; [discriminate|]. split.
    { exists (tk_text t). split; [apply (tok_at_slice _ _ _ _ Hat)|exact I]. }
    cbn [lx_span]. splits; try lia; [unfold lclean; now rewrite P|discriminate].
Qed.

(** ** One lexeme *)

Lemma starts_with_intro p r : starts_with p (p ++ r) = true.
Proof. apply starts_with_iff. eauto. Qed.

Lemma blen_repeat_hash n : blen (repeat cHASH n) = n.
Proof. induction n; cbn; [reflexivity|]. now rewrite IHn. Qed.

Lemma quoted_inner a : slice (cDQ :: a ++ [cDQ]) 1 (blen (cDQ :: a ++ [cDQ]) - 1) = Some a.
Proof.
  change (cDQ :: a ++ [cDQ]) with ([cDQ] ++ a ++ [cDQ]). 
  replace (blen ([cDQ] ++ a ++ [cDQ]) - 1) with (blen [cDQ] + blen a) by (rewrite !blen_app; cbn; lia).
  apply (slice_app [cDQ] a [cDQ]).
Qed.

Lemma raw_inner n a : n <= 255 ->
  let t := cr :: repeat cHASH n ++ cDQ :: a ++ cDQ :: repeat cHASH (Nat.min 255 n) in
  (do tl <- of_opt (drop_bytes 1 t);
   let h := length (fst (span_while (N.eqb cHASH) tl)) in
   of_opt (slice t (1 + h + 1) (blen t - h - 1))) = Ok a.
Proof.
  intros Hn t. subst t. rewrite Nat.min_r by lia.
  change (drop_bytes 1 (cr :: repeat cHASH n ++ cDQ :: a ++ cDQ :: repeat cHASH n))
    with (drop_bytes 0 (repeat cHASH n ++ cDQ :: a ++ cDQ :: repeat cHASH n)). rewrite drop_bytes_0. cbn [of_opt bind].
  assert (fst (span_while (N.eqb cHASH) (repeat cHASH n ++ cDQ :: a ++ cDQ :: repeat cHASH n)) = repeat cHASH n) as ->.
  { generalize (a ++ cDQ :: repeat cHASH n) as z. clear. intros z. induction n; cbn; [reflexivity|]. destruct (span_while _ _); cbn in *. now rewrite IHn. }
  rewrite repeat_length.
  replace (cr :: repeat cHASH n ++ cDQ :: a ++ cDQ :: repeat cHASH n)
    with ((cr :: repeat cHASH n ++ [cDQ]) ++ a ++ (cDQ :: repeat cHASH n)) by (cbn; now rewrite <- app_assoc).
  assert (blen (cr :: repeat cHASH n ++ [cDQ]) = 1 + n + 1) as E1.
  { cbn. rewrite blen_app, blen_repeat_hash. cbn. lia. }
  rewrite (slice_range _ (cr :: repeat cHASH n ++ [cDQ]) a (cDQ :: repeat cHASH n)); [reflexivity|reflexivity|now rewrite E1|].
  rewrite !blen_app, E1. change (blen (cDQ :: repeat cHASH n)) with (1 + blen (repeat cHASH n)). rewrite blen_repeat_hash. lia.
Qed.

Lemma raw_inner_cases n a :
  let t := cr :: repeat cHASH n ++ cDQ :: a ++ cDQ :: repeat cHASH (Nat.min 255 n) in
  let r := (do tl <- of_opt (drop_bytes 1 t);
   let h := length (fst (span_while (N.eqb cHASH) tl)) in
   of_opt (slice t (1 + h + 1) (blen t - h - 1))) in
  (exists v w, r = Ok v /\ a = v ++ w /\ blen w = n - 255) \/ (r = Panic /\ 255 < n /\ forall v w, a = v ++ w -> blen w <> n - 255).
Proof.
  intros t r. destruct (le_lt_dec n 255) as [Hn|Hn].
  { left. exists a, []. splits; [exact (raw_inner n a Hn)|now rewrite app_nil_r|cbn; lia]. }
  subst r t. rewrite Nat.min_l by lia. set (z := cDQ :: repeat cHASH 255).
  change (drop_bytes 1 (cr :: repeat cHASH n ++ cDQ :: a ++ z)) with (drop_bytes 0 (repeat cHASH n ++ cDQ :: a ++ z)). rewrite drop_bytes_0. cbn [of_opt bind].
  assert (fst (span_while (N.eqb cHASH) (repeat cHASH n ++ cDQ :: a ++ z)) = repeat cHASH n) as ->.
  { generalize (a ++ z) as y. clear. intros y. induction n; cbn; [reflexivity|]. destruct (span_while _ _); cbn in *. now rewrite IHn. }
  rewrite repeat_length.
  replace (cr :: repeat cHASH n ++ cDQ :: a ++ z) with ((cr :: repeat cHASH n ++ [cDQ]) ++ a ++ z) by (cbn; now rewrite <- app_assoc).
  assert (blen (cr :: repeat cHASH n ++ [cDQ]) = 1 + n + 1) as E1 by (cbn; rewrite blen_app, blen_repeat_hash; cbn; lia).
  assert (blen z = 256) as Ez by (unfold z; change (blen (cDQ :: repeat cHASH 255)) with (1 + blen (repeat cHASH 255)); now rewrite blen_repeat_hash).
  clearbody z. set (p := cr :: repeat cHASH n ++ [cDQ]) in *. clearbody p. rewrite !blen_app, E1, Ez.
  destruct (slice _ _ _) as [v|] eqn:Es; cbn [of_opt].
  - left. apply slice_some in Es as (x & y & E & Ex & Ey). 
    assert (x = p) as ->.
    { destruct (app_eq_app _ _ _ _ E) as (m & [[H1 _]|[H1 _]]); pose proof (f_equal blen H1) as H2; rewrite blen_app in H2;
        (assert (m = []) as -> by (apply blen_nil_iff; lia)); rewrite app_nil_r in H1; congruence. }
    apply app_inv_head in E. destruct (app_eq_app _ _ _ _ E) as (m & [[H1 H2]|[H1 H2]]).
    + exists v, m. splits; auto. rewrite H1, blen_app in Ey. lia.
    + exfalso. rewrite H1, blen_app in Ey. lia.
  - right. splits; auto. intros v w -> Hw.
    rewrite (slice_range _ p v (w ++ z)) in Es; [discriminate|now rewrite <- app_assoc|now rewrite E1|]. rewrite !blen_app. lia.
Qed.

Lemma hash_run_le n m s : n <= m -> has_hash_run m s -> has_hash_run n s.
Proof.
  intros Hle (a & b & ->). exists a, (repeat cHASH (m - n) ++ b). 
  replace m with (n + (m - n)) by lia. rewrite repeat_app, <- app_assoc. do 3 f_equal. f_equal. lia.
Qed.

Lemma next_lexeme_cases src st : linv src st -> lclean st ->
  (exists l st', next_lexeme st = Ok (l, st') /\ lexfacts src st l st') \/
  (next_lexeme st = Panic /\ exists pre t post, src = pre ++ t ++ post /\ torn_raw t).
Proof.
  intros Hinv Hclean. unfold next_lexeme.
  destruct (skip_ws_facts src _ st Hinv (lex_fuel_ok st)) as (t & st1 & -> & Hnw & I1 & P1 & (pre & post & Hat) & S1 & L1 & Z1 & M1 & Gap & Cl).
  cbn [bind]. specialize (Cl Hclean).
  pose proof (tok_at_span _ _ _ _ Hat) as [Hsp1 Hsp2].
  pose proof (tok_at_slice _ _ _ _ Hat) as Hsl.
  pose proof Hat as (Hsrc & _ & Hsh).
  assert (tk_kind t <> HeredocStart -> ts_hd (ls_tok st1) = None) as Cl1.
  { intros Hk. unfold start_ok in Cl. destruct (tk_kind t); auto; [congruence|contradiction|contradiction]. }
  assert (tk_kind t <> HeredocStart -> lclean st1) as Cl2 by (unfold lclean; now rewrite P1).
  assert (tk_kind t <> Eof /\ tk_kind t <> HeredocStart ->
    forall l, lx_span l = tk_span t -> l <> LxEof -> lexeme_ok src l -> lexfacts src st l st1) as Simple.
  { intros [Hk Hh] l El Hl Hok. split; auto.
    - rewrite El. intros _. splits; lia.
    - intros _ _. rewrite El. auto.
    - now intros ->.
    - now intros ->. }
  assert (tk_kind t <> Eof /\ tk_kind t <> HeredocStart -> forall m, (match m with MsgUniEscape | MsgUniCode | MsgBadEscape | MsgTrailingBsl => False | _ => True end) ->
     lexfacts src st (LxError (tk_span t) m) st1) as Err.
  { intros Hk m Hm. apply Simple; [exact Hk|reflexivity|discriminate|].
    exists (tk_text t). split; [exact Hsl|]. destruct m; now try contradiction. }
  destruct (peek_token st1) as [nx st2] eqn:Ep.
  destruct (peek_token_facts _ _ _ _ I1 Ep) as (F2 & P2 & L2 & M2).
  pose proof (tf_at _ _ _ _ F2) as (npre & npost & Nat_).
  pose proof (tok_at_span _ _ _ _ Nat_) as [Nsp1 Nsp2].
  pose proof (tf_start _ _ _ _ F2) as Nst.
  assert (tk_kind t <> HeredocStart -> lclean st2 /\ start_ok nx (ls_tok st2)) as Cl3.
  { intros Hh. apply (peek_token_clean _ _ _ (Cl2 Hh) Ep). }
  assert (tk_kind t <> Eof /\ tk_kind t <> HeredocStart ->
    forall l, lx_span l = tk_span t -> l <> LxEof -> lexeme_ok src l -> lexfacts src st l st2) as Peeked.
  { intros [Hk Hh] l El Hl Hok. specialize (M1 Hk). split; auto.
    - apply (tf_inv _ _ _ _ F2).
    - now apply Cl3.
    - rewrite El. intros _. splits; lia.
    - intros _. lia.
    - intros _ _. rewrite El. split; [exact Gap|lia].
    - now intros ->.
    - now intros ->. }
  destruct (lex_token st2) as [bad st3] eqn:E3.
  destruct (lex_token_facts _ _ _ _ (tf_inv _ _ _ _ F2) E3) as (F3 & P3 & L3 & M3).
  assert (bad = nx) as ->.
  { unfold lex_token in E3. rewrite P2 in E3. now injection E3. }
  destruct (tok_at_prefix _ _ _ _ _ _ _ Hat Nat_ ltac:(lia)) as (mid & G1 & G2 & G3).
  assert (tk_kind t <> HeredocStart -> tk_kind nx <> HeredocStart -> lclean st3) as Cl4.
  { intros Hh Hn. destruct (Cl3 Hh) as [Hc Hs]. unfold lclean. rewrite P3.
    unfold lex_token in E3. rewrite P2 in E3. injection E3 as <-. cbn. unfold start_ok in Hs.
    destruct (tk_kind nx); auto; [congruence|contradiction|contradiction]. }
  assert (tk_kind t <> Eof /\ tk_kind t <> HeredocStart -> tk_kind nx <> Eof -> tk_kind nx <> HeredocStart ->
    lexfacts src st (LxError (mkspan (sp_start (tk_span t)) (sp_end (tk_span nx))) MsgInvalidTag) st3) as BadTag.
  { intros [Hk Hh] Hn Hn2. specialize (M3 Hn). specialize (M1 Hk). split.
    - apply (tf_inv _ _ _ _ F3).
    - now apply Cl4.
    - intros _. eexists. split; [exact G2|exact I].
    - intros _. cbn. splits; lia.
    - intros _. lia.
    - discriminate.
    - discriminate.
    - discriminate. }
  destruct (tk_kind t) eqn:Ek; cbn [tok_shape] in Hsh.
  all: try (left; eexists _, st1; split; [reflexivity|]; apply Simple;
            [split; discriminate|reflexivity|discriminate|]; eexists; split; [exact Hsl|]; cbn; solve [auto]).
  - (* At *) left.
    destruct ((sp_start (tk_span nx) =? sp_end (tk_span t)) && tkind_eqb (tk_kind nx) BareScalar) eqn:Eb.
    + apply andb_prop in Eb as [_ Eb]. apply tkind_eqb_eq in Eb. eexists _, _. split; [reflexivity|].
      apply BadTag; [split; discriminate|rewrite Eb; discriminate|rewrite Eb; discriminate].
    + eexists _, _. split; [reflexivity|]. apply Peeked; try easy. eexists; split; [exact Hsl|]. exact Hsh.
  - (* Tag *) left.
    destruct Hsh as (d & a & Et & Hd & Ha). rewrite Et.
    change (drop_bytes 1 (cAT :: d :: a)) with (drop_bytes 0 (d :: a)). rewrite drop_bytes_0. cbn [of_opt bind].
    match goal with |- context [if ?b then _ else _] => destruct b eqn:Eb end.
    + apply andb_prop in Eb as [_ Eb]. apply tkind_eqb_eq in Eb. eexists _, _. split; [reflexivity|].
      apply BadTag; [split; discriminate|rewrite Eb; discriminate|rewrite Eb; discriminate].
    + eexists _, _. split; [reflexivity|]. apply Peeked; try easy. eexists; split; [exact Hsl|]. cbn. eauto.
  - (* BareScalar *) left.
    destruct (tkind_eqb (tk_kind nx) Gt && (sp_start (tk_span nx) =? sp_end (tk_span t))) eqn:Eb.
    + apply andb_prop in Eb as [Eb1 Eb2]. apply tkind_eqb_eq in Eb1. apply Nat.eqb_eq in Eb2.
      destruct (peek_token st3) as [vt st4] eqn:E4.
      destruct (peek_token_facts _ _ _ _ (tf_inv _ _ _ _ F3) E4) as (F4 & P4 & L4 & M4).
      assert (lclean st4) as Cl5.
      { apply (peek_token_clean st3 vt st4); [|exact E4]. apply Cl4; [discriminate|rewrite Eb1; discriminate]. }
      specialize (M1 ltac:(discriminate)). specialize (M3 ltac:(rewrite Eb1; discriminate)).
      pose proof Nat_ as (Nsrc & Nspan & Nsh). rewrite Eb1 in Nsh. cbn in Nsh.
      assert (sp_end (tk_span nx) = sp_start (tk_span nx) + 1) as Nlen.
      { rewrite Nspan. cbn. rewrite Nsh. reflexivity. }
      assert (forall m, (match m with MsgUniEscape | MsgUniCode | MsgBadEscape | MsgTrailingBsl => False | _ => True end) ->
         lexfacts src st (LxError (mkspan (sp_end (tk_span nx) - 1) (sp_end (tk_span nx))) m) st4) as GtErr.
      { intros m Hm. split.
        - apply (tf_inv _ _ _ _ F4).
        - exact Cl5.
        - intros _. exists (tk_text nx). split.
          + unfold lexeme_text. cbn [lx_span sp_start sp_end].
            replace (sp_end (tk_span nx) - 1) with (sp_start (tk_span nx)) by lia. apply (tok_at_slice _ _ _ _ Nat_).
          + destruct m; now try contradiction.
        - intros _. cbn. splits; lia.
        - intros _. lia.
        - discriminate.
        - discriminate.
        - discriminate. }
      match goal with |- context [if ?b then _ else _] => destruct b eqn:Eb3 end;
        [eexists _, _; split; [reflexivity|]; now apply GtErr|].
      match goal with |- context [if ?b then _ else _] => destruct b eqn:Eb4 end;
        [eexists _, _; split; [reflexivity|]; now apply GtErr|].
      eexists _, _. split; [reflexivity|]. split.
      * apply (tf_inv _ _ _ _ F4).
      * exact Cl5.
      * intros _. eexists. split; [exact G2|]. cbn [lx_span sp_start sp_end]. split.
        { assert (mid = []) as ->.
          { rewrite !blen_app in G3. destruct Hat as (_ & Hspan & _). rewrite Eb2, Hspan in G3. cbn in G3.
            apply blen_nil_iff. lia. }
          rewrite Nsh. reflexivity. }
        split; [apply Hsh|]. split; [apply Hsh|]. split; [exact Hsl|]. split; [reflexivity|]. lia.
      * intros _. cbn. splits; lia.
      * intros _. lia.
      * intros _ _. cbn. split; [exact Gap|lia].
      * discriminate.
      * discriminate.
    + eexists _, _. split; [reflexivity|]. apply Peeked; try easy. eexists; split; [exact Hsl|]. cbn. tauto.
  - (* QuotedScalar *) left.
    destruct Hsh as (a & Et). rewrite Et, quoted_inner. cbn [of_opt bind].
    destruct (process_escapes a) as [v|m] eqn:Ev.
    + eexists _, _. split; [reflexivity|]. apply Simple; try easy. eexists; split; [exact Hsl|]. cbn.
      exists a. split; [exact Et|]. now apply process_escapes_decodes.
    + eexists _, _. split; [reflexivity|]. apply Simple; try easy. eexists; split; [exact Hsl|]. cbn.
      pose proof (process_escapes_err _ _ Ev). destruct m; eauto.
  - (* RawScalar *)
    destruct Hsh as (n & a & Et).
    pose proof (raw_inner_cases n a) as Hr. cbn zeta in Hr. rewrite <- Et in Hr.
    destruct (drop_bytes 1 (tk_text t)) as [tl|] eqn:Ed; [|rewrite Et in Ed; change (drop_bytes 1 (cr :: ?x)) with (drop_bytes 0 x) in Ed; now rewrite drop_bytes_0 in Ed].
    cbn [of_opt bind] in Hr |- *. destruct Hr as [(v & w & Hr & Ha & Hw)|(Hr & Hn & Hv)]; rewrite Hr; cbn [bind].
    + left. eexists _, _. split; [reflexivity|]. apply Simple; try easy. eexists; split; [exact Hsl|]. cbn.
      exists n, w. split; [|exact Hw]. rewrite Et, Ha. now rewrite <- app_assoc.
    + right. split; [reflexivity|]. exists pre, (tk_text t), post. split; [exact Hsrc|]. exists n, a. splits; auto. rewrite Et. rewrite Nat.min_l by lia. reflexivity.
  - (* HeredocStart *) left.
    specialize (M1 ltac:(discriminate)).
    unfold start_ok in Cl. rewrite Ek in Cl. destruct Cl as (d & lang & eol & Ht & Hd & Hdc & Hlang & Heol & Hhd).
    destruct (heredoc_loop_facts src (lex_fuel st1) t pre post d lang eol [] 0 st1 I1 (lex_fuel_ok st1) Hat Ek Ht Hd Hdc Hlang Heol)
      as (l & st' & -> & J1 & J2 & J3 & J4 & J5 & J6 & J7 & Jc & J8).
    { cbn. lia. }
    { exact P1. }
    { destruct I1 as [_ I1]. rewrite P1 in I1. destruct I1 as (p & E1 & E2).
      unfold lpos in L1. rewrite P1 in L1. destruct Hat as (_ & Hspan & _). rewrite Hspan in L1. cbn in L1.
      assert (p = pre ++ tk_text t) as ->.
      { assert (blen (pre ++ tk_text t) = blen p) as Hl by (rewrite blen_app; lia).
        rewrite E1, app_assoc in Hsrc. destruct (prefix_blen _ _ _ _ Hsrc ltac:(lia)) as (m & Hm).
        rewrite Hm, blen_app in Hl. assert (m = []) as -> by (apply blen_nil_iff; lia). now rewrite app_nil_r in Hm. }
      rewrite E1. now rewrite <- app_assoc. }
    { now left. }
    exists l, st'. split; [reflexivity|]. split; auto.
    + intros _. splits; lia.
    + intros _. lia.
    + intros He _. destruct (J8 He) as [E1 ->]. rewrite E1. split; [exact Gap|reflexivity].
    + contradiction.
    + contradiction.
  - (* LineComment *) left.
    destruct Hsh as (a & Et & _). eexists _, _. split; [reflexivity|]. apply Simple; try easy.
    eexists; split; [exact Hsl|]. cbn [lexeme_ok]. split; [reflexivity|]. rewrite Et. apply (starts_with_intro [cSLASH; cSLASH] a).
  - (* DocComment *) left.
    destruct Hsh as (a & Et & _). eexists _, _. split; [reflexivity|]. apply Simple; try easy.
    eexists; split; [exact Hsl|]. cbn [lexeme_ok]. split; [reflexivity|]. rewrite Et. apply (starts_with_intro [cSLASH; cSLASH; cSLASH] a).
  - (* Whitespace *) contradiction.
  - (* Eof *) left.
    eexists _, _. split; [reflexivity|]. destruct (Z1 eq_refl). split; auto; try now intros [].
    { now apply Cl2. }
    intros _. replace (blen src) with (sp_start (tk_span t)); [exact Gap|].
    destruct Hat as (_ & Hspan & _). rewrite Hsh in Hspan. rewrite Hspan in L1 |- *. cbn in L1 |- *.
    rewrite Nat.add_0_r in L1. rewrite <- L1. destruct I1 as [_ I1]. rewrite P1 in I1. destruct I1 as (p & -> & E).
    unfold lpos. rewrite P1, E. now rewrite H, app_nil_r.
Qed.

Lemma torn_hashes pre t post : torn_raw t -> has_hash_run 256 (pre ++ t ++ post).
Proof.
  intros (n & a & -> & Hn & _). apply (hash_run_le 256 n); [lia|]. exists (pre ++ [cr]). eexists. rewrite <- !app_assoc. cbn [app]. rewrite <- !app_assoc. reflexivity.
Qed.

Lemma next_lexeme_facts src st : linv src st -> lclean st -> ~ has_hash_run 256 src ->
  exists l st', next_lexeme st = Ok (l, st') /\ lexfacts src st l st'.
Proof.
  intros Hi Hc Hh. destruct (next_lexeme_cases src st Hi Hc) as [H|(_ & pre & t & post & -> & Ht)]; [exact H|]. destruct Hh. now apply torn_hashes.
Qed.

(** ** The whole stream *)

Lemma lex_covers_err src p q ls : lex_covers src p false ls -> lex_covers src q true ls.
Proof. destruct ls as [|l ls]; cbn; [auto|]. intros [_ H]. split; auto. Qed.

Lemma lexemes_from_cases src fuel st : linv src st -> lclean st -> lmeas st < fuel ->
  (exists ls, lexemes_from fuel st = Ok ls /\ Forall (lexeme_ok src) ls /\ lex_ordered (lpos st) ls (blen src) /\
    ~ In LxEof ls /\ length ls <= lmeas st /\ lex_covers src (lpos st) false ls) \/
  (lexemes_from fuel st = Panic /\ exists pre t post, src = pre ++ t ++ post /\ torn_raw t).
Proof.
  revert st. induction fuel as [|f IH]; intros st Hinv Hc Hm; [lia|]. cbn [lexemes_from].
  destruct (next_lexeme_cases src st Hinv Hc) as [(l & st' & -> & F)|(-> & Hp)]; [|right; cbn [bind]; auto]. cbn [bind].
  assert ({l = LxEof} + {l <> LxEof}) as [->|Hl] by (destruct l; auto; right; discriminate).
  - left. exists []. splits; auto.
    + cbn. apply (linv_lpos _ _ Hinv).
    + cbn. lia.
    + right. now apply (lf_end _ _ _ _ F).
  - pose proof (lf_meas _ _ _ _ F Hl). pose proof (lf_order _ _ _ _ F Hl) as (O1 & O2 & O3).
    destruct (IH st' (lf_inv _ _ _ _ F) (lf_clean _ _ _ _ F) ltac:(lia)) as [(ls & E & H1 & H2 & H3 & H4 & H5)|(E & Hp)];
      [|right; rewrite E; split; [destruct l; try reflexivity; now elim Hl|exact Hp]].
    left. exists (l :: ls). split.
    + rewrite E. destruct l; try reflexivity. now elim Hl.
    + splits.
      * constructor; [|exact H1]. now apply (lf_ok _ _ _ _ F).
      * cbn [lex_ordered]. splits; [exact O1|exact O2|].
        destruct ls as [|l' ls']; cbn [lex_ordered] in *; [lia|]. destruct H2 as (? & ? & ?). splits; auto; lia.
      * cbn. intros [E'|E']; [now elim Hl|now elim H3].
      * cbn [length]. lia.
      * cbn [lex_covers]. destruct (is_err l) eqn:Ee.
        -- split; [auto|]. now apply (lex_covers_err _ (lpos st')).
        -- destruct (lf_gap _ _ _ _ F Ee Hl) as [G EE]. rewrite EE in H5. auto.
Qed.

Lemma lexemes_cases src :
  (exists ls, lexemes src = Ok ls /\ Forall (lexeme_ok src) ls /\ lex_ordered 0 ls (blen src) /\
    ~ In LxEof ls /\ lex_covers src 0 false ls) \/
  (lexemes src = Panic /\ exists pre t post, src = pre ++ t ++ post /\ torn_raw t).
Proof.
  unfold lexemes.
  destruct (lexemes_from_cases src (3 + 2 * length src) (lex_new src) (linv_new src) (lclean_new src)) as [(ls & H1 & H2 & H3 & H4 & _ & H5)|H]; [|left; exists ls; splits; auto|right; exact H].
  unfold lmeas, measure. cbn. lia.
Qed.

Lemma lexemes_good src ls : lexemes src = Ok ls ->
  Forall (lexeme_ok src) ls /\ lex_ordered 0 ls (blen src) /\ ~ In LxEof ls /\ lex_covers src 0 false ls.
Proof. intros E. destruct (lexemes_cases src) as [(ls' & E' & H)|(E' & _)]; rewrite E in E'; [now injection E' as <-|discriminate]. Qed.

Lemma lexemes_total src : ~ has_hash_run 256 src ->
  exists ls, lexemes src = Ok ls /\ Forall (lexeme_ok src) ls /\ lex_ordered 0 ls (blen src) /\
    ~ In LxEof ls /\ lex_covers src 0 false ls.
Proof.
  intros Hh. destruct (lexemes_cases src) as [H|(_ & pre & t & post & -> & Ht)]; [exact H|]. destruct Hh. now apply torn_hashes.
Qed.

(** What was returned before a panic. *)
Lemma lex_calls_good src st ls st' : lex_calls st ls st' -> linv src st -> lclean st ->
  Forall (lexeme_ok src) ls /\ lex_ordered (lpos st) ls (blen src) /\ ~ In LxEof ls.
Proof.
  induction 1 as [st|st l st1 r st2 H Hl _ IH]; intros Hi Hc.
  - splits; auto. cbn. apply (linv_lpos _ _ Hi).
  - destruct (next_lexeme_cases src st Hi Hc) as [(l' & st1' & E & F)|(E & _)]; rewrite H in E; [|discriminate]. injection E as <- <-.
    pose proof (lf_order _ _ _ _ F Hl) as (O1 & O2 & O3).
    destruct (IH (lf_inv _ _ _ _ F) (lf_clean _ _ _ _ F)) as (H1 & H2 & H3). splits.
    + constructor; [|exact H1]. now apply (lf_ok _ _ _ _ F).
    + cbn [lex_ordered]. splits; [exact O1|exact O2|].
      destruct r as [|l' ls']; cbn [lex_ordered] in *; [lia|]. destruct H2 as (? & ? & ?). splits; auto; lia.
    + intros [E|E]; [now elim Hl|now elim H3].
Qed.

Lemma lexemes_calls fuel : forall st ls, lexemes_from fuel st = Ok ls -> exists st', lex_calls st ls st'.
Proof.
  induction fuel as [|f IH]; intros st ls H; [discriminate|]. cbn [lexemes_from] in H.
  destruct (next_lexeme st) as [[l st1]| |] eqn:E; try discriminate. cbn [bind] in H.
  assert ({l = LxEof} + {l <> LxEof}) as [->|Hl] by (destruct l; auto; right; discriminate).
  - injection H as <-. exists st. constructor.
  - destruct (lexemes_from f st1) as [r| |] eqn:Er; [|destruct l; try discriminate; now elim Hl..].
    destruct (IH _ _ Er) as (st' & Hc). exists st'. assert (ls = l :: r) as -> by (destruct l; try (now injection H); now elim Hl). econstructor; eauto.
Qed.
