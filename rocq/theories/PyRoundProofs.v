(** The Python parser reads what the Rust printer writes. *)
From Verif Require Import ScalarProofs PropFmt RelexProofs RoundProofs WriteProofs.
From Verif Require Import Base BaseProofs TokModel LexRunProofs ParseModel TreeModel FmtModel FmtSpec GrammarSpec WriteSpec PyModel PySpec PyProofs PyWriteProofs PyParseModel PyParseProofs PyRoundSpec.

(** ** Blanks *)
Definition fixed (s : str) : Prop := skip false s = (false, false, s).
Lemma skip_ws s n q : skip false s = (false, n, q) -> n = false /\ q = s.
Proof.
  destruct s as [|c r]; cbn [skip]; [intros [= <- <-]; auto|].
  destruct (c =? cLF)%N; [destruct (skip false r) as [[? ?] ?]; discriminate|]. destruct (py_blank c); [destruct (skip false r) as [[? ?] ?]; discriminate|].
  destruct ((c =? cSLASH)%N && starts_with [cSLASH] r); [destruct (skip true r) as [[? ?] ?]; discriminate|]. intros [= <- <-]. auto.
Qed.
Lemma skip_fixed s : forall com w n q, skip com s = (w, n, q) -> fixed q.
Proof.
  induction s as [|c r IH]; intros com w n q; cbn [skip]; [intros [= <- <- <-]; reflexivity|].
  destruct (c =? cLF)%N eqn:E1; [destruct (skip false r) as [[? ?] ?] eqn:E; intros [= <- <- <-]; eauto|]. destruct com; [eauto|].
  destruct (py_blank c) eqn:E2; [destruct (skip false r) as [[? ?] ?] eqn:E; intros [= <- <- <-]; eauto|].
  destruct ((c =? cSLASH)%N && starts_with [cSLASH] r) eqn:E3; [destruct (skip true r) as [[? ?] ?] eqn:E; intros [= <- <- <-]; eauto|].
  intros [= <- <- <-]. unfold fixed. cbn [skip]. now rewrite E1, E2, E3.
Qed.

(** Left out, with these marks for the next token *)
Definition skips (g : str) (ws nl : bool) : Prop := forall s, fixed s -> skip false (g ++ s) = (ws, nl, s).
Lemma skips_nil : skips [] false false.
Proof. intros s F. exact F. Qed.
Lemma skips_blank c g ws nl : c = cSP \/ c = cTAB -> skips g ws nl -> skips (c :: g) true nl.
Proof. intros C H s F. cbn [app skip]. destruct C as [-> | ->]; cbn [N.eqb Pos.eqb py_blank orb]; rewrite (H s F); reflexivity. Qed.
Lemma skips_lf g ws nl : skips g ws nl -> skips (cLF :: g) true true.
Proof. intros H s F. cbn [app skip]. rewrite (H s F). reflexivity. Qed.
Lemma skips_blanks b : blanks b -> exists ws, skips b ws false.
Proof.
  induction b as [|c b IH]; intros H; [exists false; exact skips_nil|]. destruct IH as (ws & W); [intros x X; apply H; now right|].
  exists true. apply (skips_blank c b ws); [apply H; now left|exact W].
Qed.
Lemma skip_comment l s : ~ In cLF l -> skip true (l ++ cLF :: s) = let '(_, _, q) := skip false s in (true, true, q).
Proof.
  induction l as [|c l IH]; intros H; [reflexivity|]. cbn [app skip]. destruct (c =? cLF)%N eqn:E; [apply N.eqb_eq in E; subst; destruct H; now left|].
  apply IH. intros X. apply H. now right.
Qed.
Lemma skips_doc l g ws nl : ~ In cLF l -> skips g ws nl -> skips (doc_marker ++ l ++ cLF :: g) true true.
Proof.
  intros L H s F. unfold doc_marker. cbn [app].
  replace ((l ++ cLF :: g) ++ s) with (l ++ cLF :: g ++ s) by now rewrite <- app_assoc.
  pose proof (skip_comment (cSLASH :: cSLASH :: cSP :: l) (g ++ s)) as X. cbn [app] in X.
  assert (Y : skip true (cSLASH :: cSLASH :: cSP :: l ++ cLF :: g ++ s) = (true, true, s)).
  { rewrite X; [now rewrite (H s F)|]. intros [Z|[Z|[Z|Z]]]; try discriminate. auto. }
  transitivity (let '(_, n, q) := skip true (cSLASH :: cSLASH :: cSP :: l ++ cLF :: g ++ s) in (true, n, q)); [reflexivity|]. now rewrite Y.
Qed.
Lemma skips_line b : blanks b -> skips (cLF :: b) true true.
Proof. intros H. destruct (skips_blanks b H) as (ws & W). exact (skips_lf _ _ _ W). Qed.
Lemma skips_pre b g nl : blanks b -> skips g true nl -> skips (b ++ g) true nl.
Proof.
  induction b as [|c b IH]; intros B H; [exact H|]. cbn [app]. eapply skips_blank; [apply B; now left|]. apply IH; auto. intros x X. apply B. now right.
Qed.
Lemma skips_docs b g w n : blanks b -> skips g w n -> forall lines, Forall (fun x => ~ In cLF x /\ ~ In cCR x) lines ->
  exists g' w' n', flat_map (fun l => cLF :: b ++ doc_marker ++ l) lines ++ cLF :: g = cLF :: g' /\ skips g' w' n'.
Proof.
  intros B G lines. induction lines as [|l lines IH]; intros F; [exists g, w, n; auto|]. apply Forall_cons_iff in F as [[L _] F2]. destruct (IH F2) as (g' & w' & n' & E & S).
  exists (b ++ doc_marker ++ l ++ cLF :: g'), true, true. split.
  - cbn [flat_map app]. apply f_equal. transitivity (b ++ doc_marker ++ l ++ (flat_map (fun l => cLF :: b ++ doc_marker ++ l) lines ++ cLF :: g)); [now rewrite <- !app_assoc|now rewrite E].
  - apply skips_pre; [exact B|]. eapply skips_doc; eauto.
Qed.
Lemma skips_root_docs g w n lines : skips g w n -> Forall (fun x => ~ In cLF x /\ ~ In cCR x) lines -> exists w' n', skips (flat_map doc_line_text lines ++ g) w' n'.
Proof.
  intros G. induction 1 as [|l lines [L _] F (w' & n' & S)]; [eauto|]. exists true, true. cbn [flat_map].
  replace ((doc_line_text l ++ flat_map doc_line_text lines) ++ g) with (doc_marker ++ l ++ cLF :: (flat_map doc_line_text lines ++ g)).
  - eapply skips_doc; eauto.
  - unfold doc_line_text, doc_marker. rewrite <- !app_assoc. reflexivity.
Qed.
(** The text in front of an entry; with commas it is one token *)
Lemma skips_maybe g : maybe_line g -> exists w n, skips g w n /\ (g = [] \/ exists r, g = cLF :: r).
Proof. intros [->|(b & -> & B)]; [exists false, false; split; [exact skips_nil|now left]|exists true, true; split; [now apply skips_line|right; eauto]]. Qed.
Lemma skips_lead f d g : wlead f d g -> (f = false /\ g = [cCOMMA; cSP]) \/ exists w n, skips g w n /\ (f = true /\ g = [] \/ exists r, g = cLF :: r).
Proof.
  destruct d as [s|]; cbn [wlead].
  - intros (lines & b & N & -> & F & B & ->). right. destruct (skips_blanks b B) as (w0 & W). destruct (skips_docs b b w0 false B W lines F) as (g' & w' & n' & -> & S).
    exists true, true. split; [eapply skips_lf; eauto|right; eauto].
  - destruct f; cbn [separator].
    + intros H. right. destruct (skips_maybe g H) as (w & n & S & X). exists w, n. split; auto. tauto.
    + intros [->|(b & -> & B)]; [left; auto|right]. exists true, true. split; [now apply skips_line|right; eauto].
Qed.

(** ** Tokens *)
Definition flags (ws nl : bool) (t : pytok) : pytok := mkpytok (pt_kind t) (pt_text t) (pt_start t) (pt_end t) ws nl.

Section round.
Variable isupper : char -> bool.
Variable int16 : str -> option Z.
Hypothesis upper_ascii : forall c, (65 <= c <= 90)%N -> isupper c = true.
Hypothesis hex_ok : forall n, (n < 128)%N -> int16 (hex4 n) = Some (Z.of_N n).

Definition same_mode (a b : qmode) : Prop := match a, b with QEsc _, QEsc _ => True | _, _ => a = b end.
Lemma same_mode_refl a : same_mode a a.
Proof. now destruct a. Qed.
Lemma quoted_total T T' s : forall b b' m m' acc x, same_mode m m' -> quoted int16 T b m acc s = POk x -> quoted int16 T' b' m' acc s = POk x.
Proof.
  induction s as [|c s IH]; intros b b' m m' acc x M; destruct m as [|e| |h|k h]; destruct m' as [|e'| |h'|k' h']; try discriminate M; cbn [quoted].
  1-5: repeat match goal with |- context [match ?y with _ => _ end] => destruct y end; discriminate.
  all: first [injection M as -> -> | injection M as -> | idtac].
  all: repeat match goal with |- context [if ?y then _ else _] => destruct y end; try discriminate; try (intros X; exact X); try (apply IH; exact I); try (apply IH; reflexivity).
  - destruct (chr16 int16 h'); [apply IH; reflexivity|discriminate].
  - destruct k' as [|[|k']]; try (destruct (chr16 int16 (h' ++ [c])); [apply IH; reflexivity|discriminate]). apply IH; reflexivity.
Qed.

(** The token does not depend on where the text stands, apart from its span. *)
Lemma token_total T T' s t r : next_token isupper int16 T s = POk (t, r) -> exists b e, next_token isupper int16 T' s = POk (mkpytok (pt_kind t) (pt_text t) b e (pt_ws t) (pt_nl t), r).
Proof.
  unfold next_token. destruct (skip false s) as [[ws nl] [|c q]]; [intros [= <- <-]; cbn; eauto|].
  destruct (single c); [intros [= <- <-]; cbn; eauto|].
  destruct (c =? cAT)%N; [destruct (opt_is tag_start (peek q)); [destruct (span_while tag_char q)|]; intros [= <- <-]; cbn; eauto|].
  destruct (c =? cDQ)%N.
  { destruct (quoted int16 T _ QText [] q) as [[x y]| |] eqn:E; try discriminate. rewrite (quoted_total T T' q _ (at_ T' (c :: q)) QText QText [] _ eq_refl E). intros [= <- <-]; cbn; eauto. }
  destruct ((c =? cr)%N && _).
  { destruct (span_while (N.eqb cHASH) q). destruct (raw_body _ _ _) as [[x y]|]; [|discriminate]. intros [= <- <-]; cbn; eauto. }
  destruct ((c =? cLT)%N && _).
  { destruct (opt_is isupper _); [|discriminate]. destruct (span_while _ (tl q)) as [a b]. destruct (span_while _ a). destruct (heredoc_body _ _ _ _) as [[x y]|]; [|discriminate].
    intros [= <- <-]; cbn; eauto. }
  destruct (span_while _ (c :: q)). intros [= <- <-]; cbn; eauto.
Qed.
Lemma token_flags T s t r : next_token isupper int16 T s = POk (t, r) -> exists q, skip false s = (pt_ws t, pt_nl t, q).
Proof.
  unfold next_token. destruct (skip false s) as [[ws nl] [|c q]]; [intros [= <- <-]; cbn; eauto|].
  repeat match goal with |- context [match ?x with _ => _ end] => destruct x; try discriminate end; intros [= <- <-]; cbn; eauto.
Qed.
Lemma token_skip T s0 ws nl s : skip false s0 = (ws, nl, s) -> fixed s ->
  next_token isupper int16 T s0 = match next_token isupper int16 T s with POk (t, r) => POk (flags ws nl t, r) | PError b e => PError b e | PCrash => PCrash end.
Proof.
  intros S F. unfold next_token. rewrite S. unfold fixed in F. rewrite F. destruct s as [|c q]; [reflexivity|].
  repeat match goal with |- context [match ?x with _ => _ end] => destruct x; try reflexivity end.
Qed.

Variable total : str.
Notation next := (next_token isupper int16 total).
(** The next token, without blanks before it *)
Definition head (s : str) (k : pykind) (text r : str) : Prop := exists b e, next s = POk (mkpytok k text b e false false, r).
(** Where the parser is *)
Definition on (s : str) (st : pst) : Prop := exists t r, next s = POk (t, r) /\ st = mkpst t None r.
Definition here (s : str) (ws nl : bool) (st : pst) : Prop := exists k text r b e, head s k text r /\ st = mkpst (mkpytok k text b e ws nl) None r.

Lemma head_fixed s k text r : head s k text r -> fixed s.
Proof. intros (b & e & H). destruct (token_flags _ _ _ _ H) as (q & S). cbn in S. destruct (skip_ws _ _ _ S) as [_ ->]. exact S. Qed.
Lemma head_any T s t r : next_token isupper int16 T s = POk (t, r) -> pt_ws t = false -> pt_nl t = false -> head s (pt_kind t) (pt_text t) r.
Proof. intros H W N. destruct (token_total T total _ _ _ H) as (b & e & E). rewrite W, N in E. exists b, e. exact E. Qed.
Lemma on_here g ws nl s k text r st : skips g ws nl -> head s k text r -> on (g ++ s) st -> here s ws nl st.
Proof.
  intros S H (t & q & E & ->). pose proof (head_fixed _ _ _ _ H) as F. rewrite (token_skip _ _ _ _ _ (S s F) F) in E. pose proof H as (b & e & X). rewrite X in E.
  injection E as <- <-. exists k, text, r, b, e. auto.
Qed.
Lemma on_exists g ws nl s k text r : skips g ws nl -> head s k text r -> exists st, on (g ++ s) st.
Proof.
  intros S H. pose proof (head_fixed _ _ _ _ H) as F. pose proof H as (b & e & X). eexists _, _, _. split; [|reflexivity]. rewrite (token_skip _ _ _ _ _ (S s F) F), X. reflexivity.
Qed.
Lemma here_head s ws nl st k text r : here s ws nl st -> head s k text r -> exists b e, st = mkpst (mkpytok k text b e ws nl) None r.
Proof. intros (k' & t' & r' & b & e & (b1 & e1 & H1) & ->) (b2 & e2 & H2). rewrite H1 in H2. injection H2 as -> -> _ _ ->. eauto. Qed.
Lemma advance_on t r st' : on r st' -> advance isupper int16 total (mkpst t None r) = VOk (t, st').
Proof. intros (t' & r' & E & ->). unfold advance, fetch. cbn [st_peeked st_rest st_cur]. rewrite E. reflexivity. Qed.

(** *** The tokens of the texts that are written *)
Definition opener (k : pykind) : bool := match k with KScalar | KQuoted | KRaw | KHeredoc | KLBrace | KLParen | KAt | KTag => true | _ => false end.
Definition scalar_kind (k : pykind) : bool := match k with KScalar | KQuoted | KRaw | KHeredoc => true | _ => false end.

Lemma head_sym c k rest : In (c, k) [(cLB, KLBrace); (cRB, KRBrace); (cLP, KLParen); (cRP, KRParen); (cCOMMA, KComma)] -> head (c :: rest) k [c] rest.
Proof. cbn [In]. intros H. repeat destruct H as [H|H]; try contradiction; injection H as <- <-; eexists _, _; reflexivity. Qed.
Lemma head_at rest : opt_is tag_start (peek rest) = false -> head (cAT :: rest) KAt [cAT] rest.
Proof. intros H. eexists _, _. unfold next_token. replace (skip false (cAT :: rest)) with (false, false, cAT :: rest) by reflexivity.
  replace (single cAT) with (@None pykind) by reflexivity. replace (cAT =? cAT)%N with true by reflexivity. rewrite H. reflexivity. Qed.
Lemma head_tag n rest : tag_name n -> opt_is tag_char (peek rest) = false -> head (cAT :: n ++ rest) KTag n rest.
Proof.
  intros (c & r & -> & C & R) H. eexists _, _. unfold next_token.
  replace (skip false (cAT :: (c :: r) ++ rest)) with (false, false, cAT :: (c :: r) ++ rest) by reflexivity.
  replace (single cAT) with (@None pykind) by reflexivity. replace (cAT =? cAT)%N with true by reflexivity.
  replace (opt_is tag_start (peek ((c :: r) ++ rest))) with true by (symmetry; exact C).
  match goal with |- context [span_while tag_char ?l] => replace (span_while tag_char l) with (c :: r, rest) end;
    [reflexivity|symmetry; apply (span_while_intro tag_char (c :: r) rest)].
  - cbn [forallb]. apply andb_true_iff. split; [|exact R]. unfold is_tag_start in C. unfold tag_char, is_alnum. destruct (is_alpha c); [reflexivity|]. cbn in C. rewrite C. now destruct (is_digit c).
  - destruct rest; [exact I|exact H].
Qed.
Lemma soft_stop rest : soft rest -> ends_at stop rest.
Proof. destruct rest as [|c r]; [now left|]. intros H. right. exists c, r. auto. Qed.
Lemma soft_not_tag rest : soft rest -> opt_is tag_start (peek rest) = false /\ opt_is tag_char (peek rest) = false.
Proof. destruct rest as [|c r]; [auto|]. cbn. intros H. repeat destruct H as [<-|H]; try contradiction; auto. Qed.

(** Scalars: as they are written, anywhere and at the end of a line *)
Definition pytext (s t : str) : Prop := exists o q, t = scalar_text o q s /\ line_feeds s < o_heredoc o /\ no_gt_word s.
Definition pyline (s t : str) : Prop := exists o q, t = scalar_text o q s /\ no_gt_word s /\ (exists u, s = u ++ [cLF]) /\ exists d, In d delimiters /\ ~ FmtSpec.occurs d s.

Lemma head_quoted s rest : head (quoted_text s ++ rest) KQuoted s rest.
Proof. refine (head_any (quoted_text s ++ rest) _ _ _ (quoted_text_read isupper int16 upper_ascii hex_ok _ [] s rest eq_refl) eq_refl eq_refl). Qed.
Lemma head_bare s rest : can_be_bare s = true -> no_gt_word s -> soft rest -> head (s ++ rest) KScalar s rest.
Proof. intros B G S. refine (head_any (s ++ rest) _ _ _ (bare_read isupper int16 _ [] s rest eq_refl B (G B) (soft_stop _ S)) eq_refl eq_refl). Qed.
Lemma head_raw s rest : head (raw_text s ++ rest) KRaw s rest.
Proof. refine (head_any (raw_text s ++ rest) _ _ _ (raw_text_read isupper int16 upper_ascii hex_ok _ [] s rest eq_refl) eq_refl eq_refl). Qed.
Lemma head_text s t : pytext s t -> exists k, scalar_kind k = true /\ forall rest, soft rest -> head (t ++ rest) k s rest.
Proof.
  intros (o & q & -> & L & G). unfold scalar_text. destruct (negb q && can_be_bare s) eqn:E.
  - apply andb_prop in E as [_ E]. exists KScalar. split; [reflexivity|]. intros rest S. now apply head_bare.
  - rewrite count_newlines_occ. replace (o_heredoc o <=? newlines s) with false by (symmetry; apply Nat.leb_gt; exact L).
    destruct ((3 <? count_escapes s) && _); [exists KRaw|exists KQuoted]; (split; [reflexivity|]); intros rest _; [apply head_raw|apply head_quoted].
Qed.
Lemma head_line s t : pyline s t -> exists k, scalar_kind k = true /\ forall rest, head (t ++ cLF :: rest) k s (cLF :: rest).
Proof.
  intros (o & q & -> & G & (u & ->) & D). unfold scalar_text. destruct (negb q && can_be_bare (u ++ [cLF])) eqn:E.
  - apply andb_prop in E as [_ E]. exists KScalar. split; [reflexivity|]. intros rest. apply head_bare; auto. cbn. auto.
  - destruct (o_heredoc o <=? count_newlines (u ++ [cLF])).
    + exists KHeredoc. split; [reflexivity|]. intros rest.
      refine (head_any (heredoc_text (u ++ [cLF]) ++ cLF :: rest) _ _ _ (heredoc_read isupper int16 upper_ascii hex_ok _ [] (u ++ [cLF]) (cLF :: rest) eq_refl _ _ D _) eq_refl eq_refl).
      * right. eauto.
      * destruct u; discriminate.
      * right. eauto.
    + destruct ((3 <? count_escapes (u ++ [cLF])) && _); [exists KRaw|exists KQuoted]; (split; [reflexivity|]); intros rest; [apply head_raw|apply head_quoted].
Qed.
Lemma head_key s rest : no_gt_word s -> soft rest -> exists k, head (FmtModel.key_text s ++ rest) k s rest /\ (k = KScalar /\ can_be_bare s = true \/ k = KQuoted).
Proof. intros G S. unfold FmtModel.key_text. destruct (can_be_bare s) eqn:E; [exists KScalar|exists KQuoted]; (split; [|auto]); [now apply head_bare|apply head_quoted]. Qed.

(** What stands behind a value that is not in brackets *)
Lemma soft_next rest st : soft rest -> on rest st -> pt_ws (st_cur st) = true \/ In (pt_kind (st_cur st)) [KEof; KRBrace; KRParen; KComma].
Proof.
  intros Hs (t & r & E & ->). cbn [st_cur]. destruct rest as [|c q]; [cbn in E; injection E as <- _; right; now left|].
  cbn in Hs. destruct Hs as [<-|[<-|[<-|[<-|[<-|[]]]]]].
  - left. destruct (token_flags _ _ _ _ E) as (x & X). cbn in X. destruct (skip false q) as [[? ?] ?]. now injection X.
  - left. destruct (token_flags _ _ _ _ E) as (x & X). cbn in X. destruct (skip false q) as [[? ?] ?]. now injection X.
  - right. destruct (head_sym cRP KRParen q ltac:(cbn; tauto)) as (b & e & H). rewrite H in E. injection E as <- _. cbn. tauto.
  - right. destruct (head_sym cRB KRBrace q ltac:(cbn; tauto)) as (b & e & H). rewrite H in E. injection E as <- _. cbn. tauto.
  - right. destruct (head_sym cCOMMA KComma q ltac:(cbn; tauto)) as (b & e & H). rewrite H in E. injection E as <- _. cbn. tauto.
Qed.

(** ** Values *)
Notation parse_value := (parse_value isupper int16 total).
Notation parse_entries := (parse_entries isupper int16 total).
Notation parse_items := (parse_items isupper int16 total).
Notation advance := (advance isupper int16 total).

Definition after (v : value) (rest : str) : Prop := if bracketed v then True else soft rest.
Definition opens (s : str) : Prop := exists k x r, head s k x r /\ opener k = true.
Definition read_val (v : value) (t : str) : Prop := py_fine v -> exists pv n, agrees v pv /\ forall rest, after v rest -> opens (t ++ rest) /\
  forall ws nl st st' fuel, here (t ++ rest) ws nl st -> on rest st' -> n <= fuel -> parse_value fuel st = VOk (pv, st').
Definition closing (k : pykind) (rest : str) (st : pst) : Prop := pt_kind (st_cur st) = k /\ st_peeked st = None /\ st_rest st = rest.
Definition read_items (g : bool) (items : list value) (u : str) : Prop := py_fine_items items -> exists l n, agrees_items items l /\ forall rest,
  (exists st, on (u ++ cRP :: rest) st) /\ (g = false -> soft (u ++ cRP :: rest)) /\
  forall st acc fuel, on (u ++ cRP :: rest) st -> n <= fuel -> exists st1, parse_items fuel acc st = VOk (acc ++ l, st1) /\ closing KRParen rest st1.
Definition comma_step (f : nat) (seen : list str) (acc : list pyentry) : pm (list pyentry) :=
  let! b := check [KComma] in if b then let! _ := advance in parse_entries f seen acc else parse_entries f seen acc.
Definition read_ents (f : bool) (es : list entry) (u : str) : Prop := py_fine_entries es -> exists l n, agrees_entries es l /\ forall rest,
  (exists st, on (u ++ cRB :: rest) st) /\ (f = false -> soft (u ++ cRB :: rest)) /\
  forall st seen acc fuel, on (u ++ cRB :: rest) st -> NoDup (py_names es) -> (forall x, In x (py_names es) -> ~ In x seen) -> n <= fuel ->
    exists st1, (if f then parse_entries fuel seen acc st else comma_step fuel seen acc st) = VOk (acc ++ l, st1) /\ closing KRBrace rest st1.

Lemma expect_closing k rest st st' : closing k rest st -> on rest st' -> expect isupper int16 total k st = VOk (st_cur st, st').
Proof.
  destruct st as [t p r]. intros (K & P & R) O. cbn in K, P, R. subst. unfold expect, pbind, check. cbn [st_cur existsb]. rewrite (proj2 (kind_eqb_eq _ _) eq_refl). cbn [orb]. now apply advance_on.
Qed.
Notation parse_sequence := (parse_sequence isupper int16 total).
Notation parse_object := (parse_object isupper int16 total).
Notation parse_tag_value := (parse_tag_value isupper int16 total).

Lemma on_sym c k rest st : In (c, k) [(cLB, KLBrace); (cRB, KRBrace); (cLP, KLParen); (cRP, KRParen); (cCOMMA, KComma)] -> on (c :: rest) st ->
  exists b e, st = mkpst (mkpytok k [c] b e false false) None rest.
Proof. intros H O. destruct (head_sym c k rest H) as (b & e & E). destruct O as (t & r & E' & ->). rewrite E in E'. injection E' as <- <-. eauto. Qed.
Lemma sym_exists c k rest : In (c, k) [(cLB, KLBrace); (cRB, KRBrace); (cLP, KLParen); (cRP, KRParen); (cCOMMA, KComma)] -> exists st, on (c :: rest) st.
Proof. intros H. destruct (head_sym c k rest H) as (b & e & E). eexists _, _, _. split; [exact E|reflexivity]. Qed.

Lemma next_stops st : pt_ws (st_cur st) = true \/ In (pt_kind (st_cur st)) [KEof; KRBrace; KRParen; KComma] ->
  kind_eqb (pt_kind (st_cur st)) KGt && negb (pt_ws (st_cur st)) = false.
Proof. intros [->|H]; [now rewrite andb_false_r|]. cbn in H. destruct H as [<-|[<-|[<-|[<-|[]]]]]; reflexivity. Qed.

Lemma scalar_value k s r b e ws nl st' f : scalar_kind k = true -> on r st' -> pt_ws (st_cur st') = true \/ In (pt_kind (st_cur st')) [KEof; KRBrace; KRParen; KComma] ->
  parse_value (S f) (mkpst (mkpytok k s b e ws nl) None r) = VOk (PV None (PPScalar k s), st').
Proof.
  intros K O N. cbn [PyParseModel.parse_value]. unfold pbind at 1, current at 1. cbn [st_cur pt_kind].
  destruct k; try discriminate K; [|unfold parse_scalar, pbind, current; cbn [st_cur pt_kind pt_text]; rewrite (advance_on _ _ _ O); reflexivity..].
  unfold pbind at 1. rewrite (advance_on _ _ _ O). unfold pbind at 1, current at 1. rewrite (next_stops _ N). reflexivity.
Qed.
Lemma tag_value n r b e ws nl st' f : on r st' -> pt_ws (st_cur st') = true \/ In (pt_kind (st_cur st')) [KEof; KRBrace; KRParen; KComma] ->
  parse_value (S (S f)) (mkpst (mkpytok KTag n b e ws nl) None r) = VOk (PV (Some n) PPNone, st').
Proof.
  intros O N. cbn [PyParseModel.parse_value]. unfold pbind at 1, current at 1. cbn [st_cur pt_kind]. cbn [PyParseModel.parse_tag_value].
  unfold pbind at 1. rewrite (advance_on _ _ _ O). unfold pbind at 1, current at 1. cbn [pt_text]. destruct (pt_ws (st_cur st')) eqn:W; [reflexivity|]. cbn [negb].
  destruct N as [N|N]; [discriminate|]. cbn in N. destruct N as [<-|[<-|[<-|[<-|[]]]]]; reflexivity.
Qed.
Lemma unit_value r b e t ws nl st' f : on r st' -> pt_ws (st_cur st') = true \/ In (pt_kind (st_cur st')) [KEof; KRBrace; KRParen; KComma] ->
  parse_value (S f) (mkpst (mkpytok KAt t b e ws nl) None r) = VOk (py_unit, st').
Proof.
  intros O N. cbn [PyParseModel.parse_value]. unfold pbind at 1, current at 1. cbn [st_cur pt_kind].
  unfold pbind at 1. rewrite (advance_on _ _ _ O). unfold pbind at 1, current at 1. unfold pbind, check.
  destruct N as [->|N]; [reflexivity|]. cbn in N. destruct N as [<-|[<-|[<-|[<-|[]]]]]; now rewrite andb_false_r.
Qed.

Notation parse_entry_dup := (parse_entry_dup isupper int16 total).
Notation expect := (expect isupper int16 total).
Lemma sequence_step f : parse_sequence (S f) = let! _ := expect KLParen in let! l := parse_items f [] in let! b := check [KEof] in if b then fail else let! _ := expect KRParen in ret l.
Proof. reflexivity. Qed.
Lemma object_step f : parse_object (S f) = let! _ := expect KLBrace in let! l := parse_entries f [] [] in let! b := check [KEof] in if b then fail else let! _ := expect KRBrace in ret l.
Proof. reflexivity. Qed.
Lemma items_step f acc : parse_items (S f) acc = let! b := check [KRParen; KEof] in if b then ret acc else
  let! b := check [KComma] in if b then fail else let! v := parse_value f in parse_items f (acc ++ [v]).
Proof. reflexivity. Qed.
Lemma entries_step f seen acc : parse_entries (S f) seen acc = let! b := check [KRBrace; KEof] in if b then ret acc else
  let! (e, seen') := parse_entry_dup f seen in comma_step f seen' (match e with Some e => acc ++ [e] | None => acc end).
Proof. reflexivity. Qed.
Lemma value_step f st : parse_value (S f) st = match pt_kind (st_cur st) with
  | KTag => parse_tag_value f st
  | KLBrace => (let! l := parse_object f in ret (PV None (PPObj l))) st
  | KLParen => (let! l := parse_sequence f in ret (PV None (PPSeq l))) st
  | _ => parse_value (S f) st end.
Proof. destruct st as [[k ? ? ? ? ?] ? ?]. destruct k; reflexivity. Qed.
Lemma tag_step f st : parse_tag_value (S f) st = (let! t := advance in let! n := current in
    if negb (pt_ws n) then
      match pt_kind n with
      | KLBrace => let! l := parse_object f in ret (PV (Some (pt_text t)) (PPObj l))
      | KLParen => let! l := parse_sequence f in ret (PV (Some (pt_text t)) (PPSeq l))
      | KQuoted | KRaw | KHeredoc => let! v := parse_scalar isupper int16 total in ret (PV (Some (pt_text t)) (pv_payload v))
      | KAt => let! _ := advance in ret (PV (Some (pt_text t)) PPNone)
      | KEof | KRBrace | KRParen | KComma => ret (PV (Some (pt_text t)) PPNone)
      | _ => fail
      end
    else ret (PV (Some (pt_text t)) PPNone)) st.
Proof. reflexivity. Qed.

Lemma closed_list rest f l st st1 st2 st' : closing KLParen rest st -> on rest st1 -> parse_items f [] st1 = VOk (l, st2) ->
  forall q, closing KRParen q st2 -> on q st' -> parse_sequence (S f) st = VOk (l, st').
Proof.
  intros C O P q C2 O'. rewrite sequence_step. unfold pbind at 1. rewrite (expect_closing _ _ _ _ C O). unfold pbind at 1. rewrite P.
  unfold pbind at 1, check. rewrite (proj1 C2). cbn [existsb kind_eqb orb]. unfold pbind. rewrite (expect_closing _ _ _ _ C2 O'). reflexivity.
Qed.
Lemma closed_object rest f l st st1 st2 st' : closing KLBrace rest st -> on rest st1 -> parse_entries f [] [] st1 = VOk (l, st2) ->
  forall q, closing KRBrace q st2 -> on q st' -> parse_object (S f) st = VOk (l, st').
Proof.
  intros C O P q C2 O'. rewrite object_step. unfold pbind at 1. rewrite (expect_closing _ _ _ _ C O). unfold pbind at 1. rewrite P.
  unfold pbind at 1, check. rewrite (proj1 C2). cbn [existsb kind_eqb orb]. unfold pbind. rewrite (expect_closing _ _ _ _ C2 O'). reflexivity.
Qed.

(** *** Keys *)
Lemma key_read root k kt : wkey root k kt -> no_path k -> exists pk, agrees k pk /\ is_obj pk = false /\ path_key pk = None /\ valid_key pk = true /\
  PyParseModel.key_text pk = hd_error (py_name k) /\ forall rest, (exists kd x r, head (kt ++ cSP :: rest) kd x r /\ opener kd = true /\ kd <> KLBrace) /\
  forall ws nl st st' fuel, here (kt ++ cSP :: rest) ws nl st -> on (cSP :: rest) st' -> 2 <= fuel -> parse_value fuel st = VOk (pk, st').
Proof.
  assert (Sf : forall rest, soft (cSP :: rest)) by (intros rest; cbn; auto).
  assert (D : forall t, ~ In cDOT t -> existsb (N.eqb cDOT) t = false).
  { intros t H. destruct (existsb (N.eqb cDOT) t) eqn:E; [|reflexivity]. apply existsb_exists in E as (x & X & Y). apply N.eqb_eq in Y as <-. contradiction. }
  intros W P. destruct W as [s kd a b F|b|n t b T|n t s kd a b F].
  - inversion F as [? ? ? ? G _| | |]; subst.
    assert (K : exists kk, (kk = KScalar /\ can_be_bare s = true \/ kk = KQuoted) /\ forall rest, head (FmtModel.key_text s ++ cSP :: rest) kk s (cSP :: rest)).
    { unfold FmtModel.key_text. destruct (can_be_bare s) eqn:E; [exists KScalar|exists KQuoted]; (split; [auto|]); intros rest; [now apply head_bare|apply head_quoted]. }
    destruct K as (kk & K & H). exists (PV None (PPScalar kk s)).
    assert (Sk : scalar_kind kk = true /\ opener kk = true /\ kk <> KLBrace) by (destruct K as [[-> _]| ->]; repeat split; discriminate). destruct Sk as (Sk & Ok & Nk).
    splits; try reflexivity.
    + exact (agree None _ _ _ (agree_scalar _ _ _ _)).
    + destruct K as [[-> B]| ->]; [|reflexivity]. unfold path_key. cbn [pv_payload]. rewrite D; [reflexivity|]. eapply P; eauto.
    + destruct K as [[-> _]| ->]; reflexivity.
    + intros rest. split; [exists kk, s, (cSP :: rest); auto|]. intros ws nl st st' [|f] Hh O L; [lia|]. destruct (here_head _ _ _ _ _ _ _ Hh (H rest)) as (b0 & e0 & ->).
      apply scalar_value; auto. eapply soft_next; eauto.
  - exists py_unit. splits; try reflexivity; [exact (agree None _ _ _ agree_none)|]. intros rest. cbn [app].
    assert (H : head (cAT :: cSP :: rest) KAt [cAT] (cSP :: rest)) by now apply head_at.
    split; [exists KAt, [cAT], (cSP :: rest); splits; auto; discriminate|]. intros ws nl st st' [|f] Hh O L; [lia|]. destruct (here_head _ _ _ _ _ _ _ Hh H) as (b0 & e0 & ->).
    apply unit_value; auto. eapply soft_next; eauto.
  - exists (PV (Some n) PPNone). splits; try reflexivity; [exact (agree (Some (n, t)) _ _ _ agree_none)|]. intros rest. cbn [app].
    assert (H : head (cAT :: n ++ cSP :: rest) KTag n (cSP :: rest)) by now apply head_tag.
    split; [exists KTag, n, (cSP :: rest); splits; auto; discriminate|]. intros ws nl st st' [|[|f]] Hh O L; try lia. destruct (here_head _ _ _ _ _ _ _ Hh H) as (b0 & e0 & ->).
    apply tag_value; auto. eapply soft_next; eauto.
  - inversion F as [| | |? ? ? ? ? ? T B R (v & V)]; subst. exists (PV (Some n) (PPScalar KQuoted s)). splits; try reflexivity; [exact (agree (Some (n, t)) _ _ _ (agree_scalar _ _ _ _))|].
    intros rest. unfold FmtModel.key_text. rewrite B.
    replace ((cAT :: n ++ quoted_text s) ++ cSP :: rest) with (cAT :: n ++ (quoted_text s ++ cSP :: rest)) by (cbn [app]; now rewrite <- app_assoc).
    assert (H : head (cAT :: n ++ (quoted_text s ++ cSP :: rest)) KTag n (quoted_text s ++ cSP :: rest)) by (apply head_tag; [exact T|reflexivity]).
    split; [exists KTag, n, (quoted_text s ++ cSP :: rest); splits; auto; discriminate|]. intros ws nl st st' [|[|f]] Hh O L; try lia. destruct (here_head _ _ _ _ _ _ _ Hh H) as (b0 & e0 & ->).
    destruct (head_quoted s (cSP :: rest)) as (b1 & e1 & Q). cbn [PyParseModel.parse_value]. unfold pbind at 1, current at 1. cbn [st_cur pt_kind]. cbn [PyParseModel.parse_tag_value].
    unfold pbind at 1. rewrite (advance_on _ _ (mkpst (mkpytok KQuoted s b1 e1 false false) None (cSP :: rest))) by (eexists _, _; split; [exact Q|reflexivity]).
    unfold pbind at 1, current at 1. cbn [st_cur pt_kind pt_ws negb pt_text]. unfold pbind, parse_scalar, pbind, current. cbn [st_cur pt_kind pt_text]. rewrite (advance_on _ _ _ O). reflexivity.
Qed.

(** *** Values, elements and entries *)
Lemma name_seen k seen : match hd_error (py_name k) with Some t => t :: seen | None => seen end = py_name k ++ seen.
Proof. unfold py_name. destruct (v_payload k), (v_tag k) as [[? ?]|]; reflexivity. Qed.
Lemma mem_out x l : ~ In x l -> mem x l = false.
Proof. intros H. unfold mem. destruct (existsb (str_eqb x) l) eqn:E; [|reflexivity]. apply existsb_exists in E as (y & Y & Z). apply str_eqb_eq in Z as <-. contradiction. Qed.
Lemma opener_not k l : opener k = true -> forallb (fun x => negb (opener x)) l = true -> existsb (kind_eqb k) l = false.
Proof.
  intros O. induction l as [|x l IH]; [reflexivity|]. cbn [forallb existsb]. intros H. apply andb_prop in H as [H1 H2]. rewrite (IH H2), orb_false_r.
  destruct (kind_eqb k x) eqn:E; [|reflexivity]. apply kind_eqb_eq in E as <-. rewrite O in H1. discriminate.
Qed.
Lemma here_kind s ws nl st k x r : here s ws nl st -> head s k x r -> pt_kind (st_cur st) = k /\ pt_nl (st_cur st) = nl /\ pt_ws (st_cur st) = ws.
Proof. intros H K. destruct (here_head _ _ _ _ _ _ _ H K) as (b & e & ->). auto. Qed.
Lemma skip_none f st : opener (pt_kind (st_cur st)) = true -> skip_commas isupper int16 total (S f) st = VOk (tt, st).
Proof. intros O. cbn [skip_commas]. unfold pbind, check. rewrite (opener_not _ [KComma] O eq_refl). reflexivity. Qed.
Lemma skips_one : skips [cSP] true false.
Proof. eapply skips_blank; [now left|exact skips_nil]. Qed.

Lemma dup_step f seen : parse_entry_dup (S f) seen =
    let! _ := skip_commas isupper int16 total f in
    let! b := check [KGt] in
    if b then fail else
    let! b := check [KEof; KRBrace] in
    if b then ret (None, seen) else
    let! key := parse_value f in
    if is_obj key then
      let! n := current in
      let! b := check [KEof; KRBrace; KComma] in
      if negb (pt_nl n) && negb b then let! _ := parse_value f in ret (Some (py_unit, key), seen) else ret (Some (py_unit, key), seen)
    else
    match path_key key with
    | Some text =>
      match split_dots [] text with
      | s0 :: segs =>
        if existsb (str_eqb []) (s0 :: segs) then fail
        else if mem s0 seen then fail
        else let! v := parse_value f in ret (Some (bare_key s0, nest segs v), s0 :: seen)
      | [] => fail
      end
    | None =>
      if match PyParseModel.key_text key with Some t => mem t seen | None => false end then fail else
      let seen' := match PyParseModel.key_text key with Some t => t :: seen | None => seen end in
      if negb (valid_key key) then fail else
      let! n := current in
      let! b := check [KEof; KRBrace] in
      if pt_nl n || b then ret (Some (key, py_unit), seen')
      else let! v := parse_value f in ret (Some (key, v), seen')
    end.
Proof. reflexivity. Qed.

Definition readable (Af : str -> Prop) (v : value) (t : str) : Prop := exists pv n, agrees v pv /\ forall rest, Af rest -> opens (t ++ rest) /\
  forall ws nl st st' fuel, here (t ++ rest) ws nl st -> on rest st' -> n <= fuel -> parse_value fuel st = VOk (pv, st').
Lemma dup_read k kt v t root Af : wkey root k kt -> no_path k -> readable Af v t -> exists pk pv n, agrees k pk /\ agrees v pv /\
  is_obj pk = false /\ path_key pk = None /\ valid_key pk = true /\ PyParseModel.key_text pk = hd_error (py_name k) /\
  forall rest, Af rest ->
  (exists kd x r, head (kt ++ cSP :: t ++ rest) kd x r /\ opener kd = true /\ kd <> KLBrace) /\
  (forall ws nl st st' f, here (kt ++ cSP :: t ++ rest) ws nl st -> on rest st' -> n <= f ->
    exists st1, parse_value f st = VOk (pk, st1) /\ pt_nl (st_cur st1) = false /\ opener (pt_kind (st_cur st1)) = true /\ parse_value f st1 = VOk (pv, st')) /\
  forall ws nl st st' seen f, here (kt ++ cSP :: t ++ rest) ws nl st -> on rest st' -> (forall x, In x (py_name k) -> ~ In x seen) -> n <= f ->
  parse_entry_dup (S f) seen st = VOk ((Some (pk, pv), py_name k ++ seen), st').
Proof.
  intros W P V. destruct (key_read _ _ _ W P) as (pk & A & Io & Pk & Vk & Kt & K). destruct V as (pv & n & Av & R).
  exists pk, pv, (2 + n). splits; auto. intros rest Ar. destruct (K (t ++ rest)) as (Hk & Rk). destruct (R rest Ar) as ((kd & x & r & Hd & Od) & Rv).
  assert (Two : forall ws nl st st' f, here (kt ++ cSP :: t ++ rest) ws nl st -> on rest st' -> 2 + n <= f ->
    exists st1, parse_value f st = VOk (pk, st1) /\ pt_nl (st_cur st1) = false /\ opener (pt_kind (st_cur st1)) = true /\ parse_value f st1 = VOk (pv, st')).
  { intros ws nl st st' f Hh O L. destruct (on_exists [cSP] true false _ _ _ _ skips_one Hd) as (st1 & O1). exists st1.
    pose proof (on_here [cSP] true false _ _ _ _ _ skips_one Hd O1) as H1. destruct (here_kind _ _ _ _ _ _ _ H1 Hd) as (E1 & E2 & _).
    splits; [eapply Rk; eauto; lia|exact E2|now rewrite E1|eapply Rv; eauto; lia]. }
  splits; auto. intros ws nl st st' seen f Hh O N L. rewrite dup_step.
  destruct (Two ws nl st st' f Hh O L) as (st1 & P1 & Nl & Op & P2). destruct Hk as (kk & y & q & Hk & Ok & _). destruct (here_kind _ _ _ _ _ _ _ Hh Hk) as (E1 & _ & _).
  assert (Os : opener (pt_kind (st_cur st)) = true) by now rewrite E1. destruct f as [|f]; [lia|].
  unfold pbind at 1. rewrite (skip_none f st Os). unfold pbind at 1, check at 1. rewrite (opener_not _ [KGt] Os eq_refl). unfold pbind at 1, check at 1. rewrite (opener_not _ [KEof; KRBrace] Os eq_refl).
  unfold pbind at 1. rewrite P1, Io, Pk, Kt, Vk. rewrite name_seen.
  replace (match hd_error (py_name k) with Some t0 => mem t0 seen | None => false end) with false.
  2: { destruct (py_name k) as [|z zs] eqn:E; [reflexivity|]. symmetry. apply mem_out, N. now left. }
  cbn [negb]. unfold pbind at 1, current at 1. unfold pbind at 1, check at 1. rewrite Nl, (opener_not _ [KEof; KRBrace] Op eq_refl). cbn [orb]. unfold pbind. rewrite P2. reflexivity.
Qed.

Lemma app_lead {A} (g kt t u z : list A) c : (g ++ kt ++ c :: t ++ u) ++ z = g ++ kt ++ c :: t ++ u ++ z.
Proof. rewrite <- !app_assoc. cbn [app]. rewrite <- app_assoc. reflexivity. Qed.
Lemma app_close {A} (x u z : list A) c d : (x ++ c :: u ++ [d]) ++ z = x ++ c :: u ++ d :: z.
Proof. rewrite <- app_assoc. cbn [app]. rewrite <- app_assoc. reflexivity. Qed.

Theorem all_read : (forall v t, wvx pytext v t -> read_val v t) /\ (forall g items u, wisx pytext g items u -> read_items g items u) /\
  (forall f es u, wesx pytext f es u -> read_ents f es u).
Proof.
  apply layout_all with (P := fun v t _ => read_val v t) (P0 := fun g items u _ => read_items g items u) (P1 := fun f es u _ => read_ents f es u).
  - intros s k a b t Hsc _. destruct (head_text s t Hsc) as (k' & K & H). exists (PV None (PPScalar k' s)), 2. split; [exact (agree None _ _ _ (agree_scalar _ _ _ _))|].
    intros rest A. unfold after in A. cbn [bracketed v_payload v_tag] in A. split; [exists k', s, rest; split; [auto|destruct k'; try discriminate; reflexivity]|].
    intros ws nl st st' [|f] Hh O L; [lia|]. destruct (here_head _ _ _ _ _ _ _ Hh (H rest A)) as (b0 & e0 & ->). apply scalar_value; auto. eapply soft_next; eauto.
  - intros b _. exists py_unit, 2. split; [exact (agree None _ _ _ agree_none)|]. intros rest A. cbn in A. cbn [app].
    pose proof (head_at rest (proj1 (soft_not_tag _ A))) as H. split; [exists KAt, [cAT], rest; auto|].
    intros ws nl st st' [|f] Hh O L; [lia|]. destruct (here_head _ _ _ _ _ _ _ Hh H) as (b0 & e0 & ->). apply unit_value; auto. eapply soft_next; eauto.
  - intros n t b T _. exists (PV (Some n) PPNone), 2. split; [exact (agree (Some (n, t)) _ _ _ agree_none)|]. intros rest A. cbn in A. cbn [app].
    pose proof (head_tag n rest T (proj2 (soft_not_tag _ A))) as H. split; [exists KTag, n, rest; auto|].
    intros ws nl st st' [|[|f]] Hh O L; try lia. destruct (here_head _ _ _ _ _ _ _ Hh H) as (b0 & e0 & ->). apply tag_value; auto. eapply soft_next; eauto.
  - intros tg items a b x u X _ IH F. inversion F as [? E|? ? ? ? Fi|]; subst; [discriminate E|]. destruct (IH Fi) as (l & n & A & R).
    exists (PV (option_map fst tg) (PPSeq l)), (4 + n). split; [exact (agree tg _ _ _ (agree_seq _ _ _ A))|]. intros rest _. destruct (R rest) as ((st1 & O1) & _ & Rp).
    destruct (head_sym cLP KLParen (u ++ cRP :: rest) ltac:(cbn; tauto)) as (b1 & e1 & H1). rewrite app_close.
    assert (Q : forall st st' f, closing KLParen (u ++ cRP :: rest) st -> on rest st' -> n <= f -> parse_sequence (S f) st = VOk (l, st')).
    { intros st st' f C O L. destruct (Rp st1 [] f O1 L) as (st2 & P2 & C2). eapply closed_list; eauto. }
    destruct tg as [[m sp]|]; cbn [wtag] in X; [destruct X as [T ->]|subst x].
    + cbn [app option_map fst]. pose proof (head_tag m (cLP :: u ++ cRP :: rest) T eq_refl) as H. split; [exists KTag, m, (cLP :: u ++ cRP :: rest); auto|].
      intros ws nl st st' [|[|[|f]]] Hh O L; try lia. destruct (here_head _ _ _ _ _ _ _ Hh H) as (b0 & e0 & ->). rewrite value_step. cbn [st_cur pt_kind]. rewrite tag_step.
      unfold pbind at 1. rewrite (advance_on _ _ (mkpst (mkpytok KLParen [cLP] b1 e1 false false) None (u ++ cRP :: rest))) by (eexists _, _; split; [exact H1|reflexivity]).
      unfold pbind at 1, current at 1. cbn [st_cur pt_kind pt_ws negb pt_text]. unfold pbind. rewrite (Q _ st' f); [reflexivity|repeat split|exact O|lia].
    + cbn [app option_map]. assert (H : head (cLP :: u ++ cRP :: rest) KLParen [cLP] (u ++ cRP :: rest)) by (exists b1, e1; exact H1).
      split; [eexists _, _, _; split; [exact H|reflexivity]|]. intros ws nl st st' [|[|f]] Hh O L; try lia. destruct (here_head _ _ _ _ _ _ _ Hh H) as (b0 & e0 & ->).
      rewrite value_step. cbn [st_cur pt_kind]. unfold pbind. rewrite (Q _ st' f); [reflexivity|repeat split|exact O|lia].
  - intros tg es a b x u X _ IH ND F. inversion F as [? E| |? ? ? ? Fi Nd]; subst; [discriminate E|]. destruct (IH Fi) as (l & n & A & R).
    exists (PV (option_map fst tg) (PPObj l)), (4 + n). split; [exact (agree tg _ _ _ (agree_obj _ _ _ A))|]. intros rest _. destruct (R rest) as ((st1 & O1) & _ & Rp).
    destruct (head_sym cLB KLBrace (u ++ cRB :: rest) ltac:(cbn; tauto)) as (b1 & e1 & H1). rewrite app_close.
    assert (Q : forall st st' f, closing KLBrace (u ++ cRB :: rest) st -> on rest st' -> n <= f -> parse_object (S f) st = VOk (l, st')).
    { intros st st' f C O L. destruct (Rp st1 [] [] f O1 Nd ltac:(auto) L) as (st2 & P2 & C2). eapply closed_object; eauto. }
    destruct tg as [[m sp]|]; cbn [wtag] in X; [destruct X as [T ->]|subst x].
    + cbn [app option_map fst]. pose proof (head_tag m (cLB :: u ++ cRB :: rest) T eq_refl) as H. split; [exists KTag, m, (cLB :: u ++ cRB :: rest); auto|].
      intros ws nl st st' [|[|[|f]]] Hh O L; try lia. destruct (here_head _ _ _ _ _ _ _ Hh H) as (b0 & e0 & ->). rewrite value_step. cbn [st_cur pt_kind]. rewrite tag_step.
      unfold pbind at 1. rewrite (advance_on _ _ (mkpst (mkpytok KLBrace [cLB] b1 e1 false false) None (u ++ cRB :: rest))) by (eexists _, _; split; [exact H1|reflexivity]).
      unfold pbind at 1, current at 1. cbn [st_cur pt_kind pt_ws negb pt_text]. unfold pbind. rewrite (Q _ st' f); [reflexivity|repeat split|exact O|lia].
    + cbn [app option_map]. assert (H : head (cLB :: u ++ cRB :: rest) KLBrace [cLB] (u ++ cRB :: rest)) by (exists b1, e1; exact H1).
      split; [eexists _, _, _; split; [exact H|reflexivity]|]. intros ws nl st st' [|[|f]] Hh O L; try lia. destruct (here_head _ _ _ _ _ _ _ Hh H) as (b0 & e0 & ->).
      rewrite value_step. cbn [st_cur pt_kind]. unfold pbind. rewrite (Q _ st' f); [reflexivity|repeat split|exact O|lia].
  - intros g _. exists [], 1. split; [constructor|]. intros rest. cbn [app]. splits.
    + eapply sym_exists with (k := KRParen). cbn. tauto.
    + intros _. cbn. tauto.
    + intros st acc [|f] O L; [lia|]. destruct (on_sym cRP KRParen rest st ltac:(cbn; tauto) O) as (b & e & ->). eexists. rewrite items_step, app_nil_r.
      split; [reflexivity|]. repeat split.
  - intros v r t u _ IHv _ IHr F. inversion F as [|? ? Fv Fr]; subst. destruct (IHv Fv) as (pv & n & A & R). destruct (IHr Fr) as (l & m & Al & Rl).
    exists (pv :: l), (S (n + m)). split; [now constructor|]. intros rest. destruct (Rl rest) as ((st2 & O2) & S2 & Rp). rewrite <- app_assoc.
    assert (Af : after v (u ++ cRP :: rest)) by (unfold after; destruct (bracketed v); auto). destruct (R _ Af) as ((kd & x & q & Hd & Od) & Rv). splits.
    + apply (on_exists [] false false _ _ _ _ skips_nil Hd).
    + discriminate.
    + intros st acc [|f] O L; [lia|]. pose proof (on_here [] false false _ _ _ _ _ skips_nil Hd O) as Hh. destruct (here_kind _ _ _ _ _ _ _ Hh Hd) as (E & _). rewrite items_step.
      unfold pbind at 1, check at 1. rewrite E, (opener_not _ [KRParen; KEof] Od eq_refl). unfold pbind at 1, check at 1. rewrite E, (opener_not _ [KComma] Od eq_refl).
      unfold pbind at 1. rewrite (Rv _ _ _ st2 f Hh O2) by lia. destruct (Rp st2 (acc ++ [pv]) f O2 ltac:(lia)) as (st3 & P3 & C3). exists st3. rewrite <- app_assoc in P3. auto.
  - intros g v r t u _ IHv _ IHr F. inversion F as [|? ? Fv Fr]; subst. destruct (IHv Fv) as (pv & n & A & R). destruct (IHr Fr) as (l & m & Al & Rl).
    exists (pv :: l), (S (n + m)). split; [now constructor|]. intros rest. destruct (Rl rest) as ((st2 & O2) & S2 & Rp). cbn [app]. rewrite <- app_assoc.
    assert (Af : after v (u ++ cRP :: rest)) by (unfold after; destruct (bracketed v); auto). destruct (R _ Af) as ((kd & x & q & Hd & Od) & Rv). splits.
    + apply (on_exists [cSP] true false _ _ _ _ skips_one Hd).
    + intros _. cbn. tauto.
    + intros st acc [|f] O L; [lia|]. pose proof (on_here [cSP] true false _ _ _ _ _ skips_one Hd O) as Hh. destruct (here_kind _ _ _ _ _ _ _ Hh Hd) as (E & _). rewrite items_step.
      unfold pbind at 1, check at 1. rewrite E, (opener_not _ [KRParen; KEof] Od eq_refl). unfold pbind at 1, check at 1. rewrite E, (opener_not _ [KComma] Od eq_refl).
      unfold pbind at 1. rewrite (Rv _ _ _ st2 f Hh O2) by lia. destruct (Rp st2 (acc ++ [pv]) f O2 ltac:(lia)) as (st3 & P3 & C3). exists st3. rewrite <- app_assoc in P3. auto.
  - intros f g M _. exists [], 1. split; [constructor|]. intros rest. destruct (skips_maybe g M) as (w & n & Sk & G). pose proof (head_sym cRB KRBrace rest ltac:(cbn; tauto)) as H. splits.
    + eapply on_exists; eauto.
    + intros _. destruct G as [->|(r & ->)]; cbn; tauto.
    + intros st seen acc [|fuel] O _ _ L; [lia|]. destruct (here_head _ _ _ _ _ _ _ (on_here _ _ _ _ _ _ _ _ Sk H O) H) as (b & e & ->). rewrite app_nil_r.
      eexists. split; [destruct f; [|unfold comma_step]; rewrite entries_step; reflexivity|repeat split].
  - intros f d g k v r kt t u Wl Wk _ IHv _ IHr F. inversion F as [|? ? ? ? Np Fv Fr]; subst. destruct (IHr Fr) as (l & m & Al & Rl).
    destruct (dup_read _ _ _ _ _ _ Wk Np (IHv Fv)) as (pk & pv & n & Ak & Av & _ & _ & _ & _ & R). exists ((pk, pv) :: l), (3 + n + m). split; [now constructor|]. intros rest.
    destruct (Rl rest) as ((st2 & O2) & S2 & Rp). rewrite app_lead. specialize (S2 eq_refl).
    assert (Af : after v (u ++ cRB :: rest)) by (unfold after; destruct (bracketed v); auto). destruct (R _ Af) as ((kd & x & q & Hd & Od & _) & _ & Rv).
    assert (Main : forall ws nl st seen acc fuel, here (kt ++ cSP :: t ++ u ++ cRB :: rest) ws nl st -> NoDup (py_names (Ent k v d :: r)) ->
      (forall y, In y (py_names (Ent k v d :: r)) -> ~ In y seen) -> 3 + n + m <= fuel -> exists st1, parse_entries fuel seen acc st = VOk (acc ++ (pk, pv) :: l, st1) /\ closing KRBrace rest st1).
    { intros ws nl st seen acc [|[|fuel]] Hh Nd Ns L; try lia. destruct (here_kind _ _ _ _ _ _ _ Hh Hd) as (E & _). rewrite entries_step.
      unfold pbind at 1, check at 1. rewrite E, (opener_not _ [KRBrace; KEof] Od eq_refl). unfold pbind at 1. cbn [py_names flat_map e_key] in Nd, Ns.
      rewrite (Rv _ _ _ st2 seen fuel Hh O2); [|intros y Y; apply Ns, in_or_app; now left|lia].
      destruct (Rp st2 (py_name k ++ seen) (acc ++ [(pk, pv)]) (S fuel) O2) as (st3 & P3 & C3).
      - clear -Nd. induction (py_name k) as [|z zs IH]; [exact Nd|]. apply IH. now inversion Nd.
      - intros y Y Z. apply in_app_or in Z as [Z|Z]; [|eapply Ns; [apply in_or_app; right; exact Y|exact Z]].
        clear -Nd Y Z. induction (py_name k) as [|z zs IH]; [exact Z|]. inversion Nd as [|? ? N1 N2]; subst. destruct Z as [->|Z]; [apply N1, in_or_app; now right|auto].
      - lia.
      - exists st3. rewrite <- app_assoc in P3. cbn [app] in P3. auto. }
    destruct (skips_lead _ _ _ Wl) as [[-> ->]|(w & b & Sk & G)].
    + cbn [app]. splits; [eapply sym_exists with (k := KComma); cbn; tauto|intros _; cbn; tauto|]. intros st seen acc fuel O Nd Ns L. destruct (on_sym cCOMMA KComma _ st ltac:(cbn; tauto) O) as (b1 & e1 & ->).
      destruct (on_exists [cSP] true false _ _ _ _ skips_one Hd) as (st1 & O1). unfold comma_step, pbind, check. cbn [st_cur pt_kind existsb kind_eqb orb]. rewrite (advance_on _ _ st1 O1).
      eapply Main; eauto. eapply (on_here [cSP]); eauto. exact skips_one.
    + splits; [eapply on_exists; eauto|intros ->; destruct G as [[? _]|(q' & ->)]; [discriminate|cbn; tauto]|]. intros st seen acc fuel O Nd Ns L.
      pose proof (on_here _ _ _ _ _ _ _ _ Sk Hd O) as Hh. destruct f; [eapply Main; eauto|]. unfold comma_step, pbind, check.
      destruct (here_kind _ _ _ _ _ _ _ Hh Hd) as (E & _). rewrite E, (opener_not _ [KComma] Od eq_refl). eapply Main; eauto.
Qed.

(** *** The document *)
Definition line_next (rest : str) : Prop := exists r, rest = cLF :: r.
Lemma root_value v t : (wvx pytext v t \/ exists s kd a b, v = Val None (PScalar s kd a) b /\ pyline s t) -> py_fine v -> readable line_next v t.
Proof.
  intros [W|(s & kd & a & b & -> & P)] F.
  - destruct (proj1 all_read v t W F) as (pv & n & A & R). exists pv, n. split; [exact A|]. intros rest (r & ->). apply R. unfold after. destruct (bracketed v); cbn; auto.
  - destruct (head_line s t P) as (k & K & H). exists (PV None (PPScalar k s)), 1. split; [exact (agree None _ _ _ (agree_scalar _ _ _ _))|]. intros rest (r & ->).
    split; [exists k, s, (cLF :: r); split; [auto|destruct k; try discriminate; reflexivity]|].
    intros ws nl st st' [|f] Hh O L; [lia|]. destruct (here_head _ _ _ _ _ _ _ Hh (H r)) as (b0 & e0 & ->). apply scalar_value; auto. eapply soft_next; [|exact O]. cbn. auto.
Qed.
Lemma key_no_path k kt : wkey true k kt -> no_path k.
Proof. intros W s kd a b -> B. inversion W as [? ? ? ? F| | |]; subst. inversion F; subst. auto. Qed.

Notation parse_root := (parse_root isupper int16 total).
Notation parse_entry_path := (parse_entry_path isupper int16 total).
Lemma root_step f ps acc : parse_root (S f) ps acc = let! b := check [KEof] in if b then ret acc else
  let! (e, ps') := parse_entry_path f ps in parse_root f ps' (match e with Some e => acc ++ [e] | None => acc end).
Proof. reflexivity. Qed.
Definition update_name (names : list str) (obj : bool) (ps : pathst) : pathst :=
  match names with t :: _ => mkpath [t] (prefixes (ps_current ps) (S (common [t] (ps_current ps))) (S (List.length (ps_current ps))) ++ ps_closed ps) ((t, obj) :: ps_assigned ps) | [] => ps end.
Lemma update_one t obj ps : assigned t (ps_assigned ps) = None -> check_and_update [t] obj ps = Some (update_name [t] obj ps).
Proof. intros H. unfold check_and_update. cbn [join_dots]. rewrite H. reflexivity. Qed.

Lemma path_read f ps st st1 st' pk pv k : opener (pt_kind (st_cur st)) = true -> parse_value (S f) st = VOk (pk, st1) -> is_obj pk = false -> path_key pk = None -> valid_key pk = true ->
  PyParseModel.key_text pk = hd_error (py_name k) -> pt_nl (st_cur st1) = false -> opener (pt_kind (st_cur st1)) = true -> parse_value (S f) st1 = VOk (pv, st') ->
  (forall x, In x (py_name k) -> assigned x (ps_assigned ps) = None) ->
  parse_entry_path (S f) ps st = VOk ((Some (pk, pv), update_name (py_name k) (is_obj pv) ps), st').
Proof.
  intros Os P1 Io Pk Vk Kt Nl Op P2 N. unfold parse_entry_path.
  unfold pbind at 1. rewrite (skip_none f st Os). unfold pbind at 1, check at 1. rewrite (opener_not _ [KGt] Os eq_refl). unfold pbind at 1, check at 1. rewrite (opener_not _ [KEof; KRBrace] Os eq_refl).
  unfold pbind at 1. rewrite P1, Io, Pk, Kt, Vk. cbn [negb]. unfold pbind at 1, current at 1. unfold pbind at 1, check at 1. rewrite Nl, (opener_not _ [KEof; KRBrace] Op eq_refl). cbn [orb].
  unfold pbind at 1. rewrite P2. destruct (py_name k) as [|t ts]; cbn [hd_error]; [reflexivity|]. rewrite (update_one t (is_obj pv) ps) by (apply N; now left). reflexivity.
Qed.

Lemma skips_doc_text d dt : wdoc d dt -> exists w n, skips dt w n.
Proof.
  destruct d as [s|]; cbn [wdoc]; [intros (lines & _ & _ & F & ->)|intros ->; exists false, false; exact skips_nil].
  destruct (skips_root_docs [] false false lines skips_nil F) as (w & n & H). rewrite app_nil_r in H. eauto.
Qed.
Definition starts (s : str) : Prop := exists st, on s st /\ (pt_kind (st_cur st) = KEof \/ opener (pt_kind (st_cur st)) = true /\ pt_kind (st_cur st) <> KLBrace).
Theorem root_read f es u : wrootx pytext pyline f es u -> Forall (fun e => py_fine (e_val e)) es -> exists l n, agrees_entries es l /\ starts u /\ (f = false -> line_next u) /\
  forall st ps acc fuel, on u st -> NoDup (py_names es) -> (forall x, In x (py_names es) -> assigned x (ps_assigned ps) = None) -> n <= fuel ->
    exists st1, parse_root fuel ps acc st = VOk (acc ++ l, st1).
Proof.
  induction 1 as [f|f k v d r dt kt t u D Wk Wv Wr IH]; intros F.
  - exists [], 1. splits; [constructor| |intros ->; eexists; reflexivity|].
    + destruct f; eexists; (split; [eexists _, _; split; reflexivity|now left]).
    + intros st ps acc [|fuel] O _ _ L; [lia|]. destruct O as (tk & q & E & ->). rewrite app_nil_r, root_step.
      destruct f; cbn in E; injection E as <- <-; eexists; reflexivity.
  - apply Forall_cons_iff in F as [Fv Fr]. cbn [e_val] in Fv. destruct (IH Fr) as (l & m & Al & (st2 & O2 & _) & Ln & Rr). specialize (Ln eq_refl).
    destruct (dup_read _ _ _ _ _ _ Wk (key_no_path _ _ Wk) (root_value _ _ Wv Fv)) as (pk & pv & n & Ak & Av & Io & Pk & Vk & Kt & R).
    destruct (R u Ln) as ((kd & x & q & Hd & Od & Nb) & Two & _).
    assert (Sk : exists w b, skips ((if f then [] else [cLF; cLF]) ++ dt) w b).
    { destruct (skips_doc_text _ _ D) as (w & b & Hs). destruct f; [exists w, b; exact Hs|]. exists true, true. cbn [app]. eapply skips_lf, skips_lf. exact Hs. }
    destruct Sk as (w & b & Sk). exists ((pk, pv) :: l), (2 + n + m). rewrite app_assoc. splits.
    + now constructor.
    + destruct (on_exists _ _ _ _ _ _ _ Sk Hd) as (st & O). exists st. split; [exact O|]. right. destruct (here_kind _ _ _ _ _ _ _ (on_here _ _ _ _ _ _ _ _ Sk Hd O) Hd) as (-> & _). auto.
    + intros ->. eexists. reflexivity.
    + intros st ps acc [|[|fuel]] O Nd Ns L; try lia. pose proof (on_here _ _ _ _ _ _ _ _ Sk Hd O) as Hh. destruct (here_kind _ _ _ _ _ _ _ Hh Hd) as (E & _).
      destruct (Two _ _ _ st2 (S fuel) Hh O2 ltac:(lia)) as (st1 & P1 & Nl & Op & P2). cbn [py_names flat_map e_key] in Nd, Ns. rewrite root_step.
      unfold pbind at 1, check at 1. rewrite E, (opener_not _ [KEof] Od eq_refl). unfold pbind at 1.
      rewrite (path_read fuel ps st st1 st2 pk pv k); auto; [|now rewrite E|intros y Y; apply Ns, in_or_app; now left].
      destruct (Rr st2 (update_name (py_name k) (is_obj pv) ps) (acc ++ [(pk, pv)]) (S fuel) O2) as (st3 & P3).
      * clear -Nd. induction (py_name k) as [|z zs IH]; [exact Nd|]. apply IH. now inversion Nd.
      * intros y Y. unfold update_name. destruct (py_name k) as [|z zs]; [apply Ns; exact Y|]. cbn [ps_assigned]. unfold assigned. cbn [find fst].
        inversion Nd as [|? ? N1 N2]; subst. rewrite (proj2 (str_eqb_neq y z)); [apply Ns, in_or_app; now right|]. intros ->. apply N1, in_or_app. now right.
      * lia.
      * exists st3. rewrite <- app_assoc in P3. exact P3.
Qed.

Theorem doc_read es u : wrootx pytext pyline true es u -> Forall (fun e => py_fine (e_val e)) es -> NoDup (py_names es) -> exists l n, agrees_entries es l /\
  forall fuel, n <= fuel -> exists st0 st1, on u st0 /\ parse_doc isupper int16 total fuel st0 = VOk (l, st1).
Proof.
  intros W F Nd. destruct (root_read _ _ _ W F) as (l & n & A & (st & O & K) & _ & R). exists l, (S n). split; [exact A|]. intros fuel L. exists st.
  destruct (R st path_new [] fuel O Nd ltac:(reflexivity) ltac:(lia)) as (st1 & P). exists st1. split; [exact O|]. destruct fuel as [|f]; [lia|]. unfold parse_doc.
  assert (skip_commas isupper int16 total (S f) st = VOk (tt, st) /\ existsb (kind_eqb (pt_kind (st_cur st))) [KLBrace] = false) as [E1 E2].
  { destruct K as [K|[K Nb]]; [cbn [skip_commas]; unfold pbind, check; rewrite K; auto|]. split; [now apply skip_none|].
    cbn [existsb]. rewrite orb_false_r. destruct (kind_eqb (pt_kind (st_cur st)) KLBrace) eqn:E; [|reflexivity]. apply kind_eqb_eq in E. contradiction. }
  unfold pbind at 1. rewrite E1. unfold pbind at 1, check at 1. rewrite E2. exact P.
Qed.
End round.

(** What the printer writes is such a layout. *)
Theorem printed_layout es a b o : (forall c, In c (o_indent o) -> c = cSP \/ c = cTAB) -> Forall (entry_fine (plain_style o) (o_heredoc o)) es ->
  exists src, format_value (Val None (PObj es a) b) o = Ok src /\ wrootx pytext pyline true es src.
Proof.
  intros Hb He. apply printed_root; auto.
  - intros o' q s L G. exists o', q. auto.
  - intros o' q s G U D. exists o', q. auto.
Qed.
Theorem py_reads isupper int16 : (forall c, (65 <= c <= 90)%N -> isupper c = true) -> (forall n, (n < 128)%N -> int16 (hex4 n) = Some (Z.of_N n)) ->
  forall es u, wrootx pytext pyline true es u -> Forall (fun e => py_fine (e_val e)) es -> NoDup (py_names es) ->
  exists l n, agrees_entries es l /\ forall fuel, n <= fuel -> py_parse isupper int16 fuel u = VOk l.
Proof.
  intros U H es u W F Nd. destruct (doc_read isupper int16 U H u es u W F Nd) as (l & n & A & R). exists l, n. split; [exact A|]. intros fuel L.
  destruct (R fuel L) as (st0 & st1 & (t & r & E & ->) & P). unfold py_parse, fetch. rewrite E, P. reflexivity.
Qed.
