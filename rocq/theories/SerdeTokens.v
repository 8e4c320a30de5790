(** The tokens of the text that the serializer writes. *)
From Coq Require Import String ZArith Lia.
From Verif Require Import Base BaseProofs TokModel TokProofs RetokProofs LexModel LexSpec FmtSpec EscapeProofs LexRunProofs TreeModel FmtModel ScalarProofs RelexProofs CliProofs CliSpec SchemaModel
  SchemaSpec SchemaProofs WriteSpec PropFmt WriteProofs SerdeModel SerdeSpec SerdeText.
Local Open Scope nat_scope.

Definition kept (k : tkind) : bool := match k with Whitespace | LineComment | Newline | Eof => false | _ => true end.

(** [dlex pos s ts]: the tokens of [s] that the deserializer looks at are [ts], [s] standing at byte [pos]. *)
Inductive dlex : nat -> str -> toks -> Prop :=
| dl_end pos : dlex pos [] []
| dl_gap pos c s ts : c = cSP \/ c = cLF -> dlex (S pos) s ts -> dlex pos (c :: s) ts
| dl_tok pos k text rest ts : text <> [] -> kept k = true -> (k = At -> soft rest) ->
    next_token (mkts (text ++ rest) pos None) = emit k text rest pos None ->
    dlex (pos + blen text) rest ts -> dlex pos (text ++ rest) (mktok k (mkspan pos (pos + blen text)) text :: ts).

Lemma blank_run c rest pos f all : is_blank c = true -> tokens_from f (mkts rest (S pos) None) = Some all ->
  exists f' all', tokens_from f' (mkts (c :: rest) pos None) = Some all' /\ filter counts all' = filter counts all.
Proof.
  intros B R.
  assert (Hc1 : blen [c] = 1) by (unfold is_blank in B; apply orb_prop in B as [B|B]; apply N.eqb_eq in B; subst c; reflexivity).
  assert (NX : forall e r q, is_blank e = true -> next_token (mkts (e :: r) q None) = let (a, b) := span_while is_blank (e :: r) in emit Whitespace a b q None).
  { intros e r q Be. unfold is_blank in Be. apply orb_prop in Be as [Be|Be]; apply N.eqb_eq in Be; subst e; reflexivity. }
  destruct (span_while is_blank rest) as [a b] eqn:S.
  pose proof (span_while_app _ _ _ _ S) as ER. pose proof (span_while_all _ _ _ _ S) as A.
  assert (N1 : next_token (mkts (c :: rest) pos None) = emit Whitespace (c :: a) b pos None).
  { rewrite NX by assumption. cbn [span_while]. rewrite B, S. reflexivity. }
  assert (exists f1 all1, tokens_from f1 (mkts b (pos + blen (c :: a)) None) = Some all1 /\ filter counts all1 = filter counts all) as (f1 & all1 & T & E).
  { destruct a as [|e a].
    - cbn [app] in ER. subst b. exists f, all. split; [|reflexivity]. rewrite <- R. f_equal. f_equal. exact (eq_trans (f_equal (Nat.add pos) Hc1) (Nat.add_1_r pos)).
    - destruct f as [|f]; [discriminate|]. cbn [tokens_from] in R. cbn [forallb] in A. apply andb_true_iff in A as [A _].
      assert (N2 : next_token (mkts rest (Datatypes.S pos) None) = emit Whitespace (e :: a) b (Datatypes.S pos) None).
      { transitivity (let (a, b) := span_while is_blank rest in emit Whitespace a b (Datatypes.S pos) None); [rewrite ER; cbn [app]; apply NX; exact A|rewrite S; reflexivity]. }
      rewrite N2 in R. cbn [emit tk_kind is_eof_kind] in R.
      destruct (tokens_from f _) as [all1|] eqn:T1; [|discriminate]. injection R as <-. exists f, all1. split; [|reflexivity].
      rewrite <- T1. f_equal. f_equal. pose proof (eq_trans (blen_app [c] (e :: a)) (f_equal (fun x => x + blen (e :: a)) Hc1)) as HB. refine (eq_trans (f_equal (Nat.add pos) HB) _). lia. }
  exists (Datatypes.S f1). eexists. cbn [tokens_from]. rewrite N1. cbn [emit tk_kind is_eof_kind]. rewrite T. split; [reflexivity|exact E].
Qed.

Lemma dlex_run pos s ts : dlex pos s ts -> exists f all, tokens_from f (mkts s pos None) = Some all /\ filter counts all = ts.
Proof.
  induction 1 as [pos|pos c s ts Hc _ (f & all & T & E)|pos k text rest ts Ht Hk _ Hn _ (f & all & T & E)].
  - exists 1, []. split; reflexivity.
  - destruct Hc as [-> | ->].
    + destruct (blank_run cSP s pos f all eq_refl T) as (f' & all' & T' & E'). exists f', all'. split; [exact T'|congruence].
    + exists (S f). eexists. cbn [tokens_from]. change (next_token (mkts (cLF :: s) pos None)) with (emit Newline [cLF] s pos None).
      cbn [emit tk_kind is_eof_kind]. change (blen [cLF]) with 1. rewrite Nat.add_1_r, T. split; [reflexivity|exact E].
  - exists (S f). eexists. cbn [tokens_from]. rewrite Hn. cbn [emit tk_kind]. assert (is_eof_kind k = false) as -> by (destruct k; discriminate || reflexivity).
    rewrite T. split; [reflexivity|]. cbn [filter]. assert (counts (mktok k (mkspan pos (pos + blen text)) text) = true) as -> by (destruct k; discriminate || reflexivity).
    now rewrite E.
Qed.

Lemma dlex_tokens s ts : dlex 0 s ts -> exists all, tokens s = Some all /\ filter counts all = ts.
Proof. intros H. destruct (dlex_run _ _ _ H) as (f & all & T & E). exists all. split; [|exact E]. eapply tokens_any_fuel. exact T. Qed.

(** No name stands directly behind an [@]. *)
Fixpoint unglued (ts : toks) : Prop :=
  match ts with
  | a :: ((b :: _) as r) => (tk_kind a = At -> tk_kind b = BareScalar -> sp_start (tk_span b) <> sp_end (tk_span a)) /\ unglued r
  | _ => True
  end.

Lemma dlex_starts pos s ts : dlex pos s ts -> Forall (fun t => pos <= sp_start (tk_span t)) ts.
Proof.
  induction 1 as [pos|pos c s ts Hc _ IH|pos k text rest ts Ht Hk _ Hn _ IH]; [constructor| |constructor; [cbn; lia|]]; (eapply Forall_impl; [|exact IH]; cbn; intros; lia).
Qed.

Lemma dlex_soft pos s t ts : dlex pos s (t :: ts) -> soft s -> tk_kind t = BareScalar -> sp_start (tk_span t) <> pos.
Proof.
  intros H Hs Hk. inversion H as [|? c r ? Hc Hd|? k text rest ? Ht Hkk Ha Hn Hd]; subst.
  - apply dlex_starts in Hd. inversion Hd; subst. lia.
  - cbn in Hk. subst k. pose proof (soft_token _ pos Hs) as F. rewrite Hn in F. destruct F.
Qed.

Lemma dlex_unglued pos s ts : dlex pos s ts -> unglued ts.
Proof.
  induction 1 as [pos|pos c s ts Hc _ IH|pos k text rest ts Ht Hk Ha Hn Hd IH]; [exact I|exact IH|].
  destruct ts as [|b ts]; [exact I|]. split; [|exact IH]. cbn. intros -> Hb. eapply dlex_soft; eauto.
Qed.

(** ** Spelling *)

Definition tok_is (k : tkind) (s : str) (t : token) : Prop := tk_kind t = k /\ tk_text t = s.
(** A token that a string is read from. *)
Definition says (s : str) (t : token) : Prop :=
  tok_is BareScalar s t \/ (tk_kind t = QuotedScalar /\ unescape_serde (tk_text t) = s) \/
  (tk_kind t = RawScalar /\ raw_inside (tk_text t) = DOk s) \/ (tok_is Gt s t /\ s = [cGT]).
(** A token that a key is read from. *)
Definition names (s : str) (t : token) : Prop :=
  if can_be_bare s then tok_is BareScalar s t else tk_kind t = QuotedScalar /\ unescape_serde (tk_text t) = s.

Definition opening (root first : bool) (pre : toks) : Prop := if root || first then pre = [] else exists c, pre = [c] /\ tk_kind c = Comma.

Inductive spelt : val -> toks -> Prop :=
| sp_bool b t : tok_is BareScalar (show_bool b) t -> spelt (DBool b) [t]
| sp_int z t : tok_is BareScalar (show_z z) t -> spelt (DInt z) [t]
| sp_char c t : says [c] t -> tk_kind t <> RawScalar -> spelt (DChar c) [t]
| sp_str s t : says s t -> spelt (DStr s) [t]
| sp_bytes l t : tok_is QuotedScalar (bytes_text l) t -> spelt (DBytes l) [t]
| sp_unit v t : writes_unit v = true -> tok_is At [cAT] t -> spelt v [t]
| sp_some v ts : writes_unit v = false -> spelt v ts -> spelt (DSome v) ts
| sp_seq l o c ts : tk_kind o = LParen -> tk_kind c = RParen -> spelt_all l ts -> spelt (DSeq l) (o :: ts ++ [c])
| sp_map l o c ts : tk_kind o = LBrace -> tk_kind c = RBrace -> spelt_fields false true (map (fun p => (key_str (fst p), snd p)) l) ts -> spelt (DMap l) (o :: ts ++ [c])
| sp_struct l o c ts : tk_kind o = LBrace -> tk_kind c = RBrace -> spelt_fields false true l ts -> spelt (DStruct l) (o :: ts ++ [c])
with spelt_all : list val -> toks -> Prop :=
| sa_nil : spelt_all [] []
| sa_cons v l ts us : spelt v ts -> spelt_all l us -> spelt_all (v :: l) (ts ++ us)
(** Commas separate the entries, but not at the root. *)
with spelt_fields : bool -> bool -> list (str * val) -> toks -> Prop :=
| sf_nil root first : spelt_fields root first [] []
| sf_cons root first n v l pre k ts us : opening root first pre -> names n k -> spelt v ts -> spelt_fields root false l us ->
    spelt_fields root first ((n, v) :: l) (pre ++ k :: ts ++ us).
Scheme spelt_mind := Induction for spelt Sort Prop
  with spelt_all_mind := Induction for spelt_all Sort Prop
  with spelt_fields_mind := Induction for spelt_fields Sort Prop.
Combined Scheme spelt_ind3 from spelt_mind, spelt_all_mind, spelt_fields_mind.

(** At the root, objects have no braces. *)
Inductive spelt_root : val -> toks -> Prop :=
| sr_value v ts : spelt v ts -> spelt_root v ts
| sr_some v ts : writes_unit v = false -> spelt_root v ts -> spelt_root (DSome v) ts
| sr_map l ts : spelt_fields true true (map (fun p => (key_str (fst p), snd p)) l) ts -> spelt_root (DMap l) ts
| sr_struct l ts : spelt_fields true true l ts -> spelt_root (DStruct l) ts.

(** ** From texts to tokens *)

(** [text], when followed by something soft, gives tokens with property [P]. *)
Definition gives (text : str) (P : toks -> Prop) : Prop :=
  forall pos rest ts, soft rest -> dlex (pos + blen text) rest ts -> exists vt, P vt /\ dlex pos (text ++ rest) (vt ++ ts).

Lemma gives_impl text (P Q : toks -> Prop) : (forall ts, P ts -> Q ts) -> gives text P -> gives text Q.
Proof. intros H G pos rest ts Hs Hd. destruct (G _ _ _ Hs Hd) as (vt & Hv & Hl). eauto. Qed.

Lemma gives_token text k : text <> [] -> kept k = true -> (forall pos rest, soft rest -> next_token (mkts (text ++ rest) pos None) = emit k text rest pos None) ->
  gives text (fun ts => exists t, ts = [t] /\ tok_is k text t).
Proof.
  intros Ht Hk Hn pos rest ts Hs Hd. eexists [_]. split; [eexists; split; [reflexivity|]|apply dl_tok; eauto]. split; reflexivity.
Qed.

Lemma gives_bare s : can_be_bare s = true -> ~ In cGT s -> gives s (fun ts => exists t, ts = [t] /\ tok_is BareScalar s t).
Proof.
  intros Hb Hg. apply gives_token; [intros ->; discriminate|reflexivity|]. intros pos rest Hs. apply next_bare; [now apply can_be_bare_text|now apply soft_scalar_ends|]. intros _ x. now apply soft_no_quote.
Qed.

Lemma gives_quoted s : gives (quoted_text s) (fun ts => exists t, ts = [t] /\ tk_kind t = QuotedScalar /\ unescape_serde (tk_text t) = s).
Proof.
  eapply gives_impl; [|apply gives_token with (k := QuotedScalar)]; try reflexivity; try discriminate.
  - intros ts (t & -> & Hk & Ht). exists t. splits; auto. rewrite Ht. apply unescape_serde_ok, escape_decodes.
  - intros pos rest _. apply next_quoted, escape_safe.
Qed.

Lemma last_index_app c a b i : last_index c b = Some i -> last_index c (a ++ b) = Some (length a + i).
Proof. intros H. induction a as [|d a IH]; [exact H|]. cbn [app last_index length]. rewrite IH. reflexivity. Qed.
Lemma last_index_none c s : ~ In c s -> last_index c s = None.
Proof. induction s as [|d s IH]; intros H; [reflexivity|]. cbn [last_index]. rewrite IH by (intros Hi; apply H; now right). destruct (N.eqb_spec d c) as [->|]; [destruct H; now left|reflexivity]. Qed.
Lemma index_of_app c a b : ~ In c a -> index_of c (a ++ c :: b) = Some (length a).
Proof. induction a as [|d a IH]; intros H; cbn [app index_of length]; [now rewrite N.eqb_refl|]. destruct (N.eqb_spec d c) as [->|]; [destruct H; now left|]. rewrite IH by (intros Hi; apply H; now right). reflexivity. Qed.

Lemma cut {A} (a b c : list A) n m : n = length a -> m = length b -> firstn m (skipn n (a ++ b ++ c)) = b.
Proof. intros -> ->. rewrite skipn_app, skipn_all, Nat.sub_diag. cbn [skipn app]. rewrite firstn_app, firstn_all, Nat.sub_diag. cbn. apply app_nil_r. Qed.

Lemma raw_inside_ok h k s : raw_inside (cr :: repeat cHASH h ++ cDQ :: s ++ cDQ :: repeat cHASH k) = DOk s.
Proof.
  unfold raw_inside. set (t := cr :: repeat cHASH h ++ cDQ :: s ++ cDQ :: repeat cHASH k).
  assert (Hh : forall h, ~ In cDQ (repeat cHASH h)) by (intros n Hi; apply repeat_spec in Hi; discriminate).
  assert (index_of cDQ t = Some (S h)) as ->.
  { unfold t. change (cr :: repeat cHASH h ++ cDQ :: s ++ cDQ :: repeat cHASH k) with ((cr :: repeat cHASH h) ++ cDQ :: s ++ cDQ :: repeat cHASH k). rewrite index_of_app.
    - cbn [length]. now rewrite repeat_length.
    - intros [Hi|Hi]; [discriminate|now apply Hh in Hi]. }
  assert (last_index cDQ t = Some (S (S h) + length s)) as ->.
  { unfold t. replace (cr :: repeat cHASH h ++ cDQ :: s ++ cDQ :: repeat cHASH k) with ((cr :: repeat cHASH h ++ cDQ :: s) ++ cDQ :: repeat cHASH k) by (cbn [app]; rewrite <- app_assoc; reflexivity).
    rewrite (last_index_app _ _ _ 0).
    - f_equal. cbn [length]. rewrite app_length, repeat_length. cbn [length]. lia.
    - cbn [last_index]. rewrite last_index_none by apply Hh. now rewrite N.eqb_refl. }
  replace (S (S h) <=? S (S h) + length s) with true by (symmetry; apply Nat.leb_le; lia). f_equal.
  refine (eq_trans _ (cut (cr :: repeat cHASH h ++ [cDQ]) s (cDQ :: repeat cHASH k) (S (S h)) (length s) _ eq_refl)).
  - f_equal; [lia|]. f_equal. unfold t. cbn [app]. now rewrite <- app_assoc.
  - cbn [length]. rewrite app_length, repeat_length. cbn [length]. lia.
Qed.

Lemma gives_raw s : ~ FmtSpec.occurs [cDQ; cHASH] s -> gives (raw_text s) (fun ts => exists t, ts = [t] /\ tk_kind t = RawScalar /\ raw_inside (tk_text t) = DOk s).
Proof.
  intros Ho. destruct (raw_hashes_spec (S (length s)) 0 s) as (_ & H2 & H3); [lia|].
  eapply gives_impl; [|apply gives_token with (k := RawScalar)]; try reflexivity; try discriminate.
  - intros ts (t & -> & Hk & Ht). exists t. splits; auto. rewrite Ht. apply raw_inside_ok.
  - intros pos rest _. unfold raw_text. apply next_raw; [|assumption]. destruct (Nat.le_gt_cases (raw_hashes (S (length s)) 0 s) 255) as [|Hgt]; [assumption|].
    destruct Ho. assert (FmtSpec.occurs (cDQ :: repeat cHASH 1) s) as Hx by (apply H3; lia). exact Hx.
Qed.

Lemma gives_gt : gives [cGT] (fun ts => exists t, ts = [t] /\ tok_is Gt [cGT] t).
Proof. apply gives_token; try discriminate; reflexivity. Qed.

Lemma gives_string o s : line_feeds s < o_heredoc o -> no_gt_word s \/ s = [cGT] -> gives (FmtModel.scalar_text o false s) (fun ts => exists t, ts = [t] /\ says s t).
Proof.
  intros Hn Hg. unfold FmtModel.scalar_text. cbn [negb andb]. destruct (can_be_bare s) eqn:E.
  - destruct Hg as [Hg| ->].
    + eapply gives_impl; [|apply gives_bare; auto]. intros ts (t & -> & H). exists t. split; [reflexivity|now left].
    + eapply gives_impl; [|apply gives_gt]. intros ts (t & -> & H). exists t. split; [reflexivity|right; right; right; auto].
  - rewrite count_newlines_occ. replace (o_heredoc o <=? newlines s) with false by (symmetry; apply Nat.leb_gt; exact Hn).
    destruct ((3 <? count_escapes s) && negb (contains_sub [cDQ; cHASH] s)) eqn:E2.
    + eapply gives_impl; [|apply gives_raw]; [intros ts (t & -> & H); exists t; split; [reflexivity|right; right; left; exact H]|].
      intros Ho. apply contains_sub_iff in Ho. rewrite Ho in E2. now rewrite andb_false_r in E2.
    + eapply gives_impl; [|apply gives_quoted]. intros ts (t & -> & H). exists t. split; [reflexivity|right; left; exact H].
Qed.

Lemma gives_char o c : line_feeds [c] < o_heredoc o -> gives (FmtModel.scalar_text o false [c]) (fun ts => exists t, ts = [t] /\ says [c] t /\ tk_kind t <> RawScalar).
Proof.
  intros Hn. unfold FmtModel.scalar_text. cbn [negb andb]. destruct (can_be_bare [c]) eqn:E.
  - destruct (N.eq_dec c cGT) as [->|Hg].
    + eapply gives_impl; [|apply gives_gt]. intros ts (t & -> & H). exists t. splits; [reflexivity|right; right; right; auto|]. destruct H as [-> _]. discriminate.
    + eapply gives_impl; [|apply gives_bare; auto; intros [->|[]]; congruence]. intros ts (t & -> & H). exists t. splits; [reflexivity|now left|]. destruct H as [-> _]. discriminate.
  - rewrite count_newlines_occ. replace (o_heredoc o <=? newlines [c]) with false by (symmetry; apply Nat.leb_gt; exact Hn).
    assert (3 <? count_escapes [c] = false) as -> by (unfold count_escapes; cbn [filter]; destruct (is_escaped c); reflexivity). cbn [andb].
    eapply gives_impl; [|apply gives_quoted]. intros ts (t & -> & H). exists t. splits; [reflexivity|right; left; exact H|]. destruct H as [-> _]. discriminate.
Qed.

Lemma gives_key s : no_gt_word s -> gives (FmtModel.key_text s) (fun ts => exists t, ts = [t] /\ names s t).
Proof.
  intros Hg. unfold FmtModel.key_text, names. destruct (can_be_bare s) eqn:E.
  - apply gives_bare; auto.
  - apply gives_quoted.
Qed.

Lemma show_n_spec n : (n < 10 ^ 39)%N -> decimal (show_n n) n.
Proof.
  intros H. unfold show_n. destruct (dec_digits_spec 39 n []) as (d & E & Hne & Hd & Hv & _); [exact H|discriminate|]. rewrite E, app_nil_r. unfold decimal. auto.
Qed.
Lemma show_z_integer z : (Z.abs z < 10 ^ 39)%Z -> integer (show_z z) z /\ (0 <= z -> decimal (show_z z) (Z.to_N z))%Z.
Proof.
  intros H. destruct z as [|p|p]; cbn [show_z].
  - split; [apply (int_plain _ 0%N)|intros _]; apply show_n_spec; lia.
  - split; [apply (int_plain _ (Npos p))|intros _]; apply show_n_spec; lia.
  - split; [|lia]. refine (int_minus _ (Npos p) (show_n_spec _ _)). lia.
Qed.

Lemma digit_plain c : is_digit c = true \/ c = 45%N -> bare_special c = false /\ c <> cGT /\ c <> cSLASH /\ c <> cr /\ c <> cLT.
Proof.
  intros H. assert (In c [45; 48; 49; 50; 51; 52; 53; 54; 55; 56; 57]%N) as Hi.
  { destruct H as [H| ->]; [|now left]. unfold is_digit, in_range in H. apply andb_true_iff in H as [H1 H2]. apply N.leb_le in H1, H2.
    assert (c = 48 \/ c = 49 \/ c = 50 \/ c = 51 \/ c = 52 \/ c = 53 \/ c = 54 \/ c = 55 \/ c = 56 \/ c = 57)%N as D by lia. cbn. intuition. }
  cbn in Hi. decompose [or] Hi; subst; try contradiction; splits; try reflexivity; discriminate.
Qed.

Lemma digits_bare s : s <> [] -> Forall (fun c => is_digit c = true \/ c = 45%N) s -> can_be_bare s = true /\ ~ In cGT s.
Proof.
  intros Hn H. split.
  - apply can_be_bare_facts. splits; auto; try (intros c Hc; rewrite Forall_forall in H; now apply digit_plain, H);
      (destruct s as [|c s]; [congruence|]; inversion H as [|? ? Hc Hr]; subst; apply digit_plain in Hc as (_ & _ & H1 & H2 & H3); unfold starts_with; cbn [strip_prefix];
       match goal with |- context [(?x =? c)%N] => replace (x =? c)%N with false by (symmetry; apply N.eqb_neq; congruence) end; reflexivity).
  - intros Hi. rewrite Forall_forall in H. apply H in Hi as [Hi|Hi]; discriminate.
Qed.

Lemma show_z_bare z : (Z.abs z < 10 ^ 39)%Z -> can_be_bare (show_z z) = true /\ ~ In cGT (show_z z).
Proof.
  intros H. assert (D : forall n, (n < 10 ^ 39)%N -> show_n n <> [] /\ Forall (fun c => is_digit c = true \/ c = 45%N) (show_n n)).
  { intros n Hn. apply show_n_spec in Hn as (D1 & D2 & _). split; [exact D1|]. eapply Forall_impl; [|exact D2]. now left. }
  destruct z as [|p|p]; cbn [show_z]; apply digits_bare; try (apply D; lia); [discriminate|]. constructor; [now right|apply D; lia].
Qed.

(** ** Putting texts together *)

Definition softly (b : str) : Prop := forall rest, soft rest -> soft (b ++ rest).

Lemma dlex_at p q s ts : dlex p s ts -> q = p -> dlex q s ts.
Proof. now intros H ->. Qed.

Lemma gives_nil : gives [] (fun ts => ts = []).
Proof. intros pos rest ts Hs Hd. exists []. split; [reflexivity|]. cbn [app]. now replace (pos + blen []) with pos in Hd by (cbn; lia). Qed.

Lemma gives_app a b P Q : gives a P -> gives b Q -> softly b -> gives (a ++ b) (fun ts => exists x y, ts = x ++ y /\ P x /\ Q y).
Proof.
  intros Ga Gb Hb pos rest ts Hs Hd. rewrite blen_app, Nat.add_assoc in Hd. destruct (Gb _ _ _ Hs Hd) as (y & Hy & Dy).
  destruct (Ga _ _ _ (Hb _ Hs) Dy) as (x & Hx & Dx). exists (x ++ y). split; [eauto|]. now rewrite <- !app_assoc.
Qed.

Lemma gives_gap c b Q : c = cSP \/ c = cLF -> gives b Q -> gives (c :: b) Q.
Proof.
  intros Hc G pos rest ts Hs Hd. assert (Hl : blen (c :: b) = S (blen b)) by (destruct Hc as [-> | ->]; reflexivity).
  destruct (G (S pos) rest ts Hs) as (vt & Hv & Dv).
  - refine (dlex_at _ _ _ _ Hd _). lia.
  - exists vt. split; [exact Hv|]. cbn [app]. now apply dl_gap.
Qed.

Lemma punct_facts c k : In (c, k) [(cLP, LParen); (cRP, RParen); (cLB, LBrace); (cRB, RBrace); (cCOMMA, Comma)] ->
  (forall b, blen (c :: b) = S (blen b)) /\ kept k = true /\ k <> At /\ forall rest pos, next_token (mkts ([c] ++ rest) pos None) = emit k [c] rest pos None.
Proof. intros H. cbn in H. decompose [or] H; try contradiction; match goal with E : _ = _ |- _ => injection E as <- <- end; splits; try reflexivity; discriminate. Qed.

Lemma gives_punct c k b Q : In (c, k) [(cLP, LParen); (cRP, RParen); (cLB, LBrace); (cRB, RBrace); (cCOMMA, Comma)] -> gives b Q ->
  gives (c :: b) (fun ts => exists t r, ts = t :: r /\ tk_kind t = k /\ Q r).
Proof.
  intros Hc G pos rest ts Hs Hd. apply punct_facts in Hc as (Hl & Hk & Ha & Hn). rewrite Hl in Hd.
  destruct (G (S pos) rest ts Hs) as (vt & Hv & Dv).
  - refine (dlex_at _ _ _ _ Hd _). lia.
  - exists (mktok k (mkspan pos (pos + blen [c])) [c] :: vt). split; [do 2 eexists; splits; [reflexivity|reflexivity|exact Hv]|].
    refine (dl_tok pos k [c] (b ++ rest) (vt ++ ts) _ Hk _ (Hn _ _) _); [discriminate|congruence|].
    refine (dlex_at _ _ _ _ Dv _). rewrite Hl. cbn. lia.
Qed.

Lemma softly_cons c b : In c [cSP; cLF; cRP; cRB; cCOMMA] -> softly (c :: b).
Proof. intros H rest _. cbn in H |- *. decompose [or] H; subst; auto 10; contradiction. Qed.
Lemma softly_nil : softly [].
Proof. intros rest H. exact H. Qed.

Lemma softly_glue sep l : (exists c r, sep = c :: r /\ In c [cSP; cLF; cRP; cRB; cCOMMA]) -> softly (glue sep false l).
Proof. intros (c & r & -> & Hc). destruct l as [|t l]; [apply softly_nil|]. cbn [glue app]. now apply softly_cons. Qed.

Definition one_of (P : token -> Prop) (ts : toks) : Prop := exists t, ts = [t] /\ P t.

Lemma sep_first root : exists c r, field_sep root = c :: r /\ In c [cSP; cLF; cRP; cRB; cCOMMA].
Proof. destruct root; cbn; eauto 10. Qed.

(** One entry: its separator, its key, its value. *)
Lemma gives_field root (first : bool) k t P r Q : no_gt_word k -> gives t P -> gives r Q -> softly r ->
  gives ((if first then [] else field_sep root) ++ (FmtModel.key_text k ++ cSP :: t) ++ r)
    (fun ts => exists pre kt vt us, ts = pre ++ kt :: vt ++ us /\ opening root first pre /\ names k kt /\ P vt /\ Q us).
Proof.
  intros Hk Gt Gr Hr.
  assert (G : gives ((FmtModel.key_text k ++ cSP :: t) ++ r) (fun ts => exists kt vt us, ts = kt :: vt ++ us /\ names k kt /\ P vt /\ Q us)).
  { eapply gives_impl; [|apply gives_app; [apply gives_app; [apply (gives_key k Hk)|apply gives_gap; [now left|exact Gt]|apply softly_cons; cbn; auto]|exact Gr|exact Hr]].
    intros ts (x & us & -> & (kt & vt & -> & (t0 & -> & Hn) & Hv) & Hu). exists t0, vt, us. splits; auto. }
  destruct first; cbn [app].
  - eapply gives_impl; [|exact G]. intros ts (kt & vt & us & -> & H). exists [], kt, vt, us. unfold opening. rewrite orb_true_r. cbn [app]. intuition.
  - destruct root; cbn [field_sep app].
    + apply gives_gap; [now right|]. apply gives_gap; [now right|]. eapply gives_impl; [|exact G]. intros ts (kt & vt & us & -> & H). exists [], kt, vt, us. unfold opening. cbn [app orb]. intuition.
    + eapply gives_impl; [|apply (gives_punct cCOMMA Comma); [cbn; auto 10|apply gives_gap; [now left|exact G]]].
      intros ts (c & r0 & -> & Hc & kt & vt & us & -> & H). exists [c], kt, vt, us. cbn [app]. unfold opening. cbn [orb]. splits; try apply H; eauto.
Qed.

(** ** Plain values *)

Lemma spelt_unit v ts : spelt v ts -> writes_unit v = true -> exists t, ts = [t] /\ tok_is At [cAT] t.
Proof. intros H Hu. inversion H; subst; cbn in Hu; try discriminate; eauto. congruence. Qed.

Lemma hex_of_safe x : hex_of x <> cDQ /\ ((x < 16)%N -> hex_of x <> cBSL).
Proof. unfold hex_of. destruct (N.ltb_spec x 10); split; intros; lia. Qed.

Lemma bytes_safe l : Forall (fun b => (b < 256)%N) l -> quote_safe (flat_map hex_byte l).
Proof.
  induction 1 as [|b l Hb _ IH]; [constructor|]. cbn [flat_map hex_byte app].
  constructor; [apply hex_of_safe|apply hex_of_safe; apply N.div_lt_upper_bound; lia|]. constructor; [apply hex_of_safe|apply hex_of_safe; apply N.mod_lt; lia|exact IH].
Qed.

Lemma gives_at : gives [cAT] (one_of (tok_is At [cAT])).
Proof.
  apply gives_token; try discriminate; try reflexivity. intros pos rest Hs. destruct rest as [|c r]; [reflexivity|]. cbn in Hs. decompose [or] Hs; subst; try contradiction; reflexivity.
Qed.

Lemma show_bool_gives b : gives (show_bool b) (one_of (tok_is BareScalar (show_bool b))).
Proof. apply gives_bare; [destruct b; reflexivity|]. destruct b; cbn; intuition discriminate. Qed.

Lemma gives_braces k k' o c b Q : In (o, k) [(cLP, LParen); (cLB, LBrace)] -> In (c, k') [(cRP, RParen); (cRB, RBrace)] -> gives b Q ->
  gives (o :: b ++ [c]) (fun ts => exists x y z, ts = x :: y ++ [z] /\ tk_kind x = k /\ tk_kind z = k' /\ Q y).
Proof.
  intros Ho Hc G. eapply gives_impl; [|apply (gives_punct o k); [cbn in Ho |- *; tauto|apply gives_app; [exact G|apply (gives_punct c k'); [cbn in Hc |- *; tauto|apply gives_nil]|]]].
  - intros ts (x & r & -> & Hx & y & r' & -> & Hy & z & r2 & -> & Hz & ->). exists x, y, z. auto.
  - apply softly_cons. cbn in Hc |- *. decompose [or] Hc; try contradiction; match goal with E : _ = _ |- _ => injection E as <- <- end; auto 10.
Qed.

Definition entries_gives (o : opts) (l : list (str * val)) : Prop := forall root first,
  gives (glue (field_sep root) first (map (fun p => FmtModel.key_text (fst p) ++ cSP :: vtext o false (snd p)) l)) (spelt_fields root first l).

Lemma entries_cons o n v l : no_gt_word n -> gives (vtext o false v) (spelt v) -> entries_gives o l -> entries_gives o ((n, v) :: l).
Proof.
  intros Hn Gv Gl root first. cbn [map glue fst snd]. eapply gives_impl; [|apply gives_field; [exact Hn|exact Gv|exact (Gl root false)|apply softly_glue, sep_first]].
  intros ts (pre & kt & vt & us & -> & H1 & H2 & H3 & H4). now constructor.
Qed.

Lemma map_keys {A} (f : str * val -> A) l : map f (map (fun p : val * val => (key_str (fst p), snd p)) l) = map (fun p => f (key_str (fst p), snd p)) l.
Proof. apply map_map. Qed.

Lemma plain_gives o : (forall v, plain (o_heredoc o) v -> gives (vtext o false v) (spelt v)) /\
  (forall l, plain_all (o_heredoc o) l -> forall first, gives (glue [cSP] first (map (vtext o false) l)) (spelt_all l)) /\
  (forall l, plain_pairs (o_heredoc o) l -> entries_gives o (map (fun p => (key_str (fst p), snd p)) l)) /\
  (forall l, plain_fields (o_heredoc o) l -> entries_gives o l).
Proof.
  apply plain_ind4.
  - intros b. eapply gives_impl; [|apply show_bool_gives]. intros ts (t & -> & H). now constructor.
  - intros z Hz. eapply gives_impl; [|apply gives_bare; now apply show_z_bare]. intros ts (t & -> & H). now constructor.
  - intros c Hc. eapply gives_impl; [|apply gives_char, Hc]. intros ts (t & -> & H1 & H2). now constructor.
  - intros s H1 H2. eapply gives_impl; [|apply gives_string; assumption]. intros ts (t & -> & H). now constructor.
  - intros l Hl. eapply gives_impl; [|apply gives_token with (k := QuotedScalar)]; try reflexivity; try discriminate.
    + intros ts (t & -> & H). now constructor.
    + intros pos rest _. apply next_quoted, bytes_safe, Hl.
  - eapply gives_impl; [|apply gives_at]. intros ts (t & -> & H). now constructor.
  - eapply gives_impl; [|apply gives_at]. intros ts (t & -> & H). now constructor.
  - intros v _ IH. eapply gives_impl; [|exact IH]. intros ts H. destruct (writes_unit v) eqn:E; [|now constructor].
    destruct (spelt_unit _ _ H E) as (t & -> & Ht). now constructor.
  - intros l _ IH. cbn [vtext]. eapply gives_impl; [|apply (gives_braces LParen RParen); [cbn; auto|cbn; auto|apply IH]].
    intros ts (x & y & z & -> & H1 & H2 & H3). now constructor.
  - intros l _ IH. cbn [vtext wrap]. eapply gives_impl; [|apply (gives_braces LBrace RBrace); [cbn; auto|cbn; auto|]]; [|specialize (IH false true); rewrite map_keys in IH; exact IH].
    intros ts (x & y & z & -> & H1 & H2 & H3). now constructor.
  - intros l _ IH. cbn [vtext wrap]. eapply gives_impl; [|apply (gives_braces LBrace RBrace); [cbn; auto|cbn; auto|exact (IH false true)]].
    intros ts (x & y & z & -> & H1 & H2 & H3). now constructor.
  - intros first. eapply gives_impl; [|apply gives_nil]. intros ts ->. constructor.
  - intros v l _ IHv _ IHl first. cbn [map glue].
    assert (G : gives (vtext o false v ++ glue [cSP] false (map (vtext o false) l)) (spelt_all (v :: l))).
    { eapply gives_impl; [|apply gives_app; [exact IHv|exact (IHl false)|apply softly_glue; cbn; eauto 10]]. intros ts (x & y & -> & Hx & Hy). now constructor. }
    destruct first; [exact G|]. apply gives_gap; [now left|exact G].
  - intros root first. eapply gives_impl; [|apply gives_nil]. intros ts ->. constructor.
  - intros k s v l Hk Hg _ IHv _ IHl. cbn [map fst snd]. apply entries_cons; auto. unfold key_str. now rewrite Hk.
  - intros root first. eapply gives_impl; [|apply gives_nil]. intros ts ->. constructor.
  - intros n v l Hn _ IHv _ IHl. now apply entries_cons.
Qed.

Lemma entries_root o l : entries_gives o l -> gives (wrap true (map (fun p => FmtModel.key_text (fst p) ++ cSP :: vtext o false (snd p)) l)) (spelt_fields true true l).
Proof.
  intros G. destruct l as [|p l].
  - exact (G true true).
  - cbn [wrap map]. eapply gives_impl; [|apply gives_app; [exact (G true true)|apply gives_gap; [now right|apply gives_nil]|apply softly_cons; cbn; auto]].
    intros ts (x & y & -> & Hx & ->). now rewrite app_nil_r.
Qed.

Lemma root_gives o v : plain (o_heredoc o) v -> gives (vtext o true v) (spelt_root v).
Proof.
  destruct (plain_gives o) as (GV & _ & GP & GF).
  assert (Hsame : forall v, plain (o_heredoc o) v -> vtext o true v = vtext o false v -> gives (vtext o true v) (spelt_root v)).
  { intros w Hp E. rewrite E. eapply gives_impl; [|apply GV, Hp]. apply sr_value. }
  induction v; intros Hp; try (apply Hsame; [exact Hp|reflexivity]).
  - inversion Hp as [| | | | | | |? Hv| | |]; subst. cbn [vtext]. destruct (writes_unit v) eqn:E.
    + apply (Hsame (DSome v)); [exact Hp|]. clear - E. cbn [vtext]. induction v; try discriminate; try reflexivity. cbn [vtext]. now apply IHv.
    + eapply gives_impl; [|now apply IHv]. intros ts. now apply sr_some.
  - inversion Hp; subst. cbn [vtext]. specialize (GP l ltac:(assumption)). apply entries_root in GP. rewrite map_keys in GP. eapply gives_impl; [|exact GP]. apply sr_map.
  - inversion Hp; subst. cbn [vtext]. eapply gives_impl; [|apply entries_root, GF; assumption]. apply sr_struct.
Qed.

(** The tokens of what [to_string] writes. *)
Lemma written_root o v s : plain (o_heredoc o) v -> to_string_with o v = Some s ->
  exists all ts, tokens s = Some all /\ filter counts all = ts /\ spelt_root v ts /\ unglued ts.
Proof.
  intros Hp H. destruct (ser_all (o_heredoc o)) as (S & _). destruct (S v Hp (new_writer o) true) as (w & E & Eo & _); [unfold ready, flat; cbn; auto|reflexivity|].
  unfold to_string_with in H. rewrite E in H. injection H as <-. rewrite Eo.
  destruct (root_gives o v Hp 0 [] [] I (dl_end _)) as (vt & Hv & Dv). rewrite !app_nil_r in Dv.
  change (w_out (new_writer o) ++ gap (new_writer o) ++ vtext (w_opts (new_writer o)) true v) with (vtext o true v).
  destruct (dlex_tokens _ _ Dv) as (all & T & F). exists all, vt. splits; auto. now apply (dlex_unglued 0 (vtext o true v)).
Qed.
Lemma written_compact v s : plain 2 v -> to_string_compact v = Some s ->
  exists all ts, tokens s = Some all /\ filter counts all = ts /\ spelt v ts /\ unglued ts.
Proof.
  intros Hp H. destruct (ser_all 2) as (S & _). destruct (S v Hp (new_writer inline_opts) false) as (w & E & Eo & _); [unfold ready, flat; cbn; auto|discriminate|].
  unfold to_string_compact in H. rewrite E in H. injection H as <-. rewrite Eo.
  destruct (plain_gives inline_opts) as (GV & _). destruct (GV v Hp 0 [] [] I (dl_end _)) as (vt & Hv & Dv). rewrite !app_nil_r in Dv.
  change (w_out (new_writer inline_opts) ++ gap (new_writer inline_opts) ++ vtext (w_opts (new_writer inline_opts)) false v) with (vtext inline_opts false v).
  destruct (dlex_tokens _ _ Dv) as (all & T & F). exists all, vt. splits; auto. now apply (dlex_unglued 0 (vtext inline_opts false v)).
Qed.
Lemma written o v : plain (o_heredoc o) v -> to_string_with o v <> None.
Proof.
  intros Hp. destruct (ser_all (o_heredoc o)) as (S & _). destruct (S v Hp (new_writer o) true) as (w & E & _); [unfold ready, flat; cbn; auto|reflexivity|].
  unfold to_string_with. now rewrite E.
Qed.
Lemma written_compactly v : plain 2 v -> to_string_compact v <> None.
Proof.
  intros Hp. destruct (ser_all 2) as (S & _). destruct (S v Hp (new_writer inline_opts) false) as (w & E & _); [unfold ready, flat; cbn; auto|discriminate|].
  unfold to_string_compact. now rewrite E.
Qed.
