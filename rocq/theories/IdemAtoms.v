(** Formatting tidy sources twice: every shape. *)
From Coq Require Import String.
From Verif Require Import Base BaseProofs TokModel TokSpec TokProofs RetokProofs CstModel CstSpec CstProofs CstFmtModel CstFmtSpec CstShapeProofs.
From Verif Require Import AgreeProofs AgreeSim AgreeLex CstFmtProofs IdemSpec IdemRows IdemProofs IdemShapes.
Local Open Scope nat_scope.

Section Idem.
Variable indent : str.
Hypothesis BI : forallb is_blank indent = true.
Notation fmt := (format_node indent).
Notation ind := (ind indent).
Notation Cent := (Cent indent). Notation Celem := (Celem indent). Notation Catom := (Catom indent). Notation Gatom := (Gatom indent). Notation Gent := (Gent indent). Notation item := (item indent).
Notation arr := (arr indent). Notation prints := (prints indent).

(** ** Scalars, units and tags *)
Lemma same_refl n : same n n.
Proof. unfold same. auto. Qed.
Lemma scalar_atom k t : k = BareScalar \/ k = QuotedScalar \/ k = RawScalar -> valid k t -> Gatom (Node SCALAR [Leaf (LTok k) t]) [(k, t)].
Proof.
  intros K V. split; [eexists; eexists; reflexivity|]. intros lv. exists (Node SCALAR [Leaf (LTok k) t]), t, [(k, t)].
  assert (P : prints fmt lv (Node SCALAR [Leaf (LTok k) t]) t) by (intros out b; rewrite <- write_eq by apply V; destruct K as [->|[-> | ->]]; reflexivity).
  split; [|exists k, t, [], []; auto]. split; [eexists; eexists; reflexivity|]. split; [exact P|]. split; [exact P|]. split; [apply reads_valid; [exact V|destruct K as [->|[-> | ->]]; (reflexivity || discriminate) ..]|].
  split; [|split; [|split; [|apply same_refl]]].
  - intros ts rest HT _ _. destruct (kt_cons _ _ _ HT) as (x & y & -> & Kx & Tx & Hy). destruct y; [|discriminate]. exists 1. intros [|f] Hf; [lia|]. cbn [parse_atom app peek_kind]. cbn [fst snd] in *. rewrite Kx.
    unfold bump, leaf. rewrite Kx, Tx. destruct K as [->|[-> | ->]]; reflexivity.
  - destruct V as (N & S & _). exists k, t, [], []. rewrite app_nil_r. splits; auto. destruct K as [->|[-> | ->]]; cbn; tauto.
  - intros t' l' E. now injection E as _ _ <-.
Qed.
Lemma unit_atom : Gatom (Node UNIT [Leaf (LTok At) [cAT]]) [(At, [cAT])].
Proof.
  split; [eexists; eexists; reflexivity|]. intros lv. exists (Node UNIT [Leaf (LTok At) [cAT]]), [cAT], [(At, [cAT])].
  assert (P : prints fmt lv (Node UNIT [Leaf (LTok At) [cAT]]) [cAT]) by (intros out b; rewrite <- write_eq by discriminate; reflexivity).
  split; [|exists At, [cAT], [], []; auto]. split; [eexists; eexists; reflexivity|]. split; [exact P|]. split; [exact P|]. split; [apply reads_at|].
  split; [|split; [|split; [|apply same_refl]]].
  - intros ts rest HT _ _. destruct (kt_cons _ _ _ HT) as (x & y & -> & Kx & Tx & Hy). destruct y; [|discriminate]. exists 1. intros [|f] Hf; [lia|]. cbn [parse_atom app peek_kind]. cbn [fst snd] in *. rewrite Kx.
    unfold bump, leaf. rewrite Kx, Tx. reflexivity.
  - exists At, [cAT], [], []. splits; auto; [discriminate|reflexivity|cbn; tauto].
  - intros t' l' E. discriminate.
Qed.
Lemma tag_text_eq t s m : split_tag t = (cAT :: s, m) -> t = tag_text (cAT :: s) ++ List.concat (map (fun x => cSLASH :: cAT :: x) m).
Proof. intros SP. rewrite (split_tag_text _ t _ _ (le_n _) SP). reflexivity. Qed.
Lemma tag_atom t s m : valid Tag t -> split_tag t = (cAT :: s, m) -> ats m -> Gatom (tag_node (cAT :: s) m []) [(Tag, t)].
Proof.
  intros V SP A. pose proof (tag_text_eq _ _ _ SP) as TX.
  assert (N : node (tag_node (cAT :: s) m [])) by (destruct m; eexists; eexists; reflexivity).
  split; [exact N|]. intros lv. exists (tag_node (cAT :: s) m []), t, [(Tag, t)].
  assert (P : prints fmt lv (tag_node (cAT :: s) m []) t).
  { intros out b. rewrite <- write_eq by apply V. rewrite TX at 1. apply (fmt_tag_node indent m s cAT [] (fun st => st)); [exact A|tauto|reflexivity]. }
  split; [|exists Tag, t, [], []; auto]. split; [exact N|]. split; [exact P|]. split; [exact P|]. split; [apply reads_valid; [exact V|reflexivity|discriminate ..]|].
  split; [|split; [|split; [|apply same_refl]]].
  - intros ts rest HT _ TD. destruct (kt_cons _ _ _ HT) as (x & y & -> & Kx & Tx & Hy). destruct y; [|discriminate]. exists 1. intros [|f] Hf; [lia|]. cbn [app]. cbn [fst snd] in *. cbn [parse_atom peek_kind]. rewrite Kx, Tx, SP. rewrite delim_no_payload by exact TD. reflexivity.
  - destruct V as (N' & S & _). exists Tag, t, [], []. rewrite app_nil_r. splits; auto. cbn; tauto.
  - intros t' l' E. discriminate.
Qed.
Lemma tag_contains m : forall s p, contains_block (tag_node s m p) = existsb contains_block p.
Proof. induction m as [|x m IH]; intros s p; [reflexivity|]. cbn [tag_node contains_block nkind_eqb andb orb existsb]. rewrite IH. rewrite !orb_false_r. reflexivity. Qed.
Lemma tag_same m s c c' : contains_block c' = contains_block c -> same (tag_node s m [Node TAG_PAYLOAD [c]]) (tag_node s m [Node TAG_PAYLOAD [c']]).
Proof.
  intros E. split; [rewrite !tag_contains; cbn; now rewrite E|]. split; [|destruct m; reflexivity]. destruct m as [|x m]; [cbn; now rewrite E|].
  unfold tag_block. cbn [tag_node first_payload find is_node nkind_eqb]. cbn [contains_block nkind_eqb andb orb existsb]. rewrite !tag_contains. cbn. now rewrite E.
Qed.
Lemma tagp_atom t s m c l0 : valid Tag t -> split_tag t = (cAT :: s, m) -> ats m -> Gatom c l0 -> payload_sym t l0 -> Gatom (tag_node (cAT :: s) m [Node TAG_PAYLOAD [c]]) ((Tag, t) :: l0).
Proof.
  intros V SP A G PS. pose proof (tag_text_eq _ _ _ SP) as TX. destruct G as [NC G].
  split; [destruct m; eexists; eexists; reflexivity|]. intros lv. destruct (G lv) as (c' & sc & lc & (NC' & P1 & P2 & RC & PC & BC & BA & SM) & k2 & t2 & x2 & y2 & E0 & E1).
  assert (P : forall c, node c -> prints fmt lv c sc -> prints fmt lv (tag_node (cAT :: s) m [Node TAG_PAYLOAD [c]]) (t ++ sc)).
  { intros c0 (k0 & cs0 & ->) P0 out b. etransitivity; [apply (fmt_tag_node indent m s cAT [Node TAG_PAYLOAD [Node k0 cs0]] (fun st => fmt (Node k0 cs0) st)); [exact A|tauto|reflexivity]|].
    rewrite <- TX, write_eq by apply V. rewrite P0. cbn [CstFmtProofs.ind app]. rewrite <- !app_assoc. reflexivity. }
  assert (K2 : exists c2 u, t2 = c2 :: u /\ payload_kind k2 = true /\ (forall rest, scan_tag (c2 :: rest) = ([], c2 :: rest) -> lexes t (c2 :: rest) [(Tag, t)]) /\ forall z, scan_tag (c2 :: u ++ z) = ([], c2 :: u ++ z)).
  { subst l0. unfold payload_sym in PS. destruct t2 as [|c2 u]; [contradiction|]. destruct PS as [PK PS]. exists c2, u. splits; auto.
    destruct BC as (kb & tb & lb & sb & E & _ & _ & SH & _). rewrite E1 in E. injection E as <- <- <-. intros z. clear - PK SH. destruct k2; try discriminate; cbn [tok_shape] in SH.
    - injection SH as -> ->. reflexivity.
    - injection SH as -> ->. reflexivity.
    - injection SH as -> ->. reflexivity.
    - destruct SH as (d & a & SH & _). injection SH as -> ->. reflexivity.
    - destruct SH as (a & SH). injection SH as -> ->. reflexivity.
    - destruct SH as (n & a & SH). injection SH as -> ->. destruct n; reflexivity.
    - destruct SH as (d & a & SH & _). injection SH as -> ->. reflexivity. }
  destruct K2 as (c2 & u & Et & PK & LT & ST).
  exists (tag_node (cAT :: s) m [Node TAG_PAYLOAD [c']]), (t ++ sc), ((Tag, t) :: lc). split; [|exists Tag, t, l0, lc; auto].
  split; [destruct m; eexists; eexists; reflexivity|]. split; [now apply P|]. split; [now apply P|]. split; [|split; [|split; [|split]]].
  - change ((Tag, t) :: lc) with ([(Tag, t)] ++ lc). intros rest F. apply lexes_app; [|apply RC; exact F]. destruct BC as (kb & tb & lb & sb & E & -> & _). rewrite E1 in E. injection E as <- <- <-. subst t2. cbn [app]. apply LT. rewrite <- app_assoc. apply ST.
  - intros ts rest HT TL TD. destruct (kt_cons _ _ _ HT) as (x & y & -> & Kx & Tx & Hy). cbn [app fst snd] in *. destruct (PC y rest Hy (tiled_cons _ _ TL) TD) as [f0 R].
    exists (S f0). intros [|f] Hf; [lia|]. cbn [parse_atom peek_kind]. rewrite Kx, Tx, SP.
    assert (payload_follows (sp_end (tk_span x)) (y ++ rest) = true) as ->.
    { rewrite E1 in Hy. destruct (kt_cons _ _ _ Hy) as (z & y' & -> & Kz & _ & _). cbn [app payload_follows fst snd] in *. rewrite Kz. apply andb_true_intro. split; [|destruct k2; try discriminate PK; reflexivity].
      destruct TL as (p & e & TL). cbn [app tiles] in TL. apply Nat.eqb_eq. tauto. }
    rewrite R by lia. reflexivity.
  - destruct V as (N' & SH & _). exists Tag, t, lc, sc. splits; auto. cbn; tauto.
  - intros t' l' E. discriminate.
  - apply tag_same. apply SM.
Qed.

(** ** Objects *)
Lemma passed_brackets : passed LBrace /\ passed RBrace /\ passed LParen /\ passed RParen.
Proof. unfold passed. tauto. Qed.
Lemma wrap_exists (p : cst -> bool) a cs b : p a = false -> p b = false -> existsb p (a :: cs ++ [b]) = existsb p cs.
Proof. intros A B. cbn [existsb]. rewrite A, existsb_app. cbn [existsb]. rewrite B. now rewrite !orb_false_r. Qed.
Lemma wrap_filter a cs b : is_node ENTRY a = false -> is_node ENTRY b = false -> filter (is_node ENTRY) (a :: cs ++ [b]) = filter (is_node ENTRY) cs.
Proof. intros A B. cbn [filter]. rewrite A, filter_app. cbn [filter]. rewrite B. now rewrite app_nil_r. Qed.
Lemma tail_filter x lv : filter (is_node ENTRY) (x ++ leafs (tailsep indent lv)) = filter (is_node ENTRY) x.
Proof. rewrite filter_app, leafs_entries. apply app_nil_r. Qed.
Lemma tail_comments x lv : existsb is_comment (x ++ leafs (tailsep indent lv)) = existsb is_comment x.
Proof.
  rewrite existsb_app. assert (existsb is_comment (leafs (tailsep indent lv)) = false) as ->; [|apply orb_false_r]. unfold tailsep, wsy. destruct (ind true lv); reflexivity.
Qed.
Lemma csep_ne : stext csep <> [].
Proof. discriminate. Qed.
Lemma ssep_ne : stext ssep <> [].
Proof. discriminate. Qed.
Lemma nl_leaf cs : existsb (leaf_of Newline) cs = has_line_separator cs.
Proof. reflexivity. Qed.
Lemma doc_comment cs : existsb is_comment cs = false -> existsb (is_leaf DocComment) cs = false.
Proof. induction cs as [|c cs IH]; [reflexivity|]. cbn [existsb]. intros H. apply orb_false_iff in H as [H1 H2]. apply orb_false_iff in H1 as [_ H1]. now rewrite H1, IH. Qed.
Lemma mark_begins k c l s : In (k, c) [(LBrace, cLB); (LParen, cLP)] -> begins ((k, [c]) :: l) ([c] ++ s).
Proof. intros H. exists k, [c], l, s. splits; auto; [discriminate| |]; cbn in H; repeat (destruct H as [H|H]; [injection H as <- <-; cbn; tauto|]); contradiction. Qed.
Lemma entry_blocks_solid cs : solid cs -> existsb (is_node ENTRY) cs = false -> existsb contains_block cs = false.
Proof. intros S E. rewrite blocks_filter by exact S. rewrite filter_exists in E. destruct (filter (is_node ENTRY) cs); [reflexivity|discriminate]. Qed.

Lemma object_atom cs l0 : Forall item cs -> tidy_node OBJECT (oleaf :: cs ++ [cleaf]) = true -> Gatom (Node OBJECT (oleaf :: cs ++ [cleaf])) ((LBrace, [cLB]) :: l0).
Proof.
  intros IT TN. split; [eexists; eexists; reflexivity|]. intros lv. cbn [tidy_node] in TN. apply andb_prop in TN as [TN T3]. apply andb_prop in TN as [T1 T2].
  rewrite !is_comment_leaf, !nl_leaf in T3. unfold has_line_separator in T3. rewrite !wrap_exists in T3 by reflexivity. fold (has_line_separator cs) in T3.
  assert (T2' : existsb (is_node ENTRY) cs || existsb is_comment cs || negb (has_line_separator cs) = true).
  { rewrite !is_comment_leaf, nl_leaf in T2. unfold has_line_separator in T2. rewrite !wrap_exists in T2 by reflexivity. exact T2. }
  clear T2. rename T2' into T2.
  assert (D : docs_belong false cs = true).
  { cbn [docs_belong] in T1. clear - T1. revert T1. generalize false. induction cs as [|c cs IH]; intros d H; [reflexivity|]. destruct c as [[k|] t|k x]; [destruct k|..]; cbn [app docs_belong] in *; auto; apply andb_prop in H as [H1 H2]; rewrite H1; apply IH; exact H2. }
  pose proof (items_solid _ _ IT) as SO.
  assert (HS : has_line_separator (oleaf :: cs ++ [cleaf]) = has_line_separator cs) by (apply wrap_exists; reflexivity).
  assert (HC : existsb is_comment (oleaf :: cs ++ [cleaf]) = existsb is_comment cs) by (apply wrap_exists; reflexivity).
  assert (HN : existsb (is_node ENTRY) (oleaf :: cs ++ [cleaf]) = existsb (is_node ENTRY) cs) by (apply wrap_exists; reflexivity).
  assert (HF : filter (is_node ENTRY) (oleaf :: cs ++ [cleaf]) = filter (is_node ENTRY) cs) by (apply wrap_filter; reflexivity).
  assert (HB : existsb contains_block (oleaf :: cs ++ [cleaf]) = existsb contains_block (filter (is_node ENTRY) cs)) by (rewrite wrap_exists by reflexivity; now apply blocks_filter).
  assert (HD : existsb (is_leaf DocComment) (oleaf :: cs ++ [cleaf]) = existsb (is_leaf DocComment) cs) by (apply wrap_exists; reflexivity).
  destruct (existsb (is_node ENTRY) cs || existsb is_comment cs) eqn:E0.
  2: { apply orb_false_iff in E0 as [E1 E2]. cbn [orb] in T2. apply negb_true_iff in T2.
    exists (Node OBJECT [oleaf; cleaf]), [cLB; cRB], [(LBrace, [cLB]); (RBrace, [cRB])]. split; [|exists LBrace, [cLB], l0, [(RBrace, [cRB])]; auto].
    split; [eexists; eexists; reflexivity|]. split; [|split; [|split; [|split; [|split; [|split]]]]].
    - intros out b. rewrite object_empty by congruence. rewrite !write_eq by discriminate. cbn [CstFmtProofs.ind app]. rewrite <- !app_assoc. reflexivity.
    - intros out b. rewrite object_empty by reflexivity. rewrite !write_eq by discriminate. cbn [CstFmtProofs.ind app]. rewrite <- !app_assoc. reflexivity.
    - apply (reads_weaken Fany); [intros; exact I|]. apply (reads_app Fany Fany [cLB] [cRB] [_] [_]); [apply reads_mark; cbn; tauto|apply reads_mark; cbn; tauto|intros; exact I].
    - apply (object_parses indent BI [] []). intros ts x rest HT _ Kx Tx. destruct ts; [|discriminate]. apply (close_tail indent BI x rest Kx Tx).
    - apply (mark_begins LBrace cLB _ [cRB]). cbn; tauto.
    - intros t' l' E. discriminate.
    - split; [|split; reflexivity]. cbn [contains_block nkind_eqb andb]. fold (has_line_separator (oleaf :: cs ++ [cleaf])). rewrite HS, HD, HB, T2. rewrite (doc_comment _ E2). rewrite <- blocks_filter by exact SO. rewrite (entry_blocks_solid cs SO E1). reflexivity. }
  destruct (has_line_separator cs || existsb is_comment cs || existsb contains_block (filter (is_node ENTRY) cs)) eqn:M.
  - pose proof (cent_rel indent (S lv)) as HK. destruct (arr_exists indent fmt (S lv) (Cent (S lv)) HK cs IT ltac:(intros e _ [_ G]; apply G) false 0 false D) as [R A0].
    assert (A : arr (S lv) (Cent (S lv)) false 0 false (oleaf :: cs ++ [cleaf]) R) by (apply arr_pass; [apply passed_brackets|]; apply arr_close; [apply passed_brackets|exact A0]).
    assert (NR : R <> []). { intros E. destruct (arr_nonempty _ _ _ _ HK _ _ _ _ _ A0 E) as [X Y]. rewrite X, Y in E0. discriminate. }
    set (kd := kids R ++ leafs (tailsep indent lv)).
    assert (A' : arr (S lv) (Cent (S lv)) false 0 false (oleaf :: kd ++ [cleaf]) R).
    { apply arr_pass; [apply passed_brackets|]. unfold kd. rewrite <- app_assoc. apply (arr_back _ _ _ _ HK _ _ _ _ _ _ A0). apply tail_arr, passed_brackets. }
    pose proof (arr_entries _ _ _ _ HK _ _ _ _ _ A0) as F2.
    assert (HC' : existsb is_comment (oleaf :: kd ++ [cleaf]) = existsb is_comment cs) by (rewrite wrap_exists by reflexivity; unfold kd; rewrite tail_comments; apply (arr_comments _ _ _ _ HK _ _ _ _ _ A0)).
    assert (HN' : existsb (is_node ENTRY) (oleaf :: kd ++ [cleaf]) = existsb (is_node ENTRY) cs).
    { rewrite wrap_exists by reflexivity. apply same_some. unfold kd. now rewrite tail_filter. }
    assert (HS' : has_line_separator (oleaf :: kd ++ [cleaf]) = true) by (unfold kd; rewrite <- app_assoc; apply (proj1 (tail_newline indent lv (oleaf :: kids R)))).
    exists (Node OBJECT (oleaf :: kd ++ [cleaf])), ([cLB] ++ rtext R ++ stext (tailsep indent lv) ++ [cRB]), ((LBrace, [cLB]) :: (rsyms R ++ tailsep indent lv) ++ [(RBrace, [cRB])]).
    split; [|exists LBrace, [cLB]; eauto]. split; [eexists; eexists; reflexivity|]. split; [|split; [|split; [|split; [|split; [|split]]]]].
    + intros out b. rewrite object_multi; [|now rewrite HN, HC|now rewrite HS, HC, HF]. apply (multi_prints _ _ _ _ _ _ _ _ _ _ _ HK A NR).
    + intros out b. rewrite object_multi; [|now rewrite HN', HC'|now rewrite HS']. apply (multi_prints _ _ _ _ _ _ _ _ _ _ _ HK A' NR).
    + apply (reads_weaken Fany); [intros; exact I|]. rewrite <- app_assoc. apply (multi_reads _ BI _ _ _ _ _ _ _ _ _ _ HK A); [apply reads_mark; cbn; tauto|apply reads_mark; cbn; tauto|reflexivity].
    + apply (multi_object indent BI _ _ _ _ _ HK ltac:(intros; eapply cent_row; eassumption) A NR).
    + apply mark_begins. cbn; tauto.
    + intros t' l' E. discriminate.
    + split; [|split; reflexivity]. cbn [contains_block nkind_eqb andb]. fold (has_line_separator (oleaf :: cs ++ [cleaf])) (has_line_separator (oleaf :: kd ++ [cleaf])). rewrite HS, HS', HD, HB. cbn [orb]. symmetry.
      destruct (has_line_separator cs); [reflexivity|]. rewrite orb_false_r in T3. apply negb_true_iff in T3. rewrite T3 in M. cbn [orb] in M. rewrite M. apply orb_true_r.
  - apply orb_false_iff in M as [M M3]. apply orb_false_iff in M as [M1 M2]. rewrite M2, orb_false_r in E0.
    pose proof (cent_rel indent lv) as HK. destruct (fl_exists indent (Cent lv) csep cs IT ltac:(intros e _ [_ G]; apply G) M2 true) as [R A0].
    assert (A : fl (Cent lv) csep true (oleaf :: cs ++ [cleaf]) R) by (apply fl_leaf; [reflexivity|]; apply fl_close; [reflexivity|exact A0]).
    assert (TC : forall b, fl (Cent lv) csep b [cleaf] []) by (intros b; apply fl_leaf; [reflexivity|constructor]).
    assert (A' : fl (Cent lv) csep true (oleaf :: kids R ++ [cleaf]) R) by (apply fl_leaf; [reflexivity|]; apply (fl_back _ _ _ _ HK csep _ _ _ _ eq_refl A0 (TC false) (TC true))).
    pose proof (fl_entries _ _ _ _ HK _ _ _ _ A0) as F2. destruct (same_blocks _ _ F2) as (B1 & _ & _).
    assert (HN' : existsb (is_node ENTRY) (oleaf :: kids R ++ [cleaf]) = true) by (rewrite wrap_exists by reflexivity; rewrite (same_some _ _ F2); exact E0).
    assert (HC' : existsb is_comment (oleaf :: kids R ++ [cleaf]) = false) by (rewrite wrap_exists by reflexivity; apply (fl_none_of indent is_comment _ _ _ csep _ _ _ HK eq_refl (fun _ => eq_refl) A0)).
    assert (HS' : has_line_separator (oleaf :: kids R ++ [cleaf]) = false) by (unfold has_line_separator; rewrite wrap_exists by reflexivity; apply (fl_none_of indent (is_leaf Newline) _ _ _ csep _ _ _ HK eq_refl (fun _ => eq_refl) A0)).
    assert (HF' : filter (is_node ENTRY) (oleaf :: kids R ++ [cleaf]) = filter (is_node ENTRY) (kids R)) by (apply wrap_filter; reflexivity).
    exists (Node OBJECT (oleaf :: kids R ++ [cleaf])), ([cLB] ++ rtext R ++ [cRB]), ((LBrace, [cLB]) :: rsyms R ++ [(RBrace, [cRB])]).
    split; [|exists LBrace, [cLB]; eauto]. split; [eexists; eexists; reflexivity|]. split; [|split; [|split; [|split; [|split; [|split]]]]].
    + intros out b. rewrite object_inline; [|congruence|now rewrite HS, HC, HF, M1, M2, M3]. apply (inline_prints _ _ _ _ _ _ _ _ _ _ _ HK csep_ne A).
    + intros out b. rewrite object_inline; [|assumption|now rewrite HS', HC', HF', B1]. apply (inline_prints _ _ _ _ _ _ _ _ _ _ _ HK csep_ne A').
    + apply (reads_weaken Fany); [intros; exact I|]. apply (inline_reads _ _ _ _ _ _ _ _ _ _ _ HK csep_lex A); [apply reads_mark; cbn; tauto|apply reads_mark; cbn; tauto|now left].
    + apply (inline_object indent BI _ _ _ A).
    + apply mark_begins. cbn; tauto.
    + intros t' l' E. discriminate.
    + split; [|split; reflexivity]. cbn [contains_block nkind_eqb andb]. fold (has_line_separator (oleaf :: cs ++ [cleaf])) (has_line_separator (oleaf :: kids R ++ [cleaf])). rewrite HS, HS', HD, HB, (doc_comment _ HC'), (doc_comment _ M2), M1, M3.
      rewrite wrap_exists by reflexivity. rewrite blocks_filter by (eapply rows_solid, fl_rows; eassumption). now rewrite B1, M3.
Qed.

(** ** Sequences *)
Lemma seq_atom cs l0 : Forall item cs -> Forall element cs -> tidy_node SEQUENCE (poleaf :: cs ++ [pcleaf]) = true -> Gatom (Node SEQUENCE (poleaf :: cs ++ [pcleaf])) ((LParen, [cLP]) :: l0).
Proof.
  intros IT EL TN. split; [eexists; eexists; reflexivity|]. intros lv. cbn [tidy_node] in TN. apply negb_true_iff in TN. rewrite wrap_exists in TN by reflexivity. change (existsb (is_leaf DocComment) cs = false) in TN.
  assert (D : docs_belong false cs = true).
  { clear - TN. induction cs as [|c cs IH]; [reflexivity|]. cbn [existsb] in TN. apply orb_false_iff in TN as [T1 T2]. destruct c as [[k|] t|k x]; [destruct k|..]; cbn [docs_belong] in *; auto. discriminate. }
  pose proof (items_solid _ _ IT) as SO.
  assert (HE : forall lv e, In e cs -> Gent e -> exists e' s l, Celem lv e e' s l) by (intros lv' e Hi [_ G]; apply G; rewrite Forall_forall in EL; apply EL, Hi).
  assert (HS : has_line_separator (poleaf :: cs ++ [pcleaf]) = has_line_separator cs) by (apply wrap_exists; reflexivity).
  assert (HC : existsb is_comment (poleaf :: cs ++ [pcleaf]) = existsb is_comment cs) by (apply wrap_exists; reflexivity).
  assert (HN : existsb (is_node ENTRY) (poleaf :: cs ++ [pcleaf]) = existsb (is_node ENTRY) cs) by (apply wrap_exists; reflexivity).
  assert (HF : filter (is_node ENTRY) (poleaf :: cs ++ [pcleaf]) = filter (is_node ENTRY) cs) by (apply wrap_filter; reflexivity).
  assert (HB : existsb contains_block (poleaf :: cs ++ [pcleaf]) = existsb contains_block (filter (is_node ENTRY) cs)) by (rewrite wrap_exists by reflexivity; now apply blocks_filter).
  destruct (existsb (is_node ENTRY) cs || existsb is_comment cs) eqn:E0.
  2: { apply orb_false_iff in E0 as [E1 E2].
    exists (Node SEQUENCE [poleaf; pcleaf]), [cLP; cRP], [(LParen, [cLP]); (RParen, [cRP])]. split; [|exists LParen, [cLP], l0, [(RParen, [cRP])]; auto].
    split; [eexists; eexists; reflexivity|]. split; [|split; [|split; [|split; [|split; [|split]]]]].
    - intros out b. rewrite seq_empty by congruence. rewrite !write_eq by discriminate. cbn [CstFmtProofs.ind app]. rewrite <- !app_assoc. reflexivity.
    - intros out b. rewrite seq_empty by reflexivity. rewrite !write_eq by discriminate. cbn [CstFmtProofs.ind app]. rewrite <- !app_assoc. reflexivity.
    - apply (reads_weaken Fany); [intros; exact I|]. apply (reads_app Fany Fany [cLP] [cRP] [_] [_]); [apply reads_mark; cbn; tauto|apply reads_mark; cbn; tauto|intros; exact I].
    - apply (seq_parses indent BI [] []). intros ts x rest HT _ Kx. destruct ts; [|discriminate]. apply (close_elements indent BI x rest Kx).
    - apply (mark_begins LParen cLP _ [cRP]). cbn; tauto.
    - intros t' l' E. discriminate.
    - split; [|split; reflexivity]. cbn [contains_block nkind_eqb andb orb]. rewrite HB, <- blocks_filter by exact SO. rewrite (entry_blocks_solid cs SO E1). reflexivity. }
  destruct (seq_multi (existsb is_comment cs) (has_line_separator cs) (filter (is_node ENTRY) cs)) eqn:M.
  - pose proof (celem_rel indent (S lv)) as HK. destruct (arr_exists indent (seq_element fmt) (S lv) (Celem (S lv)) HK cs IT (HE (S lv)) false 0 false D) as [R A0].
    assert (A : arr (S lv) (Celem (S lv)) false 0 false (poleaf :: cs ++ [pcleaf]) R) by (apply arr_pass; [apply passed_brackets|]; apply arr_close; [apply passed_brackets|exact A0]).
    assert (NR : R <> []). { intros E. destruct (arr_nonempty _ _ _ _ HK _ _ _ _ _ A0 E) as [X Y]. rewrite X, Y in E0. discriminate. }
    set (kd := kids R ++ leafs (tailsep indent lv)).
    assert (A' : arr (S lv) (Celem (S lv)) false 0 false (poleaf :: kd ++ [pcleaf]) R).
    { apply arr_pass; [apply passed_brackets|]. unfold kd. rewrite <- app_assoc. apply (arr_back _ _ _ _ HK _ _ _ _ _ _ A0). apply tail_arr, passed_brackets. }
    pose proof (arr_entries _ _ _ _ HK _ _ _ _ _ A0) as F2. destruct (same_blocks _ _ F2) as (B1 & _ & _).
    assert (HC' : existsb is_comment (poleaf :: kd ++ [pcleaf]) = existsb is_comment cs) by (rewrite wrap_exists by reflexivity; unfold kd; rewrite tail_comments; apply (arr_comments _ _ _ _ HK _ _ _ _ _ A0)).
    assert (HN' : existsb (is_node ENTRY) (poleaf :: kd ++ [pcleaf]) = existsb (is_node ENTRY) cs).
    { rewrite wrap_exists by reflexivity. apply same_some. unfold kd. now rewrite tail_filter. }
    assert (HF' : filter (is_node ENTRY) (poleaf :: kd ++ [pcleaf]) = filter (is_node ENTRY) (kids R)) by (rewrite wrap_filter by reflexivity; unfold kd; apply tail_filter).
    assert (HS' : has_line_separator (poleaf :: kd ++ [pcleaf]) = true) by (unfold kd; rewrite <- app_assoc; apply (proj2 (tail_newline indent lv (poleaf :: kids R)))).
    assert (M' : seq_multi (existsb is_comment cs) true (filter (is_node ENTRY) cs) = true).
    { unfold seq_multi in *. apply andb_prop in M as [M _]. rewrite M. reflexivity. }
    exists (Node SEQUENCE (poleaf :: kd ++ [pcleaf])), ([cLP] ++ rtext R ++ stext (tailsep indent lv) ++ [cRP]), ((LParen, [cLP]) :: (rsyms R ++ tailsep indent lv) ++ [(RParen, [cRP])]).
    split; [|exists LParen, [cLP]; eauto]. split; [eexists; eexists; reflexivity|]. split; [|split; [|split; [|split; [|split; [|split]]]]].
    + intros out b. rewrite seq_many; [|now rewrite HN, HC|now rewrite HS, HC, HF]. apply (multi_prints _ _ _ _ _ _ _ _ _ _ _ HK A NR).
    + intros out b. rewrite seq_many; [|now rewrite HN', HC'|now rewrite HS', HC', HF', (seq_multi_same _ _ _ _ F2)]. apply (multi_prints _ _ _ _ _ _ _ _ _ _ _ HK A' NR).
    + apply (reads_weaken Fany); [intros; exact I|]. rewrite <- app_assoc. apply (multi_reads _ BI _ _ _ _ _ _ _ _ _ _ HK A); [apply reads_mark; cbn; tauto|apply reads_mark; cbn; tauto|reflexivity].
    + apply (multi_seq indent BI _ _ _ _ _ HK ltac:(intros; eapply celem_row; eassumption) TN A0 NR).
    + apply mark_begins. cbn; tauto.
    + intros t' l' E. discriminate.
    + split; [|split; reflexivity]. cbn [contains_block nkind_eqb andb orb]. rewrite HB. rewrite wrap_exists by reflexivity. rewrite blocks_filter; [unfold kd; rewrite tail_filter; exact B1|].
      unfold kd. apply Forall_app. split; [eapply rows_solid, arr_rows; eassumption|apply leafs_solid].
  - assert (E1 : existsb (is_node ENTRY) cs = true).
    { destruct (existsb (is_node ENTRY) cs) eqn:E1; [reflexivity|]. cbn [orb] in E0. exfalso. unfold seq_multi in M. rewrite E0 in M. cbn [negb andb] in M. rewrite orb_true_r in M. discriminate. }
    assert (Mc : seq_multi (existsb is_comment (poleaf :: cs ++ [pcleaf])) (has_line_separator (poleaf :: cs ++ [pcleaf])) (filter (is_node ENTRY) (poleaf :: cs ++ [pcleaf])) = false) by now rewrite HC, HS, HF.
    assert (M2 : existsb is_comment cs = false) by (rewrite <- HC; apply (seq_one indent _ (mkf [] 0 true)); [congruence|exact Mc]).
    pose proof (celem_rel indent lv) as HK. destruct (fl_exists indent (Celem lv) ssep cs IT (HE lv) M2 true) as [R A0].
    assert (A : fl (Celem lv) ssep true (poleaf :: cs ++ [pcleaf]) R) by (apply fl_leaf; [reflexivity|]; apply fl_close; [reflexivity|exact A0]).
    assert (TC : forall b, fl (Celem lv) ssep b [pcleaf] []) by (intros b; apply fl_leaf; [reflexivity|constructor]).
    assert (A' : fl (Celem lv) ssep true (poleaf :: kids R ++ [pcleaf]) R) by (apply fl_leaf; [reflexivity|]; apply (fl_back _ _ _ _ HK ssep _ _ _ _ eq_refl A0 (TC false) (TC true))).
    pose proof (fl_entries _ _ _ _ HK _ _ _ _ A0) as F2. destruct (same_blocks _ _ F2) as (B1 & _ & _).
    assert (HN' : existsb (is_node ENTRY) (poleaf :: kids R ++ [pcleaf]) = true) by (rewrite wrap_exists by reflexivity; rewrite (same_some _ _ F2); exact E1).
    assert (HC' : existsb is_comment (poleaf :: kids R ++ [pcleaf]) = false) by (rewrite wrap_exists by reflexivity; apply (fl_none_of indent is_comment _ _ _ ssep _ _ _ HK eq_refl (fun _ => eq_refl) A0)).
    assert (HS' : has_line_separator (poleaf :: kids R ++ [pcleaf]) = false) by (unfold has_line_separator; rewrite wrap_exists by reflexivity; apply (fl_none_of indent (is_leaf Newline) _ _ _ ssep _ _ _ HK eq_refl (fun _ => eq_refl) A0)).
    exists (Node SEQUENCE (poleaf :: kids R ++ [pcleaf])), ([cLP] ++ rtext R ++ [cRP]), ((LParen, [cLP]) :: rsyms R ++ [(RParen, [cRP])]).
    split; [|exists LParen, [cLP]; eauto]. split; [eexists; eexists; reflexivity|]. split; [|split; [|split; [|split; [|split; [|split]]]]].
    + intros out b. etransitivity; [apply (seq_one indent); [congruence|exact Mc]|]. apply (inline_prints _ _ _ _ _ _ _ _ _ _ _ HK ssep_ne A).
    + intros out b. etransitivity; [apply (seq_one indent); [exact HN'|rewrite HC', HS'; unfold seq_multi; apply andb_false_r]|]. apply (inline_prints _ _ _ _ _ _ _ _ _ _ _ HK ssep_ne A').
    + apply (reads_weaken Fany); [intros; exact I|]. apply (inline_reads _ _ _ _ _ _ _ _ _ _ _ HK ssep_lex A); [apply reads_mark; cbn; tauto|apply reads_mark; cbn; tauto|now right].
    + apply (inline_seq indent BI _ _ _ A).
    + apply mark_begins. cbn; tauto.
    + intros t' l' E. discriminate.
    + split; [|split; reflexivity]. cbn [contains_block nkind_eqb andb orb]. rewrite HB. rewrite wrap_exists by reflexivity. rewrite blocks_filter by (eapply rows_solid, fl_rows; eassumption). exact B1.
Qed.

(** ** Entries and attributes *)
Definition Gval (v : cst) : Prop := node v /\ forall lv, exists v' s l, node v' /\ prints fmt lv v s /\ prints fmt lv v' s /\ reads Fdelim s l /\ parses_value v' l /\ begins l s /\ contains_block v' = contains_block v.
Definition Gattr (x : cst) : Prop := exists t a l0, x = Node ATTRIBUTE [Leaf (LTok BareScalar) t; Leaf (LTok Gt) [cGT]; a] /\ valid BareScalar t /\ Gatom a l0.
Definition between (cs : list cst) : fstate -> fstate := nodes_between indent fmt ATTRIBUTE [cSP] cs.
Definition Gattrs (cs : list cst) : Prop := existsb (is_node ATTRIBUTE) cs = true /\ forall lv, exists cs' s l, existsb (is_node ATTRIBUTE) cs' = true /\
  (forall out b, between cs (mkf out lv b) = mkf (out ++ ind b lv ++ s) lv false) /\ (forall out b, between cs' (mkf out lv b) = mkf (out ++ ind b lv ++ s) lv false) /\
  reads Fdelim s l /\ parses_attrs cs' l /\ begins l s /\ (exists t y, l = (BareScalar, t) :: (Gt, [cGT]) :: y) /\ existsb contains_block cs' = existsb contains_block cs.
Definition space := Leaf (LTok Whitespace) [cSP].
Lemma reads_space : reads Fstart [cSP] [(Whitespace, [cSP])].
Proof. apply reads_blanks; [discriminate|reflexivity]. Qed.
Lemma begins_fstart l s x : begins l s -> Fstart (s ++ x).
Proof. intros B. destruct (begins_char _ _ B) as (c & r & -> & H & _). exact H. Qed.
Lemma begins_text l s ts rest : begins l s -> map kt ts = l -> gt_ahead (concat (map tk_text (ts ++ rest))) = false.
Proof.
  intros (k & t & l' & s' & -> & _ & N & SH & K) H. destruct (kt_cons _ _ _ H) as (x & y & -> & _ & Tx & _). cbn [snd] in Tx. destruct (shape_char k t SH N (or_introl K)) as (c & r & -> & B & G). cbn [app map concat]. rewrite Tx. cbn [app gt_ahead]. now rewrite B.
Qed.
Lemma skip_nonblank ts : nonblank ts -> skip is_blank_kind ts = ([], ts).
Proof. intros N. apply (skip_blanks [] ts); [constructor|exact N]. Qed.
Lemma atom_value a l0 : Gatom a l0 -> Gval a.
Proof.
  intros [N G]. split; [exact N|]. intros lv. destruct (G lv) as (n' & s & l & (N' & P1 & P2 & R & P & B & BA & SM) & _). exists n', s, l. splits; auto; [|apply SM].
  intros cl ts rest OK HT TL ST. destruct (P ts rest HT TL (stop_delim _ _ ST)) as [f1 R1]. destruct (value_at_end cl rest 1 (proj1 ST)) as [f2 R2].
  exists (1 + f1 + f2). intros [|f] Hf; [lia|]. cbn [parse_values]. rewrite start_more; [|exact OK|eapply begins_start; eassumption]. rewrite (begins_no_attr _ _ _ _ B BA HT (proj2 (proj2 ST))).
  replace (match cl with Some RBrace => true | _ => false end && (0 <? 0) && at_atom_start (ts ++ rest)) with false by (change (0 <? 0) with false; now rewrite andb_false_r).
  rewrite R1 by lia. cbn [bind]. rewrite skip_nonblank by (eapply stop_nonblank; exact ST). rewrite R2 by lia. reflexivity.
Qed.
Lemma attrs_value cs : Gattrs cs -> Gval (Node ATTRIBUTES cs).
Proof.
  intros [_ G]. split; [eexists; eexists; reflexivity|]. intros lv. destruct (G lv) as (cs' & s & l & _ & P1 & P2 & R & P & B & (t & y & E) & SM). exists (Node ATTRIBUTES cs'), s, l. splits; auto; [eexists; eexists; reflexivity|].
  intros cl ts rest OK HT TL ST. destruct (P cl ts rest OK HT TL ST) as [f1 R1]. destruct (value_at_end cl rest 1 (proj1 ST)) as [f2 R2].
  exists (1 + f1 + f2). intros [|f] Hf; [lia|]. cbn [parse_values]. rewrite start_more; [|exact OK|eapply begins_start; eassumption].
  assert (at_attribute (ts ++ rest) = true) as ->. { rewrite E in HT. destruct (kt_cons _ _ _ HT) as (x & z & -> & Kx & _ & Hz). destruct (kt_cons _ _ _ Hz) as (g & z' & -> & _ & Tg & _). cbn [app at_attribute fst snd map concat] in *. rewrite Kx, Tg. reflexivity. }
  rewrite R1 by lia. cbn [bind]. rewrite skip_nonblank by (eapply stop_nonblank; exact ST). rewrite R2 by lia. reflexivity.
Qed.
Lemma begins_not_gap l s ts rest : begins l s -> map kt ts = l -> ~ In (peek_kind (ts ++ rest)) [Newline; Eof; Whitespace].
Proof. intros B H. pose proof (begins_start _ _ _ rest B H) as K. intros Q. cbn in Q, K. destruct Q as [Q|[Q|[Q|[]]]]; rewrite <- Q in K; repeat (destruct K as [K|K]; [discriminate K|]); exact K. Qed.
Lemma attribute_prints lv t a s out b : valid BareScalar t -> node a -> prints fmt lv a s -> fmt (Node ATTRIBUTE [Leaf (LTok BareScalar) t; Leaf (LTok Gt) [cGT]; a]) (mkf out lv b) = mkf (out ++ ind b lv ++ t ++ [cGT] ++ s) lv false.
Proof.
  intros V (k & cs & ->) P. change (fmt (Node k cs) (f_write indent [cGT] (f_write indent t (mkf out lv b))) = mkf (out ++ ind b lv ++ t ++ [cGT] ++ s) lv false).
  rewrite !write_eq by (try discriminate; apply V). rewrite P. cbn [CstFmtProofs.ind app]. rewrite <- !app_assoc. reflexivity.
Qed.
Lemma attribute_reads t s l : valid BareScalar t -> reads Fdelim s l -> reads Fdelim (t ++ [cGT] ++ s) ((BareScalar, t) :: (Gt, [cGT]) :: l).
Proof.
  intros V R. change ((BareScalar, t) :: (Gt, [cGT]) :: l) with ([(BareScalar, t)] ++ [(Gt, [cGT])] ++ l). apply (reads_app (fun r => exists r', r = cGT :: r')).
  - intros rest (r' & ->). apply V. reflexivity.
  - apply (reads_app Fany); [apply reads_mark; cbn; tauto|exact R|intros; exact I].
  - intros r _. eexists. reflexivity.
Qed.
Lemma attr_begins t l s : valid BareScalar t -> begins ((BareScalar, t) :: l) (t ++ s).
Proof. intros (N & SH & _). exists BareScalar, t, l, s. splits; auto. cbn; tauto. Qed.
Lemma attrs_last x ws : Gattr x -> Forall blank_leaf ws -> Gattrs (x :: ws).
Proof.
  intros (t & a & l0 & -> & V & N & G) FW. split; [reflexivity|]. intros lv. destruct (G lv) as (a' & s & l & (N' & P1 & P2 & R & P & B & BA & SM) & _).
  exists [Node ATTRIBUTE [Leaf (LTok BareScalar) t; Leaf (LTok Gt) [cGT]; a']], (t ++ [cGT] ++ s), ((BareScalar, t) :: (Gt, [cGT]) :: l). split; [reflexivity|]. split; [|split; [|split; [|split; [|split; [|split]]]]].
  - intros out b. unfold between. cbn [nodes_between is_node nkind_eqb]. rewrite (blank_kind _ _ FW). rewrite between_none by (apply blank_kind; exact FW). now apply attribute_prints.
  - intros out b. unfold between. cbn [nodes_between is_node nkind_eqb existsb]. now apply attribute_prints.
  - now apply attribute_reads.
  - intros cl ts rest OK HT TL ST. destruct (kt_cons _ _ _ HT) as (x & z & -> & Kx & Tx & Hz). destruct (kt_cons _ _ _ Hz) as (g & z' & -> & Kg & Tg & Hz'). cbn [app fst snd] in *. subst t.
    apply (attributes_step cl x g (z' ++ rest) a' rest [] rest Kx Kg Tg); [eapply begins_not_gap; eassumption|apply (P z' rest Hz' (tiled_cons _ _ (tiled_cons _ _ TL)) (stop_delim _ _ ST))|].
    exists 0. intros f _. unfold attr_tail. rewrite skip_nonblank by (eapply stop_nonblank; exact ST). rewrite (proj1 ST). reflexivity.
  - now apply attr_begins.
  - eauto.
  - cbn [existsb]. f_equal; [|clear - FW; induction FW as [|w ws (u & ->) _ IH]; [reflexivity|exact IH]]. cbn [contains_block nkind_eqb andb orb existsb]. now rewrite (proj1 SM).
Qed.
Lemma between_skip ws cs st : Forall blank_leaf ws -> nodes_between indent fmt ATTRIBUTE [cSP] (ws ++ cs) st = nodes_between indent fmt ATTRIBUTE [cSP] cs st.
Proof. induction 1 as [|w ws (u & ->) _ IH]; [reflexivity|exact IH]. Qed.
Lemma attrs_more x ws cs : Gattr x -> Forall blank_leaf ws -> Gattrs cs -> Gattrs (x :: ws ++ cs).
Proof.
  intros (t & a & l0 & -> & V & N & G) FW [EC GC]. split; [reflexivity|]. intros lv. destruct (G lv) as (a' & s & l & (N' & P1 & P2 & R & P & B & BA & SM) & _). destruct (GC lv) as (cs' & s2 & l2 & EC' & Q1 & Q2 & R2 & PC & B2 & (t2 & y2 & E2) & SM2).
  exists (Node ATTRIBUTE [Leaf (LTok BareScalar) t; Leaf (LTok Gt) [cGT]; a'] :: space :: cs'), ((t ++ [cGT] ++ s) ++ [cSP] ++ s2), (((BareScalar, t) :: (Gt, [cGT]) :: l) ++ (Whitespace, [cSP]) :: l2). split; [reflexivity|]. split; [|split; [|split; [|split; [|split; [|split]]]]].
  - intros out b. unfold between. cbn [nodes_between is_node nkind_eqb]. rewrite existsb_app, EC, orb_true_r. rewrite (attribute_prints _ _ _ _ _ _ V N P1), write_eq by discriminate.
    rewrite between_skip by exact FW. etransitivity; [apply Q1|]. cbn [CstFmtProofs.ind app]. rewrite <- ?app_assoc. cbn [app]. rewrite <- ?app_assoc. reflexivity.
  - intros out b. unfold between, space. cbn [nodes_between is_node nkind_eqb existsb]. rewrite EC'. cbn [orb]. rewrite (attribute_prints _ _ _ _ _ _ V N' P2), write_eq by discriminate. etransitivity; [apply Q2|].
    cbn [CstFmtProofs.ind app]. rewrite <- ?app_assoc. cbn [app]. rewrite <- ?app_assoc. reflexivity.
  - apply (reads_app Fdelim); [now apply attribute_reads| |intros r _; right; eexists; eexists; split; [reflexivity|tauto]].
    apply (reads_app Fstart Fdelim [cSP] s2 [_] l2); [apply reads_space|exact R2|intros r _; eapply begins_fstart; exact B2].
  - intros cl ts rest OK HT TL ST. destruct (kt_app _ _ _ HT) as (ta & tb & -> & Ha & Hb). destruct (kt_cons _ _ _ Ha) as (x & z & -> & Kx & Tx & Hz). destruct (kt_cons _ _ _ Hz) as (g & z' & -> & Kg & Tg & Hz'). destruct (kt_cons _ _ _ Hb) as (w & tc & -> & Kw & Tw & Hc).
    cbn [app fst snd] in *. rewrite <- app_assoc in *. cbn [app] in *. subst t. pose proof (tiled_cons _ _ (tiled_cons _ _ TL)) as TL2.
    apply (attributes_step cl x g (z' ++ w :: tc ++ rest) a' (w :: tc ++ rest) (space :: cs') rest Kx Kg Tg); [apply (begins_not_gap _ _ _ _ B Hz')|apply (P z' _ Hz' TL2); unfold tdelim; cbn [peek_kind]; rewrite Kw; cbn; tauto|].
    destruct (PC cl tc rest OK Hc (tiled_cons _ _ (tiled_tail _ _ TL2)) ST) as [f0 R0]. pose proof (begins_start _ _ _ rest B2 Hc) as SK.
    exists f0. intros f Hf. unfold attr_tail. change (w :: tc ++ rest) with ([w] ++ tc ++ rest). rewrite skip_blanks; [|constructor; [exact Kw|constructor]|now apply start_nonblank]. rewrite start_more by assumption. rewrite R0 by exact Hf. cbn [bind map app]. unfold leaf, space. now rewrite Kw, Tw.
  - rewrite <- !app_assoc. now apply attr_begins.
  - cbn [app]. eauto.
  - cbn [existsb]. f_equal; [cbn [contains_block nkind_eqb andb orb existsb]; now rewrite (proj1 SM)|]. cbn [contains_block space orb]. rewrite SM2. clear - FW. induction FW as [|w ws (u & ->) _ IH]; [reflexivity|exact IH].
Qed.
Lemma blank_blocks ws : Forall blank_leaf ws -> existsb contains_block ws = false.
Proof. induction 1 as [|w ws (u & ->) _ IH]; [reflexivity|exact IH]. Qed.
Lemma blank_find k ws vs : Forall blank_leaf ws -> find (is_node k) (ws ++ vs) = find (is_node k) vs.
Proof. induction 1 as [|w ws (u & ->) _ IH]; [reflexivity|exact IH]. Qed.
Lemma key_entry a l0 ws : Gatom a l0 -> Forall blank_leaf ws -> Gent (Node ENTRY (Node KEY [a] :: ws)).
Proof.
  intros [N G] FW. split; [eauto|]. intros lv. destruct (G lv) as (a' & s & l & (N' & P1 & P2 & R & P & B & BA & SM) & _). destruct N as (ka & ca & ->). destruct N' as (ka' & ca' & ->). destruct SM as (S1 & S2 & S3).
  assert (SE : same_entry (Node ENTRY (Node KEY [Node ka ca] :: ws)) (Node ENTRY [Node KEY [Node ka' ca']])).
  { split; [|split; [|split]].
    - change (contains_block (Node ka' ca') || false || false = contains_block (Node ka ca) || false || existsb contains_block ws). rewrite S1, (blank_blocks _ FW). reflexivity.
    - unfold is_block_entry. cbn [children find is_node nkind_eqb]. rewrite <- (app_nil_r ws), blank_find by exact FW. reflexivity.
    - change (tag_schema (Node ka' ca') || false = tag_schema (Node ka ca) || false). now rewrite S3.
    - exact S2. }
  split; [|intros EL]; exists (Node ENTRY [Node KEY [Node ka' ca']]), s, l.
  - split; [eauto|]. split; [eauto|]. split; [|split; [|split; [exact R|split; [exact B|split; [exact SE|]]]]].
    + intros out b. cbn [format_node existsb is_node nkind_eqb first_node orb]. rewrite (blank_kind VALUE ws FW). rewrite <- (app_nil_r ws), first_skip by exact FW. apply P1.
    + intros out b. apply P2.
    + intros cl ts rest OK HT TL ST. destruct (P ts rest HT TL (stop_delim _ _ ST)) as [f1 R1]. destruct (value_at_end cl rest 0 (proj1 ST)) as [f2 R2].
      exists (1 + f1 + f2). intros [|f] Hf; [lia|]. cbn [parse_entry]. rewrite (begins_no_attr _ _ _ _ B BA HT (proj2 (proj2 ST))). rewrite start_more; [|exact OK|eapply begins_start; eassumption].
      rewrite R1 by lia. cbn [bind]. rewrite skip_nonblank by (eapply stop_nonblank; exact ST). rewrite R2 by lia. reflexivity.
  - split; [eauto|]. split; [eauto|]. split; [intros out b; apply P1|]. split; [intros out b; apply P2|]. split; [exact R|]. split; [exact B|]. split; [exact SE|]. exists (Node ka' ca'). auto.
Qed.
Lemma value_entry a l0 ws v ws' : Gatom a l0 -> Forall blank_leaf ws -> Gval v -> Forall blank_leaf ws' -> Gent (Node ENTRY (Node KEY [a] :: ws ++ Node VALUE [v] :: ws')).
Proof.
  intros [N G] FW [NV GV] FW'. split; [eauto|]. intros lv. split; [|intros (x & E); injection E as _ E; destruct ws; discriminate].
  destruct (G lv) as (a' & s & l & (N' & P1 & P2 & R & P & B & BA & SM) & _). destruct N as (ka & ca & ->). destruct N' as (ka' & ca' & ->). destruct SM as (S1 & S2 & S3).
  destruct (GV lv) as (v' & s2 & l2 & NV' & Q1 & Q2 & R2 & PV & B2 & SM2). destruct NV as (kv & cv & ->). destruct NV' as (kv' & cv' & ->).
  exists (Node ENTRY [Node KEY [Node ka' ca']; space; Node VALUE [Node kv' cv']]), (s ++ [cSP] ++ s2), (l ++ (Whitespace, [cSP]) :: l2).
  split; [eauto|]. split; [eauto|]. split; [|split; [|split; [|split; [|split]]]].
  - intros out b. cbn [format_node existsb is_node nkind_eqb first_node orb]. rewrite existsb_app. cbn [existsb is_node nkind_eqb orb]. rewrite orb_true_r. rewrite first_skip by exact FW.
    change (fmt (Node kv cv) (f_write indent [cSP] (fmt (Node ka ca) (mkf out lv b))) = mkf (out ++ ind b lv ++ s ++ [cSP] ++ s2) lv false). rewrite P1, write_eq, Q1 by discriminate. cbn [CstFmtProofs.ind app]. rewrite <- !app_assoc. reflexivity.
  - intros out b. change (fmt (Node kv' cv') (f_write indent [cSP] (fmt (Node ka' ca') (mkf out lv b))) = mkf (out ++ ind b lv ++ s ++ [cSP] ++ s2) lv false). rewrite P2, write_eq, Q2 by discriminate. cbn [CstFmtProofs.ind app]. rewrite <- !app_assoc. reflexivity.
  - apply (reads_app Fdelim); [exact R| |intros r _; right; eexists; eexists; split; [reflexivity|tauto]].
    apply (reads_app Fstart Fdelim [cSP] s2 [_] l2); [apply reads_space|exact R2|intros r _; eapply begins_fstart; exact B2].
  - destruct B as (k & t & l' & s' & -> & -> & NT & SH & K). exists k, t, (l' ++ (Whitespace, [cSP]) :: l2), (s' ++ [cSP] ++ s2). splits; auto. now rewrite <- app_assoc.
  - split; [|split; [|split]].
    + change (contains_block (Node ka' ca') || false || (false || (contains_block (Node kv' cv') || false || false)) = contains_block (Node ka ca) || false || existsb contains_block (ws ++ Node VALUE [Node kv cv] :: ws')). rewrite existsb_app, (blank_blocks _ FW).
      change (existsb contains_block (Node VALUE [Node kv cv] :: ws')) with (contains_block (Node kv cv) || false || existsb contains_block ws'). rewrite (blank_blocks _ FW'), S1, SM2. reflexivity.
    + unfold is_block_entry. cbn [children find is_node nkind_eqb]. rewrite blank_find by exact FW. cbn [find is_node nkind_eqb space]. change (contains_block (Node kv' cv') || false = contains_block (Node kv cv) || false). now rewrite SM2.
    + change (tag_schema (Node ka' ca') || false = tag_schema (Node ka ca) || false). now rewrite S3.
    + exact S2.
  - intros cl ts rest OK HT TL ST. destruct (kt_app _ _ _ HT) as (ta & tb & -> & Ha & Hb). destruct (kt_cons _ _ _ Hb) as (w & tc & -> & Kw & Tw & Hc). cbn [fst snd] in *. rewrite <- app_assoc in *. cbn [app] in *.
    destruct (P ta (w :: tc ++ rest) Ha TL ltac:(unfold tdelim; cbn [peek_kind]; rewrite Kw; cbn; tauto)) as [f1 R1]. destruct (PV cl tc rest OK Hc (tiled_cons _ _ (tiled_tail _ _ TL)) ST) as [f2 R2'].
    exists (1 + f1 + f2). intros [|f] Hf; [lia|]. cbn [parse_entry]. rewrite (begins_no_attr _ _ _ _ B BA Ha); [|cbn [map concat]; rewrite Tw; cbn [app gt_ahead]; change (is_blank cSP) with true; apply (begins_text _ _ _ _ B2 Hc)].
    rewrite start_more; [|exact OK|apply (begins_start _ _ _ _ B Ha)]. rewrite R1 by lia. cbn [bind]. change (w :: tc ++ rest) with ([w] ++ tc ++ rest). rewrite skip_blanks; [|constructor; [exact Kw|constructor]|apply start_nonblank; apply (begins_start _ _ _ _ B2 Hc)].
    rewrite R2' by lia. cbn [bind map app]. unfold leaf, space. now rewrite Kw, Tw.
Qed.

(** ** Every shape *)
Lemma tidy_tag m : forall s p, tidy (tag_node s m p) = true -> forallb tidy p = true.
Proof.
  induction m as [|x m IH]; intros s p H; cbn [tag_node tidy forallb tidy_node] in H.
  - rewrite !andb_true_r in H. exact H.
  - rewrite !andb_true_r in H. cbn [andb] in H. exact (IH _ _ H).
Qed.
Lemma vals_form vs h l : vals vs h l -> exists v r, vs = Node VALUE [v] :: r.
Proof. intros H. inversion H; subst; eauto. Qed.
Lemma blank_nonleaf ws : Forall blank_leaf ws -> filter (fun c => negb (is_leafb c)) ws = [].
Proof. induction 1 as [|w ws (u & ->) _ IH]; [reflexivity|exact IH]. Qed.
Lemma shapes_idem :
  (forall a h l, atom a h l -> tidy a = true -> Gatom a l) /\ (forall cs h l, items cs h l -> forallb tidy cs = true -> Forall item cs) /\
  (forall e h l, entry e h l -> tidy e = true -> Gent e) /\
  (forall vs h l, vals vs h l -> forallb tidy vs = true -> List.length (filter (fun c => negb (is_leafb c)) vs) <= 1 -> exists v ws, vs = Node VALUE [v] :: ws /\ Forall blank_leaf ws /\ Gval v) /\
  (forall v h l, value v h l -> tidy v = true -> Gval v) /\ (forall cs h l, attrs cs h l -> forallb tidy cs = true -> Gattrs cs) /\
  (forall x h l, attribute x h l -> tidy x = true -> Gattr x).
Proof.
  apply shapes_mut.
  - intros k t K V _. now apply scalar_atom.
  - intros _. apply unit_atom.
  - intros cs l t x _ _ _ _ _ _ _ _ H. cbn [tidy tidy_node] in H. rewrite andb_false_r in H. discriminate.
  - intros t s m V SP A _. now apply tag_atom.
  - intros t s m c h l V SP A _ IH PS H. apply tidy_tag in H. cbn [forallb tidy tidy_node] in H. rewrite !andb_true_r in H. apply tagp_atom; auto.
  - intros cs l _ IH H. cbn [tidy] in H. apply andb_prop in H as [H1 H2]. cbn [forallb tidy andb] in H1. rewrite forallb_app in H1. apply andb_prop in H1 as [H1 _]. apply object_atom; auto.
  - intros cs l _ IH EL H. cbn [tidy] in H. apply andb_prop in H as [H1 H2]. cbn [forallb tidy andb] in H1. rewrite forallb_app in H1. apply andb_prop in H1 as [H1 _]. apply seq_atom; auto.
  - constructor.
  - intros k t cs h l K _ IH H. constructor; [now apply im_gap|auto].
  - intros k t cs h l K V _ IH H. constructor; [now apply im_com|auto].
  - intros e h l _ IH H. cbn [forallb] in H. rewrite andb_true_r in H. constructor; [apply im_ent; auto|constructor].
  - intros e h0 l0 cs h l _ IH _ _ IH2 H. cbn [forallb] in H. apply andb_prop in H as [H1 H2]. constructor; [apply im_ent; auto|auto].
  - intros H. discriminate H.
  - intros cs h l _ _ H. cbn [tidy] in H. apply andb_prop in H as [_ H]. discriminate H.
  - intros a ws h l _ IH FW H. cbn [tidy forallb tidy_node] in H. apply andb_prop in H as [H _]. apply andb_prop in H as [H _]. rewrite !andb_true_r in H. apply (key_entry _ l); [exact (IH H)|exact FW].
  - intros a l ws vs h lv _ IH FW V IHv H. cbn [tidy] in H. apply andb_prop in H as [H1 H2]. cbn [forallb tidy tidy_node] in H1. apply andb_prop in H1 as [H1 H3]. rewrite !andb_true_r in H1. rewrite forallb_app in H3. apply andb_prop in H3 as [_ H3].
    destruct (IHv H3) as (v & ws' & -> & FW' & GV).
    { cbn [tidy_node filter is_leafb negb] in H2. rewrite filter_app, (blank_nonleaf _ FW) in H2. cbn [app] in H2. destruct (filter (fun c => negb (is_leafb c)) vs) as [|x [|y z]]; cbn; try lia. destruct x as [|[] ?]; discriminate. }
    apply (value_entry _ l); [exact (IH H1)|exact FW|exact GV|exact FW'].
  - intros v ws h l _ IH FW H _. cbn [forallb tidy tidy_node] in H. apply andb_prop in H as [H _]. rewrite !andb_true_r in H. exists v, ws. split; [reflexivity|]. split; [exact FW|exact (IH H)].
  - intros v ws l vs h lv _ _ FW V _ _ H. exfalso. destruct (vals_form _ _ _ V) as (v' & r & ->). cbn [filter is_leafb negb] in H. rewrite filter_app, (blank_nonleaf _ FW) in H. cbn in H. lia.
  - intros a h l _ IH H. apply (atom_value _ l). exact (IH H).
  - intros cs h l _ IH H. cbn [tidy tidy_node] in H. rewrite andb_true_r in H. apply attrs_value; auto.
  - intros x ws h l _ IH FW H. cbn [forallb] in H. apply andb_prop in H as [H _]. apply attrs_last; auto.
  - intros x ws l cs h l' _ IH FW _ IHc H. cbn [forallb] in H. rewrite forallb_app in H. apply andb_prop in H as [H1 H2]. apply andb_prop in H2 as [_ H2]. apply attrs_more; auto.
  - intros t a h l V _ IH H. cbn [tidy forallb tidy_node] in H. rewrite !andb_true_r in H. cbn [andb] in H. exists t, a, l. auto.
Qed.
End Idem.
