(** Formatting tidy sources twice: whole documents. *)
From Coq Require Import String.
From Verif Require Import Base BaseProofs TokModel TokSpec TokProofs RetokProofs CstModel CstSpec CstProofs CstFmtModel CstFmtSpec CstShapeProofs.
From Verif Require Import AgreeProofs AgreeSim AgreeLex CstFmtProofs IdemSpec IdemRows IdemProofs IdemShapes IdemAtoms.
Local Open Scope nat_scope.

Section Idem.
Variable indent : str.
Hypothesis BI : forallb is_blank indent = true.
Notation fmt := (format_node indent).
Notation Cent := (Cent indent). Notation Gent := (Gent indent). Notation item := (item indent). Notation prints := (prints indent).

(** What the blank lines of a document depend on: the number of the last entry, whether it declares a schema, and
    whether it has doc comments or is a block. *)
Definition past := option (nat * bool * bool).
Definition past_of (prev : option (cst * nat * bool)) : past :=
  match prev with Some (e, i, docs) => Some (i, is_schema_declaration e, docs || is_block_entry e) | None => None end.
Definition pblank (n : nat) (pv : past) : bool := (2 <=? n) || match pv with Some (i, s, b) => (i =? 1) && s || b | None => false end.
Lemma needs_past n prev : needs_blank n prev = pblank n (past_of prev).
Proof. destruct prev as [[[e i] d]|]; [|reflexivity]. unfold needs_blank, pblank. cbn. f_equal. now rewrite orb_assoc. Qed.
Definition next_past (pv : past) (e : cst) (d : bool) : past :=
  Some (match pv with Some (i, _, _) => S i | None => 1 end, is_schema_declaration e, d || is_block_entry e).
Definition dsep (w b : bool) : list sym := if w then nls b else [].

Inductive darr : bool -> bool -> nat -> past -> list cst -> list rw -> Prop :=
| da_nil : forall d w n pv, darr d w n pv [] []
| da_nl : forall d w n pv t cs R, darr d w (S n) pv cs R -> darr d w n pv (Leaf (LTok Newline) t :: cs) R
| da_ws : forall d w n pv t cs R, darr d w n pv cs R -> darr d w n pv (Leaf (LTok Whitespace) t :: cs) R
| da_comma : forall w n pv t cs R, darr false w n pv cs R -> darr false w n pv (Leaf (LTok Comma) t :: cs) R
| da_line : forall w n pv t cs R, valid LineComment t -> darr false true 0 pv cs R ->
    darr false w n pv (Leaf (LTok LineComment) t :: cs) (mkrw (dsep w (2 <=? n)) (Leaf (LTok LineComment) t) t [(LineComment, t)] :: R)
| da_doc : forall d w n pv t cs R, valid DocComment t -> darr true true 0 pv cs R ->
    darr d w n pv (Leaf (LTok DocComment) t :: cs) (mkrw (dsep w (negb d && pblank n pv)) (Leaf (LTok DocComment) t) t [(DocComment, t)] :: R)
| da_ent : forall d w n pv e e' s l cs R, Cent 0 e e' s l -> darr false true 0 (next_past pv e d) cs R ->
    darr d w n pv (e :: cs) (mkrw (dsep w (negb d && (pblank n pv || is_block_entry e))) e' s l :: R).

Lemma darr_exists cs : Forall item cs -> forall d w n pv, docs_belong d cs = true -> exists R, darr d w n pv cs R.
Proof.
  induction 1 as [|c cs Hc _ IH]; intros d w n pv D; [exists []; constructor|]. destruct Hc as [k t Hk|k t Hk V|e ((es & ->) & G)].
  - destruct Hk as [->|[-> | ->]]; cbn [docs_belong] in D.
    + destruct (IH d w n pv D) as [R A]. exists R. now apply da_ws.
    + destruct (IH d w (S n) pv D) as [R A]. exists R. now apply da_nl.
    + apply andb_prop in D as [D1 D]. apply negb_true_iff in D1. subst d. destruct (IH false w n pv D) as [R A]. exists R. now apply da_comma.
  - destruct Hk as [-> | ->]; cbn [docs_belong] in D.
    + apply andb_prop in D as [D1 D]. apply negb_true_iff in D1. subst d. destruct (IH false true 0 pv D) as [R A]. eexists. apply da_line; eauto.
    + destruct (IH true true 0 pv D) as [R A]. eexists. apply da_doc; eauto.
  - destruct (G 0) as [(e' & s & l & Ke) _]. cbn [docs_belong] in D. destruct (IH false true 0 (next_past pv (Node ENTRY es) d) D) as [R A]. eexists. eapply da_ent; eauto.
Qed.
Lemma ind0 b : CstFmtProofs.ind indent b 0 = [].
Proof. destruct b; reflexivity. Qed.
Definition gap (w b : bool) (st : fstate) : fstate := if w then let st0 := f_newline st in if b then f_newline st0 else st0 else st.
Lemma gap_write w b out t : t <> [] -> f_write indent t (gap w b (mkf out 0 (negb w))) = mkf (out ++ stext (dsep w b) ++ t) 0 false.
Proof. intros N. destruct w, b; unfold gap, f_newline; cbn [f_out f_level f_start negb]; rewrite write_eq, ind0 by exact N; cbn [dsep nls stext map concat snd app]; rewrite <- ?app_assoc; reflexivity. Qed.
Lemma gap_entry w b out e s : prints fmt 0 e s -> fmt e (gap w b (mkf out 0 (negb w))) = mkf (out ++ stext (dsep w b) ++ s) 0 false.
Proof. intros P. destruct w, b; unfold gap, f_newline; cbn [f_out f_level f_start negb]; rewrite P, ind0; cbn [dsep nls stext map concat snd app]; rewrite <- ?app_assoc; reflexivity. Qed.
Lemma darr_lines d w n pv cs R : darr d w n pv cs R -> forall before prev out, has_docs before = d -> past_of prev = pv ->
  doc_lines indent fmt before w n prev d cs (mkf out 0 (negb w)) = match R with [] => mkf out 0 (negb w) | _ => mkf (out ++ rtext R) 0 false end.
Proof.
  assert (FIN : forall (R : list rw) out a b r, rtext (r :: R) = a ++ b ++ rtext R -> match R with [] => mkf (out ++ a ++ b) 0 false | _ => mkf ((out ++ a ++ b) ++ rtext R) 0 false end = mkf (out ++ rtext (r :: R)) 0 false).
  { intros R0 out a b r E. rewrite E. destruct R0; [cbn [rtext flat_map]; now rewrite app_nil_r|]. now rewrite <- !app_assoc. }
  induction 1 as [d w n pv|d w n pv t cs R _ IH|d w n pv t cs R _ IH|w n pv t cs R _ IH|w n pv t cs R V _ IH|d w n pv t cs R V _ IH|d w n pv e e' s l cs R Ke _ IH]; intros before prev out HD HP.
  - reflexivity.
  - cbn [doc_lines]. apply IH; assumption.
  - cbn [doc_lines]. apply IH; assumption.
  - cbn [doc_lines]. apply IH; [reflexivity|assumption].
  - cbn [doc_lines]. change (separate w n (mkf out 0 (negb w))) with (gap w (2 <=? n) (mkf out 0 (negb w))). rewrite gap_write by apply V.
    etransitivity; [apply (IH _ prev _); [reflexivity|exact HP]|]. cbn [negb]. apply (FIN R out (stext (dsep w (2 <=? n))) t). unfold rtext. cbn [flat_map r_sep r_text]. now rewrite <- app_assoc.
  - cbn [doc_lines]. rewrite needs_past, HP. cbv zeta. change (if w then if negb d && pblank n pv then f_newline (f_newline (mkf out 0 (negb w))) else f_newline (mkf out 0 (negb w)) else mkf out 0 (negb w)) with (gap w (negb d && pblank n pv) (mkf out 0 (negb w))). rewrite gap_write by apply V.
    etransitivity; [apply (IH _ prev _); [reflexivity|exact HP]|]. cbn [negb]. eapply FIN. unfold rtext. cbn [flat_map r_sep r_text]. now rewrite <- app_assoc.
  - destruct Ke as ((es & ->) & _ & P & _). cbn [doc_lines]. rewrite needs_past, HP. cbv zeta.
    change (if w then if negb d && (pblank n pv || is_block_entry (Node ENTRY es)) then f_newline (f_newline (mkf out 0 (negb w))) else f_newline (mkf out 0 (negb w)) else mkf out 0 (negb w)) with (gap w (negb d && (pblank n pv || is_block_entry (Node ENTRY es))) (mkf out 0 (negb w))).
    rewrite (gap_entry _ _ _ _ _ P). etransitivity; [apply IH; [reflexivity|]|].
    + unfold past_of, next_past. rewrite HD. subst pv. destruct prev as [[[pe pi] pd]|]; reflexivity.
    + cbn [negb]. eapply FIN. unfold rtext. cbn [flat_map r_sep r_text]. now rewrite <- app_assoc.
Qed.
Lemma dsep_back d w pv (b : bool) c cs R : (forall m, (w = true -> m = if b then 2 else 1) -> darr d w m pv (c :: cs) R) -> darr d w 0 pv (leafs (dsep w b) ++ c :: cs) R.
Proof.
  intros H. unfold dsep, nls. destruct w; [|apply H; discriminate]. destruct b; cbn [leafs map app fst snd].
  - apply da_nl, da_nl, H. reflexivity.
  - apply da_nl, H. reflexivity.
Qed.
Lemma pblank_back n pv (b : bool) : b = pblank n pv -> pblank (if b then 2 else 1) pv = b.
Proof. intros ->. destruct (pblank n pv) eqn:E; [reflexivity|]. unfold pblank in *. apply orb_false_iff in E as [_ E]. rewrite E. reflexivity. Qed.
Lemma darr_back d w n pv cs R tail : darr d w n pv cs R -> (forall d w n pv, darr d w n pv tail []) -> darr d w 0 pv (kids R ++ tail) R.
Proof.
  intros H HT. induction H as [d w n pv|d w n pv t cs R _ IH|d w n pv t cs R _ IH|w n pv t cs R _ IH|w n pv t cs R V _ IH|d w n pv t cs R V _ IH|d w n pv e e' s l cs R Ke _ IH]; auto; try apply HT.
  - unfold kids. cbn [flat_map r_sep r_node]. rewrite <- !app_assoc. apply dsep_back. intros m E.
    assert (dsep w (2 <=? n) = dsep w (2 <=? m)) as ->. { destruct w; [|reflexivity]. rewrite (E eq_refl). destruct (2 <=? n); reflexivity. }
    apply da_line; [exact V|exact IH].
  - unfold kids. cbn [flat_map r_sep r_node]. rewrite <- !app_assoc. apply dsep_back. intros m E.
    assert (dsep w (negb d && pblank n pv) = dsep w (negb d && pblank m pv)) as ->.
    { destruct w; [|reflexivity]. rewrite (E eq_refl). destruct d; [reflexivity|]. cbn [negb andb]. f_equal. symmetry. eapply pblank_back. reflexivity. }
    apply da_doc; [exact V|exact IH].
  - pose proof Ke as (_ & (es' & ->) & _ & P2 & R2 & B2 & (S1 & S2 & S3 & S4) & PE). unfold kids. cbn [flat_map r_sep r_node]. rewrite <- !app_assoc. apply dsep_back. intros m E.
    assert (dsep w (negb d && (pblank n pv || is_block_entry e)) = dsep w (negb d && (pblank m pv || is_block_entry (Node ENTRY es')))) as ->.
    { rewrite S2. destruct w; [|reflexivity]. rewrite (E eq_refl). destruct d; [reflexivity|]. cbn [negb andb]. f_equal. destruct (is_block_entry e); [now rewrite !orb_true_r|]. rewrite !orb_false_r. symmetry. eapply pblank_back. reflexivity. }
    apply (da_ent _ _ _ _ (Node ENTRY es')); [apply (cent_rel indent 0 _ _ _ _ Ke)|].
    assert (next_past pv (Node ENTRY es') d = next_past pv e d) as -> by (unfold next_past; now rewrite S2, S3). exact IH.
Qed.
Lemma dsep_triv w b : triv (dsep w b).
Proof. destruct w, b; repeat constructor; try discriminate. Qed.
Lemma darr_rows d w n pv cs R : darr d w n pv cs R -> Forall erow R.
Proof.
  induction 1 as [d w n pv|d w n pv t cs R _ IH|d w n pv t cs R _ IH|w n pv t cs R _ IH|w n pv t cs R V _ IH|d w n pv t cs R V _ IH|d w n pv e e' s l cs R Ke _ IH]; auto; constructor; auto; try (constructor; tauto). apply (cent_row indent 0 _ _ _ _ _ Ke).
Qed.
Lemma darr_seps d w n pv cs R : darr d w n pv cs R -> (forall r R', R = r :: R' -> (exists b, r_sep r = dsep w b) /\ Forall (fun r => exists b, r_sep r = dsep true b) R').
Proof.
  induction 1 as [d w n pv|d w n pv t cs R _ IH|d w n pv t cs R _ IH|w n pv t cs R _ IH|w n pv t cs R V _ IH|d w n pv t cs R V _ IH|d w n pv e e' s l cs R Ke _ IH]; intros r0 R' E; try (exact (IH _ _ E)); try discriminate E;
    injection E as <- <-; (split; [eexists; reflexivity|]); (destruct R as [|r1 R1]; constructor; destruct (IH _ _ eq_refl); assumption).
Qed.
Lemma darr_followed d w n pv cs R : darr d w n pv cs R -> forall cm, followed cm d R.
Proof.
  induction 1 as [d w n pv|d w n pv t cs R _ IH|d w n pv t cs R _ IH|w n pv t cs R _ IH|w n pv t cs R V _ IH|d w n pv t cs R V _ IH|d w n pv e e' s l cs R Ke _ IH]; intros cm; auto; cbn [followed r_sep r_node]; try exact I; try (split; [intros _; apply dsep_triv|]); auto.
  destruct Ke as (_ & (es & ->) & _). apply IH.
Qed.
Lemma dsep_lex b : seplex Fline (dsep true b).
Proof.
  split; [intros r _; apply nls_reads; exact I|]. intros x. right. destruct b; eexists; reflexivity.
Qed.
Lemma darr_lex d w n pv cs R : darr d w n pv cs R -> reads Fline (rtext R) (rsyms R).
Proof.
  intros H. apply rows_lex.
  - induction H as [d w n pv|d w n pv t cs R _ IH|d w n pv t cs R _ IH|w n pv t cs R _ IH|w n pv t cs R V _ IH|d w n pv t cs R V _ IH|d w n pv e e' s l cs R Ke _ IH]; auto; constructor; auto; try (apply com_rowlex; tauto).
    destruct Ke as (_ & _ & _ & _ & A & B & _). apply ent_rowlex; auto. apply line_delim.
  - intros r R' E. destruct (darr_seps _ _ _ _ _ _ H _ _ E) as [[b Hb] HR]. split.
    + rewrite Hb. destruct w; [apply dsep_lex|intros x _; apply lexes_nil].
    + eapply Forall_impl; [|exact HR]. intros a [b' ->]. apply dsep_lex.
Qed.

(** ** Reading the formatted text *)
Lemma reads_tokens s l : reads Fline s l -> exists ts, tokens s = Some ts /\ map kt ts = l.
Proof.
  intros R. destruct (R [] (or_introl eq_refl) 0) as (p' & S). rewrite app_nil_r in S.
  destruct (steps_tokens _ _ _ S 1 [] eq_refl) as (f & ts & T & E). exists ts. split; [eapply tokens_any_fuel; exact T|]. now rewrite E, app_nil_r.
Qed.
Lemma eof_tail e : tk_kind e = Eof -> tk_text e = [] -> tail_ok None [e] [] [e].
Proof.
  intros K T. assert (R : runs (entries None [e]) [] [e]).
  { exists 1. intros [|f] Hf; [lia|]. unfold entries. cbn [parse_entries skip]. rewrite K. cbn [is_trivia_kind]. unfold skip_docs. cbn [peek_kind]. rewrite K. cbn [tkind_eqb orb peek_kind]. rewrite K. reflexivity. }
  split; [now apply eof_stop|]. split; [|split; [exact R|]].
  - exists [], [e]. splits; auto; cbn; rewrite K; [intros [Q|Q]|]; discriminate.
  - exists [], [e], []. splits; [cbn [peek_kind]; rewrite K; reflexivity|reflexivity|exact R].
Qed.
Lemma nl_tail x e : tk_kind x = Newline -> tk_text x = [cLF] -> tk_kind e = Eof -> tk_text e = [] -> tail_ok None [x; e] [Leaf (LTok Newline) [cLF]] [e].
Proof.
  intros Kx Tx K T. destruct (eof_tail e K T) as (_ & _ & R & _). assert (L : leaf x = Leaf (LTok Newline) [cLF]) by (unfold leaf; now rewrite Kx, Tx).
  split; [now apply nl_stop|]. split; [|split].
  - exists [x], [e]. splits; [reflexivity|constructor; [now right|constructor]|cbn; rewrite K; intros [Q|Q]; discriminate|cbn; rewrite K; discriminate].
  - rewrite <- L. change [x; e] with (x :: [e]). apply trivia_fwd; [now rewrite Kx|exact R].
  - exists [leaf x], [e], []. splits; [cbn [peek_kind]; rewrite Kx; reflexivity|now rewrite L|exact R].
Qed.
Lemma parse_rows d n pv cs R tl s : darr d false n pv cs R -> d = false -> R <> [] -> (tl = [] \/ tl = [(Newline, [cLF])]) -> s = rtext R ++ stext tl -> cst_parse s = Ok (Node DOCUMENT (kids R ++ leafs tl), []).
Proof.
  intros A -> NR HT ->. set (s := rtext R ++ stext tl).
  assert (RS : reads Fline s (rsyms R ++ tl)).
  { apply (reads_app Fline); [eapply darr_lex; exact A| |].
    - destruct HT as [-> | ->]; [intros x _; apply lexes_nil|]. apply (reads_weaken Fany); [intros; exact I|apply (reads_mark Newline cLF); cbn; tauto].
    - intros r F. destruct HT as [-> | ->]; [exact F|]. right. eexists. reflexivity. }
  destruct (reads_tokens _ _ RS) as (ts & T & Hk). destruct (kt_app _ _ _ Hk) as (t1 & t2 & -> & H1 & H2).
  destruct (cst_parse_covers s) as (ts' & tr & errs & T' & Ep & _). rewrite T in T'. injection T' as <-. set (e := mktok Eof (mkspan (blen s) (blen s)) []).
  assert (TO : tail_ok None (t2 ++ [e]) (leafs tl) [e]).
  { destruct HT as [-> | ->]; [destruct t2; [|discriminate]; now apply eof_tail|]. destruct (kt_cons _ _ _ H2) as (x & y & -> & Kx & Tx & Hy). destruct y; [|discriminate]. now apply nl_tail. }
  assert (TL : tiled (t1 ++ t2 ++ [e])).
  { destruct (tokens_from_tiles _ _ _ T (or_introl eq_refl)) as [_ X]. cbn in X. exists 0, (blen s). rewrite app_assoc. clear - X. revert X. generalize 0. generalize (t1 ++ t2). intros ts. induction ts as [|u ts IH]; intros p X; cbn in *.
    - subst p. auto.
    - destruct X as (X0 & X1 & X). auto. }
  destruct R as [|r R]; [contradiction|]. destruct (darr_seps _ _ _ _ _ _ A _ _ eq_refl) as [[b Hb] HR].
  destruct (entries_rows None (t2 ++ [e]) (leafs tl) [e] (or_introl eq_refl) TO R r false false t1 (darr_rows _ _ _ _ _ _ A) ltac:(rewrite Hb; apply dsep_triv)
    ltac:(eapply Forall_impl; [|exact HR]; intros ? [b' ->]; exists (Newline, [cLF]), (if b' then [(Newline, [cLF])] else []); splits; [reflexivity|now left|destruct b'; repeat constructor; discriminate])
    (darr_followed _ _ _ _ _ _ A false) H1 TL) as [_ [f0 RU]].
  unfold cst_parse, token_stream in *. rewrite T in *. cbn [option_map of_opt bind] in *. fold e in Ep |- *. rewrite <- app_assoc in *. destruct (parse_entries (8 * List.length (t1 ++ t2 ++ [e]) + 8) None (t1 ++ t2 ++ [e])) as [[[c' e'] te']| |] eqn:Er; try discriminate Ep.
  apply (entries_mono _ (f0 + (8 * List.length (t1 ++ t2 ++ [e]) + 8))) in Er; [|lia]. unfold entries in RU. rewrite RU in Er by lia. injection Er as <- <- <-. reflexivity.
Qed.

Theorem tidy_twice src tree out : cst_parse src = Ok (tree, []) -> tidy tree = true -> format_source indent src = Ok out -> format_source indent out = Ok out.
Proof.
  intros EP TD EF. destruct (cst_parse_covers src) as (ts & tr & errs & T & _). destruct (cst_parse_shape _ _ _ EP T) as (cs & h & -> & IT).
  cbn [tidy tidy_node] in TD. apply andb_prop in TD as [T1 T2]. pose proof (proj1 (proj2 (shapes_idem indent BI)) _ _ _ IT T1) as ITS.
  destruct (darr_exists cs ITS false false 0 None T2) as [R A]. unfold format_source in EF. rewrite EP in EF. cbn [bind] in EF. injection EF as <-. unfold format_cst. cbn [format_node]. unfold f_new. pose proof (darr_lines _ _ _ _ _ _ A [] None [] eq_refl eq_refl) as EDL. cbn [negb] in EDL. rewrite EDL. clear EDL. destruct R as [|r R]; [reflexivity|].
  remember (r :: R) as RR eqn:ER. assert (NR : RR <> []) by (subst; discriminate). cbn [app]. unfold f_finish. cbn [f_out]. destruct (rtext RR) as [|c0 t0] eqn:ET.
  { reflexivity. }
  rewrite <- ET.
  assert (G : forall tl, tl = [] \/ tl = [(Newline, [cLF])] -> f_finish (mkf (rtext RR) 0 false) = rtext RR ++ stext tl -> format_source indent (rtext RR ++ stext tl) = Ok (rtext RR ++ stext tl)).
  { intros tl HT EFI. unfold format_source. rewrite (parse_rows _ _ _ _ _ _ _ A eq_refl NR HT eq_refl). cbn [bind]. unfold format_cst. cbn [format_node].
    assert (A' : darr false false 0 None (kids RR ++ leafs tl) RR).
    { apply (darr_back _ _ _ _ _ _ _ A). intros d w n pv. destruct HT as [-> | ->]; [constructor|apply da_nl; constructor]. }
    unfold f_new. pose proof (darr_lines _ _ _ _ _ _ A' [] None [] eq_refl eq_refl) as EDL. cbn [negb] in EDL. rewrite EDL. clear EDL. destruct RR; [contradiction|]. cbn [app]. rewrite EFI. reflexivity. }
  destruct (last (rtext RR) 0%N =? cLF)%N eqn:EL.
  - rewrite <- (app_nil_r (rtext RR)). apply (G []); [now left|]. unfold f_finish. cbn [f_out]. rewrite EL, ET. cbn. now rewrite app_nil_r.
  - apply (G [(Newline, [cLF])]); [now right|]. unfold f_finish. cbn [f_out]. rewrite EL, ET. reflexivity.
Qed.
End Idem.
