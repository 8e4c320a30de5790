(** Formatting tidy sources twice, by the shape of the tree. *)
From Coq Require Import String.
From Verif Require Import Base BaseProofs TokModel TokSpec TokProofs RetokProofs CstModel CstSpec CstProofs CstFmtModel CstFmtSpec CstShapeProofs.
From Verif Require Import AgreeProofs AgreeSim AgreeLex CstFmtProofs IdemSpec IdemRows IdemProofs.
Local Open Scope nat_scope.

Section Idem.
Variable indent : str.
Hypothesis BI : forallb is_blank indent = true.
Notation fmt := (format_node indent).
Notation ind := (ind indent).
Notation Cent := (Cent indent). Notation Celem := (Celem indent). Notation Catom := (Catom indent). Notation Gatom := (Gatom indent). Notation Gent := (Gent indent). Notation item := (item indent).
Notation arr := (arr indent). Notation prints := (prints indent). Notation wsy := (wsy indent).

Lemma same_entry_refl e : same_entry e e.
Proof. unfold same_entry. auto. Qed.
Lemma cent_rel lv : row_rel indent fmt lv (Cent lv).
Proof. intros e e' s l H. pose proof H as (A & B & C & D & E & F & G & P). splits; auto. repeat (split; [assumption|]). split; [apply same_entry_refl|exact P]. Qed.
Lemma celem_rel lv : row_rel indent (seq_element fmt) lv (Celem lv).
Proof. intros e e' s l H. pose proof H as (A & B & C & D & E & F & G & P). splits; auto. repeat (split; [assumption|]). split; [apply same_entry_refl|exact P]. Qed.

Lemma arr_forall (P : rw -> Prop) lv K w n d cs R : arr lv K w n d cs R ->
  (forall sep k t, In (Leaf (LTok k) t) cs -> k = LineComment \/ k = DocComment -> P (mkrw sep (Leaf (LTok k) t) t [(k, t)])) ->
  (forall sep e e' s l, K e e' s l -> P (mkrw sep e' s l)) -> Forall P R.
Proof.
  intros H HC HE. induction H; try (apply IHarr; intros; apply HC; [now right|assumption]); constructor; auto;
    try (apply HC; [now left|tauto]); try (eapply HE; eassumption); apply IHarr; intros; apply HC; [now right|assumption|now right|assumption|now right|assumption].
Qed.
Lemma fl_forall (P : rw -> Prop) K sp b cs R : fl K sp b cs R -> (forall sep e e' s l, K e e' s l -> P (mkrw sep e' s l)) -> Forall P R.
Proof. intros H HE. induction H; auto. constructor; auto. eapply HE; eassumption. Qed.

(** ** Brackets on several lines *)
Definition tailsep (lv : nat) : list sym := nls false ++ wsy lv.
Lemma tailsep_text lv : stext (tailsep lv) = cLF :: ind true lv.
Proof. unfold tailsep. rewrite stext_app, wsy_text. reflexivity. Qed.
Lemma rtext_lf lv K w n d cs R : arr lv K w n d cs R -> R <> [] -> rtext R = cLF :: tl (rtext R).
Proof.
  intros H N. apply arr_seps in H. destruct R as [|r R]; [contradiction|]. inversion_clear H as [|? ? (a & m & E) _]. unfold rtext. cbn [flat_map]. rewrite E, msep_text. reflexivity.
Qed.
Lemma multi_prints f lv K cs R o c d out b : row_rel indent f (S lv) K -> arr (S lv) K false 0 d cs R -> R <> [] ->
  f_write indent [c] (f_dedent (f_newline (lines indent f false 0 cs (f_indent (f_newline (f_write indent [o] (mkf out lv b))))))) =
  mkf (out ++ ind b lv ++ [o] ++ rtext R ++ stext (tailsep lv) ++ [c]) lv false.
Proof.
  intros HK A N. rewrite write_eq by discriminate. unfold f_newline at 2, f_indent. cbn [f_out f_level f_start].
  pose proof (arr_lines _ _ _ _ HK _ _ _ _ _ A ((out ++ ind b lv ++ [o]) ++ [cLF])) as E. cbn [negb] in E. rewrite E. destruct R as [|r R]; [contradiction|].
  unfold f_newline, f_dedent. cbn [f_out f_level f_start pred]. rewrite write_eq by discriminate. rewrite tailsep_text, (rtext_lf _ _ _ _ _ _ _ A) by discriminate. cbn [tl]. unfold char, str in *. rewrite <- ?app_assoc. cbn [app]. rewrite <- ?app_assoc. reflexivity.
Qed.
Lemma multi_reads f lv K cs R d o c ko kc : row_rel indent f (S lv) K -> arr (S lv) K false 0 d cs R -> reads Fany [o] [(ko, [o])] -> reads Fany [c] [(kc, [c])] -> is_blank c = false ->
  reads Fany ([o] ++ rtext R ++ stext (tailsep lv) ++ [c]) ((ko, [o]) :: rsyms R ++ tailsep lv ++ [(kc, [c])]).
Proof.
  intros HK A RO RC BC. change ((ko, [o]) :: rsyms R ++ tailsep lv ++ [(kc, [c])]) with ([(ko, [o])] ++ rsyms R ++ tailsep lv ++ [(kc, [c])]).
  apply (reads_app Fany); [exact RO| |intros; exact I]. apply (reads_app Fline); [apply (arr_lex _ BI _ _ _ HK _ _ _ _ _ A)| |intros r _; rewrite tailsep_text; right; eexists; reflexivity].
  apply (reads_app Fstart); [|exact RC|intros r _; exact BC]. unfold tailsep. rewrite stext_app. apply (reads_app Fany); [apply nls_reads|apply wsy_reads; exact BI|intros; exact I].
Qed.
Lemma tailsep_triv lv : triv (tailsep lv).
Proof. unfold tailsep. constructor; [split; [reflexivity|discriminate]|apply wsy_triv]. Qed.

(** ** Objects *)
Definition oleaf := Leaf (LTok LBrace) [cLB].
Definition cleaf := Leaf (LTok RBrace) [cRB].
Lemma object_parses c l2 : (forall ts x rest, map kt ts = l2 -> tiled (ts ++ x :: rest) -> tk_kind x = RBrace -> tk_text x = [cRB] -> runs (entries (Some RBrace) (ts ++ x :: rest)) c (x :: rest)) ->
  parses_atom (Node OBJECT (oleaf :: c ++ [cleaf])) ((LBrace, [cLB]) :: l2 ++ [(RBrace, [cRB])]).
Proof.
  intros H ts rest HT TL TD. destruct (kt_cons _ _ _ HT) as (o & ts' & -> & Ko & To & HT'). destruct (kt_app _ _ _ HT') as (t1 & t2 & -> & H1 & H2). destruct (kt_cons _ _ _ H2) as (x & y & -> & Kx & Tx & Hy). destruct y; [|discriminate].
  cbn [app] in *. rewrite <- !app_assoc in *. cbn [app] in *. cbn [fst snd] in *. destruct (H t1 x rest H1 (tiled_cons _ _ TL) Kx Tx) as [f0 R].
  exists (S f0). intros [|f] Hf; [lia|]. cbn [parse_atom peek_kind]. rewrite Ko. cbn [bump]. unfold entries in R. rewrite R by lia. cbn [bind skip]. rewrite Kx. cbn [is_trivia_kind peek_kind]. rewrite Kx. cbn [tkind_eqb bump app].
  unfold oleaf, cleaf, leaf. rewrite Ko, To, Kx, Tx. reflexivity.
Qed.
Lemma close_tail x rest : tk_kind x = RBrace -> tk_text x = [cRB] -> tail_ok (Some RBrace) (x :: rest) [] (x :: rest).
Proof.
  intros K T. assert (R : runs (entries (Some RBrace) (x :: rest)) [] (x :: rest)).
  { exists 1. intros [|f] Hf; [lia|]. unfold entries. cbn [parse_entries skip]. rewrite K. cbn [is_trivia_kind]. unfold skip_docs. cbn [peek_kind]. rewrite K. cbn [tkind_eqb orb peek_kind]. unfold closes. cbn [peek_kind]. rewrite K. reflexivity. }
  split; [now apply close_stop|]. split; [|split; [exact R|]].
  - exists [], (x :: rest). splits; auto; cbn; rewrite K; [intros [Q|Q]|]; discriminate.
  - exists [], (x :: rest), []. splits; [cbn [peek_kind]; rewrite K; reflexivity|reflexivity|exact R].
Qed.
Lemma lines_tail cl lv tl tail c te : map kt tl = tailsep lv -> tail_ok cl tail c te -> tail_ok cl (tl ++ tail) (leafs (tailsep lv) ++ c) te.
Proof.
  intros HT (ST & (w & t0 & -> & Hw & Hn & Hl) & R & _). unfold tailsep in HT. destruct (kt_cons _ _ _ HT) as (x & y & -> & Kx & Tx & Hy). cbn [fst snd] in *.
  assert (R' : runs (entries cl (y ++ w ++ t0)) (leafs (wsy lv) ++ c) te) by (rewrite <- Hy; apply triv_runs; [rewrite Hy; apply wsy_triv|exact R]).
  assert (L : leaf x = Leaf (LTok Newline) [cLF]) by (unfold leaf; now rewrite Kx, Tx).
  split; [now apply nl_stop|]. split; [|split].
  - exists ((x :: y) ++ w), t0. splits; auto; [now rewrite app_assoc|]. apply Forall_app. split; [|exact Hw]. constructor; [now right|]. apply triv_wn. rewrite Hy. apply wsy_triv.
  - unfold tailsep. cbn [nls leafs map app fst snd]. rewrite <- L. apply trivia_fwd; [now rewrite Kx|exact R'].
  - exists [leaf x], (y ++ w ++ t0), (leafs (wsy lv) ++ c). splits; [cbn [app peek_kind]; rewrite Kx; reflexivity|rewrite L; reflexivity|exact R'].
Qed.
Lemma cent_row lv sep e e' s l : Cent lv e e' s l -> erow (mkrw sep e' s l).
Proof. intros (_ & (cs & ->) & _ & _ & _ & B & _ & P). now apply er_ent. Qed.
Lemma multi_object lv K cs R d : row_rel indent fmt (S lv) K -> (forall sep e e' s l, K e e' s l -> erow (mkrw sep e' s l)) -> arr (S lv) K false 0 d cs R -> R <> [] ->
  parses_atom (Node OBJECT (oleaf :: (kids R ++ leafs (tailsep lv)) ++ [cleaf])) ((LBrace, [cLB]) :: (rsyms R ++ tailsep lv) ++ [(RBrace, [cRB])]).
Proof.
  intros HK HE A N. apply object_parses. intros ts x rest HT TL Kx Tx. destruct (kt_app _ _ _ HT) as (t1 & t2 & -> & H1 & H2). rewrite <- app_assoc in *.
  destruct R as [|r R]; [contradiction|]. pose proof (arr_seps _ _ _ _ _ _ _ _ A) as SP. inversion SP as [|? ? (a & m & E0) SP']; subst.
  pose proof (lines_tail _ _ _ _ _ _ H2 (close_tail x rest Kx Tx)) as TO. rewrite app_nil_r in TO.
  apply (proj2 (entries_rows _ _ _ _ (or_intror eq_refl) TO R r true d t1 ltac:(eapply arr_forall; [exact A|intros; now constructor|exact HE]) ltac:(rewrite E0; apply msep_triv) ltac:(eapply Forall_impl; [|exact SP']; intros ? (? & ? & ->); apply msep_esep) ltac:(eapply arr_followed; eassumption) H1 TL)).
Qed.
Definition csep : list sym := [(Comma, [cCOMMA]); (Whitespace, [cSP])].
Lemma csep_lex : seplex Fdelim csep.
Proof.
  split; [|intros x; right; eexists; eexists; split; [reflexivity|tauto]].
  apply (reads_app Fany Fstart [cCOMMA] [cSP] [_] [_]); [apply reads_mark; cbn; tauto|apply reads_blanks; [discriminate|reflexivity]|intros; exact I].
Qed.
Lemma inline_object lv cs R : fl (Cent lv) csep true cs R -> parses_atom (Node OBJECT (oleaf :: kids R ++ [cleaf])) ((LBrace, [cLB]) :: rsyms R ++ [(RBrace, [cRB])]).
Proof.
  intros A. apply object_parses. intros ts x rest HT TL Kx Tx. pose proof (close_tail x rest Kx Tx) as TO.
  destruct (fl_seps _ _ _ _ _ A) as [_ SP]. pose proof (fl_forall erow _ _ _ _ _ A (cent_row lv)) as ER.
  assert (FO : forall R, Forall erow R -> (forall r, In r R -> exists cs, r_node r = Node ENTRY cs) -> followed false false R).
  { clear. induction R as [|r R IH]; intros H I; [exact Logic.I|]. cbn [followed]. split; [discriminate|]. destruct (I r (or_introl eq_refl)) as (c & ->). apply IH; [now inversion H|]. intros; apply I; now right. }
  assert (NE : forall r, In r R -> exists cs, r_node r = Node ENTRY cs).
  { apply Forall_forall. apply (fl_forall _ _ _ _ _ _ A). intros sep e e' s l (_ & H & _). exact H. }
  destruct R as [|r R].
  - destruct ts; [|discriminate]. exact (proj1 (proj2 (proj2 TO))).
  - destruct (SP _ _ eq_refl) as [S1 S2]. rewrite <- (app_nil_r (kids (r :: R))).
    apply (proj2 (entries_rows _ _ _ _ (or_intror eq_refl) TO R r false false ts ER ltac:(rewrite S1; constructor) ltac:(eapply Forall_impl; [|exact S2]; cbn; intros ? ->; exists (Comma, [cCOMMA]), [(Whitespace, [cSP])]; splits; [reflexivity|now right|constructor; [split; [reflexivity|discriminate]|constructor]]) (FO _ ER NE) HT TL)).
Qed.

(** ** Sequences *)
Definition poleaf := Leaf (LTok LParen) [cLP].
Definition pcleaf := Leaf (LTok RParen) [cRP].
Lemma seq_parses c l2 : (forall ts x rest, map kt ts = l2 -> tiled (ts ++ x :: rest) -> tk_kind x = RParen -> runs (fun f => parse_elements f (ts ++ x :: rest)) c (x :: rest)) ->
  parses_atom (Node SEQUENCE (poleaf :: c ++ [pcleaf])) ((LParen, [cLP]) :: l2 ++ [(RParen, [cRP])]).
Proof.
  intros H ts rest HT TL TD. destruct (kt_cons _ _ _ HT) as (o & ts' & -> & Ko & To & HT'). destruct (kt_app _ _ _ HT') as (t1 & t2 & -> & H1 & H2). destruct (kt_cons _ _ _ H2) as (x & y & -> & Kx & Tx & Hy). destruct y; [|discriminate].
  cbn [app] in *. rewrite <- !app_assoc in *. cbn [app] in *. cbn [fst snd] in *. destruct (H t1 x rest H1 (tiled_cons _ _ TL) Kx) as [f0 R].
  exists (S f0). intros [|f] Hf; [lia|]. cbn [parse_atom peek_kind]. rewrite Ko. cbn [bump]. rewrite R by lia. cbn [bind peek_kind]. rewrite Kx. cbn [tkind_eqb bump app].
  unfold poleaf, pcleaf, leaf. rewrite Ko, To, Kx, Tx. reflexivity.
Qed.
Lemma close_elements x rest : tk_kind x = RParen -> runs (fun f => parse_elements f (x :: rest)) [] (x :: rest).
Proof. intros K. exists 1. intros [|f] Hf; [lia|]. cbn [parse_elements skip]. rewrite K. cbn [is_trivia_kind peek_kind]. rewrite K. reflexivity. Qed.
Lemma triv_el l : triv l -> eltriv l.
Proof. intros H. eapply Forall_impl; [|exact H]. cbn. tauto. Qed.
Lemma celem_row lv sep e e' s l : Celem lv e e' s l -> lrow (mkrw sep e' s l).
Proof. intros (_ & _ & _ & _ & _ & B & _ & a & -> & P). now apply lr_ent. Qed.
Lemma multi_seq lv K cs R d : row_rel indent (seq_element fmt) (S lv) K -> (forall sep e e' s l, K e e' s l -> lrow (mkrw sep e' s l)) -> existsb (is_leaf DocComment) cs = false -> arr (S lv) K false 0 d cs R -> R <> [] ->
  parses_atom (Node SEQUENCE (poleaf :: (kids R ++ leafs (tailsep lv)) ++ [pcleaf])) ((LParen, [cLP]) :: (rsyms R ++ tailsep lv) ++ [(RParen, [cRP])]).
Proof.
  intros HK HE ND A N. apply seq_parses. intros ts x rest HT TL Kx. destruct (kt_app _ _ _ HT) as (t1 & t2 & -> & H1 & H2). rewrite <- app_assoc in *.
  pose proof (arr_seps _ _ _ _ _ _ _ _ A) as SP.
  assert (LR : Forall lrow R).
  { eapply arr_forall; [exact A| |exact HE]. intros sep k t Hi [-> | ->]; [constructor|]. exfalso. assert (existsb (is_leaf DocComment) cs = true) by (apply existsb_exists; eexists; split; [exact Hi|reflexivity]). congruence. }
  apply elements_rows; auto.
  - destruct t2 as [|u t2]; [discriminate|]. destruct (kt_cons _ _ _ H2) as (u' & y & E & Ku & _). injection E as <- <-. cbn [fst] in Ku. unfold tdelim. cbn [app peek_kind]. rewrite Ku. cbn; tauto.
  - rewrite <- H2. rewrite <- (app_nil_r (leafs _)). apply eltriv_runs; [rewrite H2; apply triv_el, tailsep_triv|apply close_elements, Kx].
  - intros r R' ->. inversion SP as [|? ? (a & m & E0) SP']; subst. split; [rewrite E0; apply triv_el, msep_triv|]. eapply Forall_impl; [|exact SP']. intros r' (a' & m' & ->). split; [apply triv_el, msep_triv|]. unfold msep, nls. cbn [app]. eexists; eexists; split; [reflexivity|now left].
Qed.
Definition ssep : list sym := [(Whitespace, [cSP])].
Lemma ssep_lex : seplex Fdelim ssep.
Proof. split; [|intros x; right; eexists; eexists; split; [reflexivity|tauto]]. apply (reads_blanks [cSP]); [discriminate|reflexivity]. Qed.
Lemma inline_seq lv cs R : fl (Celem lv) ssep true cs R -> parses_atom (Node SEQUENCE (poleaf :: kids R ++ [pcleaf])) ((LParen, [cLP]) :: rsyms R ++ [(RParen, [cRP])]).
Proof.
  intros A. apply seq_parses. intros ts x rest HT TL Kx. destruct (fl_seps _ _ _ _ _ A) as [_ SP]. pose proof (fl_forall lrow _ _ _ _ _ A (celem_row lv)) as ER.
  rewrite <- (app_nil_r (kids R)). apply elements_rows; auto.
  - unfold tdelim. cbn [peek_kind]. rewrite Kx. cbn; tauto.
  - now apply close_elements.
  - intros r R' ->. destruct (SP _ _ eq_refl) as [S1 S2]. split; [rewrite S1; constructor|]. eapply Forall_impl; [|exact S2]. cbn. intros ? ->. split; [constructor; [reflexivity|constructor]|]. eexists; eexists; split; [reflexivity|now right].
Qed.
Lemma inline_reads f lv K sp cs R o c ko kc : row_rel indent f lv K -> seplex Fdelim sp -> fl K sp true cs R -> reads Fany [o] [(ko, [o])] -> reads Fany [c] [(kc, [c])] -> c = cRB \/ c = cRP ->
  reads Fany ([o] ++ rtext R ++ [c]) ((ko, [o]) :: rsyms R ++ [(kc, [c])]).
Proof.
  intros HK HS A RO RC HC. change ((ko, [o]) :: rsyms R ++ [(kc, [c])]) with ([(ko, [o])] ++ rsyms R ++ [(kc, [c])]).
  apply (reads_app Fany); [exact RO| |intros; exact I]. apply (reads_app Fdelim); [apply (fl_lex _ _ _ _ HK _ _ _ _ HS A)|exact RC|intros r _; apply delim_close; exact HC].
Qed.
Lemma inline_prints f lv K sp cs R o c out b : row_rel indent f lv K -> stext sp <> [] -> fl K sp true cs R ->
  f_write indent [c] (nodes_between indent f ENTRY (stext sp) cs (f_write indent [o] (mkf out lv b))) = mkf (out ++ ind b lv ++ [o] ++ rtext R ++ [c]) lv false.
Proof.
  intros HK NS A. rewrite write_eq by discriminate. rewrite (fl_prints _ _ _ _ HK _ _ _ _ NS A). rewrite write_eq by discriminate. cbn [CstFmtProofs.ind app]. rewrite <- !app_assoc. reflexivity.
Qed.

(** ** Brackets as the formatter sees them *)
Definition solid (cs : list cst) : Prop := Forall (fun c => is_node ENTRY c = true \/ exists k t, c = Leaf k t) cs.
Lemma blocks_filter cs : solid cs -> existsb contains_block cs = existsb contains_block (filter (is_node ENTRY) cs).
Proof. induction 1 as [|c cs H _ IH]; [reflexivity|]. cbn [existsb filter]. destruct H as [H|(k & t & ->)]; [rewrite H; cbn [existsb]; now rewrite IH|exact IH]. Qed.
Lemma entry_blocks cs : existsb (fun e => is_node ENTRY e && contains_block e) cs = existsb contains_block (filter (is_node ENTRY) cs).
Proof. induction cs as [|c cs IH]; [reflexivity|]. cbn [existsb filter]. destruct (is_node ENTRY c); cbn [existsb andb orb]; now rewrite IH. Qed.
Lemma items_solid cs : Forall item cs -> solid cs.
Proof. intros H. eapply Forall_impl; [|exact H]. intros c [k t _|k t _ _|e ((es & ->) & _)]; [right; eauto|right; eauto|left; reflexivity]. Qed.
Lemma leafs_solid l : solid (leafs l).
Proof. unfold leafs. apply Forall_map, Forall_forall. intros x _. right. eauto. Qed.
Lemma rows_solid R : Forall (fun r => is_node ENTRY (r_node r) = true \/ exists k t, r_node r = Leaf k t) R -> solid (kids R).
Proof. induction 1 as [|r R H _ IH]; [constructor|]. unfold kids. cbn [flat_map]. apply Forall_app. split; [|exact IH]. apply Forall_app. split; [apply leafs_solid|]. constructor; [exact H|constructor]. Qed.
Lemma same_blocks l l' : Forall2 same_entry l l' -> existsb contains_block l' = existsb contains_block l /\ existsb is_tag_with_block_payload l' = existsb is_tag_with_block_payload l /\ List.length l' = List.length l.
Proof.
  intros H. splits; [eapply forall2_exists; [|exact H]; intros x y (A & B & C & D); assumption|eapply forall2_exists; [|exact H]; intros x y (A & B & C & D); assumption|induction H; cbn; congruence].
Qed.
Lemma same_some cs cs' : Forall2 same_entry (filter (is_node ENTRY) cs) (filter (is_node ENTRY) cs') -> existsb (is_node ENTRY) cs' = existsb (is_node ENTRY) cs.
Proof. intros H. rewrite !filter_exists. inversion H; reflexivity. Qed.

Lemma object_empty cs st : existsb (is_node ENTRY) cs = false -> existsb is_comment cs = false -> fmt (Node OBJECT cs) st = f_write indent [cRB] (f_write indent [cLB] st).
Proof. intros A B. cbn [format_node]. rewrite A, B. reflexivity. Qed.
Lemma object_multi cs st : (existsb (is_node ENTRY) cs || existsb is_comment cs) = true -> (has_line_separator cs || existsb is_comment cs || existsb contains_block (filter (is_node ENTRY) cs)) = true ->
  fmt (Node OBJECT cs) st = f_write indent [cRB] (f_dedent (f_newline (lines indent fmt false 0 cs (f_indent (f_newline (f_write indent [cLB] st)))))).
Proof. intros A B. cbn [format_node]. rewrite entry_blocks, B. destruct (existsb (is_node ENTRY) cs), (existsb is_comment cs); try discriminate A; reflexivity. Qed.
Lemma object_inline cs st : existsb (is_node ENTRY) cs = true -> (has_line_separator cs || existsb is_comment cs || existsb contains_block (filter (is_node ENTRY) cs)) = false ->
  fmt (Node OBJECT cs) st = f_write indent [cRB] (nodes_between indent fmt ENTRY (stext csep) cs (f_write indent [cLB] st)).
Proof. intros A B. cbn [format_node]. rewrite entry_blocks, B, A. apply orb_false_iff in B as [B _]. apply orb_false_iff in B as [_ B]. rewrite B. reflexivity. Qed.

Definition seq_multi (comments seps : bool) (es : list cst) : bool :=
  let single := negb comments && (List.length es =? 1) in
  negb (single && negb (existsb contains_block es)) && negb (single && existsb is_tag_with_block_payload es) && (seps || comments).
Lemma seq_multi_same c b l l' : Forall2 same_entry l l' -> seq_multi c b l' = seq_multi c b l.
Proof. intros H. destruct (same_blocks _ _ H) as (A & B & C). unfold seq_multi. now rewrite A, B, C. Qed.
Lemma seq_empty cs st : existsb (is_node ENTRY) cs = false -> existsb is_comment cs = false -> fmt (Node SEQUENCE cs) st = f_write indent [cRP] (f_write indent [cLP] st).
Proof. intros A B. cbn [format_node]. rewrite A, B. reflexivity. Qed.
Lemma seq_many cs st : (existsb (is_node ENTRY) cs || existsb is_comment cs) = true -> seq_multi (existsb is_comment cs) (has_line_separator cs) (filter (is_node ENTRY) cs) = true ->
  fmt (Node SEQUENCE cs) st = f_write indent [cRP] (f_dedent (f_newline (lines indent (seq_element fmt) false 0 cs (f_indent (f_newline (f_write indent [cLP] st)))))).
Proof.
  unfold seq_multi. intros A B. apply andb_prop in B as [B B3]. apply andb_prop in B as [B1 B2]. cbn [format_node]. rewrite B1, B2, B3. apply negb_true_iff in B2. rewrite B2. cbn [andb orb].
  destruct (existsb (is_node ENTRY) cs), (existsb is_comment cs); try discriminate A; reflexivity.
Qed.
Lemma seq_one cs st : existsb (is_node ENTRY) cs = true -> seq_multi (existsb is_comment cs) (has_line_separator cs) (filter (is_node ENTRY) cs) = false ->
  existsb is_comment cs = false /\ fmt (Node SEQUENCE cs) st = f_write indent [cRP] (nodes_between indent (seq_element fmt) ENTRY (stext ssep) cs (f_write indent [cLP] st)).
Proof.
  unfold seq_multi. intros A B. assert (C : existsb is_comment cs = false).
  { destruct (existsb is_comment cs); [|reflexivity]. cbn [negb andb] in B. rewrite orb_true_r in B. discriminate. }
  split; [exact C|]. cbn [format_node]. rewrite C in *. rewrite A. cbn [negb andb orb] in *. rewrite !orb_false_r in *. rewrite B.
  destruct (List.length (filter (is_node ENTRY) cs) =? 1) eqn:L; cbn [andb]; [|reflexivity]. apply Nat.eqb_eq in L. destruct (existsb is_tag_with_block_payload _); [|reflexivity].
  rewrite (first_single indent _ (stext ssep) _ _ L). reflexivity.
Qed.

Lemma arr_close lv K w n d cs R k t : passed k -> arr lv K w n d cs R -> arr lv K w n d (cs ++ [Leaf (LTok k) t]) R.
Proof.
  intros P. induction 1; cbn [app].
  - apply arr_pass; [exact P|constructor].
  - now apply arr_nl.
  - now apply arr_pass.
  - now apply arr_comma.
  - now apply arr_line.
  - now apply arr_doc.
  - eapply arr_ent; eassumption.
Qed.
Lemma fl_close K sp b cs R k t : is_comment (Leaf k t) = false -> fl K sp b cs R -> fl K sp b (cs ++ [Leaf k t]) R.
Proof.
  intros C. induction 1; cbn [app].
  - apply fl_leaf; [exact C|constructor].
  - now apply fl_leaf.
  - eapply fl_ent; eassumption.
Qed.
Lemma tail_arr lv K k t : passed k -> forall w d n, arr (S lv) K w n d (leafs (tailsep lv) ++ [Leaf (LTok k) t]) [].
Proof.
  intros P w d n. unfold tailsep. cbn [nls leafs map app fst snd]. apply arr_nl. fold (leafs (wsy lv)). unfold wsy. destruct (ind true lv); cbn [leafs map app]; repeat (apply arr_pass; [first [exact P|left; reflexivity]|]); constructor.
Qed.
Lemma tail_newline lv x : has_line_separator (x ++ leafs (tailsep lv) ++ [cleaf]) = true /\ has_line_separator (x ++ leafs (tailsep lv) ++ [pcleaf]) = true.
Proof. unfold has_line_separator. rewrite !existsb_app. cbn. rewrite !orb_true_r. auto. Qed.
Lemma arr_rows lv K f w n d cs R : row_rel indent f lv K -> arr lv K w n d cs R -> Forall (fun r => is_node ENTRY (r_node r) = true \/ exists k t, r_node r = Leaf k t) R.
Proof. intros HK A. eapply arr_forall; [exact A|intros; right; cbn; eauto|]. intros sep e e' s l X. destruct (HK _ _ _ _ X) as (_ & (c & ->) & _). left. reflexivity. Qed.
Lemma fl_rows lv K f sp b cs R : row_rel indent f lv K -> fl K sp b cs R -> Forall (fun r => is_node ENTRY (r_node r) = true \/ exists k t, r_node r = Leaf k t) R.
Proof. intros HK A. eapply fl_forall; [exact A|]. intros sep e e' s l X. destruct (HK _ _ _ _ X) as (_ & (c & ->) & _). left. reflexivity. Qed.
Lemma fl_none_of (p : cst -> bool) lv K f sp b cs R : row_rel indent f lv K -> existsb p (leafs sp) = false -> (forall es, p (Node ENTRY es) = false) -> fl K sp b cs R -> existsb p (kids R) = false.
Proof.
  intros HK S N A. induction A as [b|b k t cs R C _ IH|b e e' s l cs R Ke _ IH]; auto. destruct (HK _ _ _ _ Ke) as (_ & (c & ->) & _). unfold kids. cbn [flat_map r_sep r_node]. rewrite !existsb_app. cbn [existsb]. rewrite N. unfold isep. destruct b; [exact IH|]. rewrite S. exact IH.
Qed.
End Idem.
