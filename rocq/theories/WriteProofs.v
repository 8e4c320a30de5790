(** The writer produces one of the layouts of RoundProofs.v for every value of the fragment in WriteSpec.v. *)
From Verif Require Import Base BaseProofs TokModel LexModel LexSpec FmtSpec EscapeProofs LexRunProofs ParseModel TreeModel TreeSpec FmtModel ScalarProofs PropFmt
  GrammarSpec RelexProofs WriteSpec RoundProofs.

Definition blank_indent (o : opts) : Prop := forall c, In c (o_indent o) -> c = cSP \/ c = cTAB.

Lemma repeat_blanks n s : (forall c, In c s -> c = cSP \/ c = cTAB) -> blanks (repeat_str n s).
Proof. intros H. induction n as [|n IH]; cbn [repeat_str]; intros c Hc; [destruct Hc|]. apply in_app_or in Hc as [Hc|Hc]; auto. Qed.

Lemma scalar_text_nonempty o q s : scalar_text o q s <> [].
Proof.
  unfold scalar_text. destruct (negb q && can_be_bare s) eqn:E; [intros ->; now rewrite andb_false_r in E|]. destruct (o_heredoc o <=? count_newlines s); [discriminate|]. destruct ((3 <? count_escapes s) && _); [unfold raw_text|unfold quoted_text]; discriminate.
Qed.

Lemma scalar_text_as o q s : line_feeds s < o_heredoc o -> no_gt_word s -> scalar_as s (scalar_text o q s).
Proof.
  intros Hn Hg. split; [apply scalar_text_nonempty|]. intros rest Hr. unfold scalar_text. destruct (negb q && can_be_bare s) eqn:E.
  - apply andb_prop in E as [_ E2]. exists Bare. apply reads_bare; [apply can_be_bare_text; auto|now apply soft_scalar_ends|]. intros _ x. now apply soft_no_quote.
  - rewrite count_newlines_occ. replace (o_heredoc o <=? newlines s) with false by (symmetry; apply Nat.leb_gt; exact Hn).
    destruct ((3 <? count_escapes s) && negb (contains_sub [cDQ; cHASH] s)) eqn:E2; [|exists Quoted; apply reads_quoted_text].
    exists Raw. apply reads_raw_one. intros Ho. apply contains_sub_iff in Ho. rewrite Ho in E2. now rewrite andb_false_r in E2.
Qed.

Lemma line_text_as o q s : no_gt_word s -> (exists u, s = u ++ [cLF]) -> (exists d, In d delimiters /\ ~ occurs d s) -> line_as s (scalar_text o q s).
Proof. intros Hg He Hd. split; [apply scalar_text_nonempty|]. intros rest Hr. apply C14_line_partial; auto. Qed.

Lemma format_key_layout root k : key_fine root k -> exists kt, format_key k = Some kt /\ wkey root k kt.
Proof. destruct 1 as [s k a b H1 H2|b|n t b H|n t s k a b H1 H2 H3 H4]; eexists; (split; [reflexivity|]); cbn [v_tag v_payload app]; constructor; try constructor; auto. Qed.

(** ** Values *)

Fixpoint format_items (l : list value) (w : writer) : res writer :=
  match l with
  | [] => Ok w
  | x :: r => do w1 <- format_val x w; format_items r w1
  end.

Lemma format_seq tag items a b w0 : format_val (Val tag (PSeq items a) b) w0 =
  (do w' <- format_items items (match tag with Some (n, _) => begin_seq_after_tag (write_tag n w0) | None => begin_seq w0 end); Ok (end_seq w')).
Proof. destruct tag as [[n sp]|]; reflexivity. Qed.
Lemma format_obj tag es a b w0 : format_val (Val tag (PObj es a) b) w0 =
  (do w' <- format_entries es (match tag with Some (n, _) => begin_struct_after_tag (wants_multiline es) (write_tag n w0) | None => begin_struct false (wants_multiline es) w0 end); Ok (end_struct w')).
Proof. destruct tag as [[n sp]|]; reflexivity. Qed.

(** Sequences are always written on one line. *)
Definition flat (w : writer) : Prop := match w_stack w with CSeq _ i :: _ => i = true | _ => True end.
Definition gap (w : writer) : str := if w_skip w then [] else match w_stack w with CSeq false _ :: _ => [cSP] | _ => [] end.

Lemma before_value_eq w : flat w -> before_value w = mkw (w_out w ++ gap w) (seq_not_first (w_stack w)) (w_opts w) false (w_quote w).
Proof.
  unfold flat, before_value, gap. destruct w as [out st o sk q]. cbn. destruct sk; [now rewrite app_nil_r|]. destruct st as [|[? ? ? ? ? ?|[] i] r]; cbn; rewrite ?app_nil_r; try reflexivity. intros ->. reflexivity.
Qed.

Definition unitb (v : value) : bool := match v with Val None PNone _ => true | _ => false end.
Lemma unitb_not v : ~ is_unit v -> unitb v = false.
Proof. destruct v as [[]p sp]; [reflexivity|]. destruct p; try reflexivity. intros H. destruct H. now exists sp. Qed.
Lemma solid_not_unit v : solid v -> unitb v = false.
Proof. intros [H|(s & k & a & b & ->)]; [|reflexivity]. destruct v as [[] []]; try discriminate; reflexivity. Qed.

Definition same_place (w w' : writer) : Prop := w_opts w' = w_opts w.

(** Every object being written is written on several lines; such a stack is not changed by doc comments further in. *)
Definition settled (st : list ctx) : Prop := Forall (fun c => match c with CStruct _ false m _ _ _ => m = true | _ => True end) st.

Lemma settled_not_first st : settled st -> settled (seq_not_first st).
Proof. destruct st as [|[]]; auto. intros H. inversion H; subst. now constructor. Qed.

Lemma open_fixes_settled cs : settled cs -> forall d, open_fixes d cs = (cs, []).
Proof.
  induction 1 as [|c cs Hc _ IH]; intros d; [reflexivity|]. cbn [open_fixes]. destruct c as [a [] m i l [br|]|a i]; rewrite ?IH; try reflexivity. cbn in Hc. subst m. now rewrite andb_false_r.
Qed.

Lemma propagate_settled out st o sk q : settled st -> propagate (mkw out st o sk q) = mkw out st o sk q.
Proof.
  intros H. unfold propagate. cbn [w_stack w_out w_opts w_skip w_quote].
  assert (filter to_fix st = [] /\ map clear_commas st = st) as [-> ->].
  { induction H as [|c st Hc _ [IH1 IH2]]; [auto|]. cbn [filter map]. assert (to_fix c = false) as E by (destruct c as [a [] [] i l br|]; try reflexivity; cbn in Hc; discriminate).
    unfold clear_commas. rewrite E. unfold clear_commas in IH2. rewrite IH1, IH2. auto. }
  cbn [flat_map sort_nat fold_right]. rewrite open_fixes_settled by (apply Forall_rev; exact H). cbn [fold_right]. now rewrite rev_involutive.
Qed.

Definition style_ok (dk : bool) (w : writer) : Prop := dk = true -> o_style (w_opts w) <> StInline.

(** [sc] and [ln] are whatever is true of the texts of scalars: anywhere, and at the end of a line. *)
Section layouts.
Variables sc ln : str -> str -> Prop.
Hypothesis Hsc : forall o q s, line_feeds s < o_heredoc o -> no_gt_word s -> sc s (scalar_text o q s).
Hypothesis Hln : forall o q s, no_gt_word s -> (exists u, s = u ++ [cLF]) -> (exists d, In d delimiters /\ ~ occurs d s) -> ln s (scalar_text o q s).

Definition writes_val (dk : bool) (h : nat) (v : value) : Prop := forall w, flat w -> blank_indent (w_opts w) -> o_heredoc (w_opts w) = h -> style_ok dk w ->
  (dk = true -> bracketed v = true -> settled (w_stack w)) ->
  exists w' t, format_val v w = Ok w' /\ w_out w' = w_out w ++ (if unitb v then [] else gap w) ++ t /\ wvx sc v t /\
    w_stack w' = (if unitb v then w_stack w else seq_not_first (w_stack w)) /\ w_opts w' = w_opts w /\ (bracketed v = false -> solid v -> w_skip w' = false).
Definition writes_items (dk : bool) (h : nat) (items : list value) : Prop := forall w first r b, w_stack w = CSeq first true :: r -> blank_indent (w_opts w) -> o_heredoc (w_opts w) = h -> style_ok dk w ->
  (dk = true -> settled r) ->
  (w_skip w = true \/ first = true -> b = true) -> (b = true \/ Forall (fun v => ~ is_unit v) items) ->
  exists w' u first', format_items items w = Ok w' /\ w_out w' = w_out w ++ u /\ wisx sc b items u /\ w_stack w' = CSeq first' true :: r /\ w_opts w' = w_opts w.
Definition writes_ents (dk : bool) (h : nat) (es : list entry) : Prop := forall w f multi inln commas brace r, w_stack w = CStruct f false multi inln commas brace :: r ->
  blank_indent (w_opts w) -> o_heredoc (w_opts w) = h -> style_ok dk w ->
  (dk = true -> settled r /\ (multi = true \/ Forall (fun e => is_nested e = false) es /\ length es <= if f then 2 else 1) /\ (commas = [] \/ es = [])) ->
  exists w' u f' multi' commas', format_entries es w = Ok w' /\ w_out w' = w_out w ++ u /\ (forall g, maybe_line g -> wesx sc f es (u ++ g)) /\
    w_stack w' = CStruct f' false multi' inln commas' brace :: r /\ w_opts w' = w_opts w.

Lemma indent_line w : blank_indent (w_opts w) -> exists b, cLF :: indent_text w = cLF :: b /\ blanks b.
Proof. intros H. eexists. split; [reflexivity|]. now apply repeat_blanks. Qed.

Lemma field_key_layout key w f multi inln commas brace r : w_stack w = CStruct f false multi inln commas brace :: r -> blank_indent (w_opts w) ->
  exists g commas', separator f g /\ w_out (field_key_raw key w) = w_out w ++ g ++ key ++ [cSP] /\ w_stack (field_key_raw key w) = CStruct false false multi inln commas' brace :: r /\
    w_opts (field_key_raw key w) = w_opts w /\ (commas = [] -> f = true \/ multi = true /\ o_style (w_opts w) <> StInline -> commas' = []).
Proof.
  intros Hs Hb. unfold field_key_raw. rewrite Hs. destruct f; cbn [negb separator].
  - destruct (_ || _); cbn [andb negb].
    + rewrite Hs. exists [], commas. splits; try reflexivity; [now left|auto].
    + cbn [newline_indent put w_stack]. rewrite Hs. exists (cLF :: indent_text w), commas. splits; try reflexivity; [right; now apply indent_line| |auto]. cbn. now rewrite <- app_assoc.
  - destruct (_ || _) eqn:Ei; cbn [andb negb].
    + cbn [set_stack w_stack]. eexists [cCOMMA; cSP], _. splits; try reflexivity; [now left| |]; [cbn; now rewrite <- app_assoc|]. intros _ [H|[-> Hst]]; [discriminate|].
      rewrite andb_false_r in Ei. cbn [orb] in Ei. unfold should_inline in Ei. rewrite Hs in Ei. destruct (o_style (w_opts w)); try congruence; destruct r; discriminate.
    + cbn [newline_indent put w_stack]. rewrite Hs. exists (cLF :: indent_text w), commas. splits; try reflexivity; [right; now apply indent_line| |auto]. cbn. now rewrite <- app_assoc.
Qed.

(** ** Doc comments *)

Lemma split_on_cons x s r : ~ In x s -> split_on x (s ++ x :: r) = s :: split_on x r.
Proof.
  induction s as [|c s IH]; intros H; cbn [app split_on]; [now rewrite N.eqb_refl|]. destruct (N.eqb_spec c x) as [->|_]; [destruct H; now left|]. rewrite IH by (intros Hi; apply H; now right). reflexivity.
Qed.
Lemma split_on_one x s : ~ In x s -> split_on x s = [s].
Proof. induction s as [|c s IH]; intros H; cbn [split_on]; [reflexivity|]. destruct (N.eqb_spec c x) as [->|_]; [destruct H; now left|]. rewrite IH by (intros Hi; apply H; now right). reflexivity. Qed.
Lemma split_on_join x ls : ls <> [] -> Forall (fun l => ~ In x l) ls -> split_on x (join [x] ls) = ls.
Proof.
  induction ls as [|l [|l2 ls] IH]; intros Hn H; [congruence|inversion H; subst; now apply split_on_one|]. inversion H as [|? ? H1 H2]; subst. change (join [x] (l :: l2 :: ls)) with (l ++ x :: join [x] (l2 :: ls)).
  rewrite split_on_cons by assumption. now rewrite IH by (auto; discriminate).
Qed.

Lemma chomp_plain l : ~ In cCR l -> chomp_cr l = l.
Proof.
  intros H. unfold chomp_cr. destruct (rev l) as [|c m] eqn:E; [reflexivity|]. destruct (N.eqb_spec c cCR) as [->|]; [|reflexivity]. destruct H. apply in_rev. rewrite E. now left.
Qed.

Lemma str_lines_join ls l : l <> [] -> Forall (fun x => ~ In cLF x /\ ~ In cCR x) (ls ++ [l]) -> str_lines (join [cLF] (ls ++ [l])) = ls ++ [l].
Proof.
  intros Hl H. unfold str_lines. rewrite split_on_join; [|now destruct ls|eapply Forall_impl; [|exact H]; now intros ? []]. rewrite rev_app_distr. cbn [rev app]. destruct l as [|c l]; [congruence|]. rewrite rev_involutive. f_equal.
  apply Forall_app in H as [H _]. induction H as [|x r [_ Hx] _ IH]; [reflexivity|]. cbn [map]. now rewrite IH, chomp_plain.
Qed.

Lemma doc_lines_out ls : forall w,
  doc_lines true ls w = put (flat_map (fun l => cLF :: indent_text w ++ doc_marker ++ l) ls) w.
Proof.
  induction ls as [|l ls IH]; intros w; cbn [doc_lines flat_map].
  - destruct w. unfold put. cbn. now rewrite app_nil_r.
  - rewrite IH. unfold newline_indent. change (indent_text (put _ _)) with (indent_text w). destruct w. unfold put. cbn. f_equal. rewrite <- !app_assoc. reflexivity.
Qed.

Lemma doc_key_layout doc key ls l w f multi inln brace r : w_stack w = CStruct f false multi inln [] brace :: r -> blank_indent (w_opts w) -> settled r ->
  str_lines doc = ls ++ [l] -> exists b, blanks b /\
  doc_and_key_raw doc key w = mkw (w_out w ++ (flat_map (fun l => cLF :: b ++ doc_marker ++ l) (ls ++ [l]) ++ cLF :: b) ++ key ++ [cSP]) (CStruct false false true inln [] brace :: r) (w_opts w) (w_skip w) (w_quote w).
Proof.
  intros Hs Hb Hr Hd. destruct w as [out st o sk q]. cbn in Hs. subst st. unfold doc_and_key_raw. rewrite Hd. cbn [w_stack set_stack w_out w_opts w_skip w_quote].
  unfold fix_comma_separators. cbn [w_stack fold_right set_stack w_out w_opts w_skip w_quote]. rewrite propagate_settled by (constructor; [reflexivity|exact Hr]).
  replace (negb f && false) with false by (now destruct f). rewrite andb_false_r, orb_true_r. rewrite doc_lines_out. set (w1 := mkw _ _ _ _ _). exists (indent_text w1). split; [now apply repeat_blanks|].
  unfold newline_indent. change (indent_text (put _ w1)) with (indent_text w1). unfold put. subst w1. cbn [w_out w_stack w_opts w_skip w_quote]. f_equal. rewrite <- !app_assoc. reflexivity.
Qed.

Lemma end_struct_layout w f multi inln commas brace r : w_stack w = CStruct f false multi inln commas brace :: r -> blank_indent (w_opts w) ->
  exists g, maybe_line g /\ w_out (end_struct w) = w_out w ++ g ++ [cRB] /\ w_stack (end_struct w) = r /\ w_opts (end_struct w) = w_opts w.
Proof.
  intros Hs Hb. unfold end_struct. rewrite Hs. cbn [negb]. destruct (negb f && _).
  - eexists (cLF :: indent_text (set_stack r w)). splits; try reflexivity; [right; now apply (indent_line (set_stack r w))|]. cbn. now rewrite <- app_assoc.
  - exists []. splits; try reflexivity. now left.
Qed.

Lemma flat_struct w a b c d e f r : w_stack w = CStruct a b c d e f :: r -> flat w /\ gap w = [] /\ seq_not_first (w_stack w) = w_stack w.
Proof. intros H. unfold flat, gap. rewrite H. splits; try reflexivity. now destruct (w_skip w). Qed.

Lemma writes_all dk h : (forall v, fine dk h v -> writes_val dk h v) /\ (forall l, fine_items dk h l -> writes_items dk h l) /\ (forall l, fine_ents dk h l -> writes_ents dk h l).
Proof.
  apply fine_all.
  - intros s k a b Hn Hg w Hf Hb Ho _ _. cbn [format_val unitb]. unfold write_string. rewrite (before_value_eq w Hf). eexists _, _. splits; try reflexivity.
    + cbn. now rewrite <- app_assoc.
    + constructor. apply Hsc; [cbn; now rewrite Ho|exact Hg].
  - intros b w Hf Hb Ho _ _. cbn [format_val unitb]. eexists _, [cAT]. splits; try reflexivity; [constructor|]. intros _ [H|(s & k & a & c & [=])]. discriminate.
  - intros n t b Hn w Hf Hb Ho _ _. cbn [format_val unitb]. unfold write_tag. rewrite (before_value_eq w Hf). eexists _, (cAT :: n). splits; try reflexivity.
    + cbn. now rewrite <- app_assoc.
    + now constructor.
    + intros _ [H|(s & k & a & c & [=])]. discriminate.
  - intros t items a b Ht _ IH w Hf Hb Ho Hsty Hset. rewrite format_seq. replace (unitb (Val t (PSeq items a) b)) with false by (now destruct t as [[]|]).
    set (w1 := match t with Some (n, _) => _ | None => _ end). set (x := match t with Some (n, _) => cAT :: n | None => [] end).
    assert (wtag t x) as Hx by (destruct t as [[n sp]|]; cbn in *; auto).
    assert (w_out w1 = w_out w ++ gap w ++ x ++ [cLP] /\ w_stack w1 = CSeq true true :: seq_not_first (w_stack w) /\ w_opts w1 = w_opts w) as (E1 & E2 & E3).
    { subst w1 x. destruct t as [[n sp]|]; unfold begin_seq, begin_seq_after_tag, write_tag; rewrite (before_value_eq w Hf); cbn; splits; try reflexivity; now rewrite <- ?app_assoc. }
    destruct (IH w1 true (seq_not_first (w_stack w)) true E2) as (w' & u & f' & Hw & Hout & Hu & Hst & Hop); try (unfold style_ok; rewrite E3; assumption); auto; [intros Hdk; apply settled_not_first; now apply Hset|].
    rewrite Hw. cbn [bind]. eexists _, (x ++ cLP :: u ++ [cRP]). unfold end_seq. rewrite Hst. cbn [negb andb]. rewrite andb_false_r. cbn [andb]. splits; try reflexivity.
    + cbn. rewrite Hout, E1, <- !app_assoc. reflexivity.
    + now constructor.
    + cbn. now rewrite Hop, E3.
    + discriminate.
  - intros t es a b Ht _ IH Hnd w Hf Hb Ho Hsty Hset. rewrite format_obj. replace (unitb (Val t (PObj es a) b)) with false by (now destruct t as [[]|]).
    set (w1 := match t with Some (n, _) => _ | None => _ end). set (x := match t with Some (n, _) => cAT :: n | None => [] end).
    assert (wtag t x) as Hx by (destruct t as [[n sp]|]; cbn in *; auto).
    assert (w_out w1 = w_out w ++ gap w ++ x ++ [cLB] /\ (exists br, w_stack w1 = CStruct true false (wants_multiline es) true [] br :: seq_not_first (w_stack w)) /\ w_opts w1 = w_opts w) as (E1 & (br & E2) & E3).
    { subst w1 x. destruct t as [[n sp]|]; unfold begin_struct, begin_struct_after_tag, write_tag; rewrite (before_value_eq w Hf); cbn; splits; try reflexivity; try (eexists; reflexivity); now rewrite <- ?app_assoc. }
    destruct (IH w1 _ _ _ _ _ _ E2) as (w' & u & f' & m' & c' & Hw & Hout & Hu & Hst & Hop); try (unfold style_ok; rewrite E3; assumption).
    { intros Hdk. splits; [apply settled_not_first; now apply Hset| |now left]. unfold wants_multiline. destruct (Nat.ltb_spec 2 (length es)) as [|Hlen]; [now left|]. destruct (existsb is_nested es) eqn:Ee; [now left|]. right. split; [|lia].
      apply Forall_forall. intros e He. apply not_true_iff_false. intros En. apply not_true_iff_false in Ee. apply Ee. apply existsb_exists. eauto. }
    rewrite Hw. cbn [bind]. destruct (end_struct_layout w' _ _ _ _ _ _ Hst) as (g & Hg & L1 & L2 & L3); [rewrite Hop, E3; assumption|].
    eexists _, (x ++ cLB :: (u ++ g) ++ [cRB]). splits; try reflexivity.
    + rewrite L1, Hout, E1, <- !app_assoc. reflexivity.
    + constructor; auto.
    + exact L2.
    + now rewrite L3, Hop, E3.
    + discriminate.
  - intros w first r b Hs Hb Ho _ _ _ _. exists w, [], first. splits; auto; [now rewrite app_nil_r|constructor].
  - intros v r _ IHv Hsol Hnu _ IHr w first rs b Hs Hb Ho Hsty Hset Hsk Hu. cbn [format_items].
    destruct (IHv w) as (w1 & t & Hw & Hout & Ht & Hst & Hop & Hskip); [unfold flat; now rewrite Hs|assumption|assumption|assumption|rewrite Hs; intros Hdk _; constructor; [exact I|now apply Hset]|]. rewrite Hw. cbn [bind].
    assert (exists w' u f', format_items r w1 = Ok w' /\ w_out w' = w_out w1 ++ u /\ wisx sc (bracketed v) r u /\ w_stack w' = CSeq f' true :: rs /\ w_opts w' = w_opts w1) as (w' & u & f' & R1 & R2 & R3 & R4 & R5).
    { rewrite Hs in Hst. destruct r as [|v2 r].
      - exists w1, []. destruct (unitb v); eexists; splits; try reflexivity; try (now rewrite app_nil_r); try constructor; exact Hst.
      - specialize (Hsol ltac:(discriminate)). rewrite (solid_not_unit v Hsol) in Hst. cbn [seq_not_first] in Hst.
        apply (IHr w1 false rs (bracketed v) Hst); [now rewrite Hop|now rewrite Hop|unfold style_ok; now rewrite Hop|assumption| |now right]. intros [H|H]; [|discriminate]. destruct (bracketed v); [reflexivity|]. rewrite (Hskip eq_refl Hsol) in H. discriminate. }
    exists w'. assert (w_out w' = w_out w ++ (if unitb v then [] else gap w) ++ t ++ u) as E by (rewrite R2, Hout, <- !app_assoc; reflexivity).
    rewrite R1. assert (exists g, (if unitb v then [] else gap w) = g /\ (g = [] /\ b = true \/ g = [cSP])) as (g & Eg & Hg).
    { eexists. split; [reflexivity|]. destruct (unitb v) eqn:Ev.
      - left. split; [reflexivity|]. destruct Hu as [->|Hu]; [reflexivity|]. inversion Hu as [|? ? H _]; subst. rewrite (unitb_not v H) in Ev. discriminate.
      - unfold gap in *. rewrite Hs. destruct (w_skip w); [left; auto|]. destruct first; [left; auto|now right]. }
    rewrite Eg in E. exists (g ++ t ++ u), f'. splits; auto; [|now rewrite R5].
    destruct Hg as [[-> ->]| ->]; cbn [app]; now constructor.
  - intros w f multi inln commas brace r Hs Hb Ho _ _. exists w, [], f, multi, commas. splits; auto; [now rewrite app_nil_r|]. intros g Hg. now constructor.
  - intros k v d r Hk _ IHv Hdk Hdf _ IHr w f multi inln commas brace rs Hs Hb Ho Hsty Hset. cbn [format_entries]. destruct (format_key_layout false k Hk) as (kt & -> & Hkt). cbn [of_opt bind].
    set (w1 := match d with Some doc => _ | None => _ end).
    assert (exists g m1 c1, wlead f d g /\ w_out w1 = w_out w ++ g ++ kt ++ [cSP] /\ w_stack w1 = CStruct false false m1 inln c1 brace :: rs /\ w_opts w1 = w_opts w /\
      (dk = true -> (m1 = true \/ is_nested (Ent k v d) = false /\ Forall (fun e => is_nested e = false) r /\ length r <= 1) /\ (c1 = [] \/ r = []))) as (g & m1 & c1 & Hg & O1 & S1 & P1 & Q1).
    { subst w1. destruct d as [doc|].
      - destruct Hdk as [[=]|Hdk]. destruct (Hset Hdk) as (Hset' & _ & [->|[=]]). destruct Hdf as (ls & l & -> & Hl & Hf).
        destruct (doc_key_layout (join [cLF] (ls ++ [l])) kt ls l w f multi inln brace rs Hs Hb Hset' (str_lines_join ls l Hl Hf)) as (b & Hbl & ->). eexists _, true, []. splits; try reflexivity; [|auto].
        exists (ls ++ [l]), b. splits; auto; now destruct ls.
      - destruct (field_key_layout kt w f multi inln commas brace rs Hs Hb) as (g & c1 & Hg & O1 & S1 & P1 & C1). exists g, multi, c1. splits; auto. intros Hd. destruct (Hset Hd) as (_ & Hm & [->|[=]]). specialize (C1 eq_refl).
        destruct Hm as [->|[Hm Hlen]]; [split; [now left|left; apply C1; right; split; [reflexivity|now apply Hsty]]|]. inversion Hm; subst. split; [right; splits; auto; destruct f; cbn in Hlen; lia|]. destruct f; [left; auto|]. right. destruct r; [reflexivity|cbn in Hlen; lia]. }
    destruct (flat_struct w1 _ _ _ _ _ _ _ S1) as (F1 & F2 & F3). destruct (IHv w1 F1) as (w2 & t & Hw & Hout & Ht & Hst & Hop & _); [now rewrite P1|now rewrite P1|unfold style_ok; now rewrite P1| |].
    { intros Hd Hbr. rewrite S1. constructor; [|now apply Hset]. destruct (Q1 Hd) as [[->|(Hn & _)] _]; [reflexivity|]. unfold is_nested in Hn. cbn [e_val] in Hn. unfold bracketed in Hbr. destruct (v_payload v); discriminate. }
    rewrite Hw. cbn [bind].
    assert (w_stack w2 = CStruct false false m1 inln c1 brace :: rs) as S2 by (rewrite Hst, F3, S1; now destruct (unitb v)).
    destruct (IHr w2 _ _ _ _ _ _ S2) as (w' & u & f' & m' & c' & R1 & R2 & R3 & R4 & R5); [now rewrite Hop, P1|now rewrite Hop, P1|unfold style_ok; now rewrite Hop, P1| |].
    { intros Hd. destruct (Q1 Hd) as [Q2 Q3]. splits; [now apply Hset| |exact Q3]. destruct Q2 as [->|(_ & Q2)]; [now left|now right]. }
    rewrite R1. exists w', (g ++ kt ++ cSP :: t ++ u), f', m', c'. splits; auto.
    + rewrite R2, Hout, O1, F2. replace (if unitb v then [] else []) with (@nil N) by (now destruct (unitb v)). rewrite <- !app_assoc. cbn [app]. now rewrite <- ?app_assoc.
    + intros g' Hg'. rewrite <- !app_assoc. cbn [app]. rewrite <- app_assoc. constructor; auto.
    + now rewrite R5, Hop, P1.
Qed.

Lemma doc_lines_shift ls : flat_map (fun l => cLF :: [] ++ doc_marker ++ l) ls ++ [cLF] = cLF :: flat_map doc_line_text ls.
Proof. induction ls as [|l ls IH]; [reflexivity|]. cbn [flat_map]. rewrite <- app_assoc, IH. unfold doc_line_text, doc_marker. cbn [app]. now rewrite <- app_assoc. Qed.

(** ** The root *)

Definition root_ctx (f multi : bool) : ctx := CStruct f true multi false [] None.

Lemma field_key_root key w f multi : w_stack w = [root_ctx f multi] ->
  field_key_raw key w = mkw (w_out w ++ (if f then [] else [cLF; cLF]) ++ key ++ [cSP]) [root_ctx false multi] (w_opts w) (w_skip w) (w_quote w).
Proof.
  intros Hs. destruct w as [out st o sk q]. cbn in Hs. subst st. unfold field_key_raw, root_ctx. cbn [w_stack negb andb]. destruct f; cbn [negb andb].
  - reflexivity.
  - rewrite andb_false_r. unfold newline_indent, put, indent_text, indent_depth, set_stack. cbn. f_equal. now rewrite <- !app_assoc.
Qed.

Lemma doc_and_key_root doc key w f multi ls l : w_stack w = [root_ctx f multi] -> str_lines doc = ls ++ [l] ->
  doc_and_key_raw doc key w = mkw (w_out w ++ (if f then [] else [cLF; cLF]) ++ flat_map doc_line_text (ls ++ [l]) ++ key ++ [cSP]) [root_ctx false true] (w_opts w) (w_skip w) (w_quote w).
Proof.
  intros Hs Hd. destruct w as [out st o sk q]. cbn in Hs. subst st. unfold doc_and_key_raw, root_ctx. rewrite Hd. cbn [w_stack set_stack w_out w_opts w_skip w_quote].
  unfold fix_comma_separators. cbn [w_stack fold_right]. unfold propagate. cbn [w_stack w_out w_opts w_skip w_quote set_stack filter to_fix flat_map sort_nat fold_right map clear_commas rev app open_fixes].
  destruct f; cbn [negb andb orb].
  - assert (ls ++ [l] = hd l ls :: tl (ls ++ [l])) as E by (destruct ls; reflexivity). rewrite E. cbn [doc_lines]. rewrite doc_lines_out. unfold put. cbn [w_out w_stack w_opts w_skip w_quote]. f_equal.
    rewrite <- !app_assoc. f_equal. cbn [app flat_map]. unfold doc_line_text at 1. cbn [app]. rewrite <- !app_assoc. do 4 f_equal. f_equal. pose proof (doc_lines_shift (tl (ls ++ [l]))) as F. cbn [app] in F |- *. change (cLF :: key ++ [cSP]) with ([cLF] ++ key ++ [cSP]). rewrite app_assoc. etransitivity; [apply (f_equal (fun z : str => z ++ key ++ [cSP])); exact F|]. reflexivity.
  - rewrite doc_lines_out. unfold newline_indent, put. cbn. f_equal. rewrite <- !app_assoc. f_equal. pose proof (doc_lines_shift (ls ++ [l])) as F. cbn [app] in F |- *. f_equal. change (cLF :: key ++ [cSP]) with ([cLF] ++ key ++ [cSP]). rewrite app_assoc. etransitivity; [apply (f_equal (fun z : str => z ++ key ++ [cSP])); exact F|]. reflexivity.
Qed.

Lemma writes_root dk h es : Forall (entry_fine dk h) es -> forall w f multi, w_stack w = [root_ctx f multi] -> blank_indent (w_opts w) -> o_heredoc (w_opts w) = h -> style_ok dk w ->
  exists w' (u : str) (f' multi' : bool), format_entries es w = Ok w' /\ w_out w' = w_out w ++ u /\ wrootx sc ln f es (u ++ (if f' then [] else [cLF])) /\ w_stack w' = [root_ctx f' multi'].
Proof.
  induction 1 as [|e es (Hk & Hv & Hd) _ IH]; intros w f multi Hs Hb Ho Hsty.
  - exists w, [], f, multi. splits; auto; [now rewrite app_nil_r|constructor].
  - destruct e as [k v d]. cbn [e_key e_val e_doc] in *. cbn [format_entries]. destruct (format_key_layout true k Hk) as (kt & -> & Hkt). cbn [of_opt bind].
    assert (exists dt m1, wdoc d dt /\ match d with Some doc => doc_and_key_raw doc kt w | None => field_key_raw kt w end =
      mkw (w_out w ++ (if f then [] else [cLF; cLF]) ++ dt ++ kt ++ [cSP]) [root_ctx false m1] (w_opts w) (w_skip w) (w_quote w)) as (dt & m1 & Hdt & ->).
    { destruct d as [doc|].
      - destruct Hd as (ls & l & -> & Hl & Hf). eexists _, _. split; [|eapply doc_and_key_root; [exact Hs|now apply str_lines_join]]. exists (ls ++ [l]). splits; auto; now destruct ls.
      - exists [], multi. split; [reflexivity|]. now apply field_key_root. }
    set (w1 := mkw _ _ _ _ _).
    assert (exists w2 t, format_val v w1 = Ok w2 /\ w_out w2 = w_out w1 ++ t /\ (wvx sc v t \/ exists s kd a b, v = Val None (PScalar s kd a) b /\ ln s t) /\ w_stack w2 = [root_ctx false m1] /\ w_opts w2 = w_opts w1) as (w2 & t & V1 & V2 & V3 & V4 & V5).
    { destruct (flat_struct w1 _ _ _ _ _ _ _ eq_refl) as (F1 & F2 & F3). destruct Hv as [Hv|(s & kd & a & b & -> & Hg & He & Hdel)].
      - destruct (proj1 (writes_all dk h) v Hv w1 F1 Hb Ho Hsty ltac:(intros; repeat constructor)) as (w2 & t & Hw & Hout & Ht & Hst & Hop & _). exists w2, t. splits; auto.
        + rewrite Hout, F2. now destruct (unitb v).
        + rewrite Hst, F3. now destruct (unitb v).
      - cbn [format_val]. unfold write_string. rewrite (before_value_eq w1 F1). eexists _, _. splits; try reflexivity.
        + cbn [put set_flags w_out w_opts w_quote]. rewrite F2, app_nil_r. reflexivity.
        + right. eexists _, _, _, _. split; [reflexivity|]. now apply Hln. }
    rewrite V1. cbn [bind]. destruct (IH w2 false m1 V4) as (w' & u & f' & m' & R1 & R2 & R3 & R4); [now rewrite V5|now rewrite V5|unfold style_ok; now rewrite V5|].
    exists w', ((if f then [] else [cLF; cLF]) ++ dt ++ kt ++ cSP :: t ++ u), f', m'. splits; auto.
    + rewrite R2, V2. subst w1. cbn [w_out]. rewrite <- !app_assoc. cbn [app]. rewrite <- ?app_assoc. reflexivity.
    + rewrite <- !app_assoc. cbn [app]. rewrite <- !app_assoc. now constructor.
Qed.

Lemma wroot_line es f u : wrootx sc ln f es u -> f = true /\ es = [] /\ u = [] \/ exists a, u = a ++ [cLF].
Proof.
  induction 1 as [[]|f k v d r dt kt t u _ _ _ _ IH]; [now left|right; now exists []|]. right. destruct IH as [(? & _)|(a & ->)]; [discriminate|].
  eexists ((if f then [] else [cLF; cLF]) ++ dt ++ kt ++ cSP :: t ++ a). rewrite <- !app_assoc. cbn [app]. now rewrite <- app_assoc.
Qed.

Definition plain_style (o : opts) : bool := match o_style o with StInline => false | _ => true end.

Lemma printed_root es a b o : blank_indent o -> Forall (entry_fine (plain_style o) (o_heredoc o)) es -> exists src, format_value (Val None (PObj es a) b) o = Ok src /\ wrootx sc ln true es src.
Proof.
  intros Hb He. unfold format_value, format_root.
  destruct (writes_root _ _ es He (mkw [] [root_ctx true false] o false false) true false eq_refl Hb eq_refl ltac:(intros Hp E; cbn in E; unfold plain_style in Hp; now rewrite E in Hp)) as (w & u & f' & m' & Hw & Hout & Hu & Hst).
  change (begin_struct true false (new_writer o)) with (mkw [] [root_ctx true false] o false false). rewrite Hw. cbn [bind].
  assert (w_out (end_struct w) = u ++ (if f' then [] else [cLF])) as E.
  { unfold end_struct. rewrite Hst. cbn. destruct f'; cbn; rewrite Hout; cbn; now rewrite ?app_nil_r. }
  set (src := u ++ _) in *. exists src. split; [|exact Hu]. unfold finish_document. rewrite E. destruct (wroot_line _ _ _ Hu) as [(_ & _ & ->)|(x & Ex)]; [reflexivity|].
  destruct src as [|c s] eqn:Es; [now destruct x|]. replace (ends_with_char cLF (c :: s)) with true; [reflexivity|]. symmetry. apply ends_with_char_iff. exists x. exact Ex.
Qed.

End layouts.

Lemma print_parse es a b o : blank_indent o -> Forall (entry_fine (plain_style o) (o_heredoc o)) es -> neighbours_differ (map (fun e => root_name (e_key e)) es) ->
  exists src v', format_value (Val None (PObj es a) b) o = Ok src /\ tree src (inl v') /\ erase v' = erase (Val None (PObj es a) b).
Proof.
  intros Hb He Hn. destruct (printed_root scalar_as line_as scalar_text_as line_text_as es a b o Hb He) as (src & Hs & Hw). destruct (root_tree_back es src Hw Hn) as (es' & Ht & Ee).
  exists src, (Val None (PObj es' None) None). splits; auto. cbn. now rewrite Ee.
Qed.
