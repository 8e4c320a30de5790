(** Formatted text reads back as the document that the tree shows: the nodes of the tree. *)
From Coq Require Import String.
From Verif Require Import Base BaseProofs TokModel TokSpec TokProofs LexModel LexSpec LexProofs LexRunProofs RetokProofs RelexProofs.
From Verif Require Import ParseModel ParseSpec PathSpec TreeSpec GrammarSpec CstModel CstSpec CstProofs CstFmtModel CstShapeProofs CstFmtSpec CstFmtProofs AgreeSpec AgreeUnique AgreeLex AgreeProofs FmtLexProofs FmtRowProofs FmtReadProofs.
Local Open Scope nat_scope.

(** ** Tags *)
Lemma shown_chain : forall m seg n d, ats m -> tag_text seg = cAT :: n -> shows (tag_node seg m []) d ->
  Forall tag_name (n :: m) /\ forall st, exists d', stacked st (n :: m) None = Some d' /\ same d d'.
Proof.
  induction m as [|x m IH]; intros seg n d A T H; cbn [tag_node] in H; rewrite T in H.
  - inversion H; subst; [match goal with X : shows_scalar _ _ _ |- _ => inversion X end|]. split; [repeat constructor; assumption|]. intros st. eexists. split; reflexivity.
  - inversion A as [|? ? Ax A']; subst. assert (tag_text x = cAT :: x) as Tx by (destruct x as [|c x]; [contradiction|]; cbn; destruct (N.eqb_spec c cAT); [contradiction|reflexivity]).
    inversion H as [? ? ? ? S| | | |? c0 d0 ? ? Nn Hs| |]; subst; [now inversion S|]. destruct (IH x x d0 A' Tx Hs) as [F St]. split; [now constructor|]. intros st. destruct (St (st + blen n + 2)) as (d' & Ed & Sd). cbn [stacked] in Ed |- *. rewrite Ed. eexists. split; [reflexivity|]. unfold same in *. cbn. now rewrite Sd.
Qed.
Lemma shown_chain_payload : forall m seg n c d, ats m -> tag_text seg = cAT :: n -> shows (tag_node seg m [Node TAG_PAYLOAD [c]]) d ->
  Forall tag_name (n :: m) /\ exists q, shows c q /\ forall st q', same q q' -> exists d', stacked st (n :: m) (Some q') = Some d' /\ same d d'.
Proof.
  induction m as [|x m IH]; intros seg n c d A T H; cbn [tag_node] in H; rewrite T in H.
  - inversion H as [? ? ? ? S| | |? ? d0 ? ? Nn Hs| | |]; subst; [now inversion S|]. split; [repeat constructor; assumption|]. exists d0. split; [exact Hs|]. intros st q' E. eexists. split; [reflexivity|]. unfold same in *. cbn. now rewrite E.
  - inversion A as [|? ? Ax A']; subst. assert (tag_text x = cAT :: x) as Tx by (destruct x as [|y x]; [contradiction|]; cbn; destruct (N.eqb_spec y cAT); [contradiction|reflexivity]).
    inversion H as [? ? ? ? S| | | |? c0 d0 ? ? Nn Hs| |]; subst; [now inversion S|]. destruct (IH x x c d0 A' Tx Hs) as [F (q & Hq & St)]. split; [now constructor|]. exists q. split; [exact Hq|].
    intros st q' Eq. destruct (St (st + blen n + 2) q' Eq) as (d' & Ed & Sd). cbn [stacked] in Ed |- *. rewrite Ed. eexists. split; [reflexivity|]. unfold same in *. cbn. now rewrite Sd.
Qed.
Lemma chain_text s m : s ++ List.concat (map (fun x => cSLASH :: cAT :: x) m) = join [cSLASH; cAT] (s :: m).
Proof. revert s. induction m as [|x m IH]; intros s; cbn [map List.concat]; [apply app_nil_r|]. change (join [cSLASH; cAT] (s :: x :: m)) with (s ++ cSLASH :: cAT :: join [cSLASH; cAT] (x :: m)). now rewrite <- IH. Qed.
Lemma roomy_payload : forall m b seg c, roomy_in b (tag_node seg m [Node TAG_PAYLOAD [c]]) = true -> roomy_in (slash_leaf c || false) c = true /\ (b = false -> m = [] -> heredoc_node c = false).
Proof.
  induction m as [|x m IH]; intros b seg c H.
  - cbn [tag_node roomy_in forallb existsb] in H. rewrite !andb_true_r in H. cbn [andb] in H. apply andb_prop in H as [H1 H2]. split; [exact H2|]. intros -> _. rewrite orb_false_r in H1. cbn [orb] in H1. now apply negb_true_iff in H1.
  - assert (E : roomy_in true (tag_node x m [Node TAG_PAYLOAD [c]]) = true).
    { cbn [tag_node] in H. fold tag_node in H. cbn [roomy_in forallb existsb slash_leaf orb andb] in H. rewrite !andb_true_r in H. apply andb_prop in H as [_ H]. exact H. }
    destruct (IH _ _ _ E) as [H1 _]. split; [exact H1|]. intros _ X. discriminate X.
Qed.
Lemma heredoc_atom c h t x : atom c h ((HeredocStart, t) :: x) -> heredoc_node c = true.
Proof. intros A. inversion A as [k u K V E1 E2 E3| | | | | |]; subst; try reflexivity. destruct K as [K|[K|K]]; discriminate K. Qed.

Section Fmt.
Variable indent : str.
Hypothesis BI : forallb is_blank indent = true.
Notation fmt := (format_node indent).
Notation prints := (prints indent).

(** The text starts with the first token. *)
Definition opens (l : list sym) (h : bool) (s : str) : Prop := exists k t x s', l = (k, t) :: x /\ s = t ++ s' /\ t <> [] /\ tok_shape k t /\ sig_kind k = true /\
  forall p rest, Fh h rest -> tk_kind (fst (next_token (mkts (s ++ rest) p None))) = k.
Definition reads (d : dval) (h : bool) (s : str) : Prop := forall p rest ls, lexd (p + blen s) rest ls -> Fh h rest -> away (p + blen s) ls ->
  exists ls0 d', lexd p (s ++ rest) ls0 /\ gval ls0 d' [] ls /\ same d d' /\ next_at p ls0 /\ payload_start ls0 /\ forall sp t k, d' = DScalar sp t k -> sp_end sp = p + blen s.
Definition AR (d : dval) (l : list sym) (h : bool) (f : fstate -> fstate) : Prop := forall lv, exists s, prints f lv s /\ opens l h s /\ reads d h s.
Definition readv (d : dval) (h : bool) (s : str) : Prop := forall p rest ls, lexd (p + blen s) rest ls -> Fh h rest -> away (p + blen s) ls -> no_attr ls ->
  exists ls0 d', lexd p (s ++ rest) ls0 /\ gval ls0 d' [] ls /\ same d d'.
Definition VR (d : dval) (h : bool) (f : fstate -> fstate) : Prop := forall lv, exists s, prints f lv s /\ readv d h s.
Definition reada (es : list dentry) (h : bool) (s : str) : Prop := forall p rest ls, lexd (p + blen s) rest ls -> Fh h rest -> away (p + blen s) ls -> no_attr ls ->
  exists ls0 xs, lexd p (s ++ rest) ls0 /\ gattrs ls0 xs [] ls /\ map unplace_entry es = map unplace_entry (map attr_entry xs) /\ xs <> [].
Lemma prints_ext f g lv s : (forall st, f st = g st) -> prints f lv s -> prints g lv s.
Proof. intros E [N P]. split; [exact N|]. intros. now rewrite <- E. Qed.

Lemma opens_one k t h : t <> [] -> tok_shape k t -> sig_kind k = true -> (forall rest, Fh h rest -> lexes t rest [(k, t)]) -> opens [(k, t)] h t.
Proof.
  intros N S G L. exists k, t, [], []. splits; auto; [now rewrite app_nil_r|]. intros p rest F. now rewrite (lexes_one _ _ _ (L _ F)).
Qed.
Lemma reads_scalar s v k h : (forall p rest ls, lexd (p + blen s) rest ls -> Fh h rest -> lexd p (s ++ rest) (LxScalar (mkspan p (p + blen s)) v k :: ls)) ->
  forall sp, reads (DScalar sp v k) h s.
Proof.
  intros R sp p rest ls L F A. eexists _, _. splits; [apply R; eassumption|apply gv_scalar|reflexivity|eexists _, _; split; reflexivity|exact I|].
  intros sp' t' k' E. injection E as <- _ _. reflexivity.
Qed.
Lemma fh_not_gt h rest : Fh h rest -> forall r, rest <> cGT :: r.
Proof. intros H r ->. apply fh_delim in H. destruct H as [H|(c & x & H & K)]; [discriminate H|]. injection H as <- _. repeat (destruct K as [K|K]; [discriminate K|]). discriminate K. Qed.

Lemma scalar_AR k t d : k = BareScalar \/ k = QuotedScalar \/ k = RawScalar -> valid k t -> shows (Node SCALAR [Leaf (LTok k) t]) d -> AR d [(k, t)] false (fmt (Node SCALAR [Leaf (LTok k) t])).
Proof.
  intros K V H lv. exists t. assert (Vl : forall rest, Fh false rest -> lexes t rest [(k, t)]).
  { intros rest F. apply V. apply delim_follows; [destruct K as [->|[-> | ->]]; reflexivity|destruct K as [->|[-> | ->]]; discriminate ..|exact F]. }
  assert (Sg : sig_kind k = true) by (destruct K as [->|[-> | ->]]; reflexivity). destruct V as (NE & SH & _). splits.
  - split; [exact NE|]. intros out b. rewrite <- write_eq by exact NE. destruct K as [->|[-> | ->]]; reflexivity.
  - apply opens_one; assumption.
  - inversion H as [c v kd sp S| | | | | |]; subst. inversion S; subst; (apply reads_scalar; intros p rest ls L F).
    + apply lexd_bare; auto. eapply fh_not_gt; eauto.
    + apply lexd_quoted; auto.
    + apply lexd_raw; [assumption|auto|exact L].
Qed.
Lemma unit_AR d : shows (Node UNIT [Leaf (LTok At) [cAT]]) d -> AR d [(At, [cAT])] false (fmt (Node UNIT [Leaf (LTok At) [cAT]])).
Proof.
  intros H lv. exists [cAT]. splits.
  - split; [discriminate|]. intros out b. rewrite <- write_eq by discriminate. reflexivity.
  - apply opens_one; [discriminate|reflexivity|reflexivity|]. intros rest F p. exists (p + blen [cAT]). eapply steps_one; [|discriminate | apply steps_nil].
    destruct F as [->|(c & r & -> & H')]; [reflexivity|]. repeat destruct H' as [H'|H']; subst c; reflexivity.
  - inversion H as [c v kd sp S|sp| | | | |]; subst; [now inversion S|]. intros p rest ls L F A. change (blen [cAT]) with 1 in *. replace (p + 1) with (S p) in * by lia.
    eexists _, _. splits; [apply lexd_unit; [apply fdelim_soft, F|exact L]|apply gv_unit; intros t; apply away_bare, A|reflexivity|eexists _, _; split; reflexivity|exact I|discriminate].
Qed.
Lemma heredoc_AR cs l t x d : (forall rest, line_end rest -> lexes (flat_map node_text cs) rest l) -> sigs l = l ->
  l = (HeredocStart, t) :: x -> t <> [] -> (exists y, flat_map node_text cs = t ++ y) -> tok_shape HeredocStart t -> cs = map (fun x => Leaf (LTok (fst x)) (snd x)) l ->
  shows (Node HEREDOC cs) d -> AR d l true (fmt (Node HEREDOC cs)).
Proof.
  intros L SL El NT (y & Y) SH Ec H lv. assert (NE : flat_map node_text cs <> []) by (rewrite Y; destruct t; [contradiction|discriminate]).
  assert (LF : forall rest, Fh true rest -> lexes (flat_map node_text cs) rest l) by (intros rest [->|(r & ->)]; apply L; [left; reflexivity | right; left; eauto]).
  exists (flat_map node_text cs). splits.
  - split; [exact NE|]. intros out b. rewrite <- write_eq by exact NE. reflexivity.
  - exists HeredocStart, t, x, y. splits; auto. intros p rest F. destruct (LF _ F p) as (p' & S). rewrite El in S. apply steps_inv in S as (tk & st1 & -> & K & _). exact K.
  - inversion H as [c v kd sp S| | | | | |]; subst d. clear SL. inversion S as [| | |s e E1|s b i dl v' Bi Nd Dd Hv E1]; subst; destruct x as [|[k1 t1] x]; cbn in E1; try discriminate E1.
    + destruct x; [|discriminate E1]. injection E1 as -> <- ->. cbn [map flat_map node_text fst snd] in *. rewrite app_nil_r in *. unfold tok. cbn [node_text]. apply reads_scalar. intros p rest ls Hl F. apply lexd_heredoc_empty; auto.
    + destruct x as [|[k2 t2] x]; [discriminate E1|]. cbn in E1. destruct x; [|discriminate E1]. injection E1 as -> <- <- <- E2. subst t2. cbn [map flat_map node_text fst snd] in *. rewrite app_nil_r in *.
      unfold tok. cbn [node_text]. apply reads_scalar. intros p rest ls Hl F. apply (lexd_heredoc p t b _ i dl v rest ls); auto.
Qed.
Lemma no_chain_name n : tag_name n -> contains_sub [cSLASH; cAT] n = false.
Proof. exact (name_no_chain n). Qed.
Lemma tag_AR t s m d : valid Tag t -> split_tag t = (cAT :: s, m) -> ats m -> shows (tag_node (cAT :: s) m []) d -> AR d [(Tag, t)] false (fmt (tag_node (cAT :: s) m [])).
Proof.
  intros V SP A H lv. assert (TX : t = tag_text (cAT :: s) ++ List.concat (map (fun x => cSLASH :: cAT :: x) m)) by (rewrite (split_tag_text _ t _ _ (le_n _) SP); reflexivity).
  destruct (shown_chain m (cAT :: s) s d A eq_refl H) as [TN St].
  assert (Vl : forall rest, Fh false rest -> lexes t rest [(Tag, t)]) by (intros rest F; apply V; apply delim_follows; (reflexivity || discriminate || exact F)).
  exists t. splits.
  - apply prints_ext with (f := f_write indent t).
    { intros st. rewrite TX at 1. symmetry. apply (fmt_tag_node indent m s cAT [] (fun st => st)); [exact A | tauto | reflexivity]. }
    split; [apply V|]. intros out b. apply write_eq. apply V.
  - apply opens_one; [apply V|apply V|reflexivity|exact Vl].
  - intros p rest ls L F Aw. assert (Et : t = cAT :: join [cSLASH; cAT] (s :: m)) by (rewrite TX; cbn; f_equal; apply chain_text).
    set (name := join [cSLASH; cAT] (s :: m)) in *. destruct (St p) as (d' & Sd & Ed).
    assert (Lx : lexd p (t ++ rest) (LxTag (mkspan p (p + blen t)) name (contains_sub [cSLASH; cAT] name || false) :: ls)).
    { rewrite Et in *. apply lexd_chain; [apply Vl, F| |exact L]. intros q. pose proof (soft_token rest q (fdelim_soft _ F)) as K. destruct (tk_kind _); try contradiction; split; (discriminate || reflexivity). }
    eexists _, d'. splits; [exact Lx| |exact Ed|eexists _, _; split; reflexivity|exact I|].
    + apply (gv_tag _ _ _ (s :: m)); [split; [discriminate|split; [exact TN|reflexivity]]| |intros u; apply away_bare, Aw|exact Sd].
      intros HP. destruct m as [|x m]; cbn [has_payload] in HP.
      * rewrite orb_false_r in HP. change name with s in HP. rewrite no_chain_name in HP by now inversion TN. discriminate HP.
      * destruct HP as [N PS]. exact (away_not_at _ _ Aw PS N).
    + intros sp u k ->. cbn in Sd. discriminate Sd.
Qed.
Lemma tagp_AR t s m c h l d : valid Tag t -> split_tag t = (cAT :: s, m) -> ats m -> atom c h l -> payload_sym t l -> a_node c -> (m = [] -> heredoc_node c = false) ->
  (forall q, shows c q -> AR q l h (fmt c)) -> shows (tag_node (cAT :: s) m [Node TAG_PAYLOAD [c]]) d -> AR d ((Tag, t) :: l) h (fmt (tag_node (cAT :: s) m [Node TAG_PAYLOAD [c]])).
Proof.
  intros V SP A AT PS (k & cs & ->) NH IH H lv. assert (TX : t = tag_text (cAT :: s) ++ List.concat (map (fun x => cSLASH :: cAT :: x) m)) by (rewrite (split_tag_text _ t _ _ (le_n _) SP); reflexivity).
  destruct (shown_chain_payload m (cAT :: s) s _ d A eq_refl H) as [TN (q & Hq & St)]. destruct (IH q Hq lv) as (s2 & P2 & O2 & R2).
  destruct O2 as (k2 & t2 & x2 & s2' & El & Es & NT & SH & SG & K2). subst l s2. unfold payload_sym in PS. destruct t2 as [|c2 t2]; [contradiction|]. destruct PS as [PK PS].
  assert (Lt : forall r, lexes t ((c2 :: t2) ++ r) [(Tag, t)]).
  { intros r. apply PS. destruct k2; try discriminate PK; cbn [tok_shape] in SH.
    - injection SH as -> ->. reflexivity.
    - injection SH as -> ->. reflexivity.
    - injection SH as -> ->. reflexivity.
    - destruct SH as (d0 & a & SH & _). injection SH as -> ->. reflexivity.
    - destruct SH as (a & SH). injection SH as -> ->. reflexivity.
    - destruct SH as (n & a & SH). injection SH as -> ->. destruct n; reflexivity.
    - destruct SH as (d0 & a & SH & _). injection SH as -> ->. reflexivity. }
  exists (t ++ (c2 :: t2) ++ s2'). splits.
  - apply prints_ext with (f := fun st => fmt (Node k cs) (f_write indent t st)).
    { intros st. rewrite TX at 1. symmetry. apply fmt_tag_node; [exact A | tauto | reflexivity]. }
    split; [destruct V as (V & _); destruct t; [contradiction | discriminate]|]. destruct P2 as [_ P2]. intros out b. rewrite write_eq by apply V. rewrite P2. cbn [ind app]. rewrite <- !app_assoc. reflexivity.
  - exists Tag, t, ((k2, c2 :: t2) :: x2), ((c2 :: t2) ++ s2'). splits; [reflexivity|reflexivity|apply V|apply V|reflexivity|]. intros p rest F. rewrite <- !app_assoc. now rewrite (lexes_one _ _ _ (Lt _)).
  - intros p rest ls L F Aw. rewrite blen_app, Nat.add_assoc in L, Aw. destruct (R2 (p + blen t) rest ls L F Aw) as (ls0 & q' & L0 & G0 & Eq & N0 & PS0 & _).
    assert (Et : t = cAT :: join [cSLASH; cAT] (s :: m)) by (rewrite TX; cbn; f_equal; apply chain_text).
    set (name := join [cSLASH; cAT] (s :: m)) in *. destruct (St p q' Eq) as (d' & Sd & Ed).
    assert (Lx : lexd p (t ++ ((c2 :: t2) ++ s2') ++ rest) (LxTag (mkspan p (p + blen t)) name (contains_sub [cSLASH; cAT] name || valid_payload k2) :: ls0)).
    { rewrite <- (app_assoc (c2 :: t2)) in *. pose proof (Lt (s2' ++ rest)) as Lt'. rewrite Et in Lt', L0 |- *. apply lexd_chain; [exact Lt'| |exact L0]. intros pp. specialize (K2 pp rest F). rewrite <- app_assoc in K2. rewrite K2. split; [|reflexivity]. intros ->. discriminate PK. }
    rewrite <- app_assoc. eexists _, d'. splits; [exact Lx| |exact Ed|eexists _, _; split; reflexivity|exact I|].
    + apply (gv_tag_payload _ _ _ (s :: m) q' d' ls0 [] ls); [split; [discriminate|split; [exact TN|reflexivity]]| |exact G0|exact Sd].
      destruct m as [|x m]; cbn [has_payload].
      * apply orb_true_iff. right. specialize (NH eq_refl). destruct k2; try discriminate PK; try reflexivity. rewrite (heredoc_atom _ _ _ _ AT) in NH. discriminate NH.
      * split; [exact N0|exact PS0].
    + intros sp u k' ->. cbn in Sd. destruct (stacked _ m _); discriminate Sd.
Qed.

(** ** Brackets *)
Lemma seq_text cs l : acted indent false false (seq_element fmt) cs false l -> Forall element cs ->
  plain_node SEQUENCE (Leaf (LTok LParen) [cLP] :: cs ++ [Leaf (LTok RParen) [cRP]]) = true ->
  forall lv, exists s', prints (fmt (Node SEQUENCE (Leaf (LTok LParen) [cLP] :: cs ++ [Leaf (LTok RParen) [cRP]]))) lv (cLP :: s') /\ bracketed false cLP cRP l (cLP :: s').
Proof.
  intros R0 EL PL2 lv. set (all := Leaf (LTok LParen) [cLP] :: cs ++ [Leaf (LTok RParen) [cRP]]) in *. assert (OC : pair_of cLP cRP) by (right; auto).
  assert (R : acted indent false false (seq_element fmt) all false l).
  { unfold all. apply ac_gap; [unfold gap_kind; tauto|]. apply acted_close with (h := false); [exact R0 | reflexivity | unfold gap_kind; tauto]. }
  assert (EL' : Forall element all).
  { unfold all. constructor; [exact I|]. apply Forall_app. split; [exact EL | constructor; [exact I | constructor]]. }
  assert (SP : sepr false false (lit " ")) by (right; auto).
  cbn [plain_node] in PL2. rewrite is_comment_leaf, of_kind_entry in PL2.
  destruct (negb (existsb (is_node ENTRY) all) && negb (existsb is_comment all)) eqn:EM.
  { apply andb_true_iff in EM as [E1 E2]. apply negb_true_iff in E1, E2. pose proof (acted_empty _ _ _ _ _ _ _ R E1 E2) as ->.
    destruct (bracket_row indent BI false false (seq_element fmt) (lit " ") [] [] cLP cRP OC ltac:(constructor) SP lv) as (s' & P & B). exists s'. split; [|exact B].
    eapply prints_ext; [|exact P]. intros st. cbn [format_node nodes_between]. fold all. rewrite E1, E2. reflexivity. }
  set (single := negb (existsb is_comment all) && (List.length (filter (is_node ENTRY) all) =? 1)).
  assert (SF : single = true -> inrow indent false false (seq_element fmt) all l /\ List.length (filter (is_node ENTRY) all) = 1).
  { intros Q. unfold single in Q. apply andb_true_iff in Q as [Q1 Q2]. apply negb_true_iff in Q1. apply Nat.eqb_eq in Q2.
    rewrite Q1 in PL2. cbn [orb] in PL2. split; [|exact Q2].
    eapply acted_inrow_calm; [exact R | exact Q1 | exact EL' |].
    destruct (filter (is_node ENTRY) all) as [|e [|e' r]] eqn:X; [discriminate | | discriminate].
    apply negb_true_iff in PL2. cbn. rewrite PL2. reflexivity. }
  destruct (single && existsb is_tag_with_block_payload (filter (is_node ENTRY) all)) eqn:ST.
  { assert (single = true) as Q by (apply andb_true_iff in ST as [Q _]; exact Q). destruct (SF Q) as [FL LN].
    destruct (bracket_row _ BI _ _ _ _ _ _ _ _ OC FL SP lv) as (s' & P & B). exists s'. split; [|exact B]. eapply prints_ext; [|exact P].
    intros st. cbn beta. rewrite <- (first_single indent (seq_element fmt) (lit " ")) by exact LN. cbn [format_node]. fold all. fold single. rewrite EM, ST. reflexivity. }
  destruct (negb (single && negb (existsb contains_block (filter (is_node ENTRY) all))) && negb false &&
    (has_line_separator all || existsb is_comment all || negb (existsb (is_node ENTRY) all))) eqn:ML.
  - destruct (bracket_lines _ BI _ _ _ _ _ _ _ _ OC R lv) as (s' & P & B). exists s'. split; [|exact B]. eapply prints_ext; [|exact P].
    intros st. cbn [format_node]. fold all. fold single. rewrite EM, ST, ML. reflexivity.
  - assert (FL : inrow indent false false (seq_element fmt) all l).
    { destruct (single && negb (existsb contains_block (filter (is_node ENTRY) all))) eqn:CO.
      * apply SF. apply andb_true_iff in CO as [Q _]. exact Q.
      * cbn [negb andb] in ML. apply orb_false_iff in ML as [ML _]. apply orb_false_iff in ML as [ML1 ML2]. eapply acted_inrow; try eassumption. reflexivity. }
    destruct (bracket_row _ BI _ _ _ _ _ _ _ _ OC FL SP lv) as (s' & P & B). exists s'. split; [|exact B]. eapply prints_ext; [|exact P].
    intros st. cbn [format_node]. fold all. fold single. rewrite EM, ST, ML. reflexivity.
Qed.
Lemma object_text cs l : acted indent true true fmt cs false l ->
  forall lv, exists s', prints (fmt (Node OBJECT (Leaf (LTok LBrace) [cLB] :: cs ++ [Leaf (LTok RBrace) [cRB]]))) lv (cLB :: s') /\ bracketed true cLB cRB l (cLB :: s').
Proof.
  intros R0 lv. set (all := Leaf (LTok LBrace) [cLB] :: cs ++ [Leaf (LTok RBrace) [cRB]]) in *. assert (OC : pair_of cLB cRB) by (left; auto).
  assert (R : acted indent true true fmt all false l).
  { unfold all. apply ac_gap; [unfold gap_kind; tauto|]. apply acted_close with (h := false); [exact R0 | reflexivity | unfold gap_kind; tauto]. }
  assert (SP : sepr true true (lit ", ")) by (left; auto).
  destruct (negb (existsb (is_node ENTRY) all) && negb (existsb is_comment all)) eqn:EM.
  { apply andb_true_iff in EM as [E1 E2]. apply negb_true_iff in E1, E2. pose proof (acted_empty _ _ _ _ _ _ _ R E1 E2) as ->.
    destruct (bracket_row indent BI true true fmt (lit ", ") [] [] cLB cRB OC ltac:(constructor) SP lv) as (s' & P & B). exists s'. split; [|exact B].
    eapply prints_ext; [|exact P]. intros st. cbn [format_node nodes_between]. fold all. rewrite E1, E2. reflexivity. }
  destruct (has_line_separator all || existsb is_comment all || existsb (fun e => is_node ENTRY e && contains_block e) all || negb (existsb (is_node ENTRY) all)) eqn:ML.
  - destruct (bracket_lines _ BI _ _ _ _ _ _ _ _ OC R lv) as (s' & P & B). exists s'. split; [|exact B]. eapply prints_ext; [|exact P].
    intros st. cbn [format_node]. fold all. rewrite EM, ML. reflexivity.
  - assert (FL : inrow indent true true fmt all l).
    { apply orb_false_iff in ML as [ML _]. apply orb_false_iff in ML as [ML _]. apply orb_false_iff in ML as [ML1 ML2]. eapply acted_inrow; try eassumption. reflexivity. }
    destruct (bracket_row _ BI _ _ _ _ _ _ _ _ OC FL SP lv) as (s' & P & B). exists s'. split; [|exact B]. eapply prints_ext; [|exact P].
    intros st. cbn [format_node]. fold all. rewrite EM, ML. reflexivity.
Qed.
Lemma bracket_opens o c ko kc x s' : pair_of o c -> (o = cLB /\ ko = LBrace \/ o = cLP /\ ko = LParen) -> opens ((ko, [o]) :: x ++ [(kc, [c])]) false (o :: s').
Proof.
  intros _ K. exists ko, [o], (x ++ [(kc, [c])]), s'. destruct K as [[-> ->]|[-> ->]]; splits; try reflexivity; discriminate.
Qed.

Lemma object_AR cs acts kvs es l s1 s2 : acted indent true true fmt cs false acts -> tells false [] acts kvs es -> NoDup (map (fun kv => key_id (fst kv)) kvs) ->
  AR (DObj s1 es s2) ((LBrace, [cLB]) :: l ++ [(RBrace, [cRB])]) false (fmt (Node OBJECT (Leaf (LTok LBrace) [cLB] :: cs ++ [Leaf (LTok RBrace) [cRB]]))).
Proof.
  intros A T ND lv. destruct (object_text cs acts A lv) as (s' & P & B). exists (cLB :: s'). splits; [exact P|apply bracket_opens; [left; auto|left; auto]|].
  intros p rest ls L F Aw. destruct (B p rest ls L) as (e & r & L0 & Fo). destruct (follow_entries _ _ _ _ Fo e ls [] kvs es eq_refl T) as (es' & G & E).
  eexists _, _. splits; [exact L0|eapply gv_obj; [exact G|exact ND]|unfold same; cbn; now rewrite E|eexists _, _; split; reflexivity|exact I|discriminate].
Qed.
Lemma braces_WR cs inner q m : acted indent true true fmt cs false inner ->
  WR indent q m [ABraces inner] false (fmt (Node OBJECT (Leaf (LTok LBrace) [cLB] :: cs ++ [Leaf (LTok RBrace) [cRB]]))).
Proof.
  intros A lv. destruct (object_text cs inner A lv) as (s' & P & B). exists (cLB :: s'). split; [exact P|].
  intros p rest ls L F Aw _. destruct (B p rest ls L) as (e & r & L0 & Fo). eexists. split; [exact L0|]. intros lt a X. eapply fo_braces; [exact Fo|exact X].
Qed.
Lemma seq_AR cs acts ds l s1 s2 : acted indent false false (seq_element fmt) cs false acts -> tells_items acts ds -> Forall element cs ->
  plain_node SEQUENCE (Leaf (LTok LParen) [cLP] :: cs ++ [Leaf (LTok RParen) [cRP]]) = true ->
  AR (DSeq s1 ds s2) ((LParen, [cLP]) :: l ++ [(RParen, [cRP])]) false (fmt (Node SEQUENCE (Leaf (LTok LParen) [cLP] :: cs ++ [Leaf (LTok RParen) [cRP]]))).
Proof.
  intros A T EL PL lv. destruct (seq_text cs acts A EL PL lv) as (s' & P & B). exists (cLP :: s'). splits; [exact P|apply bracket_opens; [right; auto|right; auto]|].
  intros p rest ls L F Aw. destruct (B p rest ls L) as (e & r & L0 & Fo). destruct (follow_items _ _ _ Fo e ls ds eq_refl T) as (ds' & G & E).
  eexists _, _. splits; [exact L0|eapply gv_seq; exact G|unfold same; cbn; now rewrite E|eexists _, _; split; reflexivity|exact I|discriminate].
Qed.
Lemma AR_VR d l h f : AR d l h f -> VR d h f.
Proof. intros H lv. destruct (H lv) as (s & P & _ & R). exists s. split; [exact P|]. intros p rest ls L F A _. destruct (R p rest ls L F A) as (ls0 & d' & X & Y & Z & _). eauto. Qed.

(** ** The lines of entries *)
Lemma key_WR q k l h f sp : AR k l h f -> WR indent q true [ALine k (DUnit sp)] h f.
Proof.
  intros H lv. destruct (H lv) as (s & P & _ & R). exists s. split; [exact P|]. intros p rest ls L F A ST. destruct (R p rest ls L F A) as (ls0 & d' & X & Y & Z & _).
  exists ls0. split; [exact X|]. intros lt a Fo. eapply fo_line; [eapply (gl_key _ _ [] _ [] _ Y), stops_gstop, ST; reflexivity|exact Z|reflexivity|exact Fo].
Qed.
Lemma pair_WR q k l f v h g : AR k l false f -> VR v h g -> WR indent q true [ALine k v] h (fun st => g (f_write indent (lit " ") (f st))).
Proof.
  intros H G lv. destruct (H lv) as (s1 & (N1 & E1) & _ & R1). destruct (G lv) as (s2 & (N2 & E2) & R2). exists (s1 ++ [cSP] ++ s2). split.
  - split; [destruct s1; [contradiction|discriminate]|]. intros out b. rewrite E1, write_eq, E2 by discriminate. cbn [ind app]. rewrite <- !app_assoc. reflexivity.
  - intros p rest ls L F A ST. rewrite !blen_app in L, A. change (blen [cSP]) with 1 in L, A. destruct (R2 (p + blen s1 + 1) rest ls) as (ls2 & v' & L2 & G2 & Ev).
    { eapply lexd_pos; [exact L|lia]. } { exact F. } { replace (p + blen s1 + 1 + blen s2) with (p + (blen s1 + (1 + blen s2))) by lia. exact A. } { apply stops_no_attr, ST. reflexivity. }
    assert (Lc : lexd (p + blen s1) ([cSP] ++ s2 ++ rest) ls2) by (apply lexd_blanks; [apply blanks_of; reflexivity|]; eapply lexd_pos; [exact L2|cbn; lia]).
    assert (A2 : away (p + blen s1) ls2) by (eapply starts_away; [exact L2|lia]).
    destruct (R1 p _ _ Lc) as (ls0 & k' & L0 & G0 & Ek & _ & _ & SE); [right; eexists _, _; split; [reflexivity|tauto]|exact A2|].
    rewrite <- !app_assoc. exists ls0. split; [exact L0|]. intros lt a Fo. eapply fo_line; [|exact Ek|exact Ev|exact Fo].
    apply (gl_pair _ _ [] ls2 v' [] ls [] ls G0); [|exact G2|apply stops_gstop, ST; reflexivity].
    intros GL. destruct k'; try exact GL. specialize (SE _ _ _ eq_refl). eapply away_glued; [rewrite SE; exact A2|exact GL].
Qed.
Lemma item_WR d l h f : AR d l h f -> WR indent false false [AItem d] h f.
Proof.
  intros H lv. destruct (H lv) as (s & P & _ & R). exists s. split; [exact P|]. intros p rest ls L F A _. destruct (R p rest ls L F A) as (ls0 & d' & X & Y & Z & _).
  exists ls0. split; [exact X|]. intros lt a Fo. eapply fo_item; eassumption.
Qed.

(** ** The induction on shapes *)
Definition skipped (c : cst) : Prop := is_triv c \/ c = tok Comma [cCOMMA] \/ c = Node ENTRY [].
Definition braces_node (cs : list cst) : cst := Node OBJECT (tok LBrace [cLB] :: cs ++ [tok RBrace [cRB]]).
Definition Patom (a : cst) (h : bool) (l : list sym) : Prop := (h = true -> ends_heredoc a = true) /\ a_node a /\ (roomy a = true ->
  (forall d, shows a d -> AR d l h (fmt a)) /\
  (forall cs kvs es, a = braces_node cs -> shows_entries true [] cs kvs es -> h = false /\ exists inner, tells true [] inner kvs es /\ forall q m, WR indent q m [ABraces inner] false (fmt a))).
Definition Pitems (cs : list cst) (h : bool) (l : list sym) : Prop := forallb roomy cs = true ->
  (forall q root docs kvs es, shows_entries root docs cs kvs es -> exists acts, acted indent q true fmt cs h acts /\ tells root docs acts kvs es) /\
  (forall ds, shows_items cs ds -> exists acts, acted indent false false (seq_element fmt) cs h acts /\ tells_items acts ds) /\
  (forall pre ocs ws post kvs es, cs = pre ++ Node ENTRY (Node KEY [braces_node ocs] :: ws) :: post -> Forall skipped pre -> Forall is_gap ws -> Forall is_triv post -> shows_entries true [] ocs kvs es ->
     exists a1 inner a2, acted indent false true fmt cs h (a1 ++ ABraces inner :: a2) /\ Forall remark_act a1 /\ Forall remark_act a2 /\ tells true [] inner kvs es).
Definition Pentry (e : cst) (h : bool) (l : list sym) : Prop := (exists cs, e = Node ENTRY cs) /\ (e = Node ENTRY [] -> h = false) /\ (roomy e = true ->
  (forall q k v, shows_line e k v -> ER indent q true fmt e h [ALine k v]) /\
  (forall c d, e = Node ENTRY [Node KEY [c]] -> shows c d -> ER indent false false (seq_element fmt) e h [AItem d]) /\
  (forall ocs ws kvs es, e = Node ENTRY (Node KEY [braces_node ocs] :: ws) -> Forall is_gap ws -> shows_entries true [] ocs kvs es ->
     exists inner, tells true [] inner kvs es /\ ER indent false true fmt e h [ABraces inner])).
Definition Pvals (vs : list cst) (h : bool) (l : list sym) : Prop := forall v ws, vs = Node VALUE [v] :: ws -> Forall is_gap ws -> a_node v /\ (roomy v = true ->
  forall d, shows_value v d -> VR d h (fmt v)).
Definition Pvalue (v : cst) (h : bool) (l : list sym) : Prop := a_node v /\ (roomy v = true -> forall d, shows_value v d -> VR d h (fmt v)).
Definition Pattrs (cs : list cst) (h : bool) (l : list sym) : Prop := existsb (is_node ATTRIBUTE) cs = true /\ (forallb roomy cs = true ->
  forall es, shows_attrs cs es -> forall lv, exists s, prints (nodes_between indent fmt ATTRIBUTE (lit " ") cs) lv s /\ reada es h s).
Definition Pattribute (x : cst) (h : bool) (l : list sym) : Prop := is_node ATTRIBUTE x = true /\ (roomy x = true ->
  forall key c v, x = Node ATTRIBUTE [tok BareScalar key; tok Gt [cGT]; c] -> shows c v -> forall lv, exists s, prints (fmt x) lv s /\
  forall p rest ls, lexd (p + blen s) rest ls -> Fh h rest -> away (p + blen s) ls ->
    exists asp ksp r v', lexd p (s ++ rest) (LxAttrKey asp ksp key :: r) /\ gval r v' [] ls /\ same v v').

Lemma leaf_line k t x y : ~ shows_line (Leaf k t) x y.
Proof. intros H. inversion H. Qed.
Lemma shows_gap_attrs ws cs es : Forall blank_leaf ws -> shows_attrs (ws ++ cs) es -> shows_attrs cs es.
Proof. intros H. induction H as [|w ws (t & ->) _ IH]; intros S; [exact S|]. cbn in S. inversion S; subst. apply IH. assumption. Qed.
Lemma triv_entries post : Forall is_triv post -> shows_entries true [] post [] [].
Proof. induction 1; constructor; auto. Qed.
Lemma skip_ER q f e h : e = Node ENTRY [] -> h = false -> (forall st, f e st = st) -> ER indent q true f e h [].
Proof. intros -> -> H. split; [eauto|]. split; [discriminate|]. left. auto. Qed.
Lemma values_split : forall ws cv ws' ws2 cv2 ws2', Forall is_gap ws -> Forall is_gap ws2 -> ws ++ Node VALUE [cv] :: ws' = ws2 ++ Node VALUE [cv2] :: ws2' -> cv = cv2 /\ ws' = ws2'.
Proof.
  induction ws as [|w ws IH]; intros cv ws' [|w2 ws2] cv2 ws2' H H2 E; cbn in E.
  - injection E. auto.
  - injection E as E _. inversion H2 as [|? ? (t & ->) _]. discriminate E.
  - injection E as E _. inversion H as [|? ? (t & ->) _]. discriminate E.
  - injection E as _ E. inversion H; inversion H2; subst. eauto.
Qed.
Lemma tagp_ends m : forall s c, ends_heredoc c = true -> ends_heredoc (tag_node s m [Node TAG_PAYLOAD [c]]) = true.
Proof.
  induction m as [|x m IH]; intros s c H.
  - cbn [tag_node]. unfold ends_heredoc in *. cbn [leaves flat_map]. rewrite !app_nil_r. apply (ends_app [_]). exact H.
  - cbn [tag_node]. specialize (IH x c H). unfold ends_heredoc in *. cbn [leaves flat_map]. rewrite !app_nil_r. apply (ends_app [_]), (ends_app [_]). exact IH.
Qed.
Lemma not_braces_tag s m r cs : tag_node s m r <> braces_node cs.
Proof. destruct m; discriminate. Qed.

Lemma shapes_read : (forall a h l, atom a h l -> Patom a h l) /\ (forall cs h l, items cs h l -> Pitems cs h l) /\
  (forall e h l, entry e h l -> Pentry e h l) /\ (forall vs h l, vals vs h l -> Pvals vs h l) /\
  (forall v h l, value v h l -> Pvalue v h l) /\ (forall cs h l, attrs cs h l -> Pattrs cs h l) /\
  (forall x h l, attribute x h l -> Pattribute x h l).
Proof.
  apply shapes_mut; unfold Patom, Pitems, Pentry, Pvals, Pvalue, Pattrs, Pattribute.
  - (* atoms *)
    intros k t K V. splits; [discriminate|eexists; eexists; reflexivity|]. intros _. split; [|discriminate]. intros d H. now apply scalar_AR.
  - splits; [discriminate|eexists; eexists; reflexivity|]. intros _. split; [|discriminate]. intros d H. now apply unit_AR.
  - intros cs l t x L SL El NT Y SH (cs' & e & CE) FL. splits; [|eexists; eexists; reflexivity|].
    + intros _. subst cs. unfold ends_heredoc. cbn [leaves]. rewrite flat_map_app. apply ends_app. reflexivity.
    + intros _. split; [|discriminate]. intros d H. eapply heredoc_AR; eassumption.
  - intros t s m V SP A. splits; [discriminate|destruct m; eexists; eexists; reflexivity|]. intros _. split; [|intros; destruct (not_braces_tag _ _ _ _ H)]. intros d H. now apply tag_AR.
  - intros t s m c h l V SP A AT (EH & AN & IH) PS. splits; [intros H; apply tagp_ends, EH, H|destruct m; eexists; eexists; reflexivity|].
    intros RM. split; [|intros; destruct (not_braces_tag _ _ _ _ H)]. intros d H. destruct (roomy_payload m false _ _ RM) as [RC NH]. destruct AN as (k & cs & ->). destruct (IH RC) as [IH1 _].
    eapply tagp_AR; eauto. eexists _, _. reflexivity.
  - intros cs l _ IH. splits; [discriminate|eexists; eexists; reflexivity|]. intros RM. unfold roomy in RM. cbn [roomy_in forallb andb] in RM. rewrite forallb_app in RM. apply andb_prop in RM as [RM _]. destruct (IH RM) as (I1 & _ & _). split.
    + intros d H. inversion H as [c v kd sp S| | | | | |cs0 kvs es s1 s2 HE ND E]; subst; [now inversion S|]. apply app_inj_tail in E as [-> _]. destruct (I1 true _ _ _ _ HE) as (acts & A & T). eapply object_AR; eassumption.
    + intros cs0 kvs es E HE. injection E as E. apply app_inj_tail in E as [-> _]. split; [reflexivity|]. destruct (I1 true _ _ _ _ HE) as (acts & A & T). exists acts. split; [exact T|]. intros q m. now apply braces_WR.
  - intros cs l _ IH EL. splits; [discriminate|eexists; eexists; reflexivity|]. intros RM. unfold roomy in RM. cbn [roomy_in] in RM. apply andb_prop in RM as [PL RM]. cbn [forallb roomy_in andb] in RM. rewrite forallb_app in RM. apply andb_prop in RM as [RM _]. destruct (IH RM) as (_ & I2 & _). split; [|discriminate].
    intros d H. inversion H as [c v kd sp S| | | | |cs0 ds s1 s2 HE E|]; subst; [now inversion S|]. apply app_inj_tail in E as [-> _]. destruct (I2 _ HE) as (acts & A & T). eapply seq_AR; eassumption.
  - (* items *)
    intros _. splits.
    + intros q root docs kvs es H. inversion H; subst. exists []. split; constructor.
    + intros ds H. inversion H; subst. exists []. split; constructor.
    + intros pre ocs ws post kvs es E. destruct pre; discriminate E.
  - intros k t cs h l K _ IH RM. destruct (IH RM) as (I1 & I2 & I3). assert (GK : gap_kind k) by (unfold gap_kind; tauto). splits.
    + intros q root docs kvs es H. inversion H; subst.
      * destruct (I1 q _ _ _ _ ltac:(eassumption)) as (acts & A & T). exists acts. split; [now apply ac_gap|exact T].
      * exfalso. destruct K as [K|[K|K]]; discriminate K.
      * exfalso. eapply leaf_line; eassumption.
    + intros ds H. inversion H; subst. destruct (I2 _ ltac:(eassumption)) as (acts & A & T). exists acts. split; [now apply ac_gap|exact T].
    + intros [|p pre] ocs ws post kvs es E FP FG FT HE; [discriminate E|]. injection E as <- ->. inversion FP; subst. destruct (I3 _ _ _ _ _ _ eq_refl ltac:(assumption) FG FT HE) as (a1 & inner & a2 & A & X). exists a1, inner, a2. split; [now apply ac_gap|exact X].
  - intros k t cs h l K V _ IH RM. destruct (IH RM) as (I1 & I2 & I3). splits.
    + intros q root docs kvs es H. inversion H as [|? ? ? ? ? ? Hc Hs| |]; subst.
      * destruct (I1 q _ _ _ _ Hs) as (acts & A & T). exists (comment_act k t :: acts). split; [now apply ac_comment|]. destruct K as [-> | ->]; [now apply te_comment|]. destruct (skip_doc _ Hc).
      * destruct (I1 q _ _ _ _ ltac:(eassumption)) as (acts & A & T). exists (ADoc t :: acts). split; [apply (ac_comment _ _ _ _ DocComment); [now right|assumption|exact A]|]. eapply te_doc; eassumption.
      * exfalso. eapply leaf_line; eassumption.
    + intros ds H. inversion H as [|? ? ? Hc Hs|]; subst. destruct (I2 _ Hs) as (acts & A & T). exists (comment_act k t :: acts). split; [now apply ac_comment|]. destruct K as [-> | ->]; [now apply ti_comment|]. destruct (skip_doc t). now left.
    + intros [|p pre] ocs ws post kvs es E FP FG FT HE; [discriminate E|]. injection E as <- ->. inversion FP as [|? ? Hp FP']; subst. destruct (I3 _ _ _ _ _ _ eq_refl FP' FG FT HE) as (a1 & inner & a2 & A & X1 & X2). exists (comment_act k t :: a1), inner, a2.
      split; [apply (ac_comment _ _ _ _ k); assumption|]. split; [|exact X2]. constructor; [|exact X1]. destruct K as [-> | ->]; [eexists; reflexivity|]. destruct (skip_doc _ Hp).
  - intros e h l _ ((ecs & ->) & EN & IH) RM. cbn in RM. rewrite andb_true_r in RM. destruct (IH RM) as (E1 & E2 & E3). splits.
    + intros q root docs kvs es H. inversion H as [|? ? ? ? ? ? Hc Hs| |? ? ? k v dd e ? kvs0 es0 HL Hd He Hs]; subst.
      * destruct Hc as [(kk & tt & Hc & _)|[Hc|Hc]]; [discriminate Hc|discriminate Hc|]. inversion Hs; subst. exists []. split; [apply ac_last, skip_ER; auto; now injection Hc as ->|constructor].
      * inversion Hs; subst. exists [ALine k v]. split; [apply ac_last, E1, HL|]. eapply te_line; eauto. constructor.
    + intros ds H. inversion H as [|? ? ? Hc Hs|c d ? ds0 Hc Hs]; subst; [destruct Hc as (kk & tt & Hc & _); discriminate Hc|]. inversion Hs; subst. exists [AItem d]. split; [apply ac_last, (E2 _ _ eq_refl Hc)|]. repeat constructor.
    + intros [|p pre] ocs ws post kvs es E FP FG FT HE; [|injection E as _ E; destruct pre; discriminate E]. injection E as -> <-. destruct (E3 _ _ _ _ eq_refl FG HE) as (inner & T & R). exists [], inner, []. splits; [now apply ac_last|constructor|constructor|exact T].
  - intros e h0 l0 cs h l _ ((ecs & ->) & EN & IH1) NL _ IH2 RM. cbn [forallb] in RM. apply andb_prop in RM as [RM1 RM2]. destruct (IH1 RM1) as (E1 & E2 & E3). destruct (IH2 RM2) as (I1 & I2 & I3). splits.
    + intros q root docs kvs es H. inversion H as [|? ? ? ? ? ? Hc Hs| |? ? ? k v dd e ? kvs0 es0 HL Hd He Hs]; subst; destruct (I1 q _ _ _ _ Hs) as (acts & A & T).
      * destruct Hc as [(kk & tt & Hc & _)|[Hc|Hc]]; [discriminate Hc|discriminate Hc|]. exists ([] ++ acts). split; [|exact T]. eapply ac_entry; [apply skip_ER; auto; now injection Hc as ->|exact NL|exact A].
      * exists ([ALine k v] ++ acts). split; [eapply ac_entry; eauto|]. eapply te_line; eauto.
    + intros ds H. inversion H as [|? ? ? Hc Hs|c d ? ds0 Hc Hs]; subst; [destruct Hc as (kk & tt & Hc & _); discriminate Hc|]. destruct (I2 _ Hs) as (acts & A & T). exists ([AItem d] ++ acts). split; [eapply ac_entry; eauto|]. now apply ti_item.
    + intros [|p pre] ocs ws post kvs es E FP FG FT HE.
      * injection E as -> ->. destruct (E3 _ _ _ _ eq_refl FG HE) as (inner & T & R). destruct (I1 false _ _ _ _ (triv_entries _ FT)) as (acts & A & T2). apply tells_none in T2 as (_ & _ & T2).
        exists [], inner, acts. splits; [exact (ac_entry _ _ _ _ _ _ _ _ _ _ R NL A)|constructor|exact T2|exact T].
      * injection E as <- ->. inversion FP as [|? ? Hp FP']; subst. destruct (I3 _ _ _ _ _ _ eq_refl FP' FG FT HE) as (a1 & inner & a2 & A & X). exists a1, inner, a2. split; [|exact X].
        destruct Hp as [(kk & tt & Hp & _)|[Hp|Hp]]; [discriminate Hp|discriminate Hp|]. refine (ac_entry _ _ _ _ _ _ [] _ _ _ _ NL A). apply skip_ER; auto. now injection Hp as ->.
  - (* entries *)
    splits; [eauto|reflexivity|]. intros _. splits; [intros q k v H; inversion H|discriminate|discriminate].
  - intros cs h l _ _. splits; [eauto|discriminate|]. intros _. splits; [intros q k v H; inversion H|discriminate|discriminate].
  - intros a ws h l _ (EH & (ak & acs & ->) & IH) FW. splits; [eauto|discriminate|]. intros RM. unfold roomy in RM. cbn [roomy_in forallb andb] in RM. apply andb_prop in RM as [RM _]. rewrite andb_true_r in RM. destruct (IH RM) as [I1 I2].
    assert (EE : element (Node ENTRY (Node KEY [Node ak acs] :: ws)) -> h = true -> ends_heredoc (Node ENTRY (Node KEY [Node ak acs] :: ws)) = true).
    { intros (b & X) Q. injection X as _ ->. specialize (EH Q). unfold ends_heredoc in *. cbn [leaves flat_map]. rewrite !app_nil_r. exact EH. }
    assert (FE : forall st, fmt (Node ak acs) st = fmt (Node ENTRY (Node KEY [Node ak acs] :: ws)) st).
    { intros st. symmetry. cbn [format_node existsb is_node nkind_eqb first_node orb]. rewrite (blank_kind VALUE ws FW). rewrite <- (app_nil_r ws), first_skip by exact FW. reflexivity. }
    splits.
    + intros q k v H. split; [eauto|]. split; [exact EE|]. right. inversion H as [c k0 ws0 sp Hk Hw E|c k0 ws0 cv v0 ws0' Hk Hw Hv Hw' E]; subst.
      * intros lv. destruct (key_WR q k l h _ sp (I1 _ Hk) lv) as (s & P & R). exists s. split; [|exact R]. eapply prints_ext; [|exact P]. exact FE.
      * destruct (gap_value _ _ _ _ FW eq_refl).
    + intros c d E H. split; [eauto|]. split; [exact EE|]. right. injection E as E1 E2. subst c ws. exact (item_WR _ _ _ _ (I1 _ H)).
    + intros ocs ws0 kvs es E FG HE. injection E as E1 E2 _. subst ak acs. change (Leaf (LTok LBrace) [cLB]) with (tok LBrace [cLB]) in *. destruct (I2 _ _ _ eq_refl HE) as (-> & inner & T & R). exists inner. split; [exact T|]. split; [eauto|]. split; [discriminate|]. right.
      intros lv. destruct (R false true lv) as (s & P & R'). exists s. split; [|exact R']. eapply prints_ext; [|exact P]. exact FE.
  - intros a l ws vs h lv _ (EH & (ak & acs & ->) & IH) FW V IHv. destruct (vals_nonempty _ _ _ V) as (v & r & ->). splits; [eauto|discriminate|]. intros RM. unfold roomy in RM. cbn [roomy_in forallb andb] in RM. apply andb_prop in RM as [RM RMv]. rewrite andb_true_r in RM.
    rewrite forallb_app in RMv. apply andb_prop in RMv as [_ RMv]. cbn [forallb roomy_in andb] in RMv. apply andb_prop in RMv as [RMv _]. rewrite andb_true_r in RMv. destruct (IH RM) as [I1 _]. splits.
    + intros q k d H. split; [eauto|]. split; [intros (b & X); injection X as _ X; destruct ws; discriminate X|]. right. inversion H as [c k0 ws0 sp Hk Hw E|c k0 ws0 cv v0 ws0' Hk Hw Hv Hw' E]; subst.
      * destruct (gap_value _ _ _ _ Hw eq_refl).
      * destruct (values_split _ _ _ _ _ _ Hw FW ltac:(eassumption)) as [-> ->]. destruct (IHv v r eq_refl Hw') as [(kv & csv & ->) IV].
        intros lv0. destruct (pair_WR q k l _ d h _ (I1 _ Hk) (IV RMv _ Hv) lv0) as (s & P & R). exists s. split; [|exact R]. eapply prints_ext; [|exact P].
        intros st. symmetry. cbn [format_node existsb is_node nkind_eqb first_node orb]. rewrite existsb_app. cbn [existsb is_node nkind_eqb orb]. rewrite orb_true_r. rewrite first_skip by assumption. reflexivity.
    + intros c d E. injection E as _ E. destruct ws; discriminate E.
    + intros ocs ws0 kvs es E FG. injection E as _ _ E. destruct (gap_value _ _ _ _ FG E).
  - (* values *)
    intros v ws h l _ IH FW v' ws' E _. injection E as <- _. exact IH.
  - intros v ws l vs h lv _ _ FW V _ v' ws' E FG. exfalso. injection E as _ <-. destruct (vals_nonempty _ _ _ V) as (x & r & ->). exact (gap_value _ _ _ _ FG eq_refl).
  - intros a h l AT (_ & AN & IH). split; [exact AN|]. intros RM d H. inversion H; subst; [eapply AR_VR, (IH RM); assumption|]. inversion AT. all: destruct m; discriminate.
  - intros cs h l _ [EA IH]. split; [eexists _, _; reflexivity|]. intros RM d H. unfold roomy in RM. cbn [roomy_in andb] in RM. inversion H as [? ? HS|? es s1 s2 HA NE]; subst.
    + exfalso. inversion HS as [? ? ? ? S| | | | | |]; subst. inversion S.
    + intros lv. destruct (IH RM es HA lv) as (s & P & R). exists s. split; [exact P|]. intros p rest ls L F A NA. destruct (R p rest ls L F A NA) as (ls0 & xs & L0 & G & E & NX). inversion G as [|? ? ? ? ? ? ? ? ? ? G1 G2]; subst; [contradiction|].
      match goal with X : _ ++ _ = [] |- _ => apply app_eq_nil in X as [-> ->] end. eexists _, _. splits; [exact L0|exact (gv_attrs _ _ _ _ _ [] _ _ [] _ G1 G2)|]. unfold same. cbn in E |- *. now rewrite E.
  - (* attributes *)
    intros x ws h l _ [KX IH] FW. split; [cbn; now rewrite KX|]. intros RM es HA lv. cbn [forallb] in RM. apply andb_prop in RM as [RM _].
    inversion HA as [|? ? ? (t & Hg) _|key c v s1 ksp s2 ? es0 Hs Hr]; subst; [discriminate KX|]. rewrite <- (app_nil_r ws) in Hr. apply (shows_gap_attrs _ _ _ FW) in Hr. inversion Hr; subst.
    destruct (IH RM _ _ _ eq_refl Hs lv) as (s & P & R). exists s. split.
    + eapply prints_ext; [|exact P]. intros st. cbn [nodes_between is_node nkind_eqb]. rewrite (blank_kind _ _ FW). symmetry. apply between_none. apply blank_kind. exact FW.
    + intros p rest ls L F A NA. destruct (R p rest ls L F A) as (asp & ksp' & r & v' & L0 & G & E). eexists _, _. splits; [exact L0|eapply (ga_more _ _ _ _ _ [] _ _ []); [exact G|apply ga_end; exact NA]| |discriminate]. cbn. do 2 f_equal. exact E.
  - intros x ws l cs h l' _ [KX IHx] FW _ [KC IHc]. split; [cbn; now rewrite KX|]. intros RM es HA lv. cbn [forallb] in RM. rewrite forallb_app in RM. apply andb_prop in RM as [RM RM2]. apply andb_prop in RM2 as [_ RM2].
    inversion HA as [|? ? ? (t & Hg) _|key c v s1 ksp s2 ? es0 Hs Hr]; subst; [discriminate KX|]. apply (shows_gap_attrs _ _ _ FW) in Hr.
    destruct (IHx RM _ _ _ eq_refl Hs lv) as (sa & (N1 & E1) & R1). destruct (IHc RM2 _ Hr lv) as (sb & (N2 & E2) & R2). exists (sa ++ [cSP] ++ sb). split.
    + apply prints_ext with (f := fun st => nodes_between indent fmt ATTRIBUTE (lit " ") cs (f_write indent (lit " ") (fmt (Node ATTRIBUTE [tok BareScalar key; tok Gt [cGT]; c]) st))).
      { intros st. symmetry. cbn [nodes_between]. rewrite KX, existsb_app, KC, orb_true_r. generalize (f_write indent (lit " ") (fmt (Node ATTRIBUTE [tok BareScalar key; tok Gt [cGT]; c]) st)). clear - FW. intros st. induction FW as [|w ws (t & ->) FW IH]; [reflexivity | exact IH]. }
      split; [destruct sa; [contradiction|discriminate]|]. intros out b. rewrite E1, write_eq, E2 by discriminate. cbn [ind app]. rewrite <- !app_assoc. reflexivity.
    + intros p rest ls L F A NA. rewrite !blen_app in L, A. change (blen [cSP]) with 1 in L, A. destruct (R2 (p + blen sa + 1) rest ls) as (ls2 & xs & L2 & G2 & Ev & NX).
      { eapply lexd_pos; [exact L|lia]. } { exact F. } { replace (p + blen sa + 1 + blen sb) with (p + (blen sa + (1 + blen sb))) by lia. exact A. } { exact NA. }
      assert (Lc : lexd (p + blen sa) ([cSP] ++ sb ++ rest) ls2) by (apply lexd_blanks; [apply blanks_of; reflexivity|]; eapply lexd_pos; [exact L2|cbn; lia]).
      destruct (R1 p _ _ Lc) as (asp & ksp' & r & v' & L0 & G & E); [right; eexists _, _; split; [reflexivity|tauto]|eapply starts_away; [exact L2|lia]|].
      rewrite <- !app_assoc. eexists _, _. splits; [exact L0|exact (ga_more _ _ _ _ _ [] _ _ [] _ G G2)| |discriminate]. cbn [map unplace_entry attr_entry]. rewrite Ev. unfold same in E. rewrite E. reflexivity.
  - (* attribute *)
    intros t a h l V _ (_ & (ak & acs & ->) & IH). split; [reflexivity|]. intros RM key c v E H lv. unfold roomy in RM. cbn [roomy_in forallb andb] in RM. rewrite andb_true_r in RM. injection E as <- <-. destruct (IH RM) as [I1 _]. destruct (I1 _ H lv) as (s2 & (N2 & E2) & O2 & R2).
    exists (t ++ cGT :: s2). assert (Nt : t <> []) by apply V. split.
    + apply prints_ext with (f := fun st => fmt (Node ak acs) (f_write indent [cGT] (f_write indent t st))); [reflexivity|]. split; [destruct t; [contradiction|discriminate]|].
      intros out b. rewrite !write_eq by (try discriminate; exact Nt). rewrite E2. cbn [ind app]. rewrite <- !app_assoc. reflexivity.
    + intros p rest ls L F A. rewrite blen_app in L, A. change (blen (cGT :: s2)) with (1 + blen s2) in L, A. rewrite !Nat.add_assoc in L, A. destruct (R2 _ _ _ L F A) as (ls0 & v' & L0 & G & E & _).
      rewrite <- app_assoc. cbn [app]. eexists _, _, _, _. splits; [apply lexd_attr; [exact Nt|apply V; reflexivity| |exact L0]|exact G|exact E].
      destruct O2 as (k2 & t2 & x2 & s2' & _ & _ & _ & _ & SG & K2). intros pp. rewrite (K2 pp rest F). clear - SG. intros I. cbn in I. destruct k2; try discriminate SG; repeat destruct I as [I|I]; discriminate I || exact I.
Qed.

(** ** Documents *)
Lemma format_follow cs h acts : acted indent false true fmt cs h acts -> exists ls, lexd 0 (format_cst indent (Node DOCUMENT cs)) ls /\ follow false [] acts ls.
Proof.
  intros A. destruct (doc_lines_shown indent BI false true _ _ _ _ A [] false 0 None false 0 true) as (s & b & E & R).
  assert (G : exists rest r, format_cst indent (Node DOCUMENT cs) = s ++ rest /\ lexd (0 + blen s) rest r /\ Fline rest /\ nl_first r /\ follow false [] [] r).
  { unfold format_cst, f_finish. cbn [format_node]. unfold f_new. rewrite E. cbn [f_out app].
    assert (L0 : forall p, lexd p [] []) by (intros p; apply RelexProofs.ld_end; intros c []).
    assert (G0 : exists rest r, s = s ++ rest /\ lexd (0 + blen s) rest r /\ Fline rest /\ nl_first r /\ follow false [] [] r).
    { exists [], []. splits; [now rewrite app_nil_r|apply L0|now left|now left|constructor]. }
    destruct s as [|c s]; [exact G0|]. destruct (last (c :: s) 0 =? cLF)%N; [exact G0|].
    eexists [cLF], _. splits; [reflexivity|apply lexd_lf, L0|right; eexists; reflexivity|right; eexists _, _; reflexivity|apply fo_newline, fo_end]. }
  destruct G as (rest & r & -> & L & F & N & Fo). destruct (R 0 rest r L F N) as (ls & L0 & _ & C). exists ls. split; [exact L0|]. rewrite <- (app_nil_r acts). apply C, Fo.
Qed.
Theorem format_reads cs h l es n : items cs h l -> forallb roomy cs = true -> shows_doc (Node DOCUMENT cs) es ->
  exists ls es' evs, lexd 0 (format_cst indent (Node DOCUMENT cs)) ls /\ gdoc n ls es' evs /\ map unplace_entry es = map unplace_entry es'.
Proof.
  intros IT RM H. destruct (proj1 (proj2 shapes_read) _ _ _ IT RM) as (I1 & _ & I3). inversion H as [? kvs ? hs HE HA HP|pre ocs ws post kvs ks ? FP HE HB ND FG FT]; subst.
  - destruct (I1 false _ _ _ _ HE) as (acts & A & T). destruct (format_follow _ _ _ A) as (ls & L & Fo). destruct (follow_root _ _ _ _ Fo eq_refl false [] [] kvs es hs T eq_refl HA) as (es' & evs & h' & G & E & AL).
    eexists _, _, _. splits; [exact L|eapply gdoc_plain; [exact G|eapply alike_paths; eassumption]|exact E].
  - destruct (I3 _ _ _ _ _ _ eq_refl FP FG FT HE) as (a1 & inner & a2 & A & R1 & R2 & T). destruct (format_follow _ _ _ A) as (ls & L & Fo). destruct (follow_lead _ _ _ _ Fo _ _ _ eq_refl R1) as (lead & sp & r1 & e & r2 & GL & F1 & F2).
    destruct (follow_body _ _ _ _ F1 e r2 [] [] kvs es ks eq_refl T eq_refl HB) as (es' & evs & G & E). eexists _, _, _. splits; [exact L|eapply gdoc_braces; [exact GL|exact G|exact ND|eapply follow_remarks; [exact F2|reflexivity|exact R2]]|exact E].
Qed.
End Fmt.
