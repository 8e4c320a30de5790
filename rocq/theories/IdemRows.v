(** Rows of formatted text: how they are read as tokens and as a tree. *)
From Verif Require Import Base BaseProofs TokModel TokSpec TokProofs RetokProofs CstModel CstSpec CstProofs CstFmtModel CstShapeProofs.
From Verif Require Import AgreeProofs AgreeSim AgreeLex CstFmtProofs IdemSpec.
Local Open Scope nat_scope.

(** ** Texts and all their tokens *)
Definition reads (F : str -> Prop) (s : str) (l : list sym) : Prop := forall rest, F rest -> lexes s rest l.
Lemma lexes_app a b rest x y : lexes a (b ++ rest) x -> lexes b rest y -> lexes (a ++ b) rest (x ++ y).
Proof.
  intros H1 H2 p. destruct (H1 p) as (p1 & S1). destruct (H2 p1) as (p2 & S2). exists p2. rewrite <- app_assoc.
  revert S1. generalize (mkts (a ++ b ++ rest) p None). intros st S1. clear -S1 S2. remember (mkts (b ++ rest) p1 None) as m. revert Heqm.
  induction S1 as [st|st t st1 l st2 N K S IH]; intros ->; cbn [app]; [exact S2|]. eapply steps_cons; eauto.
Qed.
Lemma lexes_nil rest : lexes [] rest [].
Proof. intros p. exists p. apply steps_nil. Qed.
Lemma reads_app (F G : str -> Prop) a b x y : reads F a x -> reads G b y -> (forall r, G r -> F (b ++ r)) -> reads G (a ++ b) (x ++ y).
Proof. intros A B I rest H. apply lexes_app; [apply A, I, H|apply B, H]. Qed.
Lemma reads_weaken (F G : str -> Prop) s l : (forall r, G r -> F r) -> reads F s l -> reads G s l.
Proof. intros I H r Hr. apply H, I, Hr. Qed.
Lemma reads_mark k c : In (k, c) [(LBrace, cLB); (RBrace, cRB); (LParen, cLP); (RParen, cRP); (Gt, cGT); (Comma, cCOMMA); (Newline, cLF)] -> reads Fany [c] [(k, [c])].
Proof.
  intros H rest _ p. exists (p + blen [c]). cbn [In] in H.
  repeat destruct H as [H|H]; try contradiction; injection H as <- <-; (eapply steps_one; [reflexivity | discriminate | apply steps_nil]).
Qed.
Lemma reads_at : reads Fdelim [cAT] [(At, [cAT])].
Proof.
  intros rest H p. exists (p + blen [cAT]). eapply steps_one; [|discriminate | apply steps_nil].
  destruct H as [->|(c & r & -> & H)]; [reflexivity|]. repeat destruct H as [H|H]; subst c; reflexivity.
Qed.
Lemma reads_valid k t : valid k t -> plain_kind k = true -> k <> Whitespace -> k <> LineComment -> k <> DocComment -> reads Fdelim t [(k, t)].
Proof. intros (_ & _ & V) K N0 N1 N2 rest H. apply V. apply delim_follows; assumption. Qed.
Lemma reads_comment k t : valid k t -> k = LineComment \/ k = DocComment -> reads Fline t [(k, t)].
Proof. intros (_ & _ & V) K rest H. apply V. destruct K as [-> | ->]; (destruct H as [->|(r & ->)]; reflexivity). Qed.
Definition Fstart (rest : str) : Prop := match rest with c :: _ => is_blank c = false | [] => True end.
Lemma reads_blanks s : s <> [] -> forallb is_blank s = true -> reads Fstart s [(Whitespace, s)].
Proof.
  intros N B rest H p. exists (p + blen s). eapply steps_one; [|discriminate | apply steps_nil].
  assert (E : span_while is_blank (s ++ rest) = (s, rest)) by (apply span_while_intro; [exact B|destruct rest; [exact I|exact H]]).
  destruct s as [|c s]; [contradiction|]. cbn [forallb] in B. apply andb_prop in B as [B _].
  assert (NX : forall r q, next_token (mkts (c :: r) q None) = let (a, b) := span_while is_blank (c :: r) in emit Whitespace a b q None).
  { intros r q. unfold is_blank in B. apply orb_prop in B as [B|B]; apply N.eqb_eq in B; subst c; reflexivity. }
  etransitivity; [apply (NX (s ++ rest))|]. change (c :: s ++ rest) with ((c :: s) ++ rest). unfold char, str in *. rewrite E. reflexivity.
Qed.

(** What begins an atom is neither blank nor [>]. *)
Lemma shape_char k t : tok_shape k t -> t <> [] -> start_kind k \/ k = LineComment \/ k = DocComment -> exists c r, t = c :: r /\ is_blank c = false /\ (c =? cGT)%N = false.
Proof.
  intros H N S. assert (E : exists c r, t = c :: r) by (destruct t; [contradiction|eauto]). destruct E as (c & r & ->). exists c, r. split; [reflexivity|].
  destruct k; cbn [tok_shape] in H; try (injection H as -> ->; split; reflexivity);
    try (exfalso; destruct S as [S|[S|S]]; [cbn in S; repeat (destruct S as [S|S]; [discriminate S|]); exact S|discriminate S|discriminate S]).
  - destruct H as (d & a & H & _). injection H as -> ->. split; reflexivity.
  - destruct H as [_ Hb]. cbn in Hb. apply andb_prop in Hb as [Hb _]. now apply bare_no_gt.
  - destruct H as (a & H). injection H as -> ->. split; reflexivity.
  - destruct H as (n & a & H). injection H as -> ->. split; reflexivity.
  - destruct H as (d & a & H & _). injection H as -> ->. split; reflexivity.
  - destruct H as (a & H & _). injection H as -> ->. split; reflexivity.
  - destruct H as (a & H & _). injection H as -> ->. split; reflexivity.
Qed.

(** ** Tokens of a text *)
Definition leafs (l : list sym) : list cst := map (fun x => Leaf (LTok (fst x)) (snd x)) l.
Definition stext (l : list sym) : str := concat (map snd l).
Lemma leafs_kt ts : map leaf ts = leafs (map kt ts).
Proof. unfold leafs. rewrite map_map. reflexivity. Qed.
Lemma leafs_app a b : leafs (a ++ b) = leafs a ++ leafs b.
Proof. apply map_app. Qed.
Lemma stext_app a b : stext (a ++ b) = stext a ++ stext b.
Proof. unfold stext. now rewrite map_app, concat_app. Qed.
Lemma kt_text ts : concat (map tk_text ts) = stext (map kt ts).
Proof. unfold stext. rewrite map_map. reflexivity. Qed.
Lemma kt_app ts a b : map kt ts = a ++ b -> exists t1 t2, ts = t1 ++ t2 /\ map kt t1 = a /\ map kt t2 = b.
Proof.
  revert ts. induction a as [|x a IH]; intros ts H; [exists [], ts; auto|]. destruct ts as [|t ts]; [discriminate|]. cbn in H. injection H as Hx H.
  destruct (IH _ H) as (t1 & t2 & -> & <- & <-). exists (t :: t1), t2. splits; auto. cbn. now rewrite Hx.
Qed.
Lemma kt_cons ts x b : map kt ts = x :: b -> exists t t2, ts = t :: t2 /\ tk_kind t = fst x /\ tk_text t = snd x /\ map kt t2 = b.
Proof. destruct ts as [|t ts]; intros H; [discriminate|]. cbn in H. injection H as <- <-. exists t, ts. auto. Qed.
Definition tiled (ts : list token) : Prop := exists p e, tiles p ts e.
Lemma tiled_tail a b : tiled (a ++ b) -> tiled b.
Proof. intros (p & e & H). apply tiles_tail in H as [q H]. exists q, e. exact H. Qed.
Lemma tiled_cons a b : tiled (a :: b) -> tiled b.
Proof. apply (tiled_tail [a]). Qed.

(** ** What may follow *)
Definition tdelim (ts : list token) : Prop := In (peek_kind ts) [Whitespace; Newline; Comma; RParen; RBrace; Eof].
Definition stop (cl : option tkind) (ts : list token) : Prop :=
  at_entry_end cl ts = true /\ In (peek_kind ts) [Newline; Comma; RBrace; Eof] /\ gt_ahead (concat (map tk_text ts)) = false.
Lemma stop_delim cl ts : stop cl ts -> tdelim ts.
Proof. intros (_ & H & _). unfold tdelim. cbn in *. tauto. Qed.
Lemma stop_nonblank cl ts : stop cl ts -> nonblank ts.
Proof. intros (_ & H & _) Q. rewrite Q in H. cbn in H. repeat (destruct H as [H|H]; [discriminate H|]). exact H. Qed.
Lemma delim_no_payload p ts : tdelim ts -> payload_follows p ts = false.
Proof.
  intros H. destruct ts as [|t ts]; [reflexivity|]. unfold payload_follows, tdelim in *. cbn [peek_kind] in H. apply andb_false_iff. right.
  destruct (tk_kind t); try reflexivity; cbn in H; repeat (destruct H as [H|H]; [discriminate H|]); contradiction.
Qed.
Lemma nl_stop cl t ts : tk_kind t = Newline -> tk_text t = [cLF] -> stop cl (t :: ts).
Proof. intros K T. unfold stop, at_entry_end. cbn [peek_kind map concat]. rewrite K, T. splits; [reflexivity|cbn; tauto|reflexivity]. Qed.
Lemma comma_stop cl t ts : tk_kind t = Comma -> tk_text t = [cCOMMA] -> stop cl (t :: ts).
Proof. intros K T. unfold stop, at_entry_end. cbn [peek_kind map concat]. rewrite K, T. splits; [reflexivity|cbn; tauto|reflexivity]. Qed.
Lemma close_stop t ts : tk_kind t = RBrace -> tk_text t = [cRB] -> stop (Some RBrace) (t :: ts).
Proof. intros K T. unfold stop, at_entry_end. cbn [peek_kind map concat]. rewrite K, T. splits; [reflexivity|cbn; tauto|reflexivity]. Qed.
Lemma eof_stop cl t : tk_kind t = Eof -> tk_text t = [] -> stop cl [t].
Proof. intros K T. unfold stop, at_entry_end. cbn [peek_kind map concat]. rewrite K, T. splits; [reflexivity|cbn; tauto|reflexivity]. Qed.

Definition parses_atom (n : cst) (l : list sym) : Prop :=
  forall ts rest, map kt ts = l -> tiled (ts ++ rest) -> tdelim rest -> runs (fun f => parse_atom f (ts ++ rest)) [n] rest.
Definition parses_entry (n : cst) (l : list sym) : Prop :=
  forall cl ts rest, okc cl -> map kt ts = l -> tiled (ts ++ rest) -> stop cl rest -> runs (fun f => parse_entry f cl (ts ++ rest)) [n] rest.
Definition parses_value (n : cst) (l : list sym) : Prop :=
  forall cl ts rest, okc cl -> map kt ts = l -> tiled (ts ++ rest) -> stop cl rest -> runs (fun f => parse_values f cl 0 (ts ++ rest)) [Node VALUE [n]] rest.
Definition parses_attrs (cs : list cst) (l : list sym) : Prop :=
  forall cl ts rest, okc cl -> map kt ts = l -> tiled (ts ++ rest) -> stop cl rest -> runs (fun f => parse_attributes f cl (ts ++ rest)) cs rest.

(** The first token of an atom: [(k, t)]; a bare word is an atom by itself. *)
Definition begins (l : list sym) (s : str) : Prop :=
  exists k t l' s', l = (k, t) :: l' /\ s = t ++ s' /\ t <> [] /\ tok_shape k t /\ start_kind k.
Definition bare_alone (l : list sym) : Prop := forall t l', l = (BareScalar, t) :: l' -> l' = [].
Lemma begins_char l s : begins l s -> exists c r, s = c :: r /\ is_blank c = false /\ (c =? cGT)%N = false.
Proof. intros (k & t & l' & s' & _ & -> & N & S & K). destruct (shape_char k t S N (or_introl K)) as (c & r & -> & A). exists c, (r ++ s'). auto. Qed.
Lemma begins_start l s ts rest : begins l s -> map kt ts = l -> start_kind (peek_kind (ts ++ rest)).
Proof. intros (k & t & l' & s' & -> & _ & _ & _ & K) H. destruct (kt_cons _ _ _ H) as (x & y & -> & Kx & _). cbn [app peek_kind]. now rewrite Kx. Qed.
Lemma start_nonblank ts : start_kind (peek_kind ts) -> nonblank ts.
Proof. intros S Q. rewrite Q in S. cbn in S. repeat (destruct S as [S|S]; [discriminate S|]). exact S. Qed.
Lemma begins_no_attr l s ts rest : begins l s -> bare_alone l -> map kt ts = l -> gt_ahead (concat (map tk_text rest)) = false -> at_attribute (ts ++ rest) = false.
Proof.
  intros (k & t & l' & s' & -> & _ & _ & _ & K) BA H G. destruct (kt_cons _ _ _ H) as (x & y & -> & Kx & _ & Hy). cbn [app at_attribute]. cbn in Kx.
  destruct (tkind_eqb (tk_kind x) BareScalar) eqn:E; [|reflexivity]. apply tkind_eqb_eq in E. rewrite Kx in E. rewrite E in BA. specialize (BA _ _ eq_refl). rewrite BA in Hy. destruct y; [|discriminate]. cbn [app]. exact G.
Qed.

(** ** Rows: what stands before the row, its node, its text and its tokens *)
Record rw := mkrw { r_sep : list sym; r_node : cst; r_text : str; r_syms : list sym }.
Definition kids (R : list rw) : list cst := flat_map (fun r => leafs (r_sep r) ++ [r_node r]) R.
Definition rtext (R : list rw) : str := flat_map (fun r => stext (r_sep r) ++ r_text r) R.
Definition rsyms (R : list rw) : list sym := flat_map (fun r => r_sep r ++ r_syms r) R.

Definition rowlex (F : str -> Prop) (r : rw) : Prop := reads F (r_text r) (r_syms r) /\ forall x, Fstart (r_text r ++ x).
Definition seplex (F : str -> Prop) (l : list sym) : Prop := reads Fstart (stext l) l /\ forall x, F (stext l ++ x).
Lemma rows_lex F R : Forall (rowlex F) R -> (forall r R', R = r :: R' -> reads Fstart (stext (r_sep r)) (r_sep r) /\ Forall (fun r => seplex F (r_sep r)) R') -> reads F (rtext R) (rsyms R).
Proof.
  induction R as [|r R IH]; intros HR HS rest HF; [apply lexes_nil|]. inversion_clear HR as [|? ? [Hr Hb] HR']. destruct (HS _ _ eq_refl) as [S1 S2]. unfold rtext, rsyms. cbn [flat_map]. rewrite <- !app_assoc.
  assert (IHR : reads F (rtext R) (rsyms R)) by (apply IH; [exact HR'|]; intros r' R' ->; inversion_clear S2 as [|? ? [S3 _] S4]; auto).
  apply lexes_app; [apply S1; rewrite <- app_assoc; apply Hb|]. apply lexes_app; [|apply IHR, HF].
  apply Hr. fold (rtext R). destruct R as [|r' R]; [exact HF|]. inversion_clear S2 as [|? ? [_ S3] _]. unfold rtext. cbn [flat_map]. rewrite <- !app_assoc. apply S3.
Qed.

(** ** Rows of entries *)
Definition triv (l : list sym) : Prop := Forall (fun x => is_trivia_kind (fst x) = true /\ fst x <> LineComment) l.
Definition esep (l : list sym) : Prop := exists x l', l = x :: l' /\ (x = (Newline, [cLF]) \/ x = (Comma, [cCOMMA])) /\ triv l'.
Inductive erow : rw -> Prop :=
| er_com : forall sep k t, k = LineComment \/ k = DocComment -> erow (mkrw sep (Leaf (LTok k) t) t [(k, t)])
| er_ent : forall sep k cs s l, begins l s -> parses_entry (Node k cs) l -> erow (mkrw sep (Node k cs) s l).
(** What stands before the rows: [c] a comment, [d] a doc comment. *)
Fixpoint followed (c d : bool) (R : list rw) : Prop :=
  match R with
  | [] => True
  | r :: R' => (c = true -> triv (r_sep r)) /\
      match r_node r with
      | Leaf (LTok LineComment) _ => d = false /\ followed true false R'
      | Leaf (LTok DocComment) _ => followed true true R'
      | _ => followed false false R'
      end
  end.
Definition nolc (ts : list token) : Prop := exists w ts0, ts = w ++ ts0 /\ Forall (fun t => wn (tk_kind t)) w /\ ~ wn (peek_kind ts0) /\ peek_kind ts0 <> LineComment.
Lemma doc_step cl t ts c te : okc cl -> tk_kind t = DocComment -> nolc ts -> runs (entries cl ts) c te -> runs (entries cl (t :: ts)) (leaf t :: c) te.
Proof.
  intros Hc K (w & ts0 & -> & Hw & Hn & KL) [f0 H]. unfold entries in H.
  assert (forall f, parse_entries (S f) cl (t :: w ++ ts0) = let (c2, ts2) := let (c, r) := skip is_doc_run_kind ts0 in (leaf t :: map leaf w ++ c, r) in
    if tkind_eqb (peek_kind ts2) Eof || closes cl ts2 then Ok (c2, [], ts2) else
      do (c3, e3, ts3) <- parse_entry f cl ts2;
      let (c4, ts4) := skip is_blank_kind ts3 in
      let (c5, ts5) := match peek_kind ts4 with Comma | Newline => bump ts4 | _ => ([], ts4) end in
      do (c6, e6, ts6) <- parse_entries f cl ts5;
      Ok (c2 ++ c3 ++ c4 ++ c5 ++ c6, e3 ++ e6, ts6)) as E.
  { intros f. cbn [parse_entries]. cbn [skip]. rewrite K. cbn [is_trivia_kind]. unfold skip_docs. cbn [peek_kind]. rewrite K. cbn [tkind_eqb]. cbn [skip]. rewrite K. cbn [is_doc_run_kind].
    rewrite (skip_more _ w) by now apply wn_docs. destruct (skip is_doc_run_kind ts0) as [c1 r]. reflexivity. }
  exists (S f0). intros f Hf. destruct f as [|f]; [lia|]. unfold entries. rewrite E. specialize (H (S f) ltac:(lia)). rewrite trivia_all in H by now apply wn_trivia.
  cbn [parse_entries] in H. assert (skip is_trivia_kind ts0 = ([], ts0)) as ST.
  { destruct ts0 as [|t0 ts0]; [reflexivity|]. cbn [skip]. cbn [peek_kind] in KL, Hn. destruct (is_trivia_kind (tk_kind t0)) eqn:K0; [|reflexivity]. unfold wn in Hn. destruct (tk_kind t0); try discriminate; tauto. }
  rewrite ST in H.
  assert (skip_docs ts0 = skip is_doc_run_kind ts0) as SD.
  { unfold skip_docs. destruct (tkind_eqb (peek_kind ts0) DocComment) eqn:K0; [reflexivity|]. destruct ts0 as [|t0 ts0]; [reflexivity|]. cbn [skip]. cbn [peek_kind] in *. destruct (is_doc_run_kind (tk_kind t0)) eqn:K1; [|reflexivity]. unfold wn in Hn. destruct (tk_kind t0); try discriminate; tauto. }
  rewrite SD in H. destruct (skip is_doc_run_kind ts0) as [c2 ts2]. cbv beta iota in H |- *. destruct (tkind_eqb (peek_kind ts2) Eof || closes cl ts2).
  - cbn [app] in H. injection H as <- <-. reflexivity.
  - destruct (parse_entry f cl ts2) as [[[c3 e3] ts3]| |]; try discriminate. cbn [bind] in H |- *. destruct (skip is_blank_kind ts3) as [c4 ts4]. destruct (match peek_kind ts4 with Comma | Newline => bump ts4 | _ => ([], ts4) end) as [c5 ts5].
    destruct (parse_entries f cl ts5) as [[[c6 e6] ts6]| |]; try discriminate. cbn [bind] in H |- *. cbn [app] in H. injection H as <- -> <-. cbn [app]. rewrite <- !app_assoc. reflexivity.
Qed.
Lemma triv_wn ts : triv (map kt ts) -> Forall (fun t => wn (tk_kind t)) ts.
Proof.
  intros H. apply Forall_map in H. eapply Forall_impl; [|exact H]. cbn. intros t [A B]. unfold wn. destruct (tk_kind t); try discriminate; tauto.
Qed.
Lemma triv_runs cl w ts c te : triv (map kt w) -> runs (entries cl ts) c te -> runs (entries cl (w ++ ts)) (leafs (map kt w) ++ c) te.
Proof.
  intros T R. apply triv_wn, wn_trivia in T. rewrite <- leafs_kt. induction T as [|t w K _ IH]; [exact R|]. cbn [app map]. now apply trivia_fwd.
Qed.
Lemma start_not_wn ts : start_kind (peek_kind ts) -> ~ wn (peek_kind ts) /\ peek_kind ts <> LineComment.
Proof.
  intros S. split; [intros [Q|Q]|intros Q]; rewrite Q in S; cbn in S; repeat (destruct S as [S|S]; [discriminate S|]); exact S.
Qed.
(** After the rows. *)
Definition tail_ok (cl : option tkind) (tail : list token) (c : list cst) (te : list token) : Prop :=
  stop cl tail /\ nolc tail /\ runs (entries cl tail) c te /\
  exists b rest c', (match peek_kind tail with Comma | Newline => bump tail | _ => ([], tail) end) = (b, rest) /\ c = b ++ c' /\ runs (entries cl rest) c' te.
Lemma esep_triv l : esep l -> (forall x l', l = x :: l' -> fst x <> Comma) -> triv l.
Proof. intros (x & l' & -> & [-> | ->] & T) N; [constructor; [split; [reflexivity|discriminate]|exact T]|]. exfalso. eapply N; reflexivity. Qed.
Lemma entries_rows cl tail c te : okc cl -> tail_ok cl tail c te -> forall R r cm d ts, Forall erow (r :: R) -> triv (r_sep r) -> Forall (fun r => esep (r_sep r)) R -> followed cm d (r :: R) ->
  map kt ts = rsyms (r :: R) -> tiled (ts ++ tail) ->
  (d = true -> nolc (ts ++ tail)) /\ runs (entries cl (ts ++ tail)) (kids (r :: R) ++ c) te.
Proof.
  intros Hc (ST & NL & RT & (b & rest & c' & HB & HC & RR)). induction R as [|r' R IH]; intros r cm d ts HR TS HS HF HT TL.
  - (* one row *)
    unfold rsyms in HT. cbn [flat_map] in HT. rewrite app_nil_r in HT. apply kt_app in HT as (t1 & t2 & -> & H1 & H2). rewrite <- app_assoc in *.
    unfold kids. cbn [flat_map]. rewrite app_nil_r, <- !app_assoc. rewrite <- H1. rewrite <- H1 in TS. apply tiled_tail in TL.
    inversion HR as [|? ? HE _]; subst. destruct HE as [sep k t K|sep k cs s l B P]; cbn [r_sep r_node r_syms followed] in *.
    + destruct (kt_cons _ _ _ H2) as (x & y & -> & Kx & _ & Hy). destruct y; [|discriminate]. cbn [app] in *. cbn [fst] in Kx.
      assert (L : Leaf (LTok k) t = leaf x) by (unfold leaf; rewrite Kx; cbn in H2; injection H2 as _ ->; reflexivity). rewrite L. split.
      * intros ->. exists t1, (x :: tail). splits; auto using triv_wn.
        -- cbn. rewrite Kx. destruct K as [-> | ->]; intros [Q|Q]; discriminate.
        -- cbn. rewrite Kx. destruct K as [-> | ->]; [|discriminate]. destruct HF as (_ & Q & _). discriminate.
      * apply triv_runs; [exact TS|]. destruct K as [-> | ->]; [apply trivia_fwd; [now rewrite Kx|exact RT]|apply doc_step; auto].
    + pose proof (begins_start _ _ _ tail B H2) as SK. split.
      * intros _. exists t1, (t2 ++ tail). splits; auto using triv_wn; now apply start_not_wn.
      * apply triv_runs; [exact TS|]. cbn [app]. apply (entry_runs cl (t2 ++ tail) (Node k cs) tail b rest c' te); auto. eapply stop_nonblank; eauto.
  - (* a row and more *)
    unfold rsyms in HT. cbn [flat_map] in HT. rewrite <- app_assoc in HT. apply kt_app in HT as (t1 & t23 & -> & H1 & HT). apply kt_app in HT as (t2 & t3 & -> & H2 & HT).
    change ((r_sep r' ++ r_syms r') ++ flat_map (fun r => r_sep r ++ r_syms r) R) with (rsyms (r' :: R)) in HT.
    change (kids (r :: r' :: R)) with ((leafs (r_sep r) ++ [r_node r]) ++ kids (r' :: R)). rewrite <- !app_assoc in *. apply tiled_tail in TL. rewrite <- H1 in TS |- *.
    inversion HR as [|? ? HE HR']; subst. inversion HS as [|? ? HS1 HS2]; subst.
    destruct HE as [sep k t K|sep k cs s l B P]; cbn [r_sep r_node r_syms] in *.
    + destruct (kt_cons _ _ _ H2) as (x & y & -> & Kx & _ & Hy). destruct y; [|discriminate]. cbn [app] in *. cbn [fst] in Kx.
      assert (L : Leaf (LTok k) t = leaf x) by (unfold leaf; rewrite Kx; cbn in H2; injection H2 as _ ->; reflexivity). rewrite L.
      assert (HF' : exists d', followed true d' (r' :: R) /\ (k = DocComment -> d' = true)).
      { cbn [followed r_node] in HF. destruct K as [-> | ->]; destruct HF as (_ & HF); [exists false; split; [apply HF|discriminate]|exists true; auto]. }
      destruct HF' as (d' & HF' & KD). assert (TS' : triv (r_sep r')) by (apply HF'; reflexivity).
      destruct (IH r' true d' t3 HR' TS' HS2 HF' HT (tiled_cons _ _ TL)) as [N R0]. split.
      * intros ->. exists t1, (x :: t3 ++ tail). splits; auto using triv_wn.
        -- cbn. rewrite Kx. destruct K as [-> | ->]; intros [Q|Q]; discriminate.
        -- cbn. rewrite Kx. destruct K as [-> | ->]; [|discriminate]. cbn [followed r_node] in HF. destruct HF as (_ & Q & _). discriminate.
      * apply triv_runs; [exact TS|]. destruct K as [-> | ->]; [apply trivia_fwd; [now rewrite Kx|exact R0]|apply doc_step; auto].
    + pose proof (begins_start _ _ _ (t3 ++ tail) B H2) as SK. split.
      * intros _. exists t1, (t2 ++ t3 ++ tail). splits; auto using triv_wn; now apply start_not_wn.
      * apply triv_runs; [exact TS|]. cbn [app]. destruct HS1 as (x0 & sp & E0 & X0 & T0). destruct r' as [sep' n' s' l']. cbn [r_sep] in E0. subst sep'.
        unfold rsyms in HT. cbn [flat_map r_sep r_syms app] in HT. destruct (kt_cons _ _ _ HT) as (x & y & -> & Kx & Tx & Hy).
        assert (SX : stop cl (x :: y ++ tail)) by (destruct X0 as [-> | ->]; [apply nl_stop|apply comma_stop]; assumption).
        assert (BX : (match peek_kind (x :: y ++ tail) with Comma | Newline => bump (x :: y ++ tail) | _ => ([], x :: y ++ tail) end) = ([leaf x], y ++ tail)).
        { cbn [peek_kind]. destruct X0 as [-> | ->]; cbn [fst] in Kx; rewrite Kx; reflexivity. }
        assert (HR2 : Forall erow (mkrw sp n' s' l' :: R)) by (inversion_clear HR' as [|? ? A1 A2]; constructor; [inversion A1; subst; constructor; assumption|exact A2]).
        assert (HF2 : followed false false (mkrw sp n' s' l' :: R)) by (cbn [followed r_sep r_node] in HF |- *; destruct HF as (_ & HF); split; [discriminate|]; apply HF).
        destruct (IH (mkrw sp n' s' l') false false y HR2 T0 HS2 HF2 Hy ltac:(apply tiled_tail in TL; now apply tiled_cons in TL)) as [_ R0].
        change (kids (mkrw (x0 :: sp) n' s' l' :: R)) with (Leaf (LTok (fst x0)) (snd x0) :: kids (mkrw sp n' s' l' :: R)). rewrite <- Kx, <- Tx.
        apply (entry_runs cl (t2 ++ (x :: y) ++ tail) (Node k cs) (x :: y ++ tail) [leaf x] (y ++ tail) _ te); auto.
        eapply stop_nonblank; eauto.
Qed.

(** ** Rows of elements *)
Definition eltriv (l : list sym) : Prop := Forall (fun x => is_trivia_kind (fst x) = true) l.
Inductive lrow : rw -> Prop :=
| lr_com : forall sep t, lrow (mkrw sep (Leaf (LTok LineComment) t) t [(LineComment, t)])
| lr_ent : forall sep a s l, begins l s -> parses_atom a l -> lrow (mkrw sep (Node ENTRY [Node KEY [a]]) s l).
Lemma elements_bwd t ts c te : is_trivia_kind (tk_kind t) = true -> runs (fun f => parse_elements f (t :: ts)) c te -> exists c', c = leaf t :: c' /\ runs (fun f => parse_elements f ts) c' te.
Proof.
  intros K [f0 H]. assert (forall f, f0 <= f -> parse_elements f ts = Ok (tl c, [], te) /\ c = leaf t :: tl c) as G.
  { intros f Hf. specialize (H f Hf). rewrite elements_trivia in H by exact K. destruct (parse_elements f ts) as [[[c' e'] te']| |]; try discriminate. injection H as <- -> <-. auto. }
  exists (tl c). split; [apply (G f0 (le_n _))|]. exists f0. intros f Hf. apply (G f Hf).
Qed.
Lemma element_step ts a te0 c te : start_kind (peek_kind ts) -> runs (fun f => parse_atom f ts) [a] te0 -> runs (fun f => parse_elements f te0) c te ->
  runs (fun f => parse_elements f ts) (Node ENTRY [Node KEY [a]] :: c) te.
Proof.
  intros SK [f1 R1] R2. assert (exists ws te1 c1, te0 = ws ++ te1 /\ blanks ws /\ nonblank te1 /\ c = map leaf ws ++ c1 /\ runs (fun f => parse_elements f te1) c1 te) as (ws & te1 & c1 & -> & Hw & Hn & -> & [f2 R3]).
  { clear R1. revert c R2. induction te0 as [|t te0 IH]; intros c R2; [exists [], [], c; splits; auto; [constructor|discriminate]|].
    destruct (tkind_dec (tk_kind t) Whitespace) as [E|E].
    - apply elements_bwd in R2 as (c' & -> & R2); [|now rewrite E]. destruct (IH _ R2) as (ws & te1 & c1 & -> & Hw & Hn & -> & R3). exists (t :: ws), te1, c1. splits; auto. now constructor.
    - exists [], (t :: te0), c. splits; auto. constructor. }
  exists (1 + f1 + f2). intros [|f] Hf; [lia|]. cbn [parse_elements].
  assert (skip is_trivia_kind ts = ([], ts)) as ->.
  { destruct ts as [|t ts']; [reflexivity|]. cbn [skip]. cbn [peek_kind] in SK. destruct (is_trivia_kind (tk_kind t)) eqn:K; [|reflexivity]. exfalso. destruct (tk_kind t); try discriminate K; cbn in SK; repeat (destruct SK as [SK|SK]; [discriminate SK|]); exact SK. }
  rewrite R1 by lia. cbn [bind]. rewrite skip_blanks by assumption. rewrite R3 by lia. cbn [bind app].
  destruct (peek_kind ts) eqn:K; try reflexivity; exfalso; cbn in SK; repeat (destruct SK as [SK|SK]; [discriminate SK|]); exact SK.
Qed.
Lemma eltriv_runs w ts c te : eltriv (map kt w) -> runs (fun f => parse_elements f ts) c te -> runs (fun f => parse_elements f (w ++ ts)) (leafs (map kt w) ++ c) te.
Proof.
  intros T R. apply Forall_map in T. rewrite <- leafs_kt. induction T as [|t w K _ IH]; [exact R|]. cbn [app map]. apply elements_fwd; [exact K|exact IH].
Qed.
Definition lsep (l : list sym) : Prop := eltriv l /\ exists x l', l = x :: l' /\ (fst x = Newline \/ fst x = Whitespace).
Lemma elements_rows tail c te : tdelim tail -> runs (fun f => parse_elements f tail) c te -> forall R ts, Forall lrow R ->
  (forall r R', R = r :: R' -> eltriv (r_sep r) /\ Forall (fun r => lsep (r_sep r)) R') -> map kt ts = rsyms R -> tiled (ts ++ tail) ->
  runs (fun f => parse_elements f (ts ++ tail)) (kids R ++ c) te.
Proof.
  intros TD RT. induction R as [|r R IH]; intros ts HR HS HT TL.
  - destruct ts; [|discriminate]. exact RT.
  - destruct (HS _ _ eq_refl) as [S1 S2]. unfold rsyms in HT. cbn [flat_map] in HT. rewrite <- app_assoc in HT. apply kt_app in HT as (t1 & t23 & -> & H1 & HT). apply kt_app in HT as (t2 & t3 & -> & H2 & HT).
    unfold kids. cbn [flat_map]. rewrite <- !app_assoc in *. apply tiled_tail in TL. rewrite <- H1 in S1 |- *. fold (kids R).
    inversion HR as [|? ? HE HR']; subst. apply eltriv_runs; [exact S1|]. cbn [app].
    assert (R0 : runs (fun f => parse_elements f (t3 ++ tail)) (kids R ++ c) te).
    { apply IH; auto; [|now apply tiled_tail in TL]. intros r' R' ->. inversion_clear S2 as [|? ? [A _] B]. auto. }
    assert (TD' : tdelim (t3 ++ tail)).
    { destruct R as [|r' R]; [destruct t3; [exact TD|discriminate]|]. inversion_clear S2 as [|? ? [_ (x & l' & E & K)] _]. unfold rsyms in HT. cbn [flat_map] in HT. rewrite E in HT. cbn [app] in HT.
      destruct (kt_cons _ _ _ HT) as (u & v & -> & Ku & _). unfold tdelim. cbn [app peek_kind]. rewrite Ku. cbn. destruct K as [-> | ->]; tauto. }
    destruct HE as [sep t|sep a s l B P]; cbn [r_sep r_node r_syms] in *.
    + destruct (kt_cons _ _ _ H2) as (x & y & -> & Kx & Tx & Hy). destruct y; [|discriminate]. cbn [app] in *. cbn [fst snd] in Kx, Tx.
      replace (Leaf (LTok LineComment) t) with (leaf x) by (unfold leaf; now rewrite Kx, Tx). apply elements_fwd; [now rewrite Kx|exact R0].
    + apply element_step with (te0 := t3 ++ tail); [eapply begins_start; eauto|apply P; assumption|exact R0].
Qed.
