(** The syntax tree of an accepted document: no errors, and it shows the document. *)
From Verif Require Import Base BaseProofs TokModel TokSpec TokProofs LexModel LexSpec LexProofs ParseModel ParseSpec PathSpec TreeModel TreeSpec GrammarSpec.
From Verif Require Import RelexProofs AgreeLex AgreeSpec.
From Verif Require Import CstModel CstSpec CstProofs.
Local Open Scope nat_scope.

(** ** Runs of the tree parser *)
Definition runs (p : nat -> res parsed) (c : list cst) (te : list token) : Prop := exists f0, forall f, f0 <= f -> p f = Ok (c, [], te).

(** ** Tokens and lexemes *)
Definition Lx (ts : list token) (ls : list lexeme) : Prop :=
  lexed ts ls /\ Forall (fun t => tok_shape (tk_kind t) (tk_text t)) ts /\ exists p e, tiles p ts e.
Definition nonblank (ts : list token) : Prop := peek_kind ts <> Whitespace.
Definition blanks (ws : list token) : Prop := Forall (fun t => tk_kind t = Whitespace) ws.

Lemma tiles_tail p a b e : tiles p (a ++ b) e -> exists q, tiles q b e.
Proof. revert p. induction a as [|t a IH]; intros p H; [eauto|]. destruct H as (_ & _ & H). eauto. Qed.
Lemma Lx_tail a ts ls : Forall (fun t => tok_shape (tk_kind t) (tk_text t)) (a ++ ts) /\ (exists p e, tiles p (a ++ ts) e) -> lexed ts ls -> Lx ts ls.
Proof. intros [Hs (p & e & Ht)] H. apply Forall_app in Hs as [_ Hs]. apply tiles_tail in Ht as [q Ht]. split; [exact H|]. split; eauto. Qed.

Lemma group_head g l r : group g l r -> exists t g', g = t :: g' /\ ~ In (tk_kind t) [Whitespace; Gt; Eof; HeredocContent; HeredocEnd; TError].
Proof.
  intros [t l' r' E|ss v k r' H|t name hp r' K _ _ _|t g' asp r' K _ _].
  - exists t, []. split; [reflexivity|]. intros Q. destruct (tk_kind t); (discriminate E || (cbn [In] in Q; repeat (destruct Q as [Q|Q]; [discriminate Q|]); exact Q)).
  - destruct H as [t K|t a v K _ _|t n v K _|s e K _|s b e ind d v K _ _ _ _ _ _ _]; eexists; eexists; (split; [reflexivity|]); rewrite K; intros Q; cbn [In] in Q; repeat (destruct Q as [Q|Q]; [discriminate Q|]); exact Q.
  - exists t, []. split; [reflexivity|]. rewrite K. intros Q. cbn [In] in Q. repeat (destruct Q as [Q|Q]; [discriminate Q|]). exact Q.
  - exists t, [g']. split; [reflexivity|]. rewrite K. intros Q. cbn [In] in Q. repeat (destruct Q as [Q|Q]; [discriminate Q|]). exact Q.
Qed.
Lemma Lx_split ts ls : Lx ts ls -> exists ws ts', ts = ws ++ ts' /\ blanks ws /\ nonblank ts' /\ Lx ts' ls.
Proof.
  intros (H & Hs & Ht). assert (exists ws ts', ts = ws ++ ts' /\ blanks ws /\ nonblank ts' /\ lexed ts' ls) as (ws & ts' & -> & Hw & Hn & Hl).
  { clear Hs Ht. induction H as [e He|t r ls K H IH|g l r ls Hg H _].
    - exists [], [e]. splits; [reflexivity|constructor|unfold nonblank; cbn; congruence|now constructor].
    - destruct IH as (ws & ts' & -> & Hw & Hn & Hl). exists (t :: ws), ts'. splits; auto. now constructor.
    - exists [], (g ++ r). splits; [reflexivity|constructor| |now constructor]. destruct (group_head _ _ _ Hg) as (t & g' & -> & N). unfold nonblank. cbn. intros Q. apply N. rewrite Q. now left. }
  exists ws, ts'. splits; auto. apply (Lx_tail ws); auto.
Qed.
Lemma Lx_inv ts l ls : Lx ts (l :: ls) -> nonblank ts -> exists g r, ts = g ++ r /\ group g l r /\ Lx r ls.
Proof.
  intros (H & Hs & Ht) N. inversion H as [|t r ? K Hr|g ? r ? Hg Hr]; subst; [now destruct N|]. exists g, r. splits; auto. apply (Lx_tail g); auto.
Qed.
Lemma Lx_end ts : Lx ts [] -> nonblank ts -> exists e, ts = [e] /\ tk_kind e = Eof.
Proof. intros (H & _) N. inversion H; subst; [eauto|now destruct N]. Qed.

(** What stands after white space is no [>]. *)
Lemma gt_blank a s : forallb is_blank a = true -> gt_ahead (a ++ s) = gt_ahead s.
Proof. induction a as [|c a IH]; [reflexivity|]. cbn [forallb app gt_ahead]. intros H. apply andb_prop in H as [-> H]. auto. Qed.
Lemma bare_no_gt c : is_bare_char c = true -> is_blank c = false /\ (c =? cGT)%N = false.
Proof.
  unfold is_bare_char. intros H. apply andb_prop in H as [H Hw]. apply negb_true_iff in H, Hw. apply orb_false_iff in H as [_ H]. split; [|exact H].
  unfold is_blank. destruct (N.eqb_spec c cSP) as [->|]; [discriminate Hw|]. destruct (N.eqb_spec c cTAB) as [->|]; [discriminate Hw|reflexivity].
Qed.
Lemma shape_no_gt k t s : tok_shape k t -> ~ In k [Whitespace; Gt; Eof; HeredocContent; HeredocEnd; TError] -> gt_ahead (t ++ s) = false.
Proof.
  intros H N. destruct k; cbn [tok_shape] in H; try (now subst t); try (now (destruct N; cbn; tauto)).
  - destruct H as (d & a & -> & _). reflexivity.
  - destruct H as [Hne Hb]. destruct t as [|c t]; [now destruct Hne|]. cbn in Hb. apply andb_prop in Hb as [Hb _]. apply bare_no_gt in Hb as [B G]. cbn. now rewrite B.
  - destruct H as (a & ->). reflexivity.
  - destruct H as (n & a & ->). reflexivity.
  - destruct H as (d & a & -> & _). reflexivity.
  - destruct H as (a & -> & _). reflexivity.
  - destruct H as (a & -> & _). reflexivity.
  - destruct H as [-> | ->]; reflexivity.
Qed.
Lemma Lx_no_gt ts ls : Lx ts ls -> gt_ahead (concat (map tk_text ts)) = false.
Proof.
  intros (H & Hs & _). induction H as [e He|t r ls K H IH|g l r ls Hg H _].
  - inversion_clear Hs as [|? ? S _]. rewrite He in S. cbn in S |- *. now rewrite S.
  - inversion_clear Hs as [|? ? S S']. rewrite K in S. cbn [map concat]. rewrite gt_blank by apply S. auto.
  - destruct (group_head _ _ _ Hg) as (t & g' & -> & N). cbn [app map concat]. inversion_clear Hs as [|? ? S _]. eapply shape_no_gt; eauto.
Qed.

(** ** Small steps of the parser *)
Lemma skip_while p a b : Forall (fun t => p (tk_kind t) = true) a -> p (peek_kind b) = false -> skip p (a ++ b) = (map leaf a, b).
Proof.
  induction 1 as [|t a Ht _ IH]; intros Hb; cbn [app skip map].
  - destruct b as [|t b]; [reflexivity|]. cbn in Hb |- *. now rewrite Hb.
  - rewrite Ht, IH by exact Hb. reflexivity.
Qed.
Lemma skip_blanks ws ts : blanks ws -> nonblank ts -> skip is_blank_kind (ws ++ ts) = (map leaf ws, ts).
Proof.
  intros Hw Hn. apply skip_while; [eapply Forall_impl; [|exact Hw]; cbn; intros t ->; reflexivity|]. unfold is_blank_kind, nonblank in *.
  destruct (tkind_eqb (peek_kind ts) Whitespace) eqn:E; [|reflexivity]. apply tkind_eqb_eq in E. now destruct Hn.
Qed.
Lemma blanks_gap ws : blanks ws -> Forall is_gap (map leaf ws).
Proof. induction 1 as [|t ws K _ IH]; cbn; constructor; auto. exists (tk_text t). unfold leaf. now rewrite K. Qed.

(** ** Lists of entries *)
Definition okc (closing : option tkind) : Prop := closing = None \/ closing = Some RBrace.
Definition entries (closing : option tkind) (ts : list token) : nat -> res parsed := fun f => parse_entries f closing ts.

Lemma entries_trivia f cl t ts : is_trivia_kind (tk_kind t) = true ->
  parse_entries f cl (t :: ts) = match parse_entries f cl ts with Ok (c, e, te) => Ok (leaf t :: c, e, te) | Panic => Panic | OutOfFuel => OutOfFuel end.
Proof.
  intros K. destruct f as [|f]; [reflexivity|]. cbn [parse_entries]. cbn [skip]. rewrite K. destruct (skip is_trivia_kind ts) as [c1 ts1]. destruct (skip_docs ts1) as [c2 ts2].
  destruct (_ || _); [reflexivity|]. destruct (parse_entry f cl ts2) as [[[c3 e3] ts3]| |]; try reflexivity. cbn [bind]. destruct (skip is_blank_kind ts3) as [c4 ts4].
  destruct (match peek_kind ts4 with Comma | Newline => bump ts4 | _ => ([], ts4) end) as [c5 ts5]. destruct (parse_entries f cl ts5) as [[[c6 e6] ts6]| |]; reflexivity.
Qed.
Lemma trivia_fwd cl t ts c te : is_trivia_kind (tk_kind t) = true -> runs (entries cl ts) c te -> runs (entries cl (t :: ts)) (leaf t :: c) te.
Proof. intros K [f0 H]. exists f0. intros f Hf. unfold entries in *. rewrite entries_trivia, (H f Hf) by exact K. reflexivity. Qed.
Lemma trivia_bwd cl t ts c te : is_trivia_kind (tk_kind t) = true -> runs (entries cl (t :: ts)) c te -> exists c', c = leaf t :: c' /\ runs (entries cl ts) c' te.
Proof.
  intros K [f0 H]. unfold entries in H. assert (forall f, f0 <= f -> parse_entries f cl ts = Ok (tl c, [], te) /\ c = leaf t :: tl c) as G.
  { intros f Hf. specialize (H f Hf). rewrite entries_trivia in H by exact K. destruct (parse_entries f cl ts) as [[[c' e'] te']| |]; try discriminate. injection H as <- -> <-. auto. }
  exists (tl c). split; [apply (G f0 (le_n _))|]. exists f0. intros f Hf. apply (G f Hf).
Qed.
Lemma triv_leaf t : is_trivia_kind (tk_kind t) = true -> is_triv (leaf t).
Proof. intros K. exists (tk_kind t), (tk_text t). split; [reflexivity|]. destruct (tk_kind t); (discriminate K || (cbn; tauto)). Qed.
Lemma triv_inv root docs t c kvs es : is_trivia_kind (tk_kind t) = true -> shows_entries root docs (leaf t :: c) kvs es -> shows_entries root docs c kvs es.
Proof.
  intros K H. unfold leaf in H. inversion H; subst; auto.
  - rewrite <- H0 in K. discriminate.
  - match goal with X : shows_line _ _ _ |- _ => inversion X end.
Qed.

(** A comment or comma in the place of an entry. *)
Lemma empty_entry f cl ts : okc cl -> tk_kind (hd (mktok Eof (mkspan 0 0) []) ts) = LineComment \/ peek_kind ts = Comma -> ts <> [] -> parse_entry (S (S f)) cl ts = Ok ([Node ENTRY []], [], ts).
Proof.
  intros Hc K Hne. destruct ts as [|t ts]; [now destruct Hne|]. cbn [hd peek_kind] in K. cbn [parse_entry]. unfold at_attribute, at_entry_end. cbn [peek_kind].
  destruct K as [K|K]; rewrite K; cbn [tkind_eqb andb]; cbn [bind skip is_blank_kind]; unfold is_blank_kind; rewrite K; cbn [tkind_eqb]; cbn [parse_values]; unfold at_entry_end; cbn [peek_kind]; rewrite K; reflexivity.
Qed.
Lemma not_closing cl k : okc cl -> k <> RBrace -> match cl with Some c => tkind_eqb k c | None => false end = false.
Proof. intros [-> | ->] H; [reflexivity|]. destruct k; (reflexivity || now destruct H). Qed.
Lemma closes_not cl ts : okc cl -> peek_kind ts <> RBrace -> closes cl ts = false.
Proof. intros Hc H. unfold closes. now apply not_closing. Qed.

Lemma comma_step f cl t ts : okc cl -> tk_kind t = Comma ->
  parse_entries (S (S (S f))) cl (t :: ts) = match parse_entries (S (S f)) cl ts with Ok (c, e, te) => Ok (Node ENTRY [] :: leaf t :: c, e, te) | Panic => Panic | OutOfFuel => OutOfFuel end.
Proof.
  intros Hc K. remember (S (S f)) as g eqn:Eg. cbn [parse_entries]. cbn [skip]. rewrite K. cbn [is_trivia_kind]. unfold skip_docs. cbn [peek_kind]. rewrite K. cbn [tkind_eqb orb].
  rewrite closes_not by (auto; cbn; congruence). subst g. rewrite empty_entry by (auto; (now right) || discriminate). cbn [bind skip]. unfold is_blank_kind. rewrite K. cbn [tkind_eqb peek_kind]. rewrite K. cbn [bump].
  destruct (parse_entries (S (S f)) cl ts) as [[[c e] te]| |]; reflexivity.
Qed.
Lemma comma_fwd cl t ts c te : okc cl -> tk_kind t = Comma -> runs (entries cl ts) c te -> runs (entries cl (t :: ts)) (Node ENTRY [] :: leaf t :: c) te.
Proof. intros Hc K [f0 H]. exists (3 + f0). intros f Hf. unfold entries in *. destruct f as [|[|[|f]]]; try lia. rewrite comma_step by auto. rewrite H by lia. reflexivity. Qed.
Lemma comma_bwd cl t ts c te : okc cl -> tk_kind t = Comma -> runs (entries cl (t :: ts)) c te -> exists c', c = Node ENTRY [] :: leaf t :: c' /\ runs (entries cl ts) c' te.
Proof.
  intros Hc K [f0 H]. unfold entries in H. assert (forall f, 2 + f0 <= f -> parse_entries f cl ts = Ok (tl (tl c), [], te) /\ c = Node ENTRY [] :: leaf t :: tl (tl c)) as G.
  { intros f Hf. destruct f as [|[|f]]; try lia. specialize (H (S (S (S f))) ltac:(lia)). rewrite comma_step in H by auto. destruct (parse_entries (S (S f)) cl ts) as [[[c' e'] te']| |]; try discriminate. injection H as <- -> <-. auto. }
  exists (tl (tl c)). split; [apply (G (2 + f0) (le_n _))|]. exists (2 + f0). intros f Hf. apply (G f Hf).
Qed.
Lemma empty_inv root docs c kvs es : shows_entries root docs (Node ENTRY [] :: c) kvs es -> shows_entries root docs c kvs es.
Proof. intros H. inversion H; subst; auto. match goal with X : shows_line _ _ _ |- _ => inversion X end. Qed.
Lemma comma_inv root docs t c kvs es : tk_kind t = Comma -> shows_entries root docs (leaf t :: c) kvs es -> shows_entries root docs c kvs es.
Proof.
  intros K H. unfold leaf in H. rewrite K in H. inversion H; subst; auto. match goal with X : shows_line _ _ _ |- _ => inversion X end.
Qed.

(** Doc comments. *)
Lemma trivia_all w ts : Forall (fun t => is_trivia_kind (tk_kind t) = true) w -> forall f cl, parse_entries f cl (w ++ ts) = match parse_entries f cl ts with Ok (c, e, te) => Ok (map leaf w ++ c, e, te) | Panic => Panic | OutOfFuel => OutOfFuel end.
Proof.
  induction 1 as [|t w K _ IH]; intros f cl; cbn [app map]; [now destruct (parse_entries f cl ts) as [[[? ?] ?]| |]|].
  rewrite entries_trivia, IH by exact K. now destruct (parse_entries f cl ts) as [[[? ?] ?]| |].
Qed.
Definition wn (k : tkind) : Prop := k = Whitespace \/ k = Newline.
Lemma split_wn ts : exists w ts0, ts = w ++ ts0 /\ Forall (fun t => wn (tk_kind t)) w /\ ~ wn (peek_kind ts0).
Proof.
  induction ts as [|t ts (w & ts0 & -> & Hw & Hn)]; [exists [], []; splits; auto; intros [H|H]; discriminate|].
  destruct (tkind_dec (tk_kind t) Whitespace) as [E|E]; [|destruct (tkind_dec (tk_kind t) Newline) as [E'|E']].
  - exists (t :: w), ts0. splits; auto. constructor; auto. now left.
  - exists (t :: w), ts0. splits; auto. constructor; auto. now right.
  - exists [], (t :: w ++ ts0). splits; auto. cbn. intros [H|H]; congruence.
Qed.
Lemma wn_trivia w : Forall (fun t => wn (tk_kind t)) w -> Forall (fun t => is_trivia_kind (tk_kind t) = true) w.
Proof. intros H. eapply Forall_impl; [|exact H]. cbn. intros t [-> | ->]; reflexivity. Qed.
Lemma wn_docs w : Forall (fun t => wn (tk_kind t)) w -> Forall (fun t => is_doc_run_kind (tk_kind t) = true) w.
Proof. intros H. eapply Forall_impl; [|exact H]. cbn. intros t [-> | ->]; reflexivity. Qed.
Lemma skip_more p a b : Forall (fun t => p (tk_kind t) = true) a -> skip p (a ++ b) = let (c, r) := skip p b in (map leaf a ++ c, r).
Proof. induction 1 as [|t a K _ IH]; cbn [app skip map]; [now destruct (skip p b)|]. rewrite K, IH. now destruct (skip p b). Qed.

Lemma doc_fwd cl t ts c te : okc cl -> tk_kind t = DocComment -> runs (entries cl ts) c te ->
  exists c', runs (entries cl (t :: ts)) c' te /\
    (c' = leaf t :: c \/ exists w c0, c = w ++ c0 /\ c' = leaf t :: w ++ Node ENTRY [] :: c0 /\ Forall is_triv w).
Proof.
  intros Hc K [f0 H]. unfold entries in H. destruct (split_wn ts) as (w & ts0 & -> & Hw & Hn).
  assert (forall f, parse_entries (S f) cl (t :: w ++ ts0) = let (c2, ts2) := let (c, r) := skip is_doc_run_kind ts0 in (leaf t :: map leaf w ++ c, r) in
    if tkind_eqb (peek_kind ts2) Eof || closes cl ts2 then Ok (c2, [], ts2) else
      do (c3, e3, ts3) <- parse_entry f cl ts2;
      let (c4, ts4) := skip is_blank_kind ts3 in
      let (c5, ts5) := match peek_kind ts4 with Comma | Newline => bump ts4 | _ => ([], ts4) end in
      do (c6, e6, ts6) <- parse_entries f cl ts5;
      Ok (c2 ++ c3 ++ c4 ++ c5 ++ c6, e3 ++ e6, ts6)) as E.
  { intros f. cbn [parse_entries]. cbn [skip]. rewrite K. cbn [is_trivia_kind]. unfold skip_docs. cbn [peek_kind]. rewrite K. cbn [tkind_eqb]. cbn [skip]. rewrite K. cbn [is_doc_run_kind].
    rewrite (skip_more _ w) by now apply wn_docs. destruct (skip is_doc_run_kind ts0) as [c1 r]. reflexivity. }
  destruct (tkind_dec (peek_kind ts0) LineComment) as [KL|KL].
  - (* a comment: an entry without anything *)
    destruct ts0 as [|t0 ts0]; [discriminate|]. cbn [peek_kind] in KL.
    assert (forall f, f0 <= f -> parse_entries f cl (t0 :: ts0) = Ok (skipn (length w) c, [], te) /\ c = map leaf w ++ skipn (length w) c) as G.
    { intros f Hf. specialize (H f Hf). rewrite trivia_all in H by now apply wn_trivia. destruct (parse_entries f cl (t0 :: ts0)) as [[[c' e'] te']| |]; try discriminate. injection H as <- -> <-.
      rewrite <- (map_length leaf w), skipn_app, skipn_all, Nat.sub_diag. auto. }
    exists (leaf t :: map leaf w ++ Node ENTRY [] :: skipn (length w) c). split.
    + exists (3 + f0). intros f Hf. destruct f as [|[|[|f]]]; try lia. unfold entries. rewrite E. cbn [skip]. rewrite KL. cbn [is_doc_run_kind]. cbn [peek_kind]. rewrite KL. cbn [tkind_eqb orb].
      rewrite closes_not by (auto; cbn; congruence). rewrite empty_entry by (auto; discriminate). cbn [bind skip]. unfold is_blank_kind. rewrite KL. cbn [tkind_eqb]. cbn [peek_kind]. rewrite KL.
      rewrite (proj1 (G (S (S f)) ltac:(lia))). cbn [bind app]. rewrite app_nil_r. reflexivity.
    + right. exists (map leaf w), (skipn (length w) c). split; [apply (G f0 (le_n _))|]. split; [reflexivity|]. apply Forall_map. eapply Forall_impl; [|apply (wn_trivia _ Hw)]. intros ?. apply triv_leaf.
  - exists (leaf t :: c). split; [|now left]. exists (S f0). intros f Hf. destruct f as [|f]; [lia|]. unfold entries. rewrite E. specialize (H (S f) ltac:(lia)). rewrite trivia_all in H by now apply wn_trivia.
    cbn [parse_entries] in H. assert (skip is_trivia_kind ts0 = ([], ts0)) as ST.
    { destruct ts0 as [|t0 ts0]; [reflexivity|]. cbn [skip]. cbn [peek_kind] in KL, Hn. destruct (is_trivia_kind (tk_kind t0)) eqn:K0; [|reflexivity]. unfold wn in Hn. destruct (tk_kind t0); try discriminate; tauto. }
    rewrite ST in H.
    assert (skip_docs ts0 = skip is_doc_run_kind ts0) as SD.
    { unfold skip_docs. destruct (tkind_eqb (peek_kind ts0) DocComment) eqn:K0; [reflexivity|]. destruct ts0 as [|t0 ts0]; [reflexivity|]. cbn [skip]. cbn [peek_kind] in *. destruct (is_doc_run_kind (tk_kind t0)) eqn:K1; [|reflexivity]. unfold wn in Hn. destruct (tk_kind t0); try discriminate; tauto. }
    rewrite SD in H. destruct (skip is_doc_run_kind ts0) as [c2 ts2]. cbv beta iota in H |- *. destruct (tkind_eqb (peek_kind ts2) Eof || closes cl ts2).
    + cbn [app] in H. injection H as <- <-. reflexivity.
    + destruct (parse_entry f cl ts2) as [[[c3 e3] ts3]| |]; try discriminate. cbn [bind] in H |- *. destruct (skip is_blank_kind ts3) as [c4 ts4]. destruct (match peek_kind ts4 with Comma | Newline => bump ts4 | _ => ([], ts4) end) as [c5 ts5].
      destruct (parse_entries f cl ts5) as [[[c6 e6] ts6]| |]; try discriminate. cbn [bind] in H |- *. cbn [app] in H. injection H as <- -> <-. cbn [app]. rewrite <- !app_assoc. reflexivity.
Qed.
Lemma triv_app_inv w : Forall is_triv w -> forall root docs c kvs es, shows_entries root docs (w ++ c) kvs es -> shows_entries root docs c kvs es.
Proof.
  induction 1 as [|x w (k & t & -> & K) _ IH]; intros root docs c kvs es H; [exact H|]. cbn [app] in H. apply IH. inversion H; subst; auto.
  - exfalso. cbn in K. repeat (destruct K as [K|K]; [discriminate K|]). exact K.
  - match goal with X : shows_line _ _ _ |- _ => inversion X end.
Qed.
Lemma triv_app w : Forall is_triv w -> forall root docs c kvs es, shows_entries root docs c kvs es -> shows_entries root docs (w ++ c) kvs es.
Proof. induction 1; intros root docs c kvs es Hs; cbn; [exact Hs|]. apply se_skip; auto. Qed.
Lemma doc_shows root t u docs c c' kvs es : tk_kind t = DocComment -> doc_text (tk_text t) u -> shows_entries root (docs ++ [u]) c kvs es ->
  (c' = leaf t :: c \/ exists w c0, c = w ++ c0 /\ c' = leaf t :: w ++ Node ENTRY [] :: c0 /\ Forall is_triv w) -> shows_entries root docs c' kvs es.
Proof.
  intros K D H Q. unfold leaf in Q. rewrite K in Q. destruct Q as [-> |(w & c0 & -> & -> & Hw)]; eapply se_doc; eauto.
  apply triv_app; auto. apply se_skip; [tauto|]. now apply (triv_app_inv w).
Qed.

(** ** Tags *)
Lemma split_plain w : ~ In cSLASH w -> split_tag w = (w, []).
Proof.
  induction w as [|c w IH]; [reflexivity|]. intros N. destruct w as [|d w]; [reflexivity|]. change (split_tag (c :: d :: w)) with (if (c =? cSLASH)%N && (d =? cAT)%N then let (h, t) := split_tag w in ([], h :: t) else let (h, t) := split_tag (d :: w) in (c :: h, t)).
  destruct (N.eqb_spec c cSLASH) as [->|]; [destruct N; now left|]. cbn [andb]. rewrite IH; [reflexivity|]. intros Hi. apply N. now right.
Qed.
Lemma split_chain w s : ~ In cSLASH w -> split_tag (w ++ cSLASH :: cAT :: s) = let (h, t) := split_tag s in (w, h :: t).
Proof.
  induction w as [|c w IH]; intros N; [reflexivity|].
  assert (c <> cSLASH) as Nc by (intros ->; apply N; now left). apply N.eqb_neq in Nc.
  assert (~ In cSLASH w) as Nw by (intros Hi; apply N; now right). specialize (IH Nw). cbn [app]. destruct w as [|d w].
  - cbn [app] in *. change (split_tag (c :: cSLASH :: cAT :: s)) with (if (c =? cSLASH)%N && (cSLASH =? cAT)%N then let (h, t) := split_tag (cAT :: s) in ([], h :: t) else let (h, t) := split_tag (cSLASH :: cAT :: s) in (c :: h, t)).
    rewrite Nc. cbn [andb]. rewrite IH. now destruct (split_tag s).
  - cbn [app] in IH |- *. change (split_tag (c :: d :: w ++ cSLASH :: cAT :: s)) with (if (c =? cSLASH)%N && (d =? cAT)%N then let (h, t) := split_tag (w ++ cSLASH :: cAT :: s) in ([], h :: t) else let (h, t) := split_tag (d :: w ++ cSLASH :: cAT :: s) in (c :: h, t)).
    rewrite Nc. cbn [andb]. rewrite IH. now destruct (split_tag s).
Qed.
Lemma name_no_slash n : tag_name n -> ~ In cSLASH n.
Proof. intros (c & r & -> & Hc & Hr) [->|Hi]; [discriminate|]. rewrite forallb_forall in Hr. apply Hr in Hi. discriminate. Qed.
Lemma split_join ns : Forall tag_name ns -> forall w, ~ In cSLASH w -> split_tag (join [cSLASH; cAT] (w :: ns)) = (w, ns).
Proof.
  induction 1 as [|n ns Hn _ IH]; intros w Nw; [now apply split_plain|].
  change (join [cSLASH; cAT] (w :: n :: ns)) with (w ++ cSLASH :: cAT :: join [cSLASH; cAT] (n :: ns)). rewrite split_chain by exact Nw. rewrite IH by now apply name_no_slash. reflexivity.
Qed.
Lemma split_tag_join n ns : Forall tag_name (n :: ns) -> split_tag (cAT :: join [cSLASH; cAT] (n :: ns)) = (cAT :: n, ns).
Proof.
  intros H. inversion_clear H as [|? ? Hn Hs]. replace (cAT :: join [cSLASH; cAT] (n :: ns)) with (join [cSLASH; cAT] ((cAT :: n) :: ns)) by (destruct ns; reflexivity).
  apply split_join; [exact Hs|]. intros [E|E]; [discriminate|]. revert E. now apply name_no_slash.
Qed.
Lemma name_tag_text n : tag_name n -> tag_text n = cAT :: n.
Proof. intros (c & r & -> & Hc & _). cbn. destruct (N.eqb_spec c cAT) as [->|]; [discriminate|reflexivity]. Qed.
Lemma shows_stacked ns : Forall tag_name ns -> forall seg n st p d pl, tag_name n -> tag_text seg = cAT :: n ->
  stacked st (n :: ns) p = Some d -> (p = None /\ pl = [] \/ exists q c, p = Some q /\ pl = [Node TAG_PAYLOAD [c]] /\ shows c q) -> shows (tag_node seg ns pl) d.
Proof.
  induction 1 as [|m ns Hm _ IH]; intros seg n st p d pl Hn Ht Hs Hp.
  - cbn [stacked] in Hs. injection Hs as <-. cbn [tag_node]. rewrite Ht. destruct Hp as [[-> ->]|(q & c & -> & -> & Hc)]; [now apply sh_tag|now apply sh_tag_payload].
  - change (stacked st (n :: m :: ns) p) with (let q := stacked (st + blen n + 2) (m :: ns) p in let sp := mkspan st (match q with Some d => sp_end (dspan d) | None => st + 1 + blen n end) in Some (DTag sp n q sp)) in Hs.
    destruct (stacked (st + blen n + 2) (m :: ns) p) as [q|] eqn:E; [|discriminate E]. cbv zeta in Hs. injection Hs as <-. cbn [tag_node]. rewrite Ht. apply sh_tag_tag; [exact Hn|]. eapply (IH m m _ p); eauto. now apply name_tag_text.
Qed.
