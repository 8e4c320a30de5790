(** Proofs about highlighting. *)
From Coq Require Import String Sorted Permutation.
From Verif Require Import Base BaseProofs TokModel TokProofs CstModel CstSpec CstProofs CstFmtModel LspModel LspSpec LspProofs HiModel HiSpec.
Local Open Scope nat_scope.

Lemma cst_ind' : forall P : cst -> Prop,
  (forall k t, P (Leaf k t)) -> (forall k cs, Forall P cs -> P (Node k cs)) -> forall n, P n.
Proof.
  intros P HL HN. fix IH 1. intros [k t|k cs]; [apply HL|]. apply HN.
  induction cs as [|c cs IHc]; constructor; [apply IH|exact IHc].
Qed.

Lemma text_of_app a b : text_of (a ++ b) = text_of a ++ text_of b.
Proof. unfold text_of. now rewrite map_app, concat_app. Qed.
Lemma node_text_leaves n : node_text n = text_of (leaves n).
Proof.
  induction n as [k t|k cs IH] using cst_ind'.
  - unfold text_of. cbn. now rewrite app_nil_r.
  - cbn [node_text leaves]. induction IH as [|c r E _ IHr]; [reflexivity|]. cbn [flat_map]. now rewrite text_of_app, E, IHr.
Qed.

(** ** The spans of a walk are ranges of leaves, in order *)
Inductive picks (ok : lkind -> ttype -> bool -> Prop) : nat -> list leaf_of -> list hspan -> Prop :=
| pk_nil : forall p, picks ok p [] []
| pk_skip : forall p k t ls hs, picks ok (p + blen t) ls hs -> picks ok p ((k, t) :: ls) hs
| pk_take : forall p k t ty d ls hs, ok k ty d -> picks ok (p + blen t) ls hs ->
    picks ok p ((k, t) :: ls) (mkh p (p + blen t) ty d :: hs).
#[global] Hint Constructors picks : hi.

Section Picks.
Variable ok : lkind -> ttype -> bool -> Prop.
Notation picks := (picks ok).
Lemma picks_none ls : forall p, picks p ls [].
Proof. induction ls as [|[k t] r IH]; intros p; constructor; auto. Qed.
Lemma picks_app a h1 h2 b : forall p, picks p a h1 -> picks (p + blen (text_of a)) b h2 -> picks p (a ++ b) (h1 ++ h2).
Proof.
  intros p H. induction H as [p|p k t ls hs H IH|p k t ty d ls hs O H IH]; intros H2; cbn in *.
  - now rewrite Nat.add_0_r in H2.
  - apply pk_skip, IH. cbn in H2. unfold text_of in H2. cbn in H2. rewrite blen_app, Nat.add_assoc in H2. exact H2.
  - apply pk_take; [exact O|apply IH]. unfold text_of in H2. cbn in H2. rewrite blen_app, Nat.add_assoc in H2. exact H2.
Qed.
Lemma picks_each f cs : (forall c q, In c cs -> picks q (leaves c) (f c q)) ->
  forall p, picks p (flat_map leaves cs) (each_at f cs p).
Proof.
  induction cs as [|c r IH]; intros H p; cbn; [constructor|].
  apply picks_app; [apply H; now left|]. rewrite <- node_text_leaves. apply IH. intros; apply H; now right.
Qed.
Lemma picks_leaf k t ty d q : ok k ty d -> picks q [(k, t)] (add_span ty d t q).
Proof. intros H. unfold add_span. constructor; [exact H|constructor]. Qed.
Lemma picks_tokens p ty cs : (forall k, p k = true -> ok k ty false) -> forall q, picks q (flat_map leaves cs) (token_spans p ty cs q).
Proof.
  intros H q. apply picks_each. intros [k t|k ds] q' _; [|apply picks_none]. cbn.
  destruct (p k) eqn:E; [apply picks_leaf; auto|apply picks_none].
Qed.
End Picks.

(** What the two walks give to leaves. *)
Definition fits_span (k : lkind) (ty : ttype) (d : bool) : Prop :=
  match k with
  | LTok LineComment => ty = TyComment /\ d = false
  | LTok DocComment => ty = TyComment /\ d = true
  | LTok (BareScalar | QuotedScalar | RawScalar) => (ty = TyString \/ ty = TyProperty) /\ d = false
  | LTok HeredocContent => ty = TyString /\ d = false
  | LTok Tag => (ty = TyType \/ ty = TyProperty) /\ d = false
  | LTok At => ty = TyType /\ d = false
  | LTok (Gt | HeredocStart | HeredocEnd) => ty = TyOperator /\ d = false
  | _ => False
  end.
Definition fits_token (k : lkind) (ty : ttype) (d : bool) : Prop :=
  fits_span k ty d /\ k <> LTok HeredocContent.

Ltac hi_leaf := cbn in *; repeat (match goal with
  | |- context[is_scalar_token ?k] => destruct k as [[]|]
  | |- context[is_tag_token ?k] => destruct k as [[]|]
  | |- context[comment_span ?k] => destruct k as [[]|]
  | k : lkind |- _ => destruct k as [[]|]
  end; cbn); (apply picks_leaf; cbn; unfold fits_token; cbn; intuition congruence) || apply picks_none.
Ltac hi_toks := apply picks_tokens; let k := fresh in intros k; destruct k as [[]|]; cbn; unfold fits_token; cbn; intuition congruence.

Lemma key_spans_pick cs p : picks fits_span p (flat_map leaves cs) (collect_key_spans cs p).
Proof.
  apply picks_each. intros [k t|k ds] q _; [apply picks_none|]. destruct k; try apply picks_none; hi_toks.
Qed.
Lemma walk_spans_pick n : forall s p, picks fits_span p (leaves n) (walk_spans n s p).
Proof.
  induction n as [k t|k cs IH] using cst_ind'; intros s p; [apply picks_none|].
  rewrite Forall_forall in IH. cbn [leaves].
  destruct k; cbn [walk_spans]; try hi_toks;
    try (destruct s; [|apply key_spans_pick]);
    (apply picks_each; intros [k t|k ds] q I;
     [hi_leaf
     |try (apply (IH _ I)); destruct k; try apply picks_none; try (apply (IH _ I)); try hi_toks; apply key_spans_pick]).
Qed.
Lemma key_tokens_pick cs p : picks fits_token p (flat_map leaves cs) (collect_key_tokens cs p).
Proof.
  apply picks_each. intros [k t|k ds] q _; [hi_leaf|]. destruct k; try apply picks_none; hi_toks.
Qed.
Lemma walk_tokens_pick n : forall s p, picks fits_token p (leaves n) (walk_tokens n s p).
Proof.
  induction n as [k t|k cs IH] using cst_ind'; intros s p; [apply picks_none|].
  rewrite Forall_forall in IH. cbn [leaves].
  destruct k; cbn [walk_tokens]; try hi_toks; try (destruct s; [|apply key_tokens_pick]);
    (apply picks_each; intros [k t|k ds] q I;
     [hi_leaf
     |try (apply (IH _ I)); destruct k; try apply picks_none; try (apply (IH _ I)); try hi_toks]).
Qed.

(** ** Sorting keeps them *)
Lemma picks_starts ok p ls hs : picks ok p ls hs -> StronglySorted (fun a b => h_start a <= h_start b) hs /\ Forall (fun h => p <= h_start h) hs.
Proof.
  induction 1 as [p|p k t ls hs H [S F]|p k t ty d ls hs O H [S F]].
  - split; constructor.
  - split; [exact S|]. eapply Forall_impl; [|exact F]. cbn. intros h L. lia.
  - assert (F' : Forall (fun h => p <= h_start h) hs) by (eapply Forall_impl; [|exact F]; cbn; intros h L; lia).
    split; constructor; auto.
Qed.
Lemma sort_spans_sorted hs : StronglySorted (fun a b => h_start a <= h_start b) hs -> sort_spans hs = hs.
Proof.
  induction 1 as [|x r S IH F]; [reflexivity|]. cbn. rewrite IH. destruct r as [|y r]; [reflexivity|]. cbn.
  inversion F as [|? ? L]. apply Nat.leb_le in L. now rewrite L.
Qed.

(** ** Painting *)
Lemma fits_span_colour k ty d : fits_span k ty d -> In (ansi_color ty d) (colours k).
Proof.
  destruct k as [[]|]; cbn; try contradiction; intros [H ->]; try destruct H as [H|H]; rewrite H; cbn; auto.
Qed.
Lemma paint_step a pend k t ls : let src := a ++ pend ++ text_of ((k, t) :: ls) in
  forall ty d hs out, paint src (blen (a ++ pend ++ t)) hs = Ok out ->
  paint src (blen a) (mkh (blen (a ++ pend)) (blen (a ++ pend) + blen t) ty d :: hs)
  = Ok (pend ++ ansi_color ty d ++ t ++ end_colour ++ out).
Proof.
  intros src ty d hs out E. cbn [paint h_start h_end h_type h_doc].
  assert (B : (if blen a <? blen (a ++ pend) then of_opt (slice src (blen a) (blen (a ++ pend))) else Ok []) = Ok pend).
  { unfold src. destruct (Nat.ltb _ _) eqn:L.
    - rewrite blen_app, slice_app. reflexivity.
    - apply Nat.ltb_ge in L. rewrite blen_app in L. destruct pend as [|c r]; [reflexivity|]. cbn in L. pose proof (clen_pos c). lia. }
  rewrite B. cbn [bind].
  replace (slice src (blen (a ++ pend)) (blen (a ++ pend) + blen t)) with (Some t).
  2:{ symmetry. unfold src, text_of. cbn [map snd concat]. rewrite (app_assoc a pend). apply slice_app. }
  cbn [bind of_opt]. replace (blen (a ++ pend) + blen t) with (blen (a ++ pend ++ t)) by (rewrite !blen_app; lia).
  rewrite E. reflexivity.
Qed.
Lemma paint_picks : forall ls p hs, picks fits_span p ls hs -> forall a pend src,
  src = a ++ pend ++ text_of ls -> p = blen (a ++ pend) ->
  exists o, paint src (blen a) hs = Ok (pend ++ o) /\ painted ls o.
Proof.
  induction 1 as [p|p k t ls hs H IH|p k t ty d ls hs O H IH]; intros a pend src -> ->.
  - exists []. split; [|constructor]. unfold text_of. cbn [paint map concat]. rewrite !app_nil_r, !blen_app.
    destruct (Nat.ltb _ _) eqn:E.
    + pose proof (slice_app a pend []) as S. rewrite app_nil_r in S. now rewrite S.
    + apply Nat.ltb_ge in E. destruct pend as [|c r]; [reflexivity|]. cbn in E. pose proof (clen_pos c). lia.
  - destruct (IH a (pend ++ t) (a ++ (pend ++ t) ++ text_of ls)) as (o & E & P);
      [reflexivity|now rewrite !blen_app, Nat.add_assoc|].
    exists (t ++ o). split; [|now constructor]. unfold text_of in *. cbn. rewrite <- !app_assoc in E. exact E.
  - destruct (IH (a ++ pend ++ t) [] (a ++ pend ++ text_of ((k, t) :: ls))) as (o & E & P).
    { unfold text_of. cbn. now rewrite <- !app_assoc. } { rewrite !blen_app. cbn. lia. }
    exists (ansi_color ty d ++ t ++ end_colour ++ o).
    split; [|constructor; [now apply fits_span_colour|exact P]].
    apply paint_step, E.
Qed.

Lemma painted_text ls : painted ls (text_of ls).
Proof. induction ls as [|[k t] r IH]; [constructor|]. unfold text_of. cbn. now constructor. Qed.
Lemma highlight_paints src : exists tree errors out,
  cst_parse src = Ok (tree, errors) /\ highlight_styx src = Ok out /\ text_of (leaves tree) = src /\ painted (leaves tree) out.
Proof.
  destruct (cst_parse_covers src) as (ts & tree & errors & _ & R & _ & T). exists tree, errors.
  pose proof (walk_spans_pick tree false 0) as P.
  destruct (paint_picks _ _ _ P [] [] src) as (o & E & PT); [symmetry; exact T|reflexivity|].
  unfold highlight_styx. rewrite R. cbn [bind]. unfold compute_highlight_spans.
  rewrite sort_spans_sorted by (eapply proj1, picks_starts, P).
  destruct (walk_spans tree false 0) as [|h hs].
  - exists src. splits; auto. pose proof (painted_text (leaves tree)) as Q. change (text_of (leaves tree) = src) in T.
    rewrite T in Q. exact Q.
  - exists o. splits; auto.
Qed.

(** ** Removing the colours *)
Lemma strip_plain t r : ~ In 27%N t -> strip_escapes false (t ++ r) = t ++ strip_escapes false r.
Proof.
  induction t as [|c t IH]; intros H; [reflexivity|]. cbn [app strip_escapes].
  destruct (N.eqb_spec c 27) as [->|_]; [exfalso; apply H; now left|]. f_equal. apply IH. intros I. apply H. now right.
Qed.
Lemma strip_colour k c r : In c (colours k) -> strip_escapes false (c ++ r) = strip_escapes false r.
Proof.
  destruct k as [[]|]; cbn; intros H; repeat (destruct H as [<-|H]); try contradiction; reflexivity.
Qed.
Lemma painted_strip ls o : painted ls o -> ~ In 27%N (text_of ls) -> strip_escapes false o = text_of ls.
Proof.
  induction 1 as [|k t ls o P IH|k t c ls o I P IH]; intros N; [reflexivity| |];
    unfold text_of in *; cbn [map snd concat] in *; rewrite in_app_iff in N.
  - rewrite strip_plain by tauto. f_equal. apply IH. tauto.
  - rewrite (strip_colour k) by exact I. rewrite strip_plain by tauto. f_equal.
    etransitivity; [|apply IH; tauto]. reflexivity.
Qed.

(** ** Semantic tokens *)
Lemma fits_token_num k ty d : fits_token k ty d -> fits k (ttype_num ty) (if d then 1 else 0).
Proof.
  intros [F N]. destruct k as [[]|]; cbn in *; try contradiction; destruct F as [H ->]; try destruct H as [H|H]; rewrite H; cbn; auto.
Qed.
Lemma picks_reported : forall ls p hs, picks fits_token p ls hs -> forall a, p = blen a ->
  reported a ls (map (raw_of (a ++ text_of ls)) hs).
Proof.
  induction 1 as [p|p k t ls hs H IH|p k t ty d ls hs O H IH]; intros a ->.
  - constructor.
  - constructor. specialize (IH (a ++ t)). rewrite blen_app, <- app_assoc in IH. apply IH. reflexivity.
  - apply rp_token.
    + cbn. pose proof (walk_place a) as Q. rewrite <- (offset_walk a (text_of ((k, t) :: ls))) in Q. destruct (offset_to_position _ _) as [l c]. exact Q.
    + cbn. lia.
    + cbn. now apply fits_token_num.
    + specialize (IH (a ++ t)). rewrite blen_app, <- app_assoc in IH. apply IH. reflexivity.
Qed.

Lemma picks_boundary ok : forall ls p hs, picks ok p ls hs -> forall a, p = blen a ->
  Forall (fun h => exists x y, text_of ls = x ++ y /\ h_start h = blen a + blen x) hs.
Proof.
  assert (M : forall a t ls hs,
    Forall (fun h => exists x y, text_of ls = x ++ y /\ h_start h = blen (a ++ t) + blen x) hs -> forall k,
    Forall (fun h => exists x y, text_of ((k, t) :: ls) = x ++ y /\ h_start h = blen a + blen x) hs).
  { intros a t ls hs F k. eapply Forall_impl; [|exact F]. cbn. intros h (x & y & E & L).
    exists (t ++ x), y. rewrite blen_app in *. split; [|lia]. unfold text_of in *. cbn. now rewrite E, app_assoc. }
  induction 1 as [p|p k t ls hs H IH|p k t ty d ls hs O H IH]; intros a ->.
  - constructor.
  - apply M, IH. now rewrite blen_app.
  - constructor; [|apply M, IH; now rewrite blen_app]. exists [], (text_of ((k, t) :: ls)). cbn. split; [reflexivity|lia].
Qed.
Lemma picks_sorted ok : forall ls p hs, picks ok p ls hs -> forall a, p = blen a ->
  StronglySorted tok_le (map (raw_of (a ++ text_of ls)) hs).
Proof.
  induction 1 as [p|p k t ls hs H IH|p k t ty d ls hs O H IH]; intros a ->.
  - constructor.
  - specialize (IH (a ++ t)). rewrite blen_app, <- app_assoc in IH. apply IH. reflexivity.
  - cbn [map]. constructor.
    + specialize (IH (a ++ t)). rewrite blen_app, <- app_assoc in IH. apply IH. reflexivity.
    + pose proof (picks_boundary _ _ _ _ H (a ++ t)) as F. rewrite blen_app in F. specialize (F eq_refl).
      rewrite Forall_map. eapply Forall_impl; [|exact F]. cbn beta. intros h (x & y & E & L).
      unfold text_of in *. cbn [map snd concat]. rewrite E.
      destruct (offset_mono a (t ++ x) y) as [Q _]. rewrite <- app_assoc in Q. cbv zeta in Q.
      unfold raw_of, raw_token_at, tok_le. cbn [r_line r_start h_start]. rewrite L.
      replace (blen a + blen t + blen x) with (blen a + blen (t ++ x)) by (rewrite blen_app; lia). exact Q.
Qed.
Lemma sort_raw_id l : StronglySorted tok_le l -> sort_raw l = l.
Proof.
  induction 1 as [|x r S IH F]; [reflexivity|]. cbn. rewrite IH. destruct r as [|y r]; [reflexivity|]. cbn.
  inversion F as [|? ? L]. unfold raw_le. destruct L as [L|[L1 L2]].
  - apply Nat.ltb_lt in L. now rewrite L.
  - apply Nat.eqb_eq in L1. apply Nat.leb_le in L2. now rewrite L1, L2, orb_true_r.
Qed.
Lemma semantic_tokens_reported src : exists tree errors toks,
  cst_parse src = Ok (tree, errors) /\ compute_semantic_tokens tree = Ok toks /\ text_of (leaves tree) = src /\
  reported [] (leaves tree) (decode_tokens toks).
Proof.
  destruct (cst_parse_covers src) as (ts & tree & errors & _ & R & _ & T). change (text_of (leaves tree) = src) in T.
  pose proof (walk_tokens_pick tree false 0) as P.
  pose proof (picks_sorted _ _ _ _ P [] eq_refl) as S. pose proof (picks_reported _ _ _ P [] eq_refl) as Q.
  cbn [app] in S, Q.
  destruct (encode_decode _ 0 0 S) as (e & E & D).
  { apply Forall_forall. intros t _. unfold tok_le. cbn. lia. }
  exists tree, errors, e. splits; try assumption.
  - unfold compute_semantic_tokens, finish_tokens. rewrite node_text_leaves, sort_raw_id by exact S. exact E.
  - unfold decode_tokens. rewrite D. exact Q.
Qed.

(** ** The two walks *)
Definition known (ty : ttype) (d : bool) : Prop := colour_of (ttype_num ty) (if d then 1 else 0) = Some (ansi_color ty d).
Inductive both : nat -> list leaf_of -> list hspan -> list hspan -> Prop :=
| bo_nil : forall p, both p [] [] []
| bo_none : forall p k t ls hs gs, both (p + blen t) ls hs gs -> both p ((k, t) :: ls) hs gs
| bo_same : forall p k t ty d ls hs gs, known ty d -> both (p + blen t) ls hs gs ->
    both p ((k, t) :: ls) (mkh p (p + blen t) ty d :: hs) (mkh p (p + blen t) ty d :: gs)
| bo_content : forall p t ls hs gs, both (p + blen t) ls hs gs ->
    both p ((LTok HeredocContent, t) :: ls) (mkh p (p + blen t) TyString false :: hs) gs.
Lemma both_none ls : forall p, both p ls [] [].
Proof. induction ls as [|[k t] r IH]; intros p; constructor; auto. Qed.
Lemma both_app a h1 g1 b h2 g2 : forall p, both p a h1 g1 -> both (p + blen (text_of a)) b h2 g2 -> both p (a ++ b) (h1 ++ h2) (g1 ++ g2).
Proof.
  intros p H. induction H as [p|p k t ls hs gs H IH|p k t ty d ls hs gs K H IH|p t ls hs gs H IH]; intros H2;
    [cbn in *; now rewrite Nat.add_0_r in H2| | |]; unfold text_of in H2; cbn [map snd concat] in H2;
    rewrite blen_app, Nat.add_assoc in H2; cbn [app];
    (apply bo_content || (apply bo_same; [exact K|]) || apply bo_none); apply IH; exact H2.
Qed.
Lemma both_each f g cs : (forall c q, In c cs -> both q (leaves c) (f c q) (g c q)) ->
  forall p, both p (flat_map leaves cs) (each_at f cs p) (each_at g cs p).
Proof.
  induction cs as [|c r IH]; intros H p; cbn [each_at flat_map]; [constructor|].
  apply both_app; [apply H; now left|]. rewrite <- node_text_leaves. apply IH. intros; apply H; now right.
Qed.
Lemma both_leaf k t ty d q : known ty d -> both q [(k, t)] (add_span ty d t q) (add_span ty d t q).
Proof. intros K. unfold add_span. apply bo_same; [exact K|constructor]. Qed.
Lemma both_tokens p ty cs q : known ty false -> both q (flat_map leaves cs) (token_spans p ty cs q) (token_spans p ty cs q).
Proof.
  intros K. apply both_each. intros [k t|k ds] q' _; [|apply both_none]. cbn.
  destruct (p k); [now apply both_leaf|apply both_none].
Qed.
Lemma each_at_ext (A : Type) (f g : cst -> nat -> list A) cs :
  (forall c q, In c cs -> f c q = g c q) -> forall p, each_at f cs p = each_at g cs p.
Proof.
  induction cs as [|c r IH]; intros H p; [reflexivity|]. cbn [each_at]. f_equal; [apply H; now left|].
  apply IH. intros; apply H; now right.
Qed.
(** Where the context does not matter. *)
Lemma context_free n : alike true n = true -> simple_payload n || match n with Node TAG_PAYLOAD _ => true | _ => false end = true ->
  forall p, walk_tokens n true p = walk_tokens n false p.
Proof.
  induction n as [k t|k cs IH] using cst_ind'; intros A S p; [reflexivity|].
  rewrite Forall_forall in IH. destruct k; try discriminate S; try reflexivity; cbn [alike] in A; rewrite forallb_forall in A;
    cbn [walk_tokens]; apply each_at_ext; intros [k t|k ds] q I; try reflexivity; specialize (A _ I).
  - destruct k; try reflexivity. apply (IH _ I); [exact A|reflexivity].
  - cbn [negb orb] in A. apply andb_prop in A. apply (IH _ I); [apply A|]. apply orb_true_intro. left. apply A.
Qed.
Lemma alike_both n : forall s p, alike s n = true -> both p (leaves n) (walk_spans n s p) (walk_tokens n s p).
Proof.
  induction n as [k t|k cs IH] using cst_ind'; intros s p A; [apply both_none|].
  rewrite Forall_forall in IH. cbn [leaves].
  destruct k; try discriminate A; cbn [walk_spans walk_tokens]; try (apply both_tokens; reflexivity);
    cbn [alike] in A; rewrite forallb_forall in A.
  all: try (apply both_each; intros [k t|k ds] q I;
    [destruct k as [[]|]; cbn; solve [apply both_leaf; reflexivity|apply both_none]|apply (IH _ I), (A _ I)]).
  - apply both_each; intros [k t|k ds] q I.
    + destruct (is_tag_token k); [apply both_leaf; reflexivity|apply both_none].
    + destruct k; try apply both_none. apply (IH _ I), (A _ I).
  - apply both_each; intros [k t|k ds] q I.
    + destruct k as [[]|]; cbn; solve [apply both_leaf; reflexivity|apply both_none].
    + apply (IH _ I). eapply andb_prop, (A _ I).
  - destruct s.
    + apply both_each; intros [k t|k ds] q I; specialize (A _ I); [discriminate A|]. cbn in A.
      destruct k; try discriminate A; try apply both_none; try (apply both_tokens; reflexivity); try (apply (IH _ I), A).
      change (both q (leaves (Node TAG ds)) (walk_spans (Node TAG ds) true q) (walk_tokens (Node TAG ds) false q)).
      rewrite <- context_free by (exact A || reflexivity). apply (IH _ I), A.
    + apply both_each; intros [k t|k ds] q I; specialize (A _ I); [discriminate A|]. 
      destruct k; try discriminate A; try apply both_none; apply both_tokens; reflexivity.
  - apply both_each; intros [k t|k ds] q I; [|apply both_none].
    destruct k as [[]|]; try apply both_none; try (apply both_leaf; reflexivity).
    unfold add_span. apply bo_content. constructor.
Qed.
Lemma both_agree : forall ls p hs gs, both p ls hs gs -> forall a pend src,
  src = a ++ pend ++ text_of ls -> p = blen (a ++ pend) ->
  exists o, paint src (blen a) hs = Ok (pend ++ o) /\ agree (a ++ pend) ls o (map (raw_of src) gs).
Proof.
  induction 1 as [p|p k t ls hs gs H IH|p k t ty d ls hs gs K H IH|p t ls hs gs H IH]; intros a pend src -> ->.
  - exists []. split; [|constructor]. unfold text_of. cbn [paint map concat]. rewrite !app_nil_r, !blen_app.
    destruct (Nat.ltb _ _) eqn:E.
    + pose proof (slice_app a pend []) as S. rewrite app_nil_r in S. now rewrite S.
    + apply Nat.ltb_ge in E. destruct pend as [|c r]; [reflexivity|]. cbn in E. pose proof (clen_pos c). lia.
  - destruct (IH a (pend ++ t) (a ++ (pend ++ t) ++ text_of ls)) as (o & E & P);
      [reflexivity|now rewrite !blen_app, Nat.add_assoc|].
    exists (t ++ o). unfold text_of in *. cbn [map snd concat]. rewrite <- !app_assoc in E, P. split; [rewrite E; f_equal; symmetry; apply app_assoc|].
    apply ag_plain. rewrite <- app_assoc. exact P.
  - destruct (IH (a ++ pend ++ t) [] (a ++ pend ++ text_of ((k, t) :: ls))) as (o & E & P).
    { unfold text_of. cbn. now rewrite <- !app_assoc. } { rewrite !blen_app. cbn. lia. }
    exists (ansi_color ty d ++ t ++ end_colour ++ o). split; [apply paint_step, E|].
    cbn [map]. apply ag_both.
    + unfold raw_of, raw_token_at. cbn [r_line r_start h_start]. rewrite (app_assoc a pend).
      pose proof (walk_place (a ++ pend)) as Q. rewrite <- (offset_walk (a ++ pend) (text_of ((k, t) :: ls))) in Q.
      destruct (offset_to_position _ _) as [l c]. exact Q.
    + unfold raw_of, raw_token_at. cbn [r_len h_start h_end]. lia.
    + exact K.
    + rewrite app_nil_r, app_assoc in P. exact P.
  - destruct (IH (a ++ pend ++ t) [] (a ++ pend ++ text_of ((LTok HeredocContent, t) :: ls))) as (o & E & P).
    { unfold text_of. cbn. now rewrite <- !app_assoc. } { rewrite !blen_app. cbn. lia. }
    exists (ansi_color TyString false ++ t ++ end_colour ++ o). split; [apply paint_step, E|].
    apply ag_content. rewrite app_nil_r, app_assoc in P. exact P.
Qed.
Lemma alike_agree src tree errors : cst_parse src = Ok (tree, errors) -> alike false tree = true ->
  exists out toks, highlight_styx src = Ok out /\ compute_semantic_tokens tree = Ok toks /\
    agree [] (leaves tree) out (decode_tokens toks).
Proof.
  intros R A. destruct (cst_parse_covers src) as (ts & tree' & errors' & _ & R' & _ & T). rewrite R in R'. injection R' as <- <-.
  change (text_of (leaves tree) = src) in T.
  pose proof (alike_both tree false 0 A) as B.
  destruct (both_agree _ _ _ _ B [] [] src) as (out & E & G); [symmetry; exact T|reflexivity|]. cbn [app blen] in E, G.
  pose proof (walk_tokens_pick tree false 0) as P. pose proof (picks_sorted _ _ _ _ P [] eq_refl) as S. cbn [app] in S.
  rewrite T in S.
  destruct (encode_decode _ 0 0 S) as (e & En & D).
  { apply Forall_forall. intros t _. unfold tok_le. cbn. lia. }
  exists out, e. splits.
  - unfold highlight_styx. rewrite R. cbn [bind]. unfold compute_highlight_spans.
    rewrite sort_spans_sorted by (eapply proj1, picks_starts, walk_spans_pick).
    destruct (walk_spans tree false 0) as [|h hs]; [|exact E].
    cbn [paint] in E. destruct (0 <? blen src) eqn:L.
    + pose proof (slice_app [] src []) as Q. cbn [app blen Nat.add] in Q. rewrite app_nil_r in Q. rewrite Q in E. exact E.
    + apply Nat.ltb_ge in L. destruct src as [|c r]; [exact E|]. cbn in L. pose proof (clen_pos c). lia.
  - unfold compute_semantic_tokens, finish_tokens. rewrite node_text_leaves, T, sort_raw_id by exact S. exact En.
  - unfold decode_tokens. rewrite D. exact G.
Qed.

(** ** Tokens on one line *)
Lemma tokens_from_shape fuel : forall st ts, hd_ok (ts_hd st) -> tokens_from fuel st = Some ts ->
  Forall (fun t => tok_shape (tk_kind t) (tk_text t)) ts.
Proof.
  induction fuel as [|f IH]; intros st ts HO H; [discriminate|]. cbn [tokens_from] in H.
  pose proof (next_token_good st HO) as (SH & HO' & _). destruct (next_token st) as [t st'] eqn:E. cbn [fst snd] in *.
  destruct (is_eof_kind (tk_kind t)); [injection H as <-; constructor|].
  destruct (tokens_from f st') as [ts'|] eqn:E'; [|discriminate]. injection H as <-. constructor; [exact SH|]. eapply IH; eauto.
Qed.
Lemma tokens_shape src ts : tokens src = Some ts -> Forall (fun t => tok_shape (tk_kind t) (tk_text t)) ts.
Proof. apply tokens_from_shape. exact I. Qed.

Lemma no_lf_forallb p s : p cLF = false -> forallb p s = true -> ~ In cLF s.
Proof. intros P F I. rewrite forallb_forall in F. apply F in I. congruence. Qed.
Definition one_line_kind (k : lkind) : bool :=
  match k with LTok (QuotedScalar | RawScalar | HeredocStart | HeredocContent | Newline | TError) => false | _ => true end.
Lemma shape_one_line k t : tok_shape k t -> one_line_kind (LTok k) = true -> ~ In cLF t.
Proof.
  destruct k; cbn [one_line_kind]; intros S O; try discriminate O; cbn [tok_shape] in S.
  all: try (subst t; cbn; intuition discriminate).
  - destruct S as (d & a & -> & D & A). cbn [In]. intros [I|[I|I]]; [discriminate I|subst d; discriminate D|].
    revert I. exact (no_lf_forallb _ a eq_refl A).
  - destruct S as [_ A]. exact (no_lf_forallb _ t eq_refl A).
  - destruct S as (i & d & -> & _ & A & B). rewrite in_app_iff.
    pose proof (no_lf_forallb _ i eq_refl A). pose proof (no_lf_forallb _ d eq_refl B). tauto.
  - destruct S as (a & -> & A). cbn [In]. pose proof (no_lf_forallb _ a eq_refl A). intuition discriminate.
  - destruct S as (a & -> & A). cbn [In]. pose proof (no_lf_forallb _ a eq_refl A). intuition discriminate.
  - destruct S as [_ A]. exact (no_lf_forallb _ t eq_refl A).
Qed.
Lemma covers_one_line ts ls : covers ts ls -> Forall (fun t => tok_shape (tk_kind t) (tk_text t)) ts ->
  forall k t, In (k, t) ls -> one_line_kind k = true -> ~ In cLF t.
Proof.
  induction 1 as [|t ts ls K C IH|t ts p ls K TP TX C IH|t ts ls K C IH]; intros F k s I O.
  - contradiction.
  - inversion F as [|? ? S F']. subst. destruct I as [E|I]; [injection E as <- <-; eapply shape_one_line; eauto|].
    eapply IH; eauto.
  - inversion F as [|? ? S F']. subst. apply in_app_or in I as [I|I]; [|eapply IH; eauto].
    rewrite K in S. apply shape_one_line in S; [|reflexivity]. rewrite <- TX in S. intros L. apply S.
    unfold text_of. apply in_concat. exists s. split; [|exact L]. apply in_map_iff. exists (k, s). auto.
  - inversion F as [|? ? S F']. subst. eapply IH; eauto.
Qed.
Lemma leaves_one_line src tree errors k t : cst_parse src = Ok (tree, errors) -> In (k, t) (leaves tree) ->
  one_line_kind k = true -> k <> LTok Eof -> ~ In cLF t.
Proof.
  intros R I O K. destruct (cst_parse_covers src) as (ts & tree' & errors' & T & R' & C & _). rewrite R in R'. injection R' as <- <-.
  eapply covers_one_line; [exact C|eapply tokens_shape, T| |exact O]. apply filter_In. split; [exact I|].
  destruct k as [[]|]; try reflexivity. contradiction.
Qed.
