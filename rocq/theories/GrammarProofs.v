(** The event parser accepts exactly the documents of the grammar and reports their events. *)
From Verif Require Import Base BaseProofs TokModel TokProofs LexModel LexSpec LexProofs ParseModel ParseSpec ParseProofs EmitProofs RunProofs
  PathSpec TreeModel TreeSpec BuildProofs LinkProofs EscapeProofs GrammarSpec.

(** ** The lexeme source *)

Definition feeds (s : lsrc) (ls : list lexeme) : Prop :=
  items s = ls /\ ~ In LxEof ls /\ (src_pending s = Some LxEof -> src_rest s = []).

Lemma feeds_new ls : ~ In LxEof ls -> feeds (mksrc ls None) ls.
Proof. intros H. split; [reflexivity|]. split; [exact H|discriminate]. Qed.

Lemma feeds_cons s l r : feeds s (l :: r) -> exists s1, src_next s = (l, s1) /\ feeds s1 r.
Proof.
  intros (E & Hn & Hp). unfold items, src_next in *. destruct (src_pending s) as [x|].
  - destruct x; try (injection E as <- <-; eexists; split; [reflexivity|]; split; [reflexivity|]; split; [intros H; apply Hn; now right|discriminate]).
    discriminate.
  - rewrite E. eexists. split; [reflexivity|]. split; [reflexivity|]. split; [intros H; apply Hn; now right|discriminate].
Qed.

Lemma feeds_nil s : feeds s [] -> exists s1, src_next s = (LxEof, s1) /\ feeds s1 [].
Proof.
  intros (E & Hn & Hp). unfold items, src_next in *. destruct (src_pending s) as [x|] eqn:Ep.
  - destruct x; try discriminate. eexists. split; [reflexivity|]. split; [|split; [tauto|discriminate]]. unfold items. cbn. now apply Hp.
  - rewrite E. exists s. split; [reflexivity|]. split; [unfold items; now rewrite Ep|]. split; [tauto|]. rewrite Ep. discriminate.
Qed.

(** The first lexeme, or the end. *)
Definition head (ls : list lexeme) : lexeme := match ls with l :: _ => l | [] => LxEof end.

Lemma feeds_next s ls : feeds s ls -> exists s1, src_next s = (head ls, s1) /\ feeds s1 (tl ls).
Proof. destruct ls as [|l r]; [apply feeds_nil|apply feeds_cons]. Qed.

Lemma next_pending s l s1 : src_next s = (l, s1) -> src_pending s1 = None.
Proof.
  unfold src_next. destruct (src_pending s) eqn:E; [intros [= _ <-]; reflexivity|]. destruct (src_rest s); intros [= _ <-]; [exact E|reflexivity].
Qed.

Lemma feeds_stash s ls s1 : feeds s ls -> src_next s = (head ls, s1) -> exists s2, src_stash (head ls) s1 = Ok s2 /\ feeds s2 ls.
Proof.
  intros H E. destruct (feeds_next _ _ H) as (s1' & E' & H1). assert (s1' = s1) by congruence. subst s1'.
  unfold src_stash. pose proof (next_pending _ _ _ E) as Hp. rewrite Hp. eexists. split; [reflexivity|].
  destruct H as (_ & Hn & _). destruct H1 as (E1 & Hn1 & _). unfold items in E1. rewrite Hp in E1.
  split; [|split; [exact Hn|]]; cbn [src_pending src_rest items].
  - destruct ls as [|l r]; cbn [head tl] in *; [reflexivity|]. rewrite E1. destruct l; try reflexivity. exfalso. apply Hn. now left.
  - intros [= Eh]. rewrite E1. destruct ls as [|l r]; [reflexivity|]. cbn in Eh. subst l. exfalso. apply Hn. now left.
Qed.

Lemma feeds_size s ls : feeds s ls -> src_size s = length ls.
Proof.
  intros (E & Hn & Hp). unfold src_size, items in *. destruct (src_pending s) as [x|]; [|subst; lia].
  destruct x; try (subst ls; cbn [length]; lia). rewrite Hp by reflexivity. subst ls. reflexivity.
Qed.

(** ** Tag chains *)

Lemma tag_char_no_slash c : is_tag_char c = true -> c <> cSLASH.
Proof. intros H ->. discriminate H. Qed.
Lemma tag_start_char c : is_tag_start c = true -> is_tag_char c = true.
Proof. unfold is_tag_start, is_tag_char, is_alnum. intros H. apply orb_prop in H as [H|H]; rewrite H; now rewrite ?orb_true_r. Qed.

Lemma tag_name_chars n : tag_name n -> n <> [] /\ forallb is_tag_char n = true.
Proof. intros (c & r & -> & H1 & H2). split; [discriminate|]. cbn. now rewrite (tag_start_char _ H1), H2. Qed.

Lemma split_sub2_name n r : forallb is_tag_char n = true ->
  split_sub2 cSLASH cAT (n ++ r) = match split_sub2 cSLASH cAT r with p :: ps => (n ++ p) :: ps | [] => [n] end.
Proof.
  induction n as [|c n IH]; intros H.
  - cbn [app]. destruct (split_sub2 cSLASH cAT r) eqn:E; [now apply split_sub2_nonempty in E|reflexivity].
  - cbn in H. apply andb_prop in H as [Hc Hn]. specialize (IH Hn). cbn [app].
    assert (Hs : split_sub2 cSLASH cAT (c :: n ++ r) = match split_sub2 cSLASH cAT (n ++ r) with p :: ps => (c :: p) :: ps | [] => [[c]] end).
    { cbn [split_sub2]. destruct (n ++ r) as [|d x]; [reflexivity|].
      destruct (N.eqb_spec c cSLASH) as [->|_]; [discriminate Hc|reflexivity]. }
    rewrite Hs, IH. destruct (split_sub2 cSLASH cAT r) eqn:E; [now apply split_sub2_nonempty in E|reflexivity].
Qed.

Lemma split_chain_join ns : ns <> [] -> Forall tag_name ns -> split_sub2 cSLASH cAT (join [cSLASH; cAT] ns) = ns.
Proof.
  induction ns as [|n ns IH]; [congruence|]. intros _ H. inversion_clear H as [|? ? Hn Hns].
  destruct (tag_name_chars _ Hn) as [_ Hc]. destruct ns as [|m ns].
  - cbn [join]. rewrite <- (app_nil_r n) at 1. rewrite split_sub2_name by assumption. cbn. now rewrite app_nil_r.
  - change (join [cSLASH; cAT] (n :: m :: ns)) with (n ++ [cSLASH; cAT] ++ join [cSLASH; cAT] (m :: ns)).
    rewrite split_sub2_name by assumption. specialize (IH ltac:(discriminate) Hns).
    change (split_sub2 cSLASH cAT ([cSLASH; cAT] ++ ?x)) with ([] :: split_sub2 cSLASH cAT x). rewrite IH. now rewrite app_nil_r.
Qed.

Lemma join_split_chain s : join [cSLASH; cAT] (split_sub2 cSLASH cAT s) = s.
Proof.
  assert (forall n s, length s <= n -> join [cSLASH; cAT] (split_sub2 cSLASH cAT s) = s) as H; [|now apply (H (length s))].
  clear s. induction n as [|n IH]; intros s Hs; [destruct s; [reflexivity|cbn in Hs; lia]|].
  destruct s as [|c [|d r]]; [reflexivity|reflexivity|]. cbn [split_sub2].
  assert (Hcons : forall x l, l <> [] -> join [cSLASH; cAT] (match l with p :: ps => (x :: p) :: ps | [] => [[x]] end) = x :: join [cSLASH; cAT] l).
  { intros x [|p [|q l]] Hl; [congruence| |]; reflexivity. }
  destruct ((c =? cSLASH) && (d =? cAT))%N eqn:E.
  - apply andb_prop in E as [E1 E2]. apply N.eqb_eq in E1, E2. subst.
    destruct (split_sub2 cSLASH cAT r) as [|p ps] eqn:Er; [now apply split_sub2_nonempty in Er|].
    change (join [cSLASH; cAT] ([] :: p :: ps)) with ([cSLASH; cAT] ++ join [cSLASH; cAT] (p :: ps)). rewrite <- Er, IH; [reflexivity|cbn in Hs; lia].
  - rewrite Hcons; [|apply (split_sub2_nonempty cSLASH cAT (d :: r))]. f_equal. apply (IH (d :: r)). cbn in *. lia.
Qed.

Lemma tag_name_valid n : is_valid_tag_name n = true <-> tag_name n.
Proof.
  unfold tag_name, is_valid_tag_name. destruct n as [|c r]; [split; [discriminate|intros (? & ? & [=] & _)]|].
  rewrite andb_true_iff. split; [intros [H1 H2]; eauto|]. intros (c' & r' & [= <- <-] & H1 & H2). auto.
Qed.

(** ** Atoms and the values they stand for *)

Inductive stands : atom -> dval -> Prop :=
| st_scalar sp t k : stands (AScalar sp t k) (DScalar sp t k)
| st_unit sp : stands (AUnit sp) (DUnit sp)
| st_tag sp n : stands (ATag sp n None false None) (DTag sp n None sp)
| st_payload sp n a d : stands a d -> stands (ATag sp n (Some a) false None) (DTag sp n (Some d) sp)
| st_seq sp xs ds : stands_l xs ds -> stands (ASeq sp xs false []) (DSeq sp ds sp)
| st_obj sp xs es : stands_e xs es -> stands (AObject sp xs [] [] false) (DObj sp es sp)
| st_attrs sp xs es : stands_a xs es -> stands (AAttrs sp xs) (DObj sp (map attr_entry es) sp)
with stands_l : list atom -> list dval -> Prop :=
| sl_nil : stands_l [] []
| sl_cons a d xs ds : stands a d -> stands_l xs ds -> stands_l (a :: xs) (d :: ds)
with stands_e : list oentry -> list dentry -> Prop :=
| se_nil : stands_e [] []
| se_cons ka kd va vd docs tag pl k xs es : stands ka kd -> key_is kd tag pl k -> stands va vd -> stands_e xs es ->
    stands_e ((ka, va, docs, None) :: xs)
      (DEnt (match docs with Some x => [x] | None => [] end) (dspan kd) (dspan kd) tag pl k vd (dspan vd) :: es)
with stands_a : list (str * span * atom) -> list (str * span * dval) -> Prop :=
| sa_nil : stands_a [] []
| sa_cons key ksp a d xs es : stands a d -> stands_a xs es -> stands_a ((key, ksp, a) :: xs) ((key, ksp, d) :: es).

Scheme stands_mut := Minimality for stands Sort Prop
  with stands_l_mut := Minimality for stands_l Sort Prop
  with stands_e_mut := Minimality for stands_e Sort Prop
  with stands_a_mut := Minimality for stands_a Sort Prop.
Combined Scheme stands_all from stands_mut, stands_l_mut, stands_e_mut, stands_a_mut.

Lemma stands_span a d : stands a d -> a_span a = dspan d.
Proof. destruct 1; reflexivity. Qed.

Lemma hex_no_bsl c : hex_char c -> (c =? cBSL)%N = false.
Proof. intros H. apply N.eqb_neq. intros ->. unfold hex_char in H. lia. Qed.

Lemma validate_brace h s start from : Forall hex_char h -> forall i,
  validate_from (Some (start, from, true)) i (h ++ cRB :: s) = validate_from None (S (i + blen h)) s.
Proof.
  induction 1 as [|c h Hc _ IH]; intros i.
  - cbn [app validate_from blen]. rewrite Nat.add_0_r. reflexivity.
  - cbn [app validate_from blen]. replace (c =? cRB)%N with false.
    + rewrite (proj2 (is_hex_iff c) Hc). cbn [andb]. rewrite IH. f_equal. lia.
    + symmetry. apply N.eqb_neq. intros ->. unfold hex_char in Hc. lia.
Qed.

Lemma decodes_validate v w : decodes v w -> forall i, validate_from None i v = Ok [].
Proof.
  induction 1 as [|c s v Hc _ IH|d c s v Hd _ IH|h s v Hl Hh _ _ IH|h s v Hn Hh _ _ IH]; intros i.
  - reflexivity.
  - cbn [validate_from]. replace (c =? cBSL)%N with false by (symmetry; now apply N.eqb_neq). cbn [negb]. apply IH.
  - cbn [validate_from]. change ((cBSL =? cBSL)%N) with true. cbn [negb].
    replace _ with true; [apply IH|]. symmetry. repeat (destruct Hd as [[= <- _]|Hd]; [reflexivity|]). destruct Hd.
  - destruct h as [|h1 [|h2 [|h3 [|h4 [|]]]]]; try discriminate Hl. inversion_clear Hh as [|? ? H1 Hh']. inversion_clear Hh' as [|? ? H2 Hh]. inversion_clear Hh as [|? ? H3 Hh']. inversion_clear Hh' as [|? ? H4 _].
    cbn [app validate_from]. change ((cBSL =? cBSL)%N) with true. change ((cu =? cu)%N) with true.
    change ((cu =? cn) || (cu =? cr) || (cu =? ct) || (cu =? cBSL) || (cu =? cDQ))%N with false. cbn [negb].
    replace (h1 =? cLB)%N with false by (symmetry; apply N.eqb_neq; intros ->; unfold hex_char in H1; lia).
    rewrite (proj2 (is_hex_iff _) H1), (proj2 (is_hex_iff _) H2), (proj2 (is_hex_iff _) H3), (hex_no_bsl _ H4). cbn [negb]. apply IH.
  - cbn [app validate_from]. change ((cBSL =? cBSL)%N) with true. change ((cu =? cu)%N) with true. change ((cLB =? cLB)%N) with true.
    change ((cu =? cn) || (cu =? cr) || (cu =? ct) || (cu =? cBSL) || (cu =? cDQ))%N with false. cbn [negb].
    rewrite validate_brace by assumption. apply IH.
Qed.

Lemma stands_key a d tag pl k : stands a d -> key_is d tag pl k ->
  emit_key a = Ok [mkev (dspan d) (EvKey tag pl k)] /\ key_of_atom a = key_id d.
Proof.
  intros H Hk. destruct Hk as [sp t k|sp|sp n s2|sp n usp s2|sp n isp t k s2 Hq]; inversion H; subst; try (split; reflexivity).
  - match goal with H : stands _ (DUnit _) |- _ => inversion H; subst end. split; reflexivity.
  - match goal with H : stands _ (DScalar _ _ _) |- _ => inversion H; subst end. split; [|reflexivity]. cbn [emit_key].
    destruct k; try reflexivity. destruct (Hq eq_refl) as [w Hw]. unfold escape_errors, validate_escapes. rewrite (decodes_validate _ _ Hw). reflexivity.
Qed.

Lemma stands_emit :
  (forall a d, stands a d -> emit_value a = Ok (val_events d)) /\
  (forall xs ds, stands_l xs ds -> (fix go (es : list atom) : res (list event) :=
         match es with [] => Ok [] | x :: r => do ex <- emit_value x; do er <- go r; Ok (ex ++ er) end) xs = Ok (flat_map val_events ds)) /\
  (forall xs es, stands_e xs es -> (fix go (es : list oentry) : res (list event) :=
         match es with
         | [] => Ok []
         | (key, value, doc, tm) :: r =>
           do ek <- emit_key key; do evv <- emit_value value; do er <- go r;
           Ok ((match doc with Some (dsp, lines) => [mkev dsp (EvDoc lines)] | None => [] end)
               ++ mkev (a_span key) EvEntryStart :: ek ++ evv
               ++ (match tm with Some x => [mkerr x ETooManyAtoms; mkev x EvEntryEnd] | None => [mkev (a_span value) EvEntryEnd] end) ++ er)
         end) xs = Ok (flat_map ent_events es)) /\
  (forall xs es, stands_a xs es -> (fix go (es : list (str * span * atom)) : res (list event) :=
         match es with
         | [] => Ok []
         | (key, ksp, v) :: r => do evv <- emit_value v; do er <- go r;
           Ok (mkev ksp EvEntryStart :: mkev ksp (EvKey None (Some key) Bare) :: evv ++ mkev (a_span v) EvEntryEnd :: er)
         end) xs = Ok (flat_map ent_events (map attr_entry es))).
Proof.
  apply stands_all; try reflexivity.
  - intros sp n a d _ IH. cbn [emit_value]. rewrite IH. reflexivity.
  - intros sp xs ds _ IH. cbn [emit_value]. rewrite IH. reflexivity.
  - intros sp xs ds _ IH. cbn [emit_value]. rewrite IH. reflexivity.
  - intros sp xs ds _ IH. cbn [emit_value]. rewrite IH. reflexivity.
  - intros a d xs ds _ IH1 _ IH2. rewrite IH1. cbn [bind]. rewrite IH2. reflexivity.
  - intros ka kd va vd docs tag pl k xs es Hk _ Hkey Hv IHv _ IH. destruct (stands_key _ _ _ _ _ Hk Hkey) as [-> _]. cbn [bind]. rewrite IHv. cbn [bind]. rewrite IH. cbn [bind flat_map ent_events].
    rewrite (stands_span _ _ Hk), (stands_span _ _ Hv). f_equal. destruct docs as [[dsp lines]|]; cbn [map app fst snd]; rewrite <- ?app_assoc; cbn [app]; rewrite <- ?app_assoc; reflexivity.
  - intros key ksp a d xs es Hv IHv _ IH. rewrite IHv. cbn [bind]. rewrite IH. cbn [bind map flat_map attr_entry ent_events app].
    rewrite (stands_span _ _ Hv). rewrite <- app_assoc. reflexivity.
Qed.

(** Doc comments *)
Lemma doc_text_line t u : doc_text t u <-> doc_line t = u /\ starts_with [cSLASH; cSLASH; cSLASH] t = true.
Proof.
  split.
  - destruct 1 as [u|u Hu]; [split; reflexivity|]. split; [|reflexivity]. unfold doc_line.
    cbn [strip_prefix]. change (47 =? 47)%N with true. cbn [strip_prefix]. destruct u as [|c u]; [reflexivity|].
    destruct (N.eqb_spec 32 c); [subst; now destruct (Hu u)|reflexivity].
  - intros [<- H]. unfold starts_with in H. cbn [strip_prefix] in H.
    do 3 (destruct t as [|x t]; [discriminate H|]; destruct (N.eqb_spec 47 x); [subst x|discriminate H]).
    unfold doc_line. cbn [strip_prefix]. change (47 =? 47)%N with true. cbn [strip_prefix].
    destruct t as [|c t]; [apply dt_plain; discriminate|]. destruct (N.eqb_spec 32 c) as [<-|Hc].
    + apply dt_space.
    + apply dt_plain. intros v [= E _]. now apply Hc.
Qed.

Lemma chain_spans_length start ns : length (chain_spans start ns) = length ns.
Proof. revert start. induction ns as [|n ns IH]; intros start; [reflexivity|]. cbn [chain_spans length]. now rewrite IH. Qed.

Lemma build_chain_stands ns : ns <> [] -> Forall tag_name ns -> forall start p pd d,
  match p, pd with None, None => True | Some a, Some x => stands a x | _, _ => False end ->
  stacked start ns pd = Some d -> exists a, build_chain (chain_spans start ns) p = Ok a /\ stands a d.
Proof.
  induction ns as [|n ns IH]; [congruence|]. intros _ H start p pd d Hp E. inversion_clear H as [|? ? Hn Hns].
  cbn [chain_spans build_chain]. cbn [stacked] in E. rewrite (proj2 (tag_name_valid n) Hn). cbn [negb]. destruct ns as [|m ns].
  - cbn [chain_spans stacked bind] in *. injection E as <-. destruct p as [a|], pd as [x|]; try contradiction.
    + eexists. split; [reflexivity|]. cbn [sp_start sp_end]. rewrite (stands_span _ _ Hp). now constructor.
    + eexists. split; [reflexivity|]. constructor.
  - destruct (stacked (start + blen n + 2) (m :: ns) pd) as [q|] eqn:Eq; [|discriminate Eq]. injection E as <-.
    replace (start + blen n + 2) with (start + 1 + blen n + 1) in Eq by lia.
    destruct (IH ltac:(discriminate) Hns (start + 1 + blen n + 1) p pd q Hp Eq) as (a & Ea & Ha).
    destruct (chain_spans (start + 1 + blen n + 1) (m :: ns)) as [|c cs] eqn:Ec; [discriminate Ec|]. rewrite Ea. cbn [bind].
    eexists. split; [reflexivity|]. cbn [sp_start sp_end]. rewrite (stands_span _ _ Ha). now constructor.
Qed.

Lemma stacked_some ns start p : ns <> [] -> exists d, stacked start ns p = Some d.
Proof. destruct ns; [congruence|]. intros _. eexists. reflexivity. Qed.

Lemma take_docs_block pend : doc_block (map (fun x => (fst x, doc_line (snd x))) pend) = match take_docs pend with Some x => [x] | None => [] end.
Proof.
  destruct pend as [|[s1 t1] r]; [reflexivity|]. unfold doc_block, take_docs. cbn [map fst snd].
  assert (exists s2 t2 q, rev ((s1, t1) :: r) = (s2, t2) :: q) as (s2 & t2 & q & E).
  { destruct (rev ((s1, t1) :: r)) as [|[s2 t2] q] eqn:E; [|eauto]. apply (f_equal (@rev _)) in E. rewrite rev_involutive in E. discriminate. }
  rewrite E. do 2 f_equal; [|rewrite !map_map; reflexivity].
  assert ((s1, t1) :: r = rev q ++ [(s2, t2)]) as E2. { rewrite <- (rev_involutive ((s1, t1) :: r)), E. reflexivity. }
  unfold cover. f_equal. f_equal.
  change ((s1, doc_line t1) :: map (fun x => (fst x, doc_line (snd x))) r) with (map (fun x : span * str => (fst x, doc_line (snd x))) ((s1, t1) :: r)).
  rewrite E2, map_app. cbn [map]. rewrite last_last. reflexivity.
Qed.

Definition starter (x : lexeme) : Prop :=
  match x with LxScalar _ _ _ | LxUnit _ | LxTag _ _ _ | LxObjStart _ | LxSeqStart _ | LxAttrKey _ _ _ => True | _ => False end.

Scheme gval_mut := Minimality for gval Sort Prop
  with gitems_mut := Minimality for gitems Sort Prop
  with gents_mut := Minimality for gents Sort Prop
  with gline_mut := Minimality for gline Sort Prop
  with gattrs_mut := Minimality for gattrs Sort Prop.
Combined Scheme g_all from gval_mut, gitems_mut, gents_mut, gline_mut, gattrs_mut.

Section Complete.
Variable input : str.

Definition is_bare_atom (a : atom) : bool := match a with AScalar _ _ Bare => true | _ => false end.

Definition P_val (l : list lexeme) (d : dval) (tr : list event) (r : list lexeme) : Prop :=
  exists x l', l = x :: l' /\ starter x /\ length r <= length l' /\
  forall s f, feeds s l' -> 2 * length l' + 2 <= f ->
  exists a s', parse_atom input f x s = Ok (a, tr, s') /\ feeds s' r /\ stands a d.

Definition P_items (l : list lexeme) (ds : list dval) (tr : list event) (e : span) (r : list lexeme) : Prop :=
  length r < length l /\ forall s f start elems, feeds s l -> 2 * length l + 1 <= f ->
  exists xs s', seq_loop input f start elems [] s = Ok (ASeq (cover start e) (elems ++ xs) false [], tr, s') /\ feeds s' r /\ stands_l xs ds.

Definition P_ents (docs : list (span * str)) (l : list lexeme) (ks : list keyval) (es : list dentry) (tr : list event) (e : span) (r : list lexeme) : Prop :=
  length r < length l /\ forall s f start entries seen pend, feeds s l -> 2 * length l + 1 <= f -> NoDup ks ->
  (forall k, In k ks -> seen_get k seen = None) -> docs = map (fun x => (fst x, doc_line (snd x))) pend ->
  exists xs s', obj_loop input f start entries seen [] pend s = Ok (AObject (cover start e) (entries ++ xs) [] [] false, tr, s') /\ feeds s' r /\ stands_e xs es.

Definition P_line (l : list lexeme) (k v : dval) (tr : list event) (r : list lexeme) : Prop :=
  exists x l', l = x :: l' /\ starter x /\ length r <= length l' /\
  forall s f, feeds s l' -> 2 * length l' + 2 <= f ->
  exists ka ev1 s1 rest ev2 s2, parse_atom input f x s = Ok (ka, ev1, s1) /\
    collect_loop input f (sp_end (a_span ka)) (is_bare_atom ka) [ka] s1 = Ok (ka :: rest, ev2, s2) /\
    tr = ev1 ++ ev2 /\ feeds s2 r /\ stands ka k /\
    ((rest = [] /\ v = DUnit (dspan k)) \/ exists va, rest = [va] /\ stands va v).

Definition P_attrs (l : list lexeme) (attrs : list (str * span * dval)) (tr : list event) (r : list lexeme) : Prop :=
  length r <= length l /\ forall s f first attrs0, feeds s l -> 2 * length l + 1 <= f ->
  exists xs s', attr_loop input f first attrs0 s =
    Ok (AAttrs (mkspan (sp_start first) (match rev (attrs0 ++ xs) with (_, _, v) :: _ => sp_end (a_span v) | [] => sp_end first end)) (attrs0 ++ xs), tr, s')
    /\ feeds s' r /\ stands_a xs attrs.

Lemma gstop_collect r tr r' : gstop r tr r' -> length r' <= length r /\ forall s f fe fb acc, feeds s r -> 1 <= f ->
  exists s', collect_loop input f fe fb acc s = Ok (acc, tr, s') /\ feeds s' r'.
Proof.
  assert (Hst : forall x r, match head (x :: r) with LxNewline _ | LxComma _ | LxObjEnd _ | LxSeqEnd _ => True | _ => False end ->
    forall s f fe fb acc, feeds s (x :: r) -> 1 <= f -> exists s', collect_loop input f fe fb acc s = Ok (acc, [], s') /\ feeds s' (x :: r)).
  { intros x q Hx s f fe fb acc Hs Hf. destruct f as [|f]; [lia|]. cbn [collect_loop]. destruct (feeds_next _ _ Hs) as (s1 & E & _).
    rewrite E. destruct (feeds_stash _ _ _ Hs E) as (s2 & E2 & H2). cbn [head] in *. rewrite E2. cbn [bind]. destruct x; try contradiction; eauto. }
  destruct 1; (split; [cbn [length]; lia|]); try (apply Hst; exact I); intros s f fe fb acc Hs Hf; (destruct f as [|f]; [lia|]); cbn [collect_loop].
  - destruct (feeds_next _ _ Hs) as (s1 & E & _). rewrite E. destruct (feeds_stash _ _ _ Hs E) as (s2 & E2 & H2). cbn [head] in *. rewrite E2. cbn [bind]. eauto.
  - destruct (feeds_cons _ _ _ Hs) as (s1 & -> & H1). eauto.
  - destruct (feeds_cons _ _ _ Hs) as (s1 & -> & H1). apply doc_text_line in H as [<- _]. eauto.
Qed.

Lemma not_bare_at n r : (forall t, ~ bare_at n t r) -> forall sp v, head r = LxScalar sp v Bare -> (sp_start sp =? n) = false.
Proof.
  intros H sp v E. apply Nat.eqb_neq. intros En. destruct r as [|x r]; [discriminate|]. cbn in E. subst x. apply (H v). exists sp, r. auto.
Qed.

Lemma collect_value f fe fb a0 s x l' : feeds s (x :: l') -> starter x ->
  (fb = true -> fe = sp_start (lx_span x) -> match x with LxObjStart _ | LxSeqStart _ => False | _ => True end) ->
  exists s1, feeds s1 l' /\
  collect_loop input (S f) fe fb [a0] s = do (a, ev, s2) <- parse_atom input f x s1; do (r, ev2, s3) <- collect_loop input f fe fb [a0; a] s2; Ok (r, ev ++ ev2, s3).
Proof.
  intros Hs Hx Hg. destruct (feeds_cons _ _ _ Hs) as (s1 & E & H1). exists s1. split; [exact H1|]. cbn [collect_loop]. rewrite E.
  destruct x; try contradiction; try reflexivity; cbn [length app Nat.eqb andb];
    (replace (fb && (fe =? sp_start sp)) with false;
     [reflexivity|];
     symmetry; destruct fb; [|reflexivity]; apply Nat.eqb_neq; intros ->; now apply Hg).
Qed.

Lemma stands_bare a d : stands a d -> is_bare_atom a = match d with DScalar _ _ Bare => true | _ => false end.
Proof. destruct 1; reflexivity. Qed.

Lemma loop_seq_item f start elems commas s x l' : feeds s (x :: l') -> starter x -> exists s1, feeds s1 l' /\
  seq_loop input (S f) start elems commas s = do (a, ev, s2) <- parse_atom input f x s1; do (r, ev2, s3) <- seq_loop input f start (elems ++ [a]) commas s2; Ok (r, ev ++ ev2, s3).
Proof.
  intros Hs Hx. destruct (feeds_cons _ _ _ Hs) as (s1 & E & H1). exists s1. split; [exact H1|]. cbn [seq_loop]. rewrite E. destruct x; try contradiction; reflexivity.
Qed.

Lemma loop_obj_entry f start entries seen dups pend s x l' : feeds s (x :: l') -> starter x -> exists s1, feeds s1 l' /\
  obj_loop input (S f) start entries seen dups pend s =
    (do (a, ev, s2) <- parse_atom input f x s1;
     do (atoms, ev2, s3) <- collect_loop input f (sp_end (a_span a)) (is_bare_atom a) [a] s2;
     let '(entries', seen', dups') := ParseModel.add_entry atoms (take_docs pend) entries seen dups in
     do (r, ev3, s4) <- obj_loop input f start entries' seen' dups' [] s3;
     Ok (r, ev ++ ev2 ++ ev3, s4)).
Proof.
  intros Hs Hx. destruct (feeds_cons _ _ _ Hs) as (s1 & E & H1). exists s1. split; [exact H1|]. cbn [obj_loop]. rewrite E. destruct x; try contradiction; reflexivity.
Qed.

Lemma rev_last_attr (xs : list (str * span * atom)) es ksp : stands_a xs es -> xs <> [] ->
  match rev xs with (_, _, v) :: _ => sp_end (a_span v) | [] => sp_end ksp end = sp_end (dspan (snd (last es ([], ksp, DUnit ksp)))).
Proof.
  intros H. induction H as [|key k1 a d xs es Ha Hr IH]; [congruence|]. intros _. destruct Hr as [|key2 k2 a2 d2 xs es Ha2 Hr].
  - cbn. now rewrite (stands_span _ _ Ha).
  - specialize (IH ltac:(discriminate)). cbn [last] in *. rewrite <- IH. cbn [rev]. destruct (rev xs ++ [(key2, k2, a2)]) as [|[[? ?] ?] ?] eqn:E; [destruct (rev xs); discriminate E|]. reflexivity.
Qed.

Lemma tag_single_payload x l' f s s1 sp name hp ns : tag_chain name ns -> feeds s (x :: l') -> src_next s = (x, s1) -> has_payload sp ns hp (x :: l') ->
  parse_atom input (S f) (LxTag sp name hp) s = do (p, ev, s2) <- parse_atom input f x s1; do a <- build_chain (chain_spans (sp_start sp) ns) (Some p); Ok (a, ev, s2).
Proof.
  intros (Hne & Hns & ->) Hs E Hp. cbn [parse_atom]. unfold split_chain. rewrite split_chain_join by assumption. rewrite E, chain_spans_length.
  destruct ns as [|n [|m ns]]; [congruence| |].
  - cbn in Hp. subst hp. reflexivity.
  - cbn [length Nat.ltb Nat.leb]. rewrite andb_false_r. destruct Hp as [(y & r' & [= <- <-] & Hst) Hpl]. rewrite Hst, Nat.eqb_refl.
    replace (can_be_payload x) with true; [reflexivity|]. destruct x; try contradiction; reflexivity.
Qed.

Lemma tag_no_payload r f s sp name hp ns : tag_chain name ns -> feeds s r -> ~ has_payload sp ns hp r -> (forall t, ~ bare_at (sp_end sp) (cDOT :: t) r) ->
  exists s2, feeds s2 r /\ parse_atom input (S f) (LxTag sp name hp) s = do a <- build_chain (chain_spans (sp_start sp) ns) None; Ok (a, [], s2).
Proof.
  intros (Hne & Hns & ->) Hs Hp Hd. destruct (feeds_next _ _ Hs) as (s1 & E & H1). destruct (feeds_stash _ _ _ Hs E) as (s2 & E2 & H2).
  exists s2. split; [exact H2|]. cbn [parse_atom]. unfold split_chain. rewrite split_chain_join by assumption. rewrite E, chain_spans_length.
  destruct ns as [|n [|m ns]]; [congruence| |].
  - cbn in Hp. destruct hp; [congruence|]. change (1 <? length [n]) with false. cbn [negb andb].
    assert (Hb : forall ssp v, head r = LxScalar ssp v Bare -> (sp_start ssp =? sp_end sp) && starts_with_char cDOT v = false).
    { intros ssp v Eh. destruct (Nat.eqb_spec (sp_start ssp) (sp_end sp)) as [Hq|]; [|reflexivity]. destruct v as [|c v]; [reflexivity|]. cbn.
      apply N.eqb_neq. intros ->. destruct r as [|y r]; [discriminate|]. cbn in Eh. subst y. apply (Hd v). exists ssp, r. auto. }
    destruct (head r) as [ssp v k| | | | | | | | | | | | |] eqn:Eh; cbn [bind] in *; rewrite ?E2; try reflexivity.
    destruct k; rewrite ?E2; try reflexivity. rewrite (Hb _ _ eq_refl). reflexivity.
  - change (1 <? length (n :: m :: ns)) with true. rewrite andb_false_r.
    replace ((sp_start (lx_span (head r)) =? sp_end sp) && can_be_payload (head r)) with false; [rewrite E2; reflexivity|].
    symmetry. apply andb_false_iff. destruct (Nat.eqb_spec (sp_start (lx_span (head r))) (sp_end sp)) as [Hq|]; [right|now left].
    destruct (can_be_payload (head r)) eqn:Ec; [|reflexivity]. exfalso. apply Hp. destruct r as [|y r]; [discriminate Ec|]. cbn [head] in *.
    split; [exists y, r; auto|]. cbn. destruct y; try discriminate Ec; exact I.
Qed.

Lemma parse_attr_step f asp ksp key s : parse_atom input (S f) (LxAttrKey asp ksp key) s =
  let (nx, s1) := src_next s in do (v, ev, s2) <- parse_atom input f nx s1; do (a, ev2, s3) <- attr_loop input f ksp [(key, ksp, v)] s2; Ok (a, ev ++ ev2, s3).
Proof. reflexivity. Qed.
Lemma attr_loop_step f first attrs asp ksp key s s1 : src_next s = (LxAttrKey asp ksp key, s1) -> attr_loop input (S f) first attrs s =
  let (nx, s2) := src_next s1 in do (v, ev, s3) <- parse_atom input f nx s2; do (a, ev2, s4) <- attr_loop input f first (attrs ++ [(key, ksp, v)]) s3; Ok (a, ev ++ ev2, s4).
Proof. intros E. cbn [attr_loop]. now rewrite E. Qed.

Lemma reads : (forall l d tr r, gval l d tr r -> P_val l d tr r) /\ (forall l ds tr e r, gitems l ds tr e r -> P_items l ds tr e r) /\
  (forall docs l ks es tr e r, gents docs l ks es tr e r -> P_ents docs l ks es tr e r) /\
  (forall l k v tr r, gline l k v tr r -> P_line l k v tr r) /\
  (forall l attrs tr r, gattrs l attrs tr r -> P_attrs l attrs tr r).
Proof.
  apply g_all.
  - intros sp t k r. exists (LxScalar sp t k), r. splits; auto; try exact I. intros s f Hs Hf. destruct f as [|f]; [lia|].
    exists (AScalar sp t k), s. splits; auto. constructor.
  - intros sp r Hb. exists (LxUnit sp), r. splits; auto; try exact I. intros s f Hs Hf. destruct f as [|f]; [lia|]. cbn [parse_atom].
    destruct (feeds_next _ _ Hs) as (s1 & E & _). rewrite E. destruct (feeds_stash _ _ _ Hs E) as (s2 & E2 & H2). pose proof (not_bare_at _ _ Hb) as Hn.
    exists (AUnit sp), s2. splits; auto; [|constructor].
    destruct (head r) as [ssp v k| | | | | | | | | | | | |] eqn:Eh; rewrite ?E2; try reflexivity. destruct k; rewrite ?E2; try reflexivity.
    rewrite (Hn _ _ eq_refl). reflexivity.
  - intros sp text hp ns d r Hc Hp Hd Est. exists (LxTag sp text hp), r. splits; auto; try exact I. intros s f Hs Hf. destruct f as [|f]; [lia|].
    destruct (tag_no_payload r f s sp text hp ns Hc Hs Hp Hd) as (s2 & H2 & ->). destruct Hc as (Hne & Hns & _).
    destruct (build_chain_stands ns Hne Hns (sp_start sp) None None d I Est) as (a & -> & Ha). exists a, s2. auto.
  - intros sp text hp ns p d r tr r' Hc Hp Hg IH Est. destruct IH as (x & l' & -> & Hx & Hl & IH).
    exists (LxTag sp text hp), (x :: l'). splits; auto; try exact I; [cbn; lia|]. intros s f Hs Hf. destruct f as [|f]; [lia|]. cbn [length] in Hf.
    destruct (feeds_cons _ _ _ Hs) as (s1 & E & H1). rewrite (tag_single_payload x l' f s s1 sp text hp ns Hc Hs E Hp).
    destruct (IH s1 f H1 ltac:(lia)) as (a & s' & -> & Hs' & Ha). cbn [bind]. destruct Hc as (Hne & Hns & _).
    destruct (build_chain_stands ns Hne Hns (sp_start sp) (Some a) (Some p) d Ha Est) as (b & -> & Hb). exists b, s'. auto.
  - intros sp r ds tr e r' _ (Hl & IH). exists (LxSeqStart sp), r. splits; auto; try exact I; [lia|]. intros s f Hs Hf. destruct f as [|f]; [lia|].
    change (parse_atom input (S f) (LxSeqStart sp) s) with (seq_loop input f sp [] [] s). destruct (IH s f sp [] Hs ltac:(lia)) as (xs & s' & -> & Hs' & Hx). eexists _, s'. splits; auto. now constructor.
  - intros sp r ks es tr e r' _ (Hl & IH) Hnd. exists (LxObjStart sp), r. splits; auto; try exact I; [lia|]. intros s f Hs Hf. destruct f as [|f]; [lia|].
    change (parse_atom input (S f) (LxObjStart sp) s) with (obj_loop input f sp [] [] [] [] s). destruct (IH s f sp [] [] [] Hs ltac:(lia) Hnd ltac:(reflexivity) eq_refl) as (xs & s' & -> & Hs' & Hx). eexists _, s'. splits; auto. now constructor.
  - intros asp ksp key r v tr r1 attrs tr' r' _ (x & l' & -> & Hx & Hl & IH) _ (Hl2 & IH2). exists (LxAttrKey asp ksp key), (x :: l').
    splits; auto; try exact I; [cbn; lia|]. intros s f Hs Hf. destruct f as [|f]; [lia|]. cbn [length] in Hf. rewrite parse_attr_step.
    destruct (feeds_cons _ _ _ Hs) as (s1 & E & H1). rewrite E. destruct (IH s1 f H1 ltac:(lia)) as (a & s2 & -> & H2 & Ha). cbn [bind].
    destruct (IH2 s2 f ksp [(key, ksp, a)] H2 ltac:(lia)) as (xs & s' & -> & Hs' & Hxs). cbn [bind]. eexists _, s'. splits; [reflexivity|exact Hs'|].
    assert (stands_a ((key, ksp, a) :: xs) ((key, ksp, v) :: attrs)) as Hall by now constructor.
    cbn [app]. rewrite (rev_last_attr _ _ ksp Hall) by discriminate. now constructor.
  - intros sp r. split; [cbn; lia|]. intros s f start elems Hs Hf. destruct f as [|f]; [lia|]. cbn [seq_loop]. destruct (feeds_cons _ _ _ Hs) as (s1 & -> & H1).
    exists [], s1. rewrite app_nil_r. splits; auto. constructor.
  - intros l r ds tr e r' Hl _ (Hlen & IH). split; [cbn; lia|]. intros s f start elems Hs Hf. destruct f as [|f]; [lia|]. cbn [seq_loop].
    destruct (feeds_cons _ _ _ Hs) as (s1 & -> & H1). cbn [length] in Hf. destruct l; try contradiction; apply IH; auto; lia.
  - intros sp t r ds tr e r' _ (Hlen & IH). split; [cbn; lia|]. intros s f start elems Hs Hf. destruct f as [|f]; [lia|]. cbn [seq_loop].
    destruct (feeds_cons _ _ _ Hs) as (s1 & -> & H1). cbn [length] in Hf. apply IH; auto; lia.
  - intros l d tr r ds tr' e r' _ (x & l' & -> & Hx & Hl & IH) _ (Hl2 & IH2). split; [cbn; lia|]. intros s f start elems Hs Hf. destruct f as [|f]; [lia|].
    cbn [length] in Hf. destruct (loop_seq_item f start elems [] s x l' Hs Hx) as (s1 & H1 & ->).
    destruct (IH s1 f H1 ltac:(lia)) as (a & s2 & -> & H2 & Ha). cbn [bind].
    destruct (IH2 s2 f start (elems ++ [a]) H2 ltac:(lia)) as (xs & s' & -> & Hs' & Hxs). cbn [bind]. exists (a :: xs), s'. rewrite <- app_assoc. splits; auto. now constructor.
  - intros sp r. split; [cbn; lia|]. intros s f start entries seen pend Hs Hf _ _ Hd. destruct f as [|f]; [lia|]. cbn [obj_loop]. destruct (feeds_cons _ _ _ Hs) as (s1 & -> & H1).
    destruct pend; [|discriminate]. exists [], s1. rewrite app_nil_r. splits; auto. constructor.
  - intros docs l r ks es tr e r' Hl _ (Hlen & IH). split; [cbn; lia|]. intros s f start entries seen pend Hs Hf Hnd Hse Hd. destruct f as [|f]; [lia|]. cbn [obj_loop].
    destruct (feeds_cons _ _ _ Hs) as (s1 & -> & H1). cbn [length] in Hf. destruct l; try (destruct Hl; contradiction); apply IH; auto; lia.
  - intros docs sp t u r ks es tr e r' Ht _ (Hlen & IH). split; [cbn; lia|]. intros s f start entries seen pend Hs Hf Hnd Hse Hd. destruct f as [|f]; [lia|]. cbn [obj_loop].
    destruct (feeds_cons _ _ _ Hs) as (s1 & -> & H1). cbn [length] in Hf. apply IH; auto; [lia|]. apply doc_text_line in Ht as [<- _]. now rewrite map_app, Hd.
  - intros docs l k v tag pl kd tr r ks es tr' e r' _ (x & l' & -> & Hx & Hl & IH) Hkey _ (Hl2 & IH2). split; [cbn; lia|].
    intros s f start entries seen pend Hs Hf Hnd Hse Hd. destruct f as [|f]; [lia|]. cbn [length] in Hf.
    destruct (loop_obj_entry f start entries seen [] pend s x l' Hs Hx) as (s1 & H1 & ->).
    destruct (IH s1 f H1 ltac:(lia)) as (ka & ev1 & s2 & rest & ev2 & s3 & -> & E2 & -> & H3 & Hka & Hrest). cbn [bind]. rewrite E2. cbn [bind].
    destruct (stands_key _ _ _ _ _ Hka Hkey) as [_ Hid]. inversion_clear Hnd as [|? ? Hni Hnd']. cbn [ParseModel.add_entry].
    rewrite Hid, (Hse (key_id k)) by now left.
    assert (exists va, stands va v /\ match rest with [] => (AUnit (a_span ka), None) | [v0] => (v0, None) | v0 :: x0 :: _ => (v0, Some (a_span x0)) end = (va, None)) as (va & Hva & Ev).
    { destruct Hrest as [[-> ->]|(va & -> & Hva)]; [|eauto]. eexists. split; [|reflexivity]. rewrite (stands_span _ _ Hka). constructor. }
    rewrite Ev.
    destruct (IH2 s3 f start (entries ++ [(ka, va, take_docs pend, None)]) (seen_insert (key_id k) (a_span ka) seen) [] H3 ltac:(lia) Hnd') as (xs & s' & -> & Hs' & Hxs).
    + intros k' Hk'. cbn [seen_insert seen_get]. destruct (keyval_eqb (key_id k) k') eqn:Ek; [apply keyval_eqb_eq in Ek; subst k'; contradiction|]. apply Hse. now right.
    + reflexivity.
    + cbn [bind]. exists ((ka, va, take_docs pend, None) :: xs), s'. rewrite <- app_assoc. cbn [app]. rewrite <- app_assoc. splits; auto.
      rewrite Hd, take_docs_block. econstructor; eauto.
  - intros l k tr r tr' r' _ (x & l' & -> & Hx & Hl & IH) Hst. destruct (gstop_collect _ _ _ Hst) as [Hl2 Hc]. exists x, l'. splits; auto; [lia|].
    intros s f Hs Hf. destruct (IH s f Hs Hf) as (a & s1 & -> & H1 & Ha).
    destruct (Hc s1 f (sp_end (a_span a)) (is_bare_atom a) [a] H1 ltac:(lia)) as (s2 & E & H2).
    exists a, tr, s1, [], tr', s2. splits; auto.
  - intros l k tr r v tr1 r1 tr2 r2 _ (x & l' & -> & Hx & Hl & IH) Hg _ (y & l1 & -> & Hy & Hl1 & IH1) Hst. destruct (gstop_collect _ _ _ Hst) as [Hl2 Hc]. cbn [length] in Hl.
    exists x, l'. splits; auto; [lia|].
    intros s f Hs Hf. destruct (IH s f Hs Hf) as (a & s1 & -> & H1 & Ha). destruct f as [|f]; [lia|].
    destruct (collect_value f (sp_end (a_span a)) (is_bare_atom a) a s1 y l1 H1 Hy) as (s2 & H2 & E).
    { rewrite (stands_bare _ _ Ha), (stands_span _ _ Ha). intros Hb He. destruct k as [ksp kt kk| | | |]; try discriminate Hb. destruct kk; try discriminate Hb. cbn [glued dspan] in *.
      destruct y; auto; apply Hg; exact He. }
    destruct (IH1 s2 f H2 ltac:(lia)) as (va & s3 & Ep & H3 & Hva). rewrite Ep in E. cbn [bind] in E.
    destruct (Hc s3 f (sp_end (a_span a)) (is_bare_atom a) [a; va] H3 ltac:(lia)) as (s4 & E4 & H4). rewrite E4 in E. cbn [bind] in E.
    exists a, tr, s1, [va], (tr1 ++ tr2), s4. splits; auto. right. eauto.
  - intros r Hr. split; [lia|]. intros s f first attrs0 Hs Hf. destruct f as [|f]; [lia|]. cbn [attr_loop]. destruct (feeds_next _ _ Hs) as (s1 & E & _). rewrite E.
    destruct (feeds_stash _ _ _ Hs E) as (s2 & E2 & H2). exists [], s2. rewrite app_nil_r. splits; auto; [|constructor].
    destruct r as [|y r]; cbn [head] in *; [rewrite E2; reflexivity|]. destruct y; try (rewrite E2; reflexivity). now destruct (Hr sp ksp key r).
  - intros asp ksp key r v tr r1 attrs tr' r' _ (x & l' & -> & Hx & Hl & IH) _ (Hl2 & IH2). split; [cbn; lia|]. intros s f first attrs0 Hs Hf. destruct f as [|f]; [lia|].
    cbn [length] in Hf. destruct (feeds_cons _ _ _ Hs) as (s1 & E & H1). rewrite (attr_loop_step _ _ _ _ _ _ _ _ E). destruct (feeds_cons _ _ _ H1) as (s2 & -> & H2).
    destruct (IH s2 f H2 ltac:(lia)) as (a & s3 & -> & H3 & Ha). cbn [bind].
    destruct (IH2 s3 f first (attrs0 ++ [(key, ksp, a)]) H3 ltac:(lia)) as (xs & s' & -> & Hs' & Hxs). cbn [bind]. exists ((key, ksp, a) :: xs), s'. rewrite <- app_assoc. cbn [app].
    splits; auto. now constructor.
Qed.

End Complete.
