(** The state machine of the event parser over the documents of the grammar. *)
From Verif Require Import Base BaseProofs TokModel TokProofs LexModel LexSpec LexProofs ParseModel ParseSpec ParseProofs EmitProofs RunProofs
  PathSpec PathProofs TreeModel TreeSpec BuildProofs LinkProofs EscapeProofs GrammarSpec GrammarProofs.

(** ** One entry of the root object *)

Lemma split_dot_cons s r : s <> [] -> ~ In cDOT s -> split_on cDOT (s ++ cDOT :: r) = s :: split_on cDOT r.
Proof.
  intros _. induction s as [|c s IH]; intros H; [reflexivity|]. cbn [app split_on]. destruct (N.eqb_spec c cDOT) as [->|_]; [destruct H; now left|].
  rewrite IH; [reflexivity|]. intros Hi. apply H. now right.
Qed.
Lemma split_dot_one s : ~ In cDOT s -> split_on cDOT s = [s].
Proof.
  induction s as [|c s IH]; intros H; [reflexivity|]. cbn [split_on]. destruct (N.eqb_spec c cDOT) as [->|_]; [destruct H; now left|].
  rewrite IH; [reflexivity|]. intros Hi. apply H. now right.
Qed.

Lemma split_dot_join segs : segs <> [] -> Forall (fun s => s <> [] /\ ~ In cDOT s) segs -> split_on cDOT (join [cDOT] segs) = segs.
Proof.
  induction segs as [|s segs IH]; [congruence|]. intros _ H. inversion_clear H as [|? ? [H1 H2] H3]. destruct segs as [|s2 segs].
  - cbn [join]. now apply split_dot_one.
  - change (join [cDOT] (s :: s2 :: segs)) with (s ++ cDOT :: join [cDOT] (s2 :: segs)). rewrite split_dot_cons by assumption. f_equal. apply IH; [discriminate|assumption].
Qed.

Lemma join_split_dot s : join [cDOT] (split_on cDOT s) = s.
Proof.
  induction s as [|c s IH]; [reflexivity|]. cbn [split_on]. destruct (split_on cDOT s) as [|p ps] eqn:E.
  - exfalso. destruct s as [|d s]; [discriminate E|]. cbn [split_on] in E. destruct (d =? cDOT)%N; [discriminate E|]. destruct (split_on cDOT s); discriminate E.
  - destruct (N.eqb_spec c cDOT) as [->|_].
    + change (join [cDOT] ([] :: p :: ps)) with (cDOT :: join [cDOT] (p :: ps)). now rewrite IH.
    + rewrite <- IH. destruct ps; reflexivity.
Qed.

Lemma split_dot_clean s : Forall (fun p => ~ In cDOT p) (split_on cDOT s).
Proof.
  induction s as [|c s IH]; [repeat constructor; tauto|]. cbn [split_on]. destruct (N.eqb_spec c cDOT) as [->|Hc]; [constructor; [tauto|exact IH]|].
  destruct (split_on cDOT s) as [|p ps]; [constructor; [|constructor]; intros [H|[]]; congruence|]. inversion_clear IH as [|? ? H1 H2].
  constructor; [|exact H2]. intros [H|H]; [congruence|contradiction].
Qed.

(** The atoms behind the key and the value of the entry. *)
Definition values (k : dval) (rest : list atom) (v : dval) : Prop :=
  (rest = [] /\ v = DUnit (dspan k)) \/ exists va, rest = [va] /\ stands va v.

Lemma values_kind k rest v : values k rest v -> value_kind rest = value_shape v.
Proof. intros [[-> ->]|(va & -> & H)]; [reflexivity|]. destruct H; reflexivity. Qed.

Lemma values_emit k ka rest v : stands ka k -> values k rest v -> emit_entry_value (a_span ka) rest = Ok (val_events v) /\ last_span rest (a_span ka) = dspan v.
Proof.
  intros Hk [[-> ->]|(va & -> & H)].
  - rewrite (stands_span _ _ Hk). split; reflexivity.
  - cbn [emit_entry_value]. rewrite (proj1 stands_emit _ _ H). cbn [bind]. rewrite app_nil_r. split; [reflexivity|]. unfold last_span. cbn [rev app]. now apply stands_span.
Qed.

Lemma path_entry_events docs off ksp segs v e : path_entry docs off ksp segs v = Some e ->
  ent_events (undocumented e) = open_segments off segs ++ val_events v ++ close_segments ksp segs.
Proof.
  revert docs off e. induction segs as [|s segs IH]; intros docs off e; [discriminate|]. cbn [path_entry open_segments close_segments]. destruct segs as [|s2 segs].
  - intros [= <-]. cbn [undocumented ent_events map app]. reflexivity.
  - destruct (path_entry [] (off + blen s + 1) ksp (s2 :: segs) v) as [e'|] eqn:Ee; [|discriminate]. intros [= <-]. specialize (IH _ _ _ Ee).
    assert (undocumented e' = e') as Hu. { cbn [path_entry] in Ee. destruct segs; [now injection Ee as <-|]. destruct (path_entry [] _ ksp _ v); [now injection Ee as <-|discriminate]. }
    rewrite Hu in IH. cbn [undocumented ent_events map app val_events flat_map]. rewrite app_nil_r, IH. rewrite <- !app_assoc. reflexivity.
Qed.

Lemma is_dotted_not ka k : stands ka k -> ~ dotted_key k -> is_dotted ka = None.
Proof.
  intros H Hn. destruct H; try reflexivity. cbn [is_dotted]. destruct k; try reflexivity. destruct (contains_char cDOT t) eqn:E; [|reflexivity].
  exfalso. apply Hn. exists sp, t. split; [reflexivity|]. unfold contains_char in E. apply existsb_exists in E as (c & Hc & E). apply N.eqb_eq in E. now subst.
Qed.

Lemma is_dotted_yes sp t : In cDOT t -> is_dotted (AScalar sp t Bare) = Some t.
Proof. intros H. cbn [is_dotted]. replace (contains_char cDOT t) with true; [reflexivity|]. symmetry. apply existsb_exists. exists cDOT. split; [exact H|apply N.eqb_refl]. Qed.

Lemma key_path d tag pl k : key_is d tag pl k ->
  [key_string (key_id d)] = [match tag, pl with Some n, _ => cAT :: n | None, Some t => t | None, None => [cAT] end].
Proof. destruct 1; reflexivity. Qed.

Lemma simple_entry_events ka k rest v tag pl kd docs : stands ka k -> values k rest v -> key_is k tag pl kd ->
  emit_simple_entry ka rest = Ok (ent_events (undocumented (DEnt docs (dspan k) (dspan k) tag pl kd v (dspan v)))).
Proof.
  intros Hk Hv Hkey. unfold emit_simple_entry. destruct (stands_key _ _ _ _ _ Hk Hkey) as [-> _]. cbn [bind]. destruct (values_emit _ _ _ _ Hk Hv) as [-> ->]. cbn [bind].
  rewrite (stands_span _ _ Hk). reflexivity.
Qed.

Lemma existsb_nil_segs segs : Forall (fun s : str => s <> [] /\ ~ In cDOT s) segs -> existsb is_nil segs = false.
Proof. induction 1 as [|s segs [H _] _ IH]; [reflexivity|]. cbn [existsb]. rewrite IH. destruct s; [congruence|reflexivity]. Qed.

Lemma root_emits input ka k rest v docs p e path path' : stands ka k -> values k rest v -> root_entry k v docs p e ->
  check_and_update path p (dspan k) (value_shape v) = (path', None) ->
  emit_at_root input ka rest path = Ok (ent_events (undocumented e), path').
Proof.
  intros Hk Hv Hr Hc. unfold emit_at_root. destruct Hr as [k v docs tag pl kd Hnd Hnh Hkey|sp t segs v docs e Hdot Ht Hseg He].
  - rewrite (is_dotted_not _ _ Hk Hnd). destruct (stands_key _ _ _ _ _ Hk Hkey) as [_ ->].
    replace (match ka with AScalar sp _ Heredoc => _ | _ => Ok [] end) with (Ok (A := list event) []).
    + cbn [bind]. rewrite (key_path _ _ _ _ Hkey), (stands_span _ _ Hk), (values_kind _ _ _ Hv), Hc. rewrite (simple_entry_events _ _ _ _ _ _ _ docs Hk Hv Hkey). reflexivity.
    + destruct Hk; try reflexivity. destruct k; try reflexivity. now destruct (Hnh sp t).
  - inversion Hk; subst. cbn [bind]. rewrite is_dotted_yes by assumption. unfold emit_dotted.
    assert (segs <> []) as Hne. { intros ->. discriminate He. }
    rewrite split_dot_join by assumption. rewrite existsb_nil_segs by assumption. cbn [a_span]. rewrite (values_kind _ _ _ Hv). cbn [dspan] in Hc. rewrite Hc.
    destruct (values_emit _ _ _ _ Hk Hv) as [Ev _]. cbn [a_span] in Ev. rewrite Ev. cbn [bind app]. now rewrite (path_entry_events _ _ _ _ _ _ He).
Qed.

Lemma object_emits ka k rest v docs p e seen : stands ka k -> values k rest v -> root_entry k v docs p e ->
  (~ dotted_key k -> seen_get (key_id k) seen = None) ->
  exists seen', emit_in_object ka rest seen = Ok (ent_events (undocumented e), seen') /\
    (dotted_key k /\ seen' = seen \/ ~ dotted_key k /\ seen' = seen_insert (key_id k) (dspan k) seen).
Proof.
  intros Hk Hv Hr Hc. unfold emit_in_object. destruct Hr as [k v docs tag pl kd Hnd Hnh Hkey|sp t segs v docs e Hdot Ht Hseg He].
  - rewrite (is_dotted_not _ _ Hk Hnd). destruct (stands_key _ _ _ _ _ Hk Hkey) as [_ ->]. rewrite (Hc Hnd).
    eexists. split; [|right; split; [exact Hnd|rewrite <- (stands_span _ _ Hk); reflexivity]].
    rewrite (simple_entry_events _ _ _ _ _ _ _ docs Hk Hv Hkey). cbn [bind].
    replace (match ka with AScalar sp _ Heredoc => _ | _ => [] end) with (@nil event); [reflexivity|].
    destruct Hk; try reflexivity. destruct k; try reflexivity. now destruct (Hnh sp t).
  - inversion Hk; subst. cbn [bind]. rewrite is_dotted_yes by assumption. unfold emit_dotted.
    assert (segs <> []) as Hne. { intros ->. discriminate He. }
    rewrite split_dot_join by assumption. rewrite existsb_nil_segs by assumption. cbn [a_span].
    destruct (values_emit _ _ _ _ Hk Hv) as [Ev _]. cbn [a_span] in Ev. rewrite Ev. cbn [bind app].
    exists seen. rewrite (path_entry_events _ _ _ _ _ _ He). split; [reflexivity|]. left. split; [|reflexivity]. eexists _, _. split; [reflexivity|exact Hdot].
Qed.

(** ** Running *)

Section Machine.
Variable input : str.

Definition yields (s : lsrc) (st : pstate) (evs : list event) : Prop := exists fuel, events_from fuel (mkp input s st []) = Ok evs.

Lemma yields_step s st s' st' q evs : q <> [] -> advance (mkp input s st []) = Ok (pop_queue input s' st' q) -> yields s' st' evs -> yields s st (q ++ evs).
Proof.
  intros Hq E [fuel Hf]. destruct q as [|e q]; [congruence|]. exists (S (length q + fuel)). cbn [events_from next_event p_queue]. rewrite E. cbn [pop_queue bind].
  rewrite events_from_queue, Hf. reflexivity.
Qed.

Lemma yields_same s st s' st' evs : advance (mkp input s st []) = advance (mkp input s' st' []) -> yields s' st' evs -> yields s st evs.
Proof.
  intros E [fuel Hf]. exists fuel. destruct fuel as [|fuel]; [discriminate Hf|]. cbn [events_from next_event p_queue] in *. now rewrite E.
Qed.

Lemma yields_done s r : feeds s r -> Forall is_remark r -> yields s PAfterDoc [].
Proof.
  intros Hs Hr. revert s Hs. induction Hr as [|l r Hl Hr IH]; intros s Hs.
  - exists 1. cbn [events_from next_event p_queue advance p_src p_state p_input plus check_trailing]. destruct (feeds_nil _ Hs) as (s1 & -> & _). reflexivity.
  - destruct (feeds_cons _ _ _ Hs) as (s1 & E & H1). apply (yields_same s _ s1 PAfterDoc); [|now apply IH].
    cbn [advance p_src p_state p_input p_queue]. rewrite (feeds_size _ _ Hs), (feeds_size _ _ H1). cbn [length plus].
    cbn [check_trailing]. rewrite E. destruct l; try contradiction; reflexivity.
Qed.

Lemma line_collects x l' k v tr r s : gline (x :: l') k v tr r -> feeds s l' ->
  exists ka rest s2, collect_entry input (parse_fuel s) x s = Ok (ka :: rest, tr, s2) /\ feeds s2 r /\ stands ka k /\ values k rest v.
Proof.
  intros Hg Hs. destruct (proj1 (proj2 (proj2 (proj2 (reads input)))) _ _ _ _ _ Hg) as (y & l & [= <- <-] & Hx & Hl & H).
  destruct (H s (parse_fuel s) Hs) as (ka & ev1 & s1 & rest & ev2 & s2 & E1 & E2 & -> & H2 & Hk & Hv).
  { unfold parse_fuel. rewrite (feeds_size _ _ Hs). lia. }
  exists ka, rest, s2. unfold collect_entry. rewrite E1. cbn [bind]. fold (is_bare_atom ka). rewrite E2. cbn [bind]. auto.
Qed.

Lemma line_starter l k v tr r : gline l k v tr r -> exists x l', l = x :: l' /\ starter x.
Proof. intros H. destruct (proj1 (proj2 (proj2 (proj2 (reads input)))) _ _ _ _ _ H) as (y & l' & -> & Hx & _). eauto. Qed.

Lemma ent_events_nonempty e : ent_events e <> [].
Proof. destruct e. cbn [ent_events]. destruct docs; discriminate. Qed.

Lemma root_paths opened docs ls es evs h : groot opened docs ls es evs h -> Forall (fun a => as_path a <> []) h.
Proof.
  induction 1 as [| | | |opened docs l k v tr r p e es evs h _ _ Hr _ IH]; auto; constructor; auto. cbn.
  inversion Hr; subst; [discriminate|]. intros ->. discriminate.
Qed.

Lemma root_runs opened docs ls es evs h : groot opened docs ls es evs h -> forall s pend path, feeds s ls -> (docs = [] -> pend = None) ->
  Forall (fun e => e = None) (snd (path_run path h)) -> yields s (PRoot pend path opened) (evs ++ [doc_end input]).
Proof.
  induction 1 as [opened|opened docs l r es evs h Hl _ IH|opened docs sp t r es evs h _ IH|opened docs sp t u r es evs h Ht _ IH|opened docs l k v tr r p e es evs h Hb Hg Hr _ IH];
    intros s pend path Hs Hd Hp.
  - destruct (feeds_nil _ Hs) as (s1 & E & H1). rewrite (Hd eq_refl). rewrite <- (app_nil_r (_ ++ _)).
    apply (yields_step _ _ s1 PAfterDoc); [now destruct opened| |now apply (yields_done _ [])].
    cbn [advance p_src p_state p_input p_queue plus advance_root]. rewrite E. reflexivity.
  - destruct (feeds_cons _ _ _ Hs) as (s1 & E & H1). apply (yields_same s _ s1 (PRoot pend path opened)); [|now apply IH].
    cbn [advance p_src p_state p_input p_queue]. rewrite (feeds_size _ _ Hs), (feeds_size _ _ H1). cbn [length plus].
    cbn [advance_root]. rewrite E. destruct l; try contradiction; reflexivity.
  - destruct (feeds_cons _ _ _ Hs) as (s1 & E & H1). cbn [app]. apply (yields_step s _ s1 (PRoot pend path opened) [_]); [discriminate| |now apply IH].
    cbn [advance p_src p_state p_input p_queue plus advance_root]. rewrite E. reflexivity.
  - destruct (feeds_cons _ _ _ Hs) as (s1 & E & H1).
    replace ((open_root opened ++ mkev sp (EvDoc [u]) :: evs) ++ [doc_end input]) with ((open_root opened ++ [mkev sp (EvDoc [u])]) ++ evs ++ [doc_end input]) by (rewrite <- !app_assoc; reflexivity).
    apply (yields_step s _ s1 (PRoot (Some sp) path true)); [now destruct opened| |].
    + cbn [advance p_src p_state p_input p_queue plus advance_root]. rewrite E. apply doc_text_line in Ht as [-> _]. reflexivity.
    + apply IH; auto. intros Hx. now destruct docs.
  - destruct (line_starter _ _ _ _ _ Hg) as (x & l' & -> & Hx). destruct (feeds_cons _ _ _ Hs) as (s1 & E & H1).
    destruct (line_collects _ _ _ _ _ _ _ Hg H1) as (ka & rest & s2 & Ec & H2 & Hk & Hv).
    cbn [path_run] in Hp. destruct (check_and_update path p (dspan k) (value_shape v)) as [path' er] eqn:Eu. destruct (path_run path' h) as [s3 es3] eqn:Ep. cbn [snd] in Hp.
    inversion_clear Hp as [|? ? He Hp']. subst er.
    pose proof (root_emits input _ _ _ _ _ _ _ _ _ Hk Hv Hr Eu) as Em.
    replace ((open_root opened ++ tr ++ ent_events (undocumented e) ++ evs) ++ [doc_end input])
      with ((open_root opened ++ tr ++ ent_events (undocumented e)) ++ evs ++ [doc_end input]) by (rewrite <- !app_assoc; reflexivity).
    apply (yields_step s _ s2 (PRoot None path' true)).
    + intros H. apply app_eq_nil in H as [_ H]. apply app_eq_nil in H as [_ H]. now apply ent_events_nonempty in H.
    + cbn [advance p_src p_state p_input p_queue plus advance_root]. rewrite E. rewrite Ec. cbn [bind]. rewrite Em. cbn [bind app].
      destruct x; try contradiction; try reflexivity. now destruct (Hb sp l').
    + apply IH; auto. now rewrite Ep.
Qed.

Lemma body_runs docs ls ks es evs e r' : gbody docs ls ks es evs e r' -> forall s start pend seen, feeds s ls -> (docs = [] -> pend = None) ->
  NoDup ks -> (forall k, In k ks -> seen_get k seen = None) -> Forall is_remark r' ->
  yields s (PInObj start seen pend PAfterDoc) (evs ++ [mkev e EvObjEnd; doc_end input]).
Proof.
  induction 1 as [sp r|docs l r ks es evs e r' Hl _ IH|docs sp t r ks es evs e r' _ IH|docs sp t u r ks es evs e r' Ht _ IH|docs l k v tr r p x ks ks' es evs e r' Hg Hr _ IH Hks];
    intros s start pend seen Hs Hd Hnd Hsn Hrem.
  - destruct (feeds_cons _ _ _ Hs) as (s1 & E & H1). rewrite (Hd eq_refl). cbn [app].
    apply (yields_step s _ s1 PAfterDoc [_; _]); [discriminate| |now apply (yields_done _ r)].
    cbn [advance p_src p_state p_input p_queue plus advance_obj]. rewrite E. reflexivity.
  - destruct (feeds_cons _ _ _ Hs) as (s1 & E & H1). apply (yields_same s _ s1 (PInObj start seen pend PAfterDoc)); [|now apply IH].
    cbn [advance p_src p_state p_input p_queue]. rewrite (feeds_size _ _ Hs), (feeds_size _ _ H1). cbn [length plus].
    cbn [advance_obj]. rewrite E. destruct l; try contradiction; reflexivity.
  - destruct (feeds_cons _ _ _ Hs) as (s1 & E & H1). cbn [app]. apply (yields_step s _ s1 (PInObj start seen pend PAfterDoc) [_]); [discriminate| |now apply IH].
    cbn [advance p_src p_state p_input p_queue plus advance_obj]. rewrite E. reflexivity.
  - destruct (feeds_cons _ _ _ Hs) as (s1 & E & H1). cbn [app].
    apply (yields_step s _ s1 (PInObj start seen (Some sp) PAfterDoc) [_]); [discriminate| |].
    + cbn [advance p_src p_state p_input p_queue plus advance_obj]. rewrite E. apply doc_text_line in Ht as [-> _]. reflexivity.
    + apply IH; auto. intros Hx. now destruct docs.
  - destruct (line_starter _ _ _ _ _ Hg) as (y & l' & -> & Hx). destruct (feeds_cons _ _ _ Hs) as (s1 & E & H1).
    destruct (line_collects _ _ _ _ _ _ _ Hg H1) as (ka & rest & s2 & Ec & H2 & Hk & Hv).
    destruct (object_emits _ _ _ _ _ _ _ seen Hk Hv Hr) as (seen' & Em & Hseen).
    { intros Hn. apply Hsn. destruct Hks as [[Hks _]|[_ ->]]; [contradiction|now left]. }
    replace ((tr ++ ent_events (undocumented x) ++ evs) ++ [mkev e EvObjEnd; doc_end input])
      with ((tr ++ ent_events (undocumented x)) ++ evs ++ [mkev e EvObjEnd; doc_end input]) by (rewrite <- !app_assoc; reflexivity).
    apply (yields_step s _ s2 (PInObj start seen' None PAfterDoc)).
    + intros H. apply app_eq_nil in H as [_ H]. now apply ent_events_nonempty in H.
    + cbn [advance p_src p_state p_input p_queue plus advance_obj]. rewrite E, Ec. cbn [bind]. rewrite Em. cbn [bind app].
      destruct y; try contradiction; reflexivity.
    + destruct Hks as [[Hdk ->]|[Hdk ->]]; destruct Hseen as [[Hd' ->]|[Hd' ->]]; try contradiction.
      * apply IH; auto.
      * inversion_clear Hnd as [|? ? Hni Hnd']. apply IH; auto. intros k' Hk'. cbn [seen_insert seen_get].
        destruct (keyval_eqb (key_id k) k') eqn:Ek; [apply keyval_eqb_eq in Ek; subst k'; contradiction|]. apply Hsn. now right.
Qed.

Lemma lead_runs ls lead r : glead ls lead r -> forall s, feeds s ls -> forall evs,
  (forall s', feeds s' r -> yields s' (PRoot None [] false) evs) -> yields s (PRoot None [] false) (lead ++ evs).
Proof.
  induction 1 as [l|l r evs r' Hl _ IH|sp t r evs r' _ IH]; intros s Hs q Hq.
  - now apply Hq.
  - destruct (feeds_cons _ _ _ Hs) as (s1 & E & H1). apply (yields_same s _ s1 (PRoot None [] false)); [|now apply IH].
    cbn [advance p_src p_state p_input p_queue]. rewrite (feeds_size _ _ Hs), (feeds_size _ _ H1). cbn [length plus].
    cbn [advance_root]. rewrite E. destruct l; try contradiction; reflexivity.
  - destruct (feeds_cons _ _ _ Hs) as (s1 & E & H1). apply (yields_step s _ s1 (PRoot None [] false) [_]); [discriminate| |now apply IH].
    cbn [advance p_src p_state p_input p_queue plus advance_root]. rewrite E. reflexivity.
Qed.

Lemma doc_runs ls es evs : ~ In LxEof ls -> gdoc (blen input) ls es evs -> exists fuel, events_from fuel (parser_new input ls) = Ok evs.
Proof.
  intros Hn H. pose proof (feeds_new _ Hn) as Hs. unfold parser_new. change (yields (mksrc ls None) PBeforeDoc evs).
  assert (H0 : forall q, yields (mksrc ls None) (PRoot None [] false) q -> yields (mksrc ls None) PBeforeDoc (mkev (empty_at 0) EvDocStart :: q)).
  { intros q Hq. now apply (yields_step _ _ (mksrc ls None) (PRoot None [] false) [mkev (empty_at 0) EvDocStart]). }
  destruct H as [ls es evs h Hg Hp|ls lead sp r ks es evs e r' Hl Hg Hnd Hr]; apply H0.
  - apply (root_runs _ _ _ _ _ _ Hg); auto. apply accepted_fine; [now apply (root_paths _ _ _ _ _ _ Hg)|assumption].
  - apply (lead_runs _ _ _ Hl); [exact Hs|]. intros s' Hs'. destruct (feeds_cons _ _ _ Hs') as (s1 & E & H1).
    apply (yields_step s' _ s1 (PInObj sp [] None PAfterDoc) [_]); [discriminate| |].
    + cbn [advance p_src p_state p_input p_queue plus advance_root]. rewrite E. reflexivity.
    + apply (body_runs _ _ _ _ _ _ _ Hg); auto.
Qed.

End Machine.
