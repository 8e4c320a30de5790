(** The parser's state machine: it stops, and what its events look like. *)
From Verif Require Import Base BaseProofs TokModel TokProofs LexModel LexSpec EscapeProofs LexProofs ParseModel ParseSpec ParseProofs EmitProofs.

Lemma events_from_mono k j p r : events_from k p = r -> r <> OutOfFuel -> events_from (k + j) p = r.
Proof.
  revert p r. induction k as [|k IH]; intros p r E Hr; cbn [events_from plus] in *; [congruence|].
  destruct (next_event p) as [[o p']| |]; cbn [bind] in *; try congruence.
  destruct o as [e|]; [|congruence].
  destruct (events_from k p') as [l| |] eqn:El; cbn [bind] in *.
  - now rewrite (IH _ _ El ltac:(discriminate)).
  - now rewrite (IH _ _ El ltac:(discriminate)).
  - congruence.
Qed.

Lemma events_from_fun k k' p r r' : events_from k p = r -> events_from k' p = r' -> r <> OutOfFuel -> r' <> OutOfFuel -> r = r'.
Proof.
  intros E E' H H'. destruct (le_lt_dec k k') as [Hle|Hlt].
  - apply (events_from_mono _ (k' - k)) in E; auto. replace (k + (k' - k)) with k' in E by lia. congruence.
  - apply (events_from_mono _ (k - k')) in E'; auto. replace (k' + (k - k')) with k in E' by lia. congruence.
Qed.

Lemma events_from_queue i s st q k :
  events_from (length q + k) (mkp i s st q) = do r <- events_from k (mkp i s st []); Ok (q ++ r).
Proof.
  induction q as [|e q IH]; cbn [length plus app].
  - destruct (events_from k (mkp i s st [])); reflexivity.
  - cbn [events_from next_event p_queue p_input p_src p_state bind]. rewrite IH.
    destruct (events_from k (mkp i s st [])); reflexivity.
Qed.

Section Run.
Variable input : str.
Let n := blen input.

Definition frames (st : pstate) (base : list frame) : list frame :=
  match st with
  | PBeforeDoc | PBeforeExpr => []
  | PRoot _ _ emitted => if emitted then [FObj] else []
  | PInObj _ _ _ _ => FObj :: base
  | PAfterDoc => base
  | PAfterExpr => []
  end.

Definition state_ok (st : pstate) : Prop :=
  match st with
  | PRoot pend _ _ => ospan_in n pend
  | PInObj start _ pend parent => span_in n start /\ ospan_in n pend /\ parent = PAfterDoc
  | _ => True
  end.

Definition phase (st : pstate) (s : lsrc) (acc : list event) : Prop :=
  match st with
  | PBeforeDoc => acc = []
  | PRoot _ _ _ | PInObj _ _ _ _ => exists e mid, acc = e :: mid /\ ev_kind e = EvDocStart /\ Forall inner_ev mid
  | PAfterDoc => exists e mid e' tail, acc = e :: mid ++ e' :: tail /\ ev_kind e = EvDocStart /\ ev_kind e' = EvDocEnd /\
      Forall inner_ev mid /\ (tail = [] \/ (items s = [] /\ exists t, tail = [t] /\ trailing_event t))
  | PBeforeExpr => acc = []
  | PAfterExpr => Forall inner_ev acc
  end.

Record inv (acc : list event) (s : lsrc) (st : pstate) (base : list frame) : Prop := {
  i_src : exists lo, sok input lo s;
  i_state : state_ok st;
  i_spans : spans_in n acc;
  i_nest : nest [] acc = Some (frames st base);
  i_base : base = [] \/ (base = [FObj] /\ object_in_object acc);
  i_phase : phase st s acc;
  i_root : match st with PInObj _ _ _ _ | PAfterDoc => True | _ => base = [] end
}.

Definition rank (st : pstate) : nat :=
  match st with PBeforeDoc | PBeforeExpr => 2 | PRoot _ _ _ | PInObj _ _ _ _ => 1 | PAfterDoc | PAfterExpr => 0 end.
Definition mu (s : lsrc) (st : pstate) : nat := length (items s) + rank st.

(** What one [advance] with an empty queue does. *)
Definition step_ok (acc : list event) (m : nat) (x : option event * parser) : Prop :=
  match x with
  | (Some e, p') => p_input p' = input /\ mu (p_src p') (p_state p') < m /\
                    exists base, inv (acc ++ e :: p_queue p') (p_src p') (p_state p') base
  | (None, p') => p_input p' = input /\ p_queue p' = [] /\
                  (p_state p' = PAfterDoc /\ items (p_src p') = [] \/ p_state p' = PAfterExpr) /\
                  exists base, inv acc (p_src p') (p_state p') base
  end.

Lemma good_inv acc evs s st base s' st' : inv acc s st base -> (exists lo, sok input lo s') -> state_ok st' -> good n evs ->
  frames st' base = frames st base -> rank st = 1 -> rank st' = 1 ->
  match st' with PInObj _ _ _ _ | PAfterDoc => True | _ => base = [] end -> inv (acc ++ evs) s' st' base.
Proof.
  intros [I1 I2 I3 I4 I5 I6 I7] Hs Hst [G1 G2 G3] Hf Hr Hr' Hrt. split; auto.
  - apply Forall_app. auto.
  - rewrite nest_app, I4, G2. now rewrite Hf.
  - destruct I5 as [->|[-> (a & sp & b & -> & Ho)]]; [now left|right]. split; [reflexivity|].
    exists a, sp, (b ++ evs). split; [now rewrite <- app_assoc|exact Ho].
  - assert (exists e mid, acc = e :: mid /\ ev_kind e = EvDocStart /\ Forall inner_ev mid) as (e & mid & -> & E1 & E2).
    { destruct st; cbn in Hr; try discriminate; exact I6. }
    assert (exists e0 mid0, (e :: mid) ++ evs = e0 :: mid0 /\ ev_kind e0 = EvDocStart /\ Forall inner_ev mid0) as X.
    { exists e, (mid ++ evs). splits; auto. apply Forall_app. auto. }
    destruct st'; cbn in Hr'; try discriminate; exact X.
Qed.

(** Closing the document: good events, then whatever empties the stack, then DocumentEnd. *)
Lemma close_inv acc evs s st base s' : inv acc s st base -> (exists lo, sok input lo s') -> spans_in n evs ->
  nest (frames st base) evs = Some base -> Forall inner_ev evs -> rank st = 1 ->
  inv (acc ++ evs ++ [doc_end input]) s' PAfterDoc base.
Proof.
  intros [I1 I2 I3 I4 I5 I6 I7] Hs H1 H2 H3 Hr. split; auto.
  - exact I.
  - apply Forall_app. split; [exact I3|]. apply Forall_app. split; [exact H1|]. constructor; [|constructor]. split; cbn; unfold n; lia.
  - rewrite nest_app, I4, nest_app, H2. reflexivity.
  - destruct I5 as [->|[-> (a & sp & b & -> & Ho)]]; [now left|right]. split; [reflexivity|].
    exists a, sp, (b ++ evs ++ [doc_end input]). split; [now rewrite <- app_assoc|exact Ho].
  - assert (exists e mid, acc = e :: mid /\ ev_kind e = EvDocStart /\ Forall inner_ev mid) as (e & mid & -> & E1 & E2).
    { destruct st; cbn in Hr; try discriminate; exact I6. }
    exists e, (mid ++ evs), (doc_end input), []. splits; auto.
    + cbn. now rewrite <- app_assoc.
    + apply Forall_app. auto.
Qed.

Lemma dangling_good pend : ospan_in n pend -> good n (dangling pend).
Proof. intros H. destruct pend as [sp|]; [|apply good_nil]. apply good_one; [exact H|exact I]. Qed.

Lemma inv_src acc s st base s' : inv acc s st base -> (exists lo, sok input lo s') ->
  (st = PAfterDoc -> items s = [] -> items s' = []) -> inv acc s' st base.
Proof.
  intros [I1 I2 I3 I4 I5 I6 I7] H Hi. split; auto. destruct st; auto.
  destruct I6 as (e & mid & e' & tail & E & H1 & H2 & H3 & H4).
  exists e, mid, e', tail. splits; auto. destruct H4 as [H4|[H4 H5]]; [now left|right]. split; auto.
Qed.

Lemma pop_queue_step acc s st q base m : q <> [] -> mu s st < m -> inv (acc ++ q) s st base ->
  step_ok acc m (pop_queue input s st q).
Proof.
  intros Hq Hm Hi. destruct q as [|e r]; [congruence|]. cbn. splits; auto. now exists base.
Qed.

Lemma items_next_le lo s l s1 : sok input lo s -> src_next s = (l, s1) -> length (items s1) <= length (items s).
Proof.
  intros H E. destruct (src_next_spec _ _ _ _ _ H E) as (_ & _ & _ & _ & [(_ & Ea & Eb)|(_ & Ea)]);
    [rewrite Ea, Eb|rewrite Ea]; cbn; lia.
Qed.

Definition root_open (emitted : bool) : list event := if emitted then [] else [mkev (empty_span 0) EvObjStart].

(** Opening the implicit root object. *)
Lemma open_inv acc s pend path emitted : inv acc s (PRoot pend path emitted) [] ->
  inv (acc ++ root_open emitted) s (PRoot pend path true) [].
Proof.
  intros [I1 I2 I3 I4 I5 I6 I7]. destruct emitted.
  - cbn [root_open]. rewrite app_nil_r. split; auto.
  - cbn [root_open]. split; auto.
    + apply Forall_app. split; [exact I3|]. constructor; [|constructor]. split; cbn; lia.
    + rewrite nest_app, I4. reflexivity.
    + destruct I6 as (e & mid & -> & E1 & E2). exists e, (mid ++ [mkev (empty_span 0) EvObjStart]). splits; auto.
      apply Forall_app. split; auto. constructor; [exact I|constructor].
Qed.

Lemma parse_fuel_ge lo s : sok input lo s -> 2 * length (items s) + 2 <= parse_fuel s.
Proof. intros H. unfold parse_fuel. rewrite (src_size_items _ _ _ H). lia. Qed.

Lemma emit_value_nonempty a l : emit_value a = Ok l -> l <> [].
Proof.
  assert (forall r r' x, bind r (fun e => Ok (x e)) = Ok r' -> (forall e : list event, x e <> []) -> r' <> ([] : list event)) as B.
  { intros r r' x E H. destruct r; cbn in E; try discriminate. injection E as <-. apply H. }
  destruct a as [sp v k|sp|sp name p i esp|sp es ds dg u|sp es u cs|sp es|sp raw|sp m]; cbn [emit_value]; intros E;
    try (injection E as <-; discriminate); eapply B; try exact E; intros e; cbn beta.
  - destruct (if i then _ else _); discriminate.
  - discriminate.
  - discriminate.
  - discriminate.
  - destruct e; discriminate.
Qed.

#[local] Opaque collect_entry parse_atom parse_fuel emit_at_root emit_in_object emit_value.

Lemma advance_root_ok f : forall s pend path emitted acc lo,
  inv acc s (PRoot pend path emitted) [] -> sok input lo s -> length (items s) + 1 <= f ->
  safe input (advance_root f input s pend path emitted []) (step_ok acc (length (items s) + 1)).
Proof.
  induction f as [|f IH]; intros s pend path emitted acc lo Hi Hs Hf; [lia|].
  cbn [advance_root]. destruct (src_next s) as [l s1] eqn:En.
  destruct (src_next_spec _ _ _ _ _ Hs En) as (Hp & lo1 & Ht & Hs1 & Hc).
  assert (inv acc s1 (PRoot pend path emitted) []) as Hi1 by (apply (inv_src acc s); eauto; discriminate).
  pose proof (i_state _ _ _ _ Hi) as Hpe. cbn [state_ok] in Hpe.
  assert (l <> LxEof -> length (items s) = S (length (items s1))) as Hn by (apply (next_len _ _ _ _ _ Hs En)).
  assert (l <> LxEof -> safe input
      (do (atoms, ev, s2) <- collect_entry input (parse_fuel s1) l s1;
       match atoms with
       | [] => Ok (pop_queue input s2 (PRoot None path true) ([] ++ root_open emitted ++ ev))
       | key :: rest =>
         do (ev2, path') <- emit_at_root input key rest path;
         Ok (pop_queue input s2 (PRoot None path' true) ([] ++ root_open emitted ++ ev ++ ev2))
       end) (step_ok acc (length (items s) + 1))) as Hgo.
  { intros Hl. specialize (Hn Hl).
    destruct (collect_entry_ok input (parse_fuel s1) l s1 lo lo1 Ht Hl Hs1) as
      (a & more & ev & s2 & hi & -> & A1 & A2 & A0 & A3 & A4 & A5 & A6 & A7).
    { now apply (parse_fuel_ge lo1). }
    cbn [bind]. eapply safe_bind; [apply emit_at_root_ok; eauto|]. intros [ev2 path'] [G Gn]. cbn [fst safe] in *.
    apply (pop_queue_step _ _ _ _ []).
    - cbn [app]. intros Ex. apply app_eq_nil in Ex as [_ Ex]. apply app_eq_nil in Ex as [_ Ex]. congruence.
    - unfold mu. cbn [rank]. lia.
    - cbn [app]. rewrite app_assoc. eapply good_inv; [apply open_inv; exact Hi| |exact I| |reflexivity|reflexivity|reflexivity|first [reflexivity|exact I]].
      + eauto.
      + apply good_app; [now apply plain_good|exact G]. }
  destruct l; try (apply Hgo; discriminate); clear Hgo.
  - (* object start *)
    destruct (taken_some _ _ _ _ Ht ltac:(discriminate)) as (_ & T1 & T2 & T3). cbn [lx_span] in *.
    specialize (Hn ltac:(discriminate)).
    cbn [safe step_ok p_input p_src p_state p_queue]. splits; auto; [unfold mu; cbn; lia|].
    exists (if emitted then [FObj] else []). destruct Hi as [I1 I2 I3 I4 I5 I6 I7]. cbn [frames] in I4. split; auto.
    + eauto.
    + cbn. auto.
    + apply Forall_app. split; [exact I3|]. constructor; [exact T2|constructor].
    + rewrite nest_app, I4. reflexivity.
    + destruct emitted; [right|now left]. split; [reflexivity|]. exists acc, sp, []. split; [reflexivity|exact I4].
    + destruct I6 as (e & mid & -> & E1 & E2). exists e, (mid ++ [mkev sp EvObjStart]). splits; auto.
      apply Forall_app. split; auto. constructor; [exact I|constructor].
  - (* comma *)
    specialize (Hn ltac:(discriminate)). eapply safe_impl; [apply (IH s1 _ _ _ acc lo1); auto; lia|].
    intros [[e|] p']; cbn [step_ok]; [|tauto]. intros (B1 & B2 & B3). splits; auto. lia.
  - (* newline *)
    specialize (Hn ltac:(discriminate)). eapply safe_impl; [apply (IH s1 _ _ _ acc lo1); auto; lia|].
    intros [[e|] p']; cbn [step_ok]; [|tauto]. intros (B1 & B2 & B3). splits; auto. lia.
  - (* comment *)
    destruct (taken_some _ _ _ _ Ht ltac:(discriminate)) as (_ & T1 & T2 & T3). cbn [lx_span] in *.
    specialize (Hn ltac:(discriminate)).
    cbn [safe step_ok p_input p_src p_state p_queue]. splits; auto; [unfold mu; cbn; lia|].
    exists []. eapply good_inv; [exact Hi| |exact Hpe| |reflexivity|reflexivity|reflexivity|first [reflexivity|exact I]]; eauto.
    apply good_one; [exact T2|exact I].
  - (* doc comment *)
    destruct (taken_some _ _ _ _ Ht ltac:(discriminate)) as (_ & T1 & T2 & T3). cbn [lx_span] in *.
    specialize (Hn ltac:(discriminate)). cbn [safe].
    apply (pop_queue_step _ _ _ _ []).
    + cbn [app]. destruct emitted; discriminate.
    + unfold mu. cbn [rank]. lia.
    + cbn [app]. rewrite app_assoc. eapply good_inv; [apply open_inv; exact Hi| |exact T2| |reflexivity|reflexivity|reflexivity|first [reflexivity|exact I]]; eauto.
      apply good_one; [exact T2|exact I].
  - (* end of input *)
    destruct Hc as [(_ & E0 & E1)|[? _]]; [|congruence]. cbn [safe].
    apply (pop_queue_step _ _ _ _ []).
    + cbn [app]. destruct (dangling pend); [destruct emitted; discriminate|discriminate].
    + unfold mu. rewrite E0, E1. cbn. lia.
    + cbn [app]. rewrite (app_assoc (dangling pend)). pose proof (dangling_good _ Hpe) as [D1 D2 D3].
      eapply close_inv; [exact Hi|eauto| | | |reflexivity].
      * apply Forall_app. split; [exact D1|]. destruct emitted; constructor; [split; cbn; lia|constructor].
      * rewrite nest_app, D2. cbn [frames]. destruct emitted; reflexivity.
      * apply Forall_app. split; [exact D3|]. destruct emitted; constructor; [exact I|constructor].
Qed.

Lemma advance_obj_ok f : forall s start seen pend base acc lo,
  inv acc s (PInObj start seen pend PAfterDoc) base -> sok input lo s -> length (items s) + 1 <= f ->
  safe input (advance_obj f input s start seen pend PAfterDoc []) (step_ok acc (length (items s) + 1)).
Proof.
  induction f as [|f IH]; intros s start seen pend base acc lo Hi Hs Hf; [lia|].
  cbn [advance_obj is_after_doc]. destruct (src_next s) as [l s1] eqn:En.
  destruct (src_next_spec _ _ _ _ _ Hs En) as (Hp & lo1 & Ht & Hs1 & Hc).
  assert (inv acc s1 (PInObj start seen pend PAfterDoc) base) as Hi1 by (apply (inv_src acc s); eauto; discriminate).
  pose proof (i_state _ _ _ _ Hi) as (Hst & Hpe & _).
  assert (l <> LxEof -> length (items s) = S (length (items s1))) as Hn by (apply (next_len _ _ _ _ _ Hs En)).
  assert (l <> LxEof -> safe input
      (do (atoms, ev, s2) <- collect_entry input (parse_fuel s1) l s1;
       match atoms with
       | [] => Ok (pop_queue input s2 (PInObj start seen None PAfterDoc) ([] ++ ev))
       | key :: rest =>
         do (ev2, seen') <- emit_in_object key rest seen;
         Ok (pop_queue input s2 (PInObj start seen' None PAfterDoc) ([] ++ ev ++ ev2))
       end) (step_ok acc (length (items s) + 1))) as Hgo.
  { intros Hl. specialize (Hn Hl).
    destruct (collect_entry_ok input (parse_fuel s1) l s1 lo lo1 Ht Hl Hs1) as
      (a & more & ev & s2 & hi & -> & A1 & A2 & A0 & A3 & A4 & A5 & A6 & A7).
    { now apply (parse_fuel_ge lo1). }
    cbn [bind]. eapply safe_bind; [apply emit_in_object_ok; eauto|]. intros [ev2 seen'] [G Gn]. cbn [fst safe] in *.
    apply (pop_queue_step _ _ _ _ base).
    - cbn [app]. intros Ex. apply app_eq_nil in Ex as [_ Ex]. congruence.
    - unfold mu. cbn [rank]. lia.
    - cbn [app]. eapply good_inv; [exact Hi| | | |reflexivity|reflexivity|reflexivity|first [reflexivity|exact I]].
      + eauto.
      + cbn. auto.
      + apply good_app; [now apply plain_good|exact G]. }
  pose proof (dangling_good _ Hpe) as [D1 D2 D3].
  destruct l; try (apply Hgo; discriminate); clear Hgo.
  - (* closing brace *)
    destruct (taken_some _ _ _ _ Ht ltac:(discriminate)) as (_ & T1 & T2 & T3). cbn [lx_span] in *.
    specialize (Hn ltac:(discriminate)).
    cbn [safe step_ok p_input p_src p_state p_queue]. splits; auto; [unfold mu; cbn; lia|].
    exists base. cbn [app].
    change (mkev sp EvObjEnd :: dangling pend ++ [doc_end input]) with ((mkev sp EvObjEnd :: dangling pend) ++ [doc_end input]).
    eapply close_inv; [exact Hi|eauto| | | |reflexivity].
    + constructor; [exact T2|exact D1].
    + cbn. apply D2.
    + constructor; [exact I|exact D3].
  - (* comma *)
    specialize (Hn ltac:(discriminate)). eapply safe_impl; [apply (IH s1 _ _ _ base acc lo1); auto; lia|].
    intros [[e|] p']; cbn [step_ok]; [|tauto]. intros (B1 & B2 & B3). splits; auto. lia.
  - (* newline *)
    specialize (Hn ltac:(discriminate)). eapply safe_impl; [apply (IH s1 _ _ _ base acc lo1); auto; lia|].
    intros [[e|] p']; cbn [step_ok]; [|tauto]. intros (B1 & B2 & B3). splits; auto. lia.
  - (* comment *)
    destruct (taken_some _ _ _ _ Ht ltac:(discriminate)) as (_ & T1 & T2 & T3). cbn [lx_span] in *.
    specialize (Hn ltac:(discriminate)).
    cbn [safe step_ok p_input p_src p_state p_queue]. splits; auto; [unfold mu; cbn; lia|].
    exists base. eapply good_inv; [exact Hi| | | |reflexivity|reflexivity|reflexivity|first [reflexivity|exact I]]; eauto.
    + cbn. auto.
    + apply good_one; [exact T2|exact I].
  - (* doc comment *)
    destruct (taken_some _ _ _ _ Ht ltac:(discriminate)) as (_ & T1 & T2 & T3). cbn [lx_span] in *.
    specialize (Hn ltac:(discriminate)).
    cbn [safe step_ok p_input p_src p_state p_queue]. splits; auto; [unfold mu; cbn; lia|].
    exists base. eapply good_inv; [exact Hi| | | |reflexivity|reflexivity|reflexivity|first [reflexivity|exact I]]; eauto.
    + cbn. auto.
    + apply good_one; [exact T2|exact I].
  - (* end of input *)
    destruct Hc as [(_ & E0 & E1)|[? _]]; [|congruence]. cbn [safe].
    apply (pop_queue_step _ _ _ _ base).
    + cbn [app]. destruct (dangling pend); discriminate.
    + unfold mu. rewrite E0, E1. cbn. lia.
    + cbn [app].
      change (mkerr start EUnclosedObject :: mkev start EvObjEnd :: [doc_end input])
        with ([mkerr start EUnclosedObject; mkev start EvObjEnd] ++ [doc_end input]).
      rewrite (app_assoc (dangling pend)).
      eapply close_inv; [exact Hi|eauto| | | |reflexivity].
      * apply Forall_app. split; [exact D1|]. constructor; [exact Hst|]. constructor; [exact Hst|constructor].
      * rewrite nest_app, D2. reflexivity.
      * apply Forall_app. split; [exact D3|]. constructor; [exact I|]. constructor; [exact I|constructor].
Qed.

Lemma drain_end_ok f : forall e s lo, sok input lo s -> e <= lo -> length (items s) + 1 <= f ->
  exists e' s', drain_end f e s = Ok (e', s') /\ e <= e' /\ e' <= n /\ items s' = [] /\ (exists lo', sok input lo' s').
Proof.
  induction f as [|f IH]; intros e s lo Hs He Hf; [lia|]. cbn [drain_end].
  destruct (src_next s) as [l s1] eqn:En.
  destruct (src_next_spec _ _ _ _ _ Hs En) as (Hp & lo1 & Ht & Hs1 & Hc). pose proof (sok_le _ _ _ Hs) as Hle.
  assert (l <> LxEof -> exists e' s', drain_end f (sp_end (lx_span l)) s1 = Ok (e', s') /\ e <= e' /\ e' <= n /\ items s' = [] /\ (exists lo', sok input lo' s')) as Hgo.
  { intros Hl. destruct (taken_some _ _ _ _ Ht Hl) as (_ & T1 & [T2 T2'] & T3).
    pose proof (next_len _ _ _ _ _ Hs En Hl).
    destruct (IH (sp_end (lx_span l)) s1 lo1) as (e' & s' & -> & B1 & B2 & B3 & B4); auto; try lia.
    exists e', s'. splits; auto. lia. }
  destruct l; try (apply Hgo; discriminate). destruct Hc as [(_ & _ & E1)|[? _]]; [|congruence].
  exists e, s1. splits; eauto. unfold n. lia.
Qed.

Lemma check_trailing_ok f : forall s base acc lo,
  inv acc s PAfterDoc base -> sok input lo s -> length (items s) + 1 <= f ->
  safe input (check_trailing f input s []) (step_ok acc (length (items s))).
Proof.
  induction f as [|f IH]; intros s base acc lo Hi Hs Hf; [lia|].
  cbn [check_trailing]. destruct (src_next s) as [l s1] eqn:En.
  destruct (src_next_spec _ _ _ _ _ Hs En) as (Hp & lo1 & Ht & Hs1 & Hc).
  assert (items s = [] -> items s1 = []) as Hmt.
  { intros E. destruct Hc as [(_ & _ & E1)|(_ & E1)]; [exact E1|]. congruence. }
  assert (inv acc s1 PAfterDoc base) as Hi1 by (apply (inv_src acc s); eauto).
  assert (l <> LxEof -> length (items s) = S (length (items s1))) as Hn by (apply (next_len _ _ _ _ _ Hs En)).
  assert (l <> LxEof -> safe input (do (e, s2) <- drain_end (2 + src_size s1) (sp_end (lx_span l)) s1;
      Ok (Some (mkerr (mkspan (sp_start (lx_span l)) e) ETrailing), mkp input s2 PAfterDoc []))
      (step_ok acc (length (items s)))) as Hgo.
  { intros Hl. specialize (Hn Hl). destruct (taken_some _ _ _ _ Ht Hl) as (_ & T1 & [T2 T2'] & T3).
    destruct (drain_end_ok (2 + src_size s1) (sp_end (lx_span l)) s1 lo1 Hs1) as (e' & s2 & -> & B1 & B2 & B3 & B4).
    { lia. } { rewrite (src_size_items _ _ _ Hs1). lia. }
    cbn [bind safe step_ok p_input p_src p_state p_queue]. splits; auto.
    { unfold mu. rewrite B3. cbn. lia. }
    exists base. destruct Hi as [I1 I2 I3 I4 I5 I6 I7]. split; auto.
    - apply Forall_app. split; [exact I3|]. constructor; [|constructor]. split; cbn; lia.
    - rewrite nest_app, I4. reflexivity.
    - destruct I5 as [->|[-> (a & sp & b & -> & Ho)]]; [now left|right]. split; [reflexivity|].
      eexists a, sp, _. split; [rewrite <- app_assoc; reflexivity|exact Ho].
    - destruct I6 as (e & mid & e1 & tail & -> & E1 & E2 & E3 & E4).
      destruct E4 as [->|[E4 _]]; [|rewrite E4 in Hn; discriminate].
      eexists e, mid, e1, _. split; [cbn; rewrite <- app_assoc; reflexivity|]. splits; auto. right. split; [exact B3|].
      eexists. split; [reflexivity|reflexivity]. }
  destruct l; try (apply Hgo; discriminate); clear Hgo.
  - specialize (Hn ltac:(discriminate)). eapply safe_impl; [apply (IH s1 base acc lo1); auto; lia|].
    intros [[e|] p']; cbn [step_ok]; [|tauto]. intros (B1 & B2 & B3). splits; auto. lia.
  - specialize (Hn ltac:(discriminate)). eapply safe_impl; [apply (IH s1 base acc lo1); auto; lia|].
    intros [[e|] p']; cbn [step_ok]; [|tauto]. intros (B1 & B2 & B3). splits; auto. lia.
  - destruct Hc as [(_ & _ & E1)|[? _]]; [|congruence]. cbn [safe step_ok p_input p_src p_state p_queue]. splits; auto. now exists base.
Qed.

Lemma advance_expr_ok f : forall s acc lo,
  inv acc s PBeforeExpr [] -> sok input lo s -> length (items s) + 1 <= f ->
  safe input (advance_expr f input s []) (step_ok acc (length (items s) + 2)).
Proof.
  induction f as [|f IH]; intros s acc lo Hi Hs Hf; [lia|].
  cbn [advance_expr]. destruct (src_next s) as [l s1] eqn:En.
  destruct (src_next_spec _ _ _ _ _ Hs En) as (Hp & lo1 & Ht & Hs1 & Hc).
  assert (inv acc s1 PBeforeExpr []) as Hi1 by (apply (inv_src acc s); eauto; discriminate).
  assert (l <> LxEof -> length (items s) = S (length (items s1))) as Hn by (apply (next_len _ _ _ _ _ Hs En)).
  assert (acc = []) as -> by (apply (i_phase _ _ _ _ Hi)).
  assert (l <> LxEof -> safe input (do (a, ev, s2) <- parse_atom input (parse_fuel s1) l s1;
      do ev2 <- emit_value a;
      Ok (pop_queue input s2 PAfterExpr ([] ++ ev ++ ev2))) (step_ok [] (length (items s) + 2))) as Hgo.
  { intros Hl. specialize (Hn Hl). destruct (reading input (parse_fuel s1)) as (HPA & _).
    destruct (HPA l s1 lo lo1 Ht Hs1) as (a & ev & s2 & hi & -> & A1 & A2 & A3 & A4 & A5 & A6).
    { left. now apply (parse_fuel_ge lo1). }
    cbn [bind]. eapply safe_bind with (Q := fun l => good n l /\ l <> []).
    { pose proof (emit_value_ok input a A1) as S. pose proof (emit_value_nonempty a) as N.
      destruct (emit_value a) as [x| |]; cbn in *; auto. }
    intros ev2 [G Gn]. cbn [safe]. assert (good n (ev ++ ev2)) as [G1 G2 G3] by (apply good_app; [now apply plain_good|exact G]).
    apply (pop_queue_step _ _ _ _ []).
    - cbn [app]. intros Ex. apply app_eq_nil in Ex as [_ Ex]. congruence.
    - unfold mu. cbn [rank]. lia.
    - cbn [app]. split; cbn; eauto. }
  destruct l; try (apply Hgo; discriminate); clear Hgo.
  - specialize (Hn ltac:(discriminate)). eapply safe_impl; [apply (IH s1 [] lo1); auto; lia|].
    intros [[e|] p']; cbn [step_ok]; [|tauto]. intros (B1 & B2 & B3). splits; auto. lia.
  - specialize (Hn ltac:(discriminate)). eapply safe_impl; [apply (IH s1 [] lo1); auto; lia|].
    intros [[e|] p']; cbn [step_ok]; [|tauto]. intros (B1 & B2 & B3). splits; auto. lia.
  - destruct Hc as [(_ & _ & E1)|[? _]]; [|congruence]. cbn [safe step_ok p_input p_src p_state p_queue]. splits; auto. exists [].
    destruct Hi1 as [I1 I2 I3 I4 I5 I6 I7]. split; auto. constructor.
Qed.

Lemma advance_ok acc s st base : inv acc s st base ->
  safe input (advance (mkp input s st [])) (step_ok acc (mu s st)).
Proof.
  intros Hi. destruct (i_src _ _ _ _ Hi) as [lo Hs]. pose proof (i_root _ _ _ _ Hi) as Hb.
  unfold advance, mu. cbn [p_src p_input p_queue p_state].
  pose proof (src_size_items _ _ _ Hs) as Hsz.
  destruct st as [| |pend path emitted|start seen pend parent| |].
  - cbn [safe step_ok p_input p_src p_state p_queue rank mu]. splits; auto; [unfold mu; cbn; lia|].
    exists []. destruct Hi as [I1 I2 I3 I4 I5 I6 I7]. cbn in I6. subst acc. cbn [app]. split; auto.
    + constructor; [split; cbn; lia|constructor].
    + eexists _, []. splits; auto.
  - subst base. apply (advance_expr_ok _ s acc lo); auto. lia.
  - subst base. apply (advance_root_ok _ s pend path emitted acc lo); auto. lia.
  - destruct (i_state _ _ _ _ Hi) as (_ & _ & ->). apply (advance_obj_ok _ s start seen pend base acc lo); auto. lia.
  - cbn [rank]. rewrite Nat.add_0_r. apply (check_trailing_ok _ s base acc lo); auto. lia.
  - cbn [safe step_ok p_input p_src p_state p_queue]. splits; auto. now exists base.
Qed.

Lemma calls_trans p l p1 l' p2 : calls p l p1 -> calls p1 l' p2 -> calls p (l ++ l') p2.
Proof. induction 1; intros H2; [exact H2|]. cbn. econstructor; eauto. Qed.

Lemma calls_queue i s st q : calls (mkp i s st q) q (mkp i s st []).
Proof. induction q as [|e q IH]; [constructor|]. econstructor; [reflexivity|exact IH]. Qed.

Lemma silent_after m : forall s lo, sok input lo s -> items s = [] -> silent m (mkp input s PAfterDoc []).
Proof.
  induction m as [|m IH]; intros s lo Hs Hi; [exact I|]. cbn [silent].
  unfold next_event. cbn [p_queue]. unfold advance. cbn [p_src p_input p_queue p_state].
  cbn [plus check_trailing]. destruct (src_next s) as [l s1] eqn:En.
  destruct (src_next_spec _ _ _ _ _ Hs En) as (_ & lo1 & _ & Hs1 & [(-> & _ & E1)|(_ & E1)]); [|congruence].
  eexists. split; [reflexivity|]. now apply (IH s1 lo1).
Qed.

Lemma silent_expr m s : silent m (mkp input s PAfterExpr []).
Proof. induction m as [|m IH]; [exact I|]. cbn [silent]. eexists. split; [reflexivity|exact IH]. Qed.

(** Every history of calls, also one that ends in a panic. *)
Lemma nest_prefix a : forall b st f, nest st (a ++ b) = Some f -> exists g, nest st a = Some g.
Proof.
  induction a as [|e a IH]; intros b st f H; cbn [nest app] in *; [eauto|].
  destruct (ev_kind e); try (now apply (IH b _ f)); destruct st as [|[] st]; try discriminate; now apply (IH b _ f).
Qed.

Lemma calls_inv p evs p' : calls p evs p' -> forall acc base, p_input p = input -> inv (acc ++ p_queue p) (p_src p) (p_state p) base ->
  spans_in n (acc ++ evs) /\ exists g, nest [] (acc ++ evs) = Some g.
Proof.
  induction 1 as [p|p e p1 l p2 H _ IH]; intros acc base Hi Hv.
  - rewrite app_nil_r. split.
    + pose proof (i_spans _ _ _ _ Hv) as S. unfold spans_in in *. now apply Forall_app in S as [S _].
    + eapply nest_prefix. exact (i_nest _ _ _ _ Hv).
  - assert (p_input p1 = input /\ exists base1, inv ((acc ++ [e]) ++ p_queue p1) (p_src p1) (p_state p1) base1) as (Hi1 & base1 & Hv1).
    { destruct p as [i s st q]. cbn [p_input p_src p_state p_queue] in *. subst i. destruct q as [|x q].
      - rewrite app_nil_r in Hv. pose proof (advance_ok acc s st base Hv) as S. change (advance (mkp input s st []) = Ok (Some e, p1)) in H. rewrite H in S. cbn [safe step_ok] in S.
        destruct S as (S1 & _ & base1 & S2). split; [exact S1|]. exists base1. now rewrite <- app_assoc.
      - cbn in H. injection H as <- <-. split; [reflexivity|]. exists base. cbn [p_queue p_src p_state]. now rewrite <- app_assoc. }
    destruct (IH (acc ++ [e]) base1 Hi1 Hv1) as [S N]. rewrite <- app_assoc in S, N. auto.
Qed.

Lemma run_calls m : forall acc s st base, inv acc s st base -> mu s st <= m ->
  exists evs p', calls (mkp input s st []) evs p' /\
    ((exists p'', next_event p' = Ok (None, p'') /\ (forall j, silent j p'') /\
        exists s' st' base', inv (acc ++ evs) s' st' base' /\ rank st' = 0)
     \/ (next_event p' = Panic /\ has_bsl_u input)).
Proof.
  induction m as [m IH] using lt_wf_ind. intros acc s st base Hi Hm.
  pose proof (advance_ok acc s st base Hi) as Hst.
  assert (next_event (mkp input s st []) = advance (mkp input s st [])) as En by reflexivity.
  destruct (advance (mkp input s st [])) as [[[e|] p']| |] eqn:Ea; cbn [safe] in Hst.
  - cbn [step_ok] in Hst. destruct Hst as (H1 & H2 & base' & Hi'). destruct p' as [i s' st' q]. cbn [p_input p_src p_state p_queue] in *. subst i.
    destruct (IH (mu s' st') ltac:(lia) _ _ _ _ Hi' (le_n _)) as (evs & p2 & Hc & Hr).
    exists (e :: q ++ evs), p2. split.
    + econstructor; [exact En|]. apply (calls_trans _ q (mkp input s' st' [])); [apply calls_queue|exact Hc].
    + rewrite <- app_assoc in Hr. exact Hr.
  - exists [], (mkp input s st []). split; [constructor|]. left. exists p'. split; [congruence|].
    cbn [step_ok] in Hst. destruct Hst as (H1 & H2 & H3 & base' & Hi'). destruct p' as [i s' st' q]. cbn [p_input p_src p_state p_queue] in *. subst i q.
    split.
    + destruct H3 as [[-> H3]| ->]; intros j; [|apply silent_expr].
      destruct (i_src _ _ _ _ Hi') as [lo Hs]. now apply (silent_after j s' lo).
    + exists s', st', base'. rewrite app_nil_r. split; [exact Hi'|]. destruct H3 as [[-> _]| ->]; reflexivity.
  - exists [], (mkp input s st []). split; [constructor|]. right. split; [congruence|exact Hst].
  - contradiction.
Qed.

End Run.

Lemma calls_events p evs p' p'' : calls p evs p' -> next_event p' = Ok (None, p'') -> events_from (S (length evs)) p = Ok evs.
Proof.
  intros H E. induction H as [p|p e p1 l p2 H1 H2 IH]; cbn [length events_from].
  - rewrite E. reflexivity.
  - rewrite H1. cbn [bind]. specialize (IH E). cbn [events_from] in IH. cbn [events_from]. now rewrite IH.
Qed.

Lemma calls_panic p evs p' : calls p evs p' -> next_event p' = Panic -> events_from (S (length evs)) p = Panic.
Proof.
  intros H E. induction H as [p|p e p1 l p2 H1 H2 IH]; cbn [length events_from].
  - rewrite E. reflexivity.
  - rewrite H1. cbn [bind]. specialize (IH E). cbn [events_from] in IH. cbn [events_from]. now rewrite IH.
Qed.

Lemma start_inv_calls src ls lst st : lex_calls (lex_new src) ls lst -> st = PBeforeDoc \/ st = PBeforeExpr ->
  inv src [] (mksrc ls None) st [].
Proof.
  intros El Hst. destruct (lex_calls_good src _ _ _ El (linv_new src) (lclean_new src)) as (H1 & H2 & H3).
  split.
  - exists 0. split; cbn; auto; discriminate.
  - destruct Hst as [-> | ->]; exact I.
  - constructor.
  - destruct Hst as [-> | ->]; reflexivity.
  - now left.
  - destruct Hst as [-> | ->]; reflexivity.
  - destruct Hst as [-> | ->]; reflexivity.
Qed.

Lemma start_inv src ls st : lexemes src = Ok ls -> st = PBeforeDoc \/ st = PBeforeExpr ->
  inv src [] (mksrc ls None) st [].
Proof. intros El. destruct (lexemes_calls _ _ _ El) as (lst & Hc). now apply (start_inv_calls src ls lst). Qed.

(** C04 *)
Lemma parser_stops src ls : lexemes src = Ok ls -> forall p,
  p = parser_new src ls \/ p = parser_new_expr src ls ->
  exists evs p', calls p evs p' /\
    ((exists p'', next_event p' = Ok (None, p'') /\ forall j, silent j p'') \/
     (next_event p' = Panic /\ has_bsl_u src)).
Proof.
  intros El p Hp.
  assert (exists st, (st = PBeforeDoc \/ st = PBeforeExpr) /\ p = mkp src (mksrc ls None) st []) as (st & Hst & ->).
  { destruct Hp as [-> | ->]; [exists PBeforeDoc|exists PBeforeExpr]; auto. }
  destruct (run_calls src _ _ _ _ _ (start_inv src ls st El Hst) (le_n _)) as (evs & p' & Hc & Hr).
  exists evs, p'. split; [exact Hc|]. destruct Hr as [(p'' & E & Hs & _)|Hr]; [left; eauto|right; exact Hr].
Qed.

(** The final invariant of a complete run. *)
Lemma parses_inv src evs : parses src evs ->
  exists s base, inv src evs s PAfterDoc base.
Proof.
  intros (ls & fuel & El & Ef).
  destruct (run_calls src _ _ _ _ _ (start_inv src ls PBeforeDoc El (or_introl eq_refl)) (le_n _)) as (evs' & p' & Hc & Hr).
  cbn [app] in Hr.
  destruct Hr as [(p'' & E & _ & s' & st' & base' & Hi & Hr)|[E _]].
  - pose proof (calls_events _ _ _ _ Hc E) as E1.
    assert (Ok evs = Ok evs') as [= <-] by (eapply events_from_fun; [exact Ef|exact E1|discriminate|discriminate]).
    destruct st'; cbn in Hr; try discriminate; [eauto|].
    (* the document parser does not end in the expression state *)
    exfalso. destruct Hi as [_ _ _ _ _ Hp _]. cbn in Hp.
    inversion Hc as [|q e p1 l p2 H1 H2]; subst.
    + unfold parser_new in *. cbn in E. discriminate.
    + cbn in H1. injection H1 as <- <-. inversion Hp as [|? ? He _]; subst. exact He.
  - pose proof (calls_panic _ _ _ Hc E) as E1.
    assert (Ok evs = Panic) as X by (eapply events_from_fun; [exact Ef|exact E1|discriminate|discriminate]). discriminate.
Qed.

Lemma inner_not_doc e : inner_ev e -> ~ doc_event e /\ ~ trailing_event e.
Proof. unfold inner_ev, doc_event, trailing_event. intros H. split; [intros [E|E]|intros E]; rewrite E in H; exact H. Qed.

(** C05 *)
Lemma parses_nest src evs : parses src evs ->
  nest [] evs = Some [] \/ (nest [] evs = Some [FObj] /\ object_in_object evs).
Proof.
  intros Hp. destruct (parses_inv src evs Hp) as (s & base & Hi). rewrite (i_nest _ _ _ _ _ Hi). cbn [frames].
  destruct (i_base _ _ _ _ _ Hi) as [->|[-> Ho]]; auto.
Qed.

(** C06 *)
Lemma parses_frame src evs : parses src evs ->
  exists a mid b tail, evs = a :: mid ++ b :: tail /\ ev_kind a = EvDocStart /\ ev_kind b = EvDocEnd /\
    Forall (fun e => ~ doc_event e) mid /\ (tail = [] \/ exists t, tail = [t] /\ trailing_event t).
Proof.
  intros Hp. destruct (parses_inv src evs Hp) as (s & base & Hi).
  destruct (i_phase _ _ _ _ _ Hi) as (e & mid & e' & tail & E & H1 & H2 & H3 & H4).
  exists e, mid, e', tail. splits; auto.
  - eapply Forall_impl; [|exact H3]. intros x Hx. now apply inner_not_doc.
  - destruct H4 as [H4|[_ H4]]; auto.
Qed.

(** C07 *)
Lemma parses_spans src evs : parses src evs -> spans_in (blen src) evs.
Proof.
  intros Hp. destruct (parses_inv src evs Hp) as (s & base & Hi). exact (i_spans _ _ _ _ _ Hi).
Qed.

(** C05, C07, for every history of calls *)
Lemma history_inv src ls lst p evs p' : lex_calls (lex_new src) ls lst -> p = parser_new src ls \/ p = parser_new_expr src ls -> calls p evs p' ->
  spans_in (blen src) evs /\ exists g, nest [] evs = Some g.
Proof.
  intros El Hp Hc. apply (calls_inv src p evs p' Hc [] []); [destruct Hp as [-> | ->]; reflexivity|].
  destruct Hp as [-> | ->]; cbn; apply (start_inv_calls src ls lst); auto.
Qed.

(** C42 *)
Lemma parses_total src : ~ has_hash_run 256 src -> ~ has_bsl_u src -> exists evs, parses src evs.
Proof.
  intros Hh Hu. destruct (lexemes_total src Hh) as (ls & El & _).
  destruct (parser_stops src ls El _ (or_introl eq_refl)) as (evs & p' & Hc & [(p'' & E & _)|[_ Hb]]); [|contradiction].
  exists evs, ls, (S (length evs)). split; [exact El|]. now apply (calls_events _ _ p' p'').
Qed.
