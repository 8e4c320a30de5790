(** Expression mode: the parser reads one value of the grammar, and the adapter hands over what the value says. *)
From Verif Require Import Base BaseProofs TokModel LexModel LexSpec LexProofs ParseModel ParseSpec ParseProofs RunProofs TreeModel TreeSpec LinkProofs
  GrammarSpec GrammarProofs GrammarRunProofs GrammarSoundProofs FacetModel FacetSpec FacetProofs FacetDocProofs FacetSerModel FacetSerSpec.

Lemma starter_advance input f x s s1 q : starter x -> src_next s = (x, s1) ->
  advance_expr (S f) input s q = (do (a, ev, s2) <- parse_atom input (parse_fuel s1) x s1; do ev2 <- emit_value a; Ok (pop_queue input s2 PAfterExpr (q ++ ev ++ ev2))).
Proof. intros Hx En. cbn [advance_expr]. rewrite En. destruct x; try contradiction; reflexivity. Qed.

Lemma val_events_some d : val_events d <> [].
Proof. destruct d; cbn [val_events]; try discriminate. Qed.

Lemma expr_runs src ls d evs rest : ~ In LxEof ls -> gexpr ls d evs rest -> exists fuel, events_from fuel (parser_new_expr src ls) = Ok evs.
Proof.
  intros Hn (rem & l & tr & -> & Hr & Hg & ->). unfold parser_new_expr. assert (Hs : feeds (mksrc (rem ++ l) None) (rem ++ l)) by now apply feeds_new. clear Hn.
  change (GrammarRunProofs.yields src (mksrc (rem ++ l) None) PBeforeExpr (tr ++ val_events d)). revert Hs. generalize (mksrc (rem ++ l) None).
  induction Hr as [|x rem Hx _ IH]; intros s Hs.
  - cbn [app] in Hs. destruct (proj1 (reads src) _ _ _ _ Hg) as (x & l' & -> & Hx & _ & Hp).
    destruct (feeds_cons _ _ _ Hs) as (s1 & En & H1). pose proof (feeds_size _ _ H1) as Hz. destruct (Hp s1 (parse_fuel s1) H1) as (a & s2 & Ea & H2 & Hst); [unfold parse_fuel; lia|].
    rewrite <- (app_nil_r (tr ++ val_events d)). eapply yields_step with (s' := s2) (st' := PAfterExpr).
    + pose proof (val_events_some d). destruct tr; [assumption|discriminate].
    + cbn [advance p_src p_state p_input p_queue plus]. rewrite (starter_advance _ _ _ _ _ _ Hx En), Ea. cbn [bind]. rewrite (proj1 stands_emit _ _ Hst). reflexivity.
    + exists 1. reflexivity.
  - cbn [app] in Hs. destruct (feeds_cons _ _ _ Hs) as (s1 & En & H1). eapply yields_same; [|apply IH; exact H1].
    cbn [advance p_src p_state p_input p_queue]. rewrite (feeds_size _ _ Hs), (feeds_size _ _ H1). cbn [plus length advance_expr]. rewrite En. destruct x; try contradiction; reflexivity.
Qed.

Lemma expr_silent src ls : ~ In LxEof ls -> Forall is_remark ls -> exists fuel, events_from fuel (parser_new_expr src ls) = Ok [].
Proof.
  intros Hn Hr. unfold parser_new_expr. assert (Hs : feeds (mksrc ls None) ls) by now apply feeds_new. clear Hn.
  change (GrammarRunProofs.yields src (mksrc ls None) PBeforeExpr []). revert Hs. generalize (mksrc ls None).
  induction Hr as [|x rem Hx _ IH]; intros s Hs.
  - destruct (feeds_nil _ Hs) as (s1 & En & _). exists 1. cbn [events_from ParseModel.next_event p_queue advance p_src p_state p_input plus advance_expr]. now rewrite En.
  - destruct (feeds_cons _ _ _ Hs) as (s1 & En & H1). eapply yields_same; [|apply IH; exact H1].
    cbn [advance p_src p_state p_input p_queue]. rewrite (feeds_size _ _ Hs), (feeds_size _ _ H1). cbn [plus length advance_expr]. rewrite En. destruct x; try contradiction; reflexivity.
Qed.

Lemma expr_found src ls fuel evs : ~ In LxEof ls -> Forall (lex_fine src) ls -> events_from fuel (parser_new_expr src ls) = Ok evs -> Forall no_err evs ->
  (evs = [] /\ Forall is_remark ls) \/ exists d rest, gexpr ls d evs rest.
Proof.
  intros Hn Hok. unfold parser_new_expr. assert (Hs : fed src (mksrc ls None) ls) by (split; [now apply feeds_new|exact Hok]). clear Hn Hok. revert Hs. generalize (mksrc ls None).
  induction ls as [|x l IH]; intros s Hs E Hne.
  - left. split; [|constructor]. destruct fuel as [|fuel]; [discriminate|]. cbn [events_from ParseModel.next_event p_queue advance p_src p_state p_input plus advance_expr] in E.
    destruct (fed_next _ _ _ Hs) as (s1 & En & _). rewrite En in E. now injection E as <-.
  - destruct (fed_cons _ _ _ _ Hs) as (s1 & En & H1 & Hok & Hsz & Hnx).
    assert (Hsame : is_remark x -> (evs = [] /\ Forall is_remark (x :: l)) \/ exists d rest, gexpr (x :: l) d evs rest).
    { intros Hx. destruct (IH s1 H1) as [[-> Hr]|(d & rest & rem & l2 & tr & -> & Hr & Hg & ->)]; auto.
      - apply (same_inv src fuel s PBeforeExpr); [exact E|]. cbn [advance p_src p_state p_input p_queue]. rewrite Hsz. cbn [plus advance_expr]. rewrite En. destruct x; try contradiction; reflexivity.
      - right. exists d, rest, (x :: rem), l2, tr. splits; auto. }
    assert (Hval : advance (mkp src s PBeforeExpr []) =
        (do (a, ev, s2) <- parse_atom src (parse_fuel s1) x s1; do ev2 <- emit_value a; Ok (pop_queue src s2 PAfterExpr ([] ++ ev ++ ev2))) -> exists d rest, gexpr (x :: l) d evs rest).
    { intros Ea. destruct fuel as [|fuel]; [discriminate|]. assert (Ha := E). cbn [events_from ParseModel.next_event p_queue] in Ha. apply bind_inv in Ha as ([o p] & E1 & _). rewrite Ea in E1.
      apply bind_inv in E1 as ([[a ev] s2] & Ep & E1). apply bind_inv in E1 as (ev2 & Ee & _). rewrite Ep in Ea. cbn [bind] in Ea. rewrite Ee in Ea. cbn [bind app] in Ea.
      assert (Hev : evs = ev ++ ev2).
      { destruct (ev ++ ev2) as [|e q] eqn:Eq.
        - cbn [events_from ParseModel.next_event p_queue] in E. rewrite Ea in E. cbn in E. now injection E as <-.
        - rewrite <- Eq in *. destruct (step_inv src fuel _ _ _ _ _ evs E Ea) as (k & evs' & _ & Ek & ->); [rewrite Eq; discriminate|]. destruct k; [discriminate|]. cbn in Ek. injection Ek as <-. now rewrite app_nil_r. }
      subst evs. apply Forall_app in Hne as [Hn1 Hn2].
      destruct (proj1 (GrammarSoundProofs.sound_all src (parse_fuel s1)) x l s1 a ev s2 Ep H1 (or_intror Hok) Hn1) as (d & r & Hg & _ & Hst); [exists ev2; auto|].
      rewrite (proj1 stands_emit _ _ Hst) in Ee. injection Ee as <-. exists d, r, [], (x :: l), ev. splits; auto. }
    destruct x; try (now apply Hsame); try congruence; right; apply Hval; cbn [advance p_src p_state p_input p_queue plus advance_expr]; rewrite En; reflexivity.
Qed.

(** The events of an expression lie within the source and nest. *)
Lemma expr_inv src evs : parses_expr src evs -> spans_in (blen src) evs.
Proof.
  intros (ls & fuel & El & Ef).
  destruct (run_calls src _ _ _ _ _ (start_inv src ls PBeforeExpr El (or_intror eq_refl)) (le_n _)) as (evs' & p' & Hc & Hr). cbn [app] in Hr.
  destruct Hr as [(p'' & E & _ & s' & st' & base' & Hi & Hr)|[E _]].
  - pose proof (calls_events _ _ _ _ Hc E) as E1.
    assert (Ok evs = Ok evs') as [= <-] by (eapply events_from_fun; [exact Ef|exact E1|discriminate|discriminate]). exact (i_spans _ _ _ _ _ Hi).
  - pose proof (calls_panic _ _ _ Hc E) as E1.
    assert (Ok evs = Panic) as X by (eapply events_from_fun; [exact Ef|exact E1|discriminate|discriminate]). discriminate.
Qed.

Definition plain_comment (e : event) : Prop := match ev_kind e with EvComment _ => True | _ => False end.

(** The adapter on an expression. *)
Lemma expr_yields F (p : str -> option F) src ls d tr rem l rest : lexemes src = Ok ls -> ls = rem ++ l -> Forall is_remark rem -> gval l d tr rest -> Forall plain_comment tr ->
  exists fl, FacetSpec.yields p src (facet_new_expr (tr ++ val_events d)) fl /\ says (content_of d) (map fe_kind fl).
Proof.
  intros El -> Hr Hg Ht. destruct (lexemes_good src _ El) as (Hok & _ & Hne & _).
  assert (Hp : parses_expr src (tr ++ val_events d)).
  { assert (gexpr (rem ++ l) d (tr ++ val_events d) rest) as G by (exists rem, l, tr; splits; auto). destruct (expr_runs src _ _ _ _ Hne G) as [fuel E]. exists (rem ++ l), fuel. auto. }
  pose proof (expr_inv src _ Hp) as Hs. unfold spans_in in Hs. apply Forall_app in Hs as [_ Hs].
  destruct (proj1 (g_ok src) _ _ _ _ Hg) as (_ & [_ Hd] & _); [apply Forall_app in Hok; apply Hok|].
  assert (R : Forall (readable src) (val_events d)).
  { rewrite Forall_forall in *. intros e He. destruct (Hd e He) as [Ho Hk]. unfold readable. destruct (ev_kind e); auto; apply on_slice; auto; apply (Hs e He). }
  destruct (proj1 (all_run p src) d [] None false 0 [] R ltac:(discriminate)) as (fl & sp1 & Hrun & Hsay).
  rewrite app_nil_r in Hrun. exists fl. split; [|exact Hsay].
  apply yields_strip. assert (Ef : filter not_comment (tr ++ val_events d) = val_events d).
  { rewrite filter_app, quiet_val. replace (filter not_comment tr) with (@nil event); [reflexivity|]. clear -Ht. induction Ht as [|[sp k] tr He _ IH]; [reflexivity|]. cbn [filter].
    unfold plain_comment in He. cbn [ev_kind] in He. unfold not_comment at 1. cbn [ev_kind]. destruct k; try contradiction. exact IH. }
  change (strip (facet_new_expr (tr ++ val_events d))) with (at_ev (F := F) (filter not_comment (tr ++ val_events d)) None [] false 0 []). rewrite Ef.
  rewrite <- (app_nil_r fl). eapply runs_yields; [exact Hrun|reflexivity|reflexivity|apply yields_end].
Qed.
