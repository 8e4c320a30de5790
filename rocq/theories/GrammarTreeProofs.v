(** Documents of the grammar: their events nest, contain no error and give the tree of their entries. *)
From Verif Require Import Base BaseProofs TokModel LexModel LexSpec LexProofs LexRunProofs ParseModel ParseSpec ParseProofs RunProofs TreeModel TreeSpec BuildProofs LinkProofs PathSpec.
From Verif Require Import GrammarSpec GrammarProofs GrammarRunProofs GrammarSoundProofs.

Lemma no_err_val d : Forall no_err (val_events d).
Proof.
  assert (H : forall sp k, (forall e, k <> EvError e) -> no_err (mkev sp k)) by (intros sp k Hk e; apply Hk).
  apply (dval_rect' (fun d => Forall no_err (val_events d)) (fun e => Forall no_err (ent_events e))); intros; cbn [val_events ent_events];
    repeat first [apply Forall_cons; [apply H; intros ? [=]|] | apply Forall_nil | apply Forall_app; split | assumption].
  - match goal with H : Forall _ items |- _ => induction H end; cbn [flat_map]; [constructor|]. apply Forall_app. auto.
  - match goal with H : Forall _ _ |- _ => induction H end; cbn [flat_map]; [constructor|]. apply Forall_app. auto.
  - destruct p as [w|]; [|constructor]. match goal with H : forall w, _ |- _ => apply H; reflexivity end.
  - apply Forall_forall. intros x Hx. apply in_map_iff in Hx as ([a b] & <- & _). apply H. intros ? [=].
Qed.

Lemma no_err_ent e : Forall no_err (ent_events e).
Proof. pose proof (no_err_val (DObj (empty_at 0) [e] (empty_at 0))) as H. cbn [val_events flat_map] in H. inversion_clear H as [|? ? _ H1]. apply Forall_app in H1 as [H1 _]. now rewrite app_nil_r in H1. Qed.

Lemma no_err_remarks tr : Forall remark_ev tr -> Forall no_err tr.
Proof. apply Forall_impl. intros [sp k] H e. destruct k; try contradiction; discriminate. Qed.

Lemma filter_remarks tr : Forall remark_ev tr -> filter not_comment tr = docev (docs_in tr).
Proof. induction 1 as [|[sp k] tr Hk _ IH]; [reflexivity|]. destruct k; try contradiction; cbn; [exact IH|]. now rewrite IH. Qed.

Lemma root_entry_docs k v docs p e : root_entry k v docs p e -> ent_events e = docev docs ++ ent_events (undocumented e).
Proof.
  destruct 1 as [k v docs tag pl kd _ _ _|sp t segs v docs e _ _ _ He]; [reflexivity|]. destruct segs as [|s segs]; [discriminate|]. cbn [path_entry] in He.
  destruct segs as [|s2 segs]; [injection He as <-; reflexivity|]. destruct (path_entry [] _ sp (s2 :: segs) v); [|discriminate]. injection He as <-. reflexivity.
Qed.

Lemma quiet_ent e : filter not_comment (ent_events e) = ent_events e.
Proof.
  pose proof (quiet_val (DObj (empty_at 0) [e] (empty_at 0))) as H. cbn [val_events flat_map filter not_comment ev_kind] in H. rewrite app_nil_r, filter_app in H. injection H as H.
  now apply app_inv_tail in H.
Qed.

Lemma neutral_open opened evs : nest [] (open_root opened ++ evs) = if opened then nest [] evs else nest [ParseSpec.FObj] evs.
Proof. destruct opened; reflexivity. Qed.

Lemma root_tree opened docs ls es evs h : groot opened docs ls es evs h ->
  Forall no_err evs /\ (forall r, nest (if opened then [ParseSpec.FObj] else []) (evs ++ r) = nest [] r) /\
  ((opened = false /\ docs = [] /\ es = [] /\ filter not_comment evs = []) \/
   exists x, filter not_comment evs = open_root opened ++ x ++ [mkev (empty_at 0) EvObjEnd] /\ docev docs ++ x = flat_map ent_events es).
Proof.
  assert (Hc : forall sp k, (forall e, k <> EvError e) -> no_err (mkev sp k)) by (intros sp k Hk e; apply Hk).
  induction 1 as [opened|opened docs l r es evs h Hl _ IH|opened docs sp t r es evs h _ IH|opened docs sp t u r es evs h Ht _ IH|opened docs l k v tr r p e es evs h Hb Hg He _ IH].
  - destruct opened; (split; [|split; [intros r; reflexivity|]]).
    + constructor; [apply Hc; intros ? [=]|constructor].
    + right. exists []. auto.
    + constructor.
    + left. auto.
  - exact IH.
  - destruct IH as (H1 & H2 & H3). splits; [constructor; [apply Hc; intros ? [=]|exact H1]| |exact H3]. intros q. destruct opened; apply H2.
  - destruct IH as (H1 & H2 & H3). splits.
    + apply Forall_app. split; [destruct opened; repeat constructor; intros ? [=]|]. constructor; [apply Hc; intros ? [=]|exact H1].
    + intros q. destruct opened; cbn [open_root app nest ev_kind]; apply H2.
    + right. destruct H3 as [[[=] _]|(x & E & Ex)]. exists (docev [(sp, [u])] ++ x). rewrite docev_app, <- app_assoc in Ex. split; [|exact Ex].
      rewrite filter_app. cbn [filter not_comment ev_kind]. rewrite E. destruct opened; reflexivity.
  - destruct IH as (H1 & H2 & H3). pose proof (line_remarks _ _ _ _ _ Hg) as Hr. splits.
    + apply Forall_app. split; [destruct opened; repeat constructor; intros ? [=]|]. apply Forall_app. split; [now apply no_err_remarks|]. apply Forall_app. split; [apply no_err_ent|exact H1].
    + intros q. transitivity (nest [ParseSpec.FObj] (tr ++ ent_events (undocumented e) ++ evs ++ q)); [destruct opened; cbn [open_root app nest ev_kind]; rewrite <- !app_assoc; reflexivity|].
      rewrite (neutral_remarks _ Hr), (neutral_ent _). apply H2.
    + right. destruct H3 as [[[=] _]|(x & E & Ex)]. exists (docev (docs_in tr) ++ ent_events (undocumented e) ++ x). split.
      * rewrite !filter_app, E, (filter_remarks _ Hr), quiet_ent. cbn [open_root]. destruct opened; cbn [open_root filter not_comment ev_kind app]; rewrite <- !app_assoc; reflexivity.
      * cbn [flat_map]. rewrite (root_entry_docs _ _ _ _ _ He), docev_app, <- !app_assoc. cbn [docev map app] in Ex. now rewrite Ex.
Qed.

Lemma body_tree docs ls ks es evs e r : gbody docs ls ks es evs e r -> Forall no_err evs /\ docev docs ++ filter not_comment evs = flat_map ent_events es.
Proof.
  assert (Hc : forall sp k, (forall e, k <> EvError e) -> no_err (mkev sp k)) by (intros sp k Hk x; apply Hk).
  induction 1 as [sp r|docs l r ks es evs e r' Hl _ IH|docs sp t r ks es evs e r' _ IH|docs sp t u r ks es evs e r' Ht _ IH|docs l k v tr r p x ks ks' es evs e r' Hg He _ IH _].
  - split; [constructor|reflexivity].
  - exact IH.
  - destruct IH as [H1 H2]. split; [constructor; [apply Hc; intros ? [=]|exact H1]|exact H2].
  - destruct IH as [H1 H2]. split; [constructor; [apply Hc; intros ? [=]|exact H1]|]. rewrite docev_app, <- app_assoc in H2. exact H2.
  - destruct IH as [H1 H2]. pose proof (line_remarks _ _ _ _ _ Hg) as Hr. split.
    + apply Forall_app. split; [now apply no_err_remarks|]. apply Forall_app. split; [apply no_err_ent|exact H1].
    + cbn [flat_map]. rewrite !filter_app, (filter_remarks _ Hr), quiet_ent, (root_entry_docs _ _ _ _ _ He), docev_app, <- !app_assoc. cbn [docev map app] in H2. now rewrite H2.
Qed.

Lemma lead_remarks l lead r : glead l lead r -> Forall remark_ev lead /\ filter not_comment lead = [].
Proof. induction 1 as [|l r evs r' _ _ IH|sp t r evs r' _ IH]; [split; [constructor|reflexivity]|exact IH|]. destruct IH as [H1 H2]. split; [constructor; [exact I|exact H1]|exact H2]. Qed.

Lemma doc_tree n ls es evs : gdoc n ls es evs -> Forall no_err evs /\ balanced evs /\ doc_events es (filter not_comment evs).
Proof.
  assert (Hc : forall sp k, (forall e, k <> EvError e) -> no_err (mkev sp k)) by (intros sp k Hk x; apply Hk).
  destruct 1 as [ls es evs h Hg _|ls lead sp r ks es evs e r' Hl Hg _ _].
  - destruct (root_tree _ _ _ _ _ _ Hg) as (H1 & H2 & H3). splits.
    + constructor; [apply Hc; intros ? [=]|]. apply Forall_app. split; [exact H1|]. constructor; [apply Hc; intros ? [=]|constructor].
    + unfold balanced. cbn [nest ev_kind]. apply H2.
    + cbn [filter not_comment ev_kind]. rewrite filter_app. destruct H3 as [(_ & _ & -> & ->)|(x & -> & Ex)]; [apply de_empty|]. cbn [docev map app] in Ex. subst x.
      cbn [open_root app filter not_comment ev_kind]. exact (de_root _ _ _ _ _).
  - destruct (body_tree _ _ _ _ _ _ _ Hg) as [H1 H2]. destruct (lead_remarks _ _ _ Hl) as [H3 H4]. splits.
    + constructor; [apply Hc; intros ? [=]|]. apply Forall_app. split; [now apply no_err_remarks|]. constructor; [apply Hc; intros ? [=]|]. apply Forall_app. split; [exact H1|].
      constructor; [|constructor; [|constructor]]; apply Hc; intros ? [=].
    + unfold balanced. cbn [nest ev_kind]. rewrite (neutral_remarks _ H3). cbn [nest ev_kind]. rewrite (body_neutral _ _ _ _ _ _ _ Hg). reflexivity.
    + cbn [filter not_comment ev_kind]. rewrite filter_app, H4. cbn [filter not_comment ev_kind app]. rewrite filter_app. cbn [docev map app] in H2. rewrite H2.
      pose proof (de_root (empty_at 0) sp es e (empty_at n)) as H. cbn [val_events app] in H. rewrite <- app_assoc in H. exact H.
Qed.

(** The grammar is unambiguous. *)
Lemma doc_unique n ls es evs es' evs' : ~ In LxEof ls -> gdoc n ls es evs -> gdoc n ls es' evs' -> evs = evs' /\ map to_entry es = map to_entry es'.
Proof.
  intros Hn H H'. assert (exists input : str, blen input = n) as [input <-].
  { clear. exists (repeat cSP n). induction n as [|n IH]; [reflexivity|]. cbn [repeat blen]. change (S (blen (repeat cSP n)) = S n). f_equal. apply IH. }
  destruct (doc_runs input _ _ _ Hn H) as [f E]. destruct (doc_runs input _ _ _ Hn H') as [f' E']. assert (evs = evs') as <-.
  { pose proof (events_from_fun _ _ _ _ _ E E' ltac:(discriminate) ltac:(discriminate)) as [=]. assumption. }
  split; [reflexivity|]. pose proof (doc_build _ _ (proj2 (proj2 (doc_tree _ _ _ _ H)))) as B. rewrite (doc_build _ _ (proj2 (proj2 (doc_tree _ _ _ _ H')))) in B. now injection B.
Qed.
