(** The events of a document lie on characters of the source. *)
From Verif Require Import Base BaseProofs TokModel LexModel LexSpec LexProofs ParseModel ParseSpec RunProofs TreeModel TreeSpec BuildProofs PathSpec.
From Verif Require Import GrammarSpec GrammarProofs GrammarSoundProofs.

Section Places.
Variable src : str.

Definition bnd (p : nat) : Prop := exists a b, src = a ++ b /\ p = blen a.
Definition on (sp : span) : Prop := bnd (sp_start sp) /\ bnd (sp_end sp).
Definition placed (e : event) : Prop := on (ev_span e) /\ match ev_kind e with EvTagStart n => n <> [] | _ => True end.

Lemma clen_pos c : 1 <= clen c.
Proof. unfold clen. repeat match goal with |- context [if ?b then _ else _] => destruct b end; lia. Qed.
Lemma blen_zero s : blen s = 0 -> s = [].
Proof. destruct s as [|c s]; [auto|]. cbn. pose proof (clen_pos c). lia. Qed.

Lemma slice_on sp t : slice src (sp_start sp) (sp_end sp) = Some t -> on sp.
Proof.
  intros H. apply slice_some in H as (a & c & E & Ea & Eb). split.
  - exists a, (t ++ c). auto.
  - exists (a ++ t), c. rewrite <- app_assoc, blen_app. split; [exact E|lia].
Qed.

Lemma on_slice sp : on sp -> sp_start sp <= sp_end sp -> exists t, slice src (sp_start sp) (sp_end sp) = Some t.
Proof.
  intros [(a & b & E & Ea) (a' & b' & E' & Ea')] L. rewrite E in E'. destruct (app_eq_app _ _ _ _ E') as (l & [[H1 H2]|[H1 H2]]).
  - rewrite Ea, Ea', H1, blen_app in L. assert (l = []) as -> by (apply blen_zero; lia). rewrite app_nil_r in H1. exists []. rewrite Ea, Ea', <- H1. rewrite E.
    pose proof (slice_app a [] b) as X. cbn in X. now rewrite Nat.add_0_r in X.
  - exists l. rewrite Ea, Ea', H1, blen_app, E, H2. apply slice_app.
Qed.

Lemma lex_on l : lexeme_ok src l -> on (lx_span l).
Proof. intros (t & H & _). eapply slice_on. exact H. Qed.

Lemma cover_on a b : on a -> on b -> on (cover a b).
Proof. intros [? ?] [? ?]. split; assumption. Qed.

Definition ok_val (d : dval) : Prop := on (dspan d) /\ Forall placed (val_events d).

Lemma stacked_ok : forall ns a b p d, Forall tag_name ns -> src = a ++ cAT :: join [cSLASH; cAT] ns ++ b -> (forall w, p = Some w -> ok_val w) -> ns <> [] ->
  stacked (blen a) ns p = Some d -> ok_val d.
Proof.
  induction ns as [|n ns IH]; intros a b p d Hn E Hp Hne H; [congruence|]. cbn [stacked] in H. inversion_clear Hn as [|? ? Hn1 Hn2].
  set (q := stacked (blen a + blen n + 2) ns p) in H.
  assert (Hq : forall w, q = Some w -> ok_val w).
  { intros w Hw. unfold q in Hw. destruct ns as [|n2 ns]; [cbn in Hw; auto|].
    apply (IH (a ++ cAT :: n ++ [cSLASH]) b p w Hn2); auto; [|discriminate|].
    - rewrite E. change (join [cSLASH; cAT] (n :: n2 :: ns)) with (n ++ [cSLASH; cAT] ++ join [cSLASH; cAT] (n2 :: ns)). now rewrite <- !app_assoc, <- !app_comm_cons, <- !app_assoc.
    - rewrite <- Hw. f_equal. rewrite blen_app. change (cAT :: n ++ [cSLASH]) with ([cAT] ++ n ++ [cSLASH]). rewrite !blen_app. cbn. lia. }
  assert (Hs : bnd (blen a)) by (eexists a, _; eauto).
  assert (Hsp : on (mkspan (blen a) (match q with Some d => sp_end (dspan d) | None => blen a + 1 + blen n end))).
  { split; [exact Hs|]. cbn [sp_end]. destruct q as [w|] eqn:Eq; [apply (Hq w eq_refl)|]. exists (a ++ cAT :: n), (match ns with [] => b | _ => [cSLASH; cAT] ++ join [cSLASH; cAT] ns ++ b end). split.
    - rewrite E. destruct ns as [|n2 ns]; [cbn [join]; now rewrite <- app_assoc|]. change (join [cSLASH; cAT] (n :: n2 :: ns)) with (n ++ [cSLASH; cAT] ++ join [cSLASH; cAT] (n2 :: ns)). now rewrite <- !app_assoc, <- !app_comm_cons.
    - rewrite blen_app. change (cAT :: n) with ([cAT] ++ n). rewrite blen_app. cbn. lia. }
  injection H as <-. split; [exact Hsp|]. cbn [val_events]. constructor; [split; [exact Hsp|]; cbn; destruct Hn1 as (c & r & -> & _); discriminate|]. apply Forall_app. split.
  - destruct q as [w|] eqn:Eq; [apply (Hq w eq_refl)|constructor].
  - constructor; [split; [exact Hsp|exact I]|constructor].
Qed.

Definition ok_lex (l : list lexeme) : Prop := Forall (lexeme_ok src) l.
Definition ok_ent (e : dentry) : Prop := Forall placed (ent_events e).

Lemma stop_ok r tr r' : gstop r tr r' -> ok_lex r -> ok_lex r' /\ Forall placed tr.
Proof.
  destruct 1; intros Hr; try (split; [exact Hr|constructor]); inversion_clear Hr as [|? ? Hl Hr']; (split; [assumption|]); (constructor; [|constructor]); split; [apply (lex_on _ Hl)|exact I|apply (lex_on _ Hl)|exact I].
Qed.

Definition docs_on (docs : list (span * str)) : Prop := Forall (fun d => on (fst d)) docs.
Lemma block_on docs : docs_on docs -> Forall placed (map (fun d => mkev (fst d) (EvDoc (snd d))) (doc_block docs)).
Proof.
  intros H. destruct docs as [|[s1 u] docs]; [constructor|]. cbn [doc_block map fst snd]. constructor; [|constructor]. split; [|exact I]. cbn [ev_span].
  assert (L : on s1 /\ on (fst (last ((s1, u) :: docs) (s1, [])))).
  { split; [inversion H; assumption|]. unfold docs_on in H. rewrite Forall_forall in H. apply H. destruct (exists_last (l := (s1, u) :: docs)) as (p & x & E); [discriminate|].
    rewrite E, last_last. apply in_or_app. right. left. reflexivity. }
  apply cover_on; apply L.
Qed.

Lemma entry_ok docs k v tag pl kd : Forall placed (map (fun d => mkev (fst d) (EvDoc (snd d))) docs) -> ok_val k -> ok_val v -> ok_ent (DEnt docs (dspan k) (dspan k) tag pl kd v (dspan v)).
Proof.
  intros Hd Hk Hv. unfold ok_ent. cbn [ent_events]. apply Forall_app. split; [exact Hd|]. constructor; [split; [apply Hk|exact I]|]. constructor; [split; [apply Hk|exact I]|].
  apply Forall_app. split; [apply Hv|]. constructor; [split; [apply Hv|exact I]|constructor].
Qed.

Lemma flat_placed {A} (f : A -> list event) (xs : list A) : Forall (fun x => Forall placed (f x)) xs -> Forall placed (flat_map f xs).
Proof. induction 1; cbn [flat_map]; [constructor|]. apply Forall_app. auto. Qed.

Definition ok_attr (x : str * span * dval) : Prop := on (snd (fst x)) /\ ok_val (snd x).
Lemma attrs_ok x xs : Forall ok_attr (x :: xs) -> on (attr_end (snd (fst x)) (x :: xs)) /\ Forall ok_ent (map attr_entry (x :: xs)).
Proof.
  intros H. split.
  - split; [apply (Forall_inv H)|]. unfold attr_end. cbn [sp_end]. destruct (exists_last (l := x :: xs)) as (p & y & E); [discriminate|]. rewrite E, last_last. rewrite E in H. apply Forall_app in H as [_ H].
    apply (Forall_inv H).
  - apply Forall_map. eapply Forall_impl; [|exact H]. intros [[key ksp] v] [Hs Hv]. unfold ok_ent. cbn [attr_entry ent_events map app]. constructor; [split; [exact Hs|exact I]|]. constructor; [split; [exact Hs|exact I]|].
    apply Forall_app. split; [apply Hv|]. constructor; [split; [apply Hv|exact I]|constructor].
Qed.

Lemma obj_ok s1 es s2 : on s1 -> on s2 -> Forall ok_ent es -> Forall placed (val_events (DObj s1 es s2)).
Proof.
  intros H1 H2 He. cbn [val_events]. constructor; [split; [exact H1|exact I]|]. apply Forall_app. split; [now apply flat_placed|]. constructor; [split; [exact H2|exact I]|constructor].
Qed.

Lemma g_ok :
  (forall l d tr r, gval l d tr r -> ok_lex l -> ok_lex r /\ ok_val d /\ Forall placed tr) /\
  (forall l ds tr e r, gitems l ds tr e r -> ok_lex l -> ok_lex r /\ Forall ok_val ds /\ on e /\ Forall placed tr) /\
  (forall docs l ks es tr e r, gents docs l ks es tr e r -> ok_lex l -> docs_on docs -> ok_lex r /\ Forall ok_ent es /\ on e /\ Forall placed tr) /\
  (forall l k v tr r, gline l k v tr r -> ok_lex l -> ok_lex r /\ ok_val k /\ ok_val v /\ Forall placed tr) /\
  (forall l attrs tr r, gattrs l attrs tr r -> ok_lex l -> ok_lex r /\ Forall ok_attr attrs /\ Forall placed tr).
Proof.
  apply g_all.
  - intros sp t k r H. inversion_clear H as [|? ? Hl Hr]. apply lex_on in Hl. cbn in Hl. splits; auto. split; [exact Hl|]. constructor; [split; [exact Hl|exact I]|constructor].
  - intros sp r _ H. inversion_clear H as [|? ? Hl Hr]. apply lex_on in Hl. cbn in Hl. splits; auto. split; [exact Hl|]. constructor; [split; [exact Hl|exact I]|constructor].
  - intros sp text hp ns d r (Hne & Hn & ->) _ _ Hst H. inversion_clear H as [|? ? Hl Hr]. splits; auto. destruct Hl as (t & Ht & -> & _). apply slice_some in Ht as (a & c & E & Ea & _). cbn in Ea. rewrite <- Ea in Hst.
    refine (stacked_ok ns a c None d Hn E _ Hne Hst). discriminate.
  - intros sp text hp ns p d r tr r' (Hne & Hn & ->) _ _ IH Hst H. inversion_clear H as [|? ? Hl Hr]. destruct (IH Hr) as (H1 & H2 & H3). splits; auto. destruct Hl as (t & Ht & -> & _). apply slice_some in Ht as (a & c & E & Ea & _). cbn in Ea. rewrite <- Ea in Hst.
    refine (stacked_ok ns a c (Some p) d Hn E _ Hne Hst). intros w [= <-]. exact H2.
  - intros sp r items tr e r' _ IH H. inversion_clear H as [|? ? Hl Hr]. apply lex_on in Hl. cbn in Hl. destruct (IH Hr) as (H1 & H2 & H3 & H4). splits; auto. assert (Hc : on (cover sp e)) by (now apply cover_on). split; [exact Hc|].
    cbn [val_events]. constructor; [split; [exact Hc|exact I]|]. apply Forall_app. split; [|constructor; [split; [exact Hc|exact I]|constructor]]. apply flat_placed. eapply Forall_impl; [|exact H2]. intros d Hd. apply Hd.
  - intros sp r ks es tr e r' _ IH _ H. inversion_clear H as [|? ? Hl Hr]. apply lex_on in Hl. cbn in Hl. destruct (IH Hr ltac:(constructor)) as (H1 & H2 & H3 & H4). splits; auto. assert (Hc : on (cover sp e)) by (now apply cover_on). split; [exact Hc|].
    now apply obj_ok.
  - intros asp ksp key r v tr r1 attrs tr' r' _ IHv _ IHa H. inversion_clear H as [|? ? Hl Hr]. destruct (IHv Hr) as (H1 & H2 & H3). destruct (IHa H1) as (H4 & H5 & H6). splits; [exact H4| |apply Forall_app; auto].
    destruct Hl as (t & _ & _ & _ & _ & Hk & _). apply slice_on in Hk. destruct (attrs_ok (key, ksp, v) attrs) as [A1 A2]; [constructor; [split; assumption|assumption]|]. cbn [fst snd] in A1. split; [exact A1|]. now apply obj_ok.
  - intros sp r H. inversion_clear H as [|? ? Hl Hr]. apply lex_on in Hl. splits; auto.
  - intros l r ds tr e r' _ _ IH H. inversion_clear H as [|? ? Hl Hr]. auto.
  - intros sp t r ds tr e r' _ IH H. inversion_clear H as [|? ? Hl Hr]. auto.
  - intros l d tr r ds tr' e r' _ IHv _ IHi H. destruct (IHv H) as (H1 & H2 & H3). destruct (IHi H1) as (H4 & H5 & H6 & H7). splits; auto. apply Forall_app. auto.
  - intros sp r H _. inversion_clear H as [|? ? Hl Hr]. apply lex_on in Hl. splits; auto.
  - intros docs l r ks es tr e r' _ _ IH H Hd. inversion_clear H as [|? ? Hl Hr]. auto.
  - intros docs sp t u r ks es tr e r' _ _ IH H Hd. inversion_clear H as [|? ? Hl Hr]. apply IH; [exact Hr|]. apply Forall_app. split; [exact Hd|]. constructor; [apply (lex_on _ Hl)|constructor].
  - intros docs l k v tag pl kd tr r ks es tr' e r' _ IHl _ _ IHe H Hd. destruct (IHl H) as (H1 & H2 & H3 & H4). destruct (IHe H1 ltac:(constructor)) as (H5 & H6 & H7 & H8). splits; auto; [|apply Forall_app; auto].
    constructor; [|exact H6]. apply entry_ok; auto. now apply block_on.
  - intros l k tr r tr' r' _ IH Hs H. destruct (IH H) as (H1 & H2 & H3). apply stop_ok in Hs as [H4 H5]; [|exact H1]. splits; auto; [|apply Forall_app; auto]. split; [apply H2|]. constructor; [split; [apply H2|exact I]|constructor].
  - intros l k tr r v tr1 r1 tr2 r2 _ IHk _ _ IHv Hs H. destruct (IHk H) as (H1 & H2 & H3). destruct (IHv H1) as (H4 & H5 & H6). apply stop_ok in Hs as [H7 H8]; [|exact H4]. splits; auto. repeat (apply Forall_app; split; auto).
  - intros r _ H. splits; auto.
  - intros asp ksp key r v tr r1 attrs tr' r' _ IHv _ IHa H. inversion_clear H as [|? ? Hl Hr]. destruct (IHv Hr) as (H1 & H2 & H3). destruct (IHa H1) as (H4 & H5 & H6). splits; [exact H4| |apply Forall_app; auto].
    destruct Hl as (t & _ & _ & _ & _ & Hk & _). apply slice_on in Hk. constructor; [split; assumption|assumption].
Qed.

(** ** The root *)
Lemma path_ok : forall segs docs off ksp v e a b, src = a ++ join [cDOT] segs ++ b -> off = blen a -> on ksp -> ok_val v ->
  Forall placed (map (fun d => mkev (fst d) (EvDoc (snd d))) docs) -> path_entry docs off ksp segs v = Some e -> ok_ent e.
Proof.
  induction segs as [|s segs IH]; intros docs off ksp v e a b E -> Hk Hv Hd H; [discriminate|]. cbn [path_entry] in H.
  assert (Hs : on (mkspan (blen a) (blen a + blen s))).
  { split; [eexists a, _; eauto|]. exists (a ++ s), (match segs with [] => b | _ => [cDOT] ++ join [cDOT] segs ++ b end). cbn [sp_end]. rewrite blen_app. split; [|lia]. rewrite E.
    destruct segs as [|s2 segs]; [cbn [join]; now rewrite <- app_assoc|]. change (join [cDOT] (s :: s2 :: segs)) with (s ++ [cDOT] ++ join [cDOT] (s2 :: segs)). now rewrite <- !app_assoc. }
  assert (G : forall w, Forall placed (val_events w) -> ok_ent (DEnt docs (mkspan (blen a) (blen a + blen s)) (mkspan (blen a) (blen a + blen s)) None (Some s) Bare w ksp)).
  { intros w Hw. unfold ok_ent. cbn [ent_events]. apply Forall_app. split; [exact Hd|]. constructor; [split; [exact Hs|exact I]|]. constructor; [split; [exact Hs|exact I]|]. apply Forall_app. split; [exact Hw|]. constructor; [split; [exact Hk|exact I]|constructor]. }
  destruct segs as [|s2 segs]; [injection H as <-; apply G, Hv|].
  destruct (path_entry [] (blen a + blen s + 1) ksp (s2 :: segs) v) as [e'|] eqn:P; [|discriminate]. injection H as <-. apply G. apply obj_ok; auto. constructor; [|constructor].
  apply (IH [] _ ksp v e' (a ++ s ++ [cDOT]) b) in P; auto.
  - rewrite E. change (join [cDOT] (s :: s2 :: segs)) with (s ++ [cDOT] ++ join [cDOT] (s2 :: segs)). now rewrite <- !app_assoc.
  - rewrite !blen_app. cbn. lia.
  - constructor.
Qed.

Definition starts_scalar (l : list lexeme) (k : dval) : Prop := forall sp t, k = DScalar sp t Bare -> exists r, l = LxScalar sp t Bare :: r.
Lemma line_key l k v tr r : gline l k v tr r -> starts_scalar l k.
Proof.
  assert (G : forall l d tr r, gval l d tr r -> starts_scalar l d).
  { intros l0 d tr0 r0 H sp t ->. inversion H; subst; eauto.
    - destruct ns as [|n ns]; [discriminate|]. match goal with X : stacked _ _ _ = _ |- _ => cbn in X; discriminate end.
    - destruct ns as [|n ns]; [match goal with X : tag_chain _ [] |- _ => destruct X as [[] _]; reflexivity end|]. match goal with X : stacked _ _ _ = _ |- _ => cbn in X; discriminate end. }
  destruct 1; eapply G; eauto.
Qed.

Lemma root_ok l k v tr r docs p e : gline l k v tr r -> root_entry k v docs p e -> ok_lex l ->
  Forall placed (map (fun d => mkev (fst d) (EvDoc (snd d))) docs) -> ok_lex r /\ ok_ent e /\ Forall placed tr.
Proof.
  intros Hl He H Hd. destruct (proj1 (proj2 (proj2 (proj2 g_ok))) _ _ _ _ _ Hl H) as (H1 & H2 & H3 & H4). splits; auto. destruct He as [k v docs tag pl kd _ _ _|sp t segs v docs e _ Et _ Hp].
  - now apply entry_ok.
  - destruct (line_key _ _ _ _ _ Hl sp t eq_refl) as [r0 ->]. inversion_clear H as [|? ? Hx _]. destruct Hx as (x & Hx & -> & _). apply slice_some in Hx as (a & c & E & Ea & _). cbn in Ea.
    rewrite Et in E. refine (path_ok segs docs (sp_start sp) sp v e a c E (eq_sym Ea) _ H3 Hd Hp). apply H2.
Qed.

Lemma docs_in_ok tr : Forall placed tr -> Forall placed (map (fun d => mkev (fst d) (EvDoc (snd d))) (docs_in tr)).
Proof.
  induction 1 as [|[sp k] tr Hk _ IH]; [constructor|]. cbn [docs_in flat_map ev_kind]. destruct k; try exact IH. cbn. constructor; [exact Hk|exact IH].
Qed.

Lemma undocumented_ok e : ok_ent e -> Forall placed (ent_events (undocumented e)).
Proof. destruct e as [docs s1 ksp tag pl k v s2]. unfold ok_ent. cbn [ent_events undocumented map app]. intros H. apply Forall_app in H as [_ H]. exact H. Qed.

Lemma zero_on : on (empty_at 0).
Proof. split; exists [], src; auto. Qed.

Definition docl_ok (docs : list (span * list str)) : Prop := Forall placed (map (fun d => mkev (fst d) (EvDoc (snd d))) docs).
Lemma docl_app a b : docl_ok a -> docl_ok b -> docl_ok (a ++ b).
Proof. unfold docl_ok. intros. rewrite map_app. apply Forall_app. auto. Qed.

Lemma open_ok opened : Forall placed (open_root opened).
Proof. destruct opened; [constructor|]. constructor; [|constructor]. split; [apply zero_on|exact I]. Qed.

Lemma groot_ok opened docs ls es evs h : groot opened docs ls es evs h -> ok_lex ls -> docl_ok docs -> Forall placed evs /\ Forall ok_ent es.
Proof.
  induction 1 as [opened|opened docs l r es evs h _ _ IH|opened docs sp t r es evs h _ IH|opened docs sp t u r es evs h _ _ IH|opened docs l k v tr r p e es evs h _ Hl He _ IH]; intros H Hd.
  - split; [|constructor]. destruct opened; [|constructor]. constructor; [|constructor]. split; [apply zero_on|exact I].
  - inversion_clear H. auto.
  - inversion_clear H as [|? ? Hx Hr]. destruct (IH Hr Hd) as [H1 H2]. split; [|exact H2]. constructor; [|exact H1]. split; [apply (lex_on _ Hx)|exact I].
  - inversion_clear H as [|? ? Hx Hr]. apply lex_on in Hx. cbn in Hx. destruct (IH Hr) as [H1 H2]; [apply docl_app; [exact Hd|]; constructor; [split; [exact Hx|exact I]|constructor]|]. split; [|exact H2].
    apply Forall_app. split; [apply open_ok|]. constructor; [split; [exact Hx|exact I]|exact H1].
  - destruct (proj1 (proj2 (proj2 (proj2 g_ok))) _ _ _ _ _ Hl H) as (_ & _ & _ & Ht).
    destruct (root_ok _ _ _ _ _ _ _ _ Hl He H) as (H1 & H2 & H3); [apply docl_app; [exact Hd|now apply docs_in_ok]|]. destruct (IH H1 ltac:(constructor)) as [H4 H5]. split; [|now constructor].
    apply Forall_app. split; [apply open_ok|]. apply Forall_app. split; [exact H3|]. apply Forall_app. split; [now apply undocumented_ok|exact H4].
Qed.

Lemma gbody_ok docs ls ks es evs e r : gbody docs ls ks es evs e r -> ok_lex ls -> docl_ok docs -> Forall placed evs /\ Forall ok_ent es /\ on e.
Proof.
  induction 1 as [sp r|docs l r ks es evs e r' _ _ IH|docs sp t r ks es evs e r' _ IH|docs sp t u r ks es evs e r' _ _ IH|docs l k v tr r p x ks ks' es evs e r' Hl He _ IH _]; intros H Hd.
  - inversion_clear H as [|? ? Hx Hr]. apply lex_on in Hx. splits; auto.
  - inversion_clear H. auto.
  - inversion_clear H as [|? ? Hx Hr]. destruct (IH Hr Hd) as (H1 & H2 & H3). splits; auto. constructor; [|exact H1]. split; [apply (lex_on _ Hx)|exact I].
  - inversion_clear H as [|? ? Hx Hr]. apply lex_on in Hx. cbn in Hx. destruct (IH Hr) as (H1 & H2 & H3); [apply docl_app; [exact Hd|]; constructor; [split; [exact Hx|exact I]|constructor]|]. splits; auto.
    constructor; [split; [exact Hx|exact I]|exact H1].
  - destruct (proj1 (proj2 (proj2 (proj2 g_ok))) _ _ _ _ _ Hl H) as (_ & _ & _ & Ht).
    destruct (root_ok _ _ _ _ _ _ _ _ Hl He H) as (H1 & H2 & H3); [apply docl_app; [exact Hd|now apply docs_in_ok]|]. destruct (IH H1 ltac:(constructor)) as (H4 & H5 & H6). splits; [|now constructor|exact H6].
    apply Forall_app. split; [exact H3|]. apply Forall_app. split; [now apply undocumented_ok|exact H4].
Qed.

Lemma glead_ok l evs r : glead l evs r -> ok_lex l -> ok_lex r /\ Forall placed evs.
Proof.
  induction 1 as [l|l r evs r' _ _ IH|sp t r evs r' _ IH]; intros H; [auto|inversion_clear H; auto|]. inversion_clear H as [|? ? Hx Hr]. destruct (IH Hr). split; [assumption|]. constructor; [|assumption]. split; [apply (lex_on _ Hx)|exact I].
Qed.

Lemma gdoc_ok ls es evs : gdoc (blen src) ls es evs -> ok_lex ls -> Forall placed evs.
Proof.
  assert (Z : on (empty_at (blen src))) by (split; exists src, []; rewrite app_nil_r; auto).
  destruct 1 as [ls es evs h Hr _|ls lead sp r ks es evs e r' Hl Hb _ _]; intros H.
  - destruct (groot_ok _ _ _ _ _ _ Hr H ltac:(constructor)) as [H1 _]. constructor; [split; [apply zero_on|exact I]|]. apply Forall_app. split; [exact H1|]. constructor; [split; [exact Z|exact I]|constructor].
  - destruct (glead_ok _ _ _ Hl H) as [H1 H2]. inversion_clear H1 as [|? ? Hx Hr]. apply lex_on in Hx. cbn in Hx. destruct (gbody_ok _ _ _ _ _ _ _ Hb Hr ltac:(constructor)) as (H3 & _ & H4).
    constructor; [split; [apply zero_on|exact I]|]. apply Forall_app. split; [exact H2|]. constructor; [split; [exact Hx|exact I]|]. apply Forall_app. split; [exact H3|].
    constructor; [split; [exact H4|exact I]|]. constructor; [split; [exact Z|exact I]|constructor].
Qed.
End Places.
