(** The trees of documents: their places nest. *)
From Verif Require Import Base BaseProofs TokModel LexModel LexSpec LexProofs ParseModel ParseSpec RunProofs TreeModel TreeSpec BuildProofs PathSpec.
From Verif Require Import GrammarSpec GrammarProofs GrammarSoundProofs FacetDocProofs LspModel LspSpec CstModel EditModel EditSpec.

Scheme laid_mut := Minimality for laid Sort Prop
  with laid_in_mut := Minimality for laid_in Sort Prop
  with laid_items_mut := Minimality for laid_items Sort Prop
  with laid_entries_mut := Minimality for laid_entries Sort Prop.

Lemma laid_wider B lo hi v lo' hi' : laid B lo hi v -> lo' <= lo -> hi <= hi' -> laid B lo' hi' v.
Proof. intros H L1 L2. destruct H. constructor; auto; lia. Qed.
Lemma laid_items_wider B lo hi vs : laid_items B lo hi vs -> forall lo' hi', lo' <= lo -> hi <= hi' -> laid_items B lo' hi' vs.
Proof.
  induction 1 as [lo hi L|lo hi m v r Hv Hr IH]; intros lo' hi' L1 L2; [constructor; lia|]. apply ls_cons with (m := m); [eapply laid_wider; [exact Hv|lia|lia]|]. apply IH; lia.
Qed.
Lemma laid_entries_wider B lo hi es : laid_entries B lo hi es -> forall lo' hi', lo' <= lo -> hi <= hi' -> laid_entries B lo' hi' es.
Proof.
  induction 1 as [lo hi L|lo hi a b t p d r L1 L2 Ba Bb Hr IH|lo hi a b m t p w d r L1 L2 Ba Bb Hw Hr IH]; intros lo' hi' M1 M2; [constructor; lia|apply le_unit; auto; lia|]. apply le_cons with (m := m); auto; lia.
Qed.
Lemma laid_val_wider B lo hi v : laid B lo hi v -> lo <= hi.
Proof. destruct 1. lia. Qed.
Lemma laid_items_le B lo hi vs : laid_items B lo hi vs -> lo <= hi.
Proof. induction 1 as [|lo hi m v r Hv Hr IH]; [assumption|]. apply laid_val_wider in Hv. lia. Qed.
Lemma laid_entries_le B lo hi es : laid_entries B lo hi es -> lo <= hi.
Proof. induction 1 as [|lo hi a b t p d r L1 L2 Ba Bb Hr IH|lo hi a b m t p w d r L1 L2 Ba Bb Hw Hr IH]; [assumption|lia|]. apply laid_val_wider in Hw. lia. Qed.

Section Laying.
Variable src : str.
Notation B := (between src).
Notation laid := (laid B).
Notation laid_entries := (laid_entries B).
Notation laid_items := (laid_items B).

Lemma on_B sp : on src sp -> B (sp_start sp) /\ B (sp_end sp).
Proof. auto. Qed.

(** Lexemes in a row from [p] on. *)
Definition row (p : nat) (l : list lexeme) : Prop := ok_lex src l /\ lex_ordered p l (blen src).
Lemma row_cons p l r : row p (l :: r) -> p <= sp_start (lx_span l) /\ sp_start (lx_span l) <= sp_end (lx_span l) /\ row (sp_end (lx_span l)) r /\ lexeme_ok src l.
Proof. intros [H1 (H2 & H3 & H4)]. inversion_clear H1. splits; auto. split; auto. Qed.
Lemma row_weak p q l : row p l -> q <= p -> row q l.
Proof. intros [H1 H2] L. split; [exact H1|]. destruct l as [|x l]; cbn in *; [lia|]. destruct H2 as (H2 & H3). split; [lia|exact H3]. Qed.

(** A value from [p] on. *)
Definition spread (p : nat) (d : dval) : Prop :=
  on src (dspan d) /\ p <= sp_start (dspan d) /\ sp_start (dspan d) < sp_end (dspan d) /\ laid (sp_start (dspan d)) (sp_end (dspan d)) (to_value d).

Lemma blen_cons c s : blen (c :: s) = clen c + blen s.
Proof. reflexivity. Qed.

Lemma len_text sp t : slice src (sp_start sp) (sp_end sp) = Some t -> sp_end sp = sp_start sp + blen t.
Proof. intros H. apply slice_some in H as (a & c & E & Ea & Eb). lia. Qed.

Lemma scalar_wide sp t k : lexeme_ok src (LxScalar sp t k) -> sp_start sp < sp_end sp.
Proof.
  intros (x & Hx & H). apply len_text in Hx. cbn [lx_span] in Hx. rewrite Hx. enough (0 < blen x) by lia.
  destruct k; [destruct H as (-> & Hn & _)|destruct H as (a & -> & _)|destruct H as (n & w & -> & _)|destruct H as (d & lang & eol & body & ind & -> & _)].
  - destruct t as [|c t]; [congruence|]. cbn. pose proof (clen_pos c). lia.
  - cbn [app]. rewrite blen_cons. pose proof (clen_pos cDQ). lia.
  - rewrite blen_cons. pose proof (clen_pos cr). lia.
  - cbn [app]. rewrite blen_cons. pose proof (clen_pos cLT). lia.
Qed.

Lemma flat_value sp p : on src sp -> sp_start sp < sp_end sp -> (p = PNone \/ exists t k, p = PScalar t k (Some sp)) ->
  forall t, laid (sp_start sp) (sp_end sp) (Val t p (Some sp)).
Proof.
  intros [H1 H2] L Hp t. destruct sp as [a b]. cbn in *. constructor; auto; try lia. destruct Hp as [->|(x & k & ->)]; constructor.
Qed.

Lemma retag t t' p sp lo hi : laid lo hi (Val t p sp) -> laid lo hi (Val t' p sp).
Proof. intros H. inversion H; subst. now constructor. Qed.

Lemma stacked_spread : forall ns a b p d q, Forall tag_name ns -> src = a ++ cAT :: join [cSLASH; cAT] ns ++ b ->
  q = blen a + 1 + blen (join [cSLASH; cAT] ns) -> (forall w, p = Some w -> spread q w) -> ns <> [] ->
  stacked (blen a) ns p = Some d -> spread (blen a) d /\ sp_end (dspan d) = match p with Some w => sp_end (dspan w) | None => q end.
Proof.
  induction ns as [|n ns IH]; intros a b p d q Hn E Eq Hp Hne H; [congruence|]. cbn [stacked] in H. inversion_clear Hn as [|? ? Hn1 Hn2].
  assert (Hs : B (blen a)) by (eexists a, _; eauto).
  destruct ns as [|n2 ns].
  - cbn [stacked join] in H, E, Eq. destruct p as [w|].
    + injection H as <-. destruct (Hp w eq_refl) as (H1 & H2 & H3 & H4). cbn [dspan sp_end]. split; [|reflexivity]. split; [split; [exact Hs|apply H1]|]. cbn [dspan sp_start sp_end]. splits; [lia|lia|].
      cbn [to_value]. destruct (to_value w) as [t pl sp]. apply (retag t). eapply laid_wider; [exact H4|lia|lia].
    + injection H as <-. cbn [dspan sp_end]. assert (Ho : on src (mkspan (blen a) (blen a + 1 + blen n))).
      { split; [exact Hs|]. exists (a ++ cAT :: n), b. split; [rewrite E, <- app_assoc; reflexivity|]. rewrite blen_app, blen_cons. cbn. lia. }
      split; [|lia]. split; [exact Ho|]. cbn [dspan sp_start sp_end to_value]. splits; [lia|lia|]. apply (flat_value (mkspan (blen a) (blen a + 1 + blen n))); auto. cbn. lia.
  - change (join [cSLASH; cAT] (n :: n2 :: ns)) with (n ++ [cSLASH; cAT] ++ join [cSLASH; cAT] (n2 :: ns)) in E, Eq.
    assert (Ea : blen a + blen n + 2 = blen (a ++ cAT :: n ++ [cSLASH])) by (rewrite blen_app, blen_cons, blen_app; cbn; lia).
    destruct (stacked (blen a + blen n + 2) (n2 :: ns) p) as [w|] eqn:Ew; [|destruct p; discriminate].
    rewrite Ea in Ew. edestruct (IH (a ++ cAT :: n ++ [cSLASH]) b p w q) as [W1 W2]; [exact Hn2| | |exact Hp|discriminate|exact Ew|].
    + rewrite E. now rewrite <- !app_assoc, <- !app_comm_cons, <- !app_assoc.
    + rewrite Eq, <- Ea, !blen_app. cbn [blen]. change (clen cSLASH) with 1. change (clen cAT) with 1. lia.
    + injection H as <-. cbn [dspan sp_end]. split; [|exact W2]. destruct W1 as (H1 & H2 & H3 & H4). split; [split; [exact Hs|apply H1]|]. cbn [dspan sp_start sp_end]. splits; [lia|lia|].
      cbn [to_value]. destruct (to_value w) as [t pl sp]. apply (retag t). eapply laid_wider; [exact H4|lia|lia].
Qed.

Definition attr_spread (x : str * span * dval) : Prop := on src (snd (fst x)) /\ sp_start (snd (fst x)) < sp_end (snd (fst x)) /\ spread (sp_end (snd (fst x))) (snd x).
Fixpoint attrs_from (p : nat) (xs : list (str * span * dval)) : Prop :=
  match xs with [] => True | x :: r => p <= sp_start (snd (fst x)) /\ attr_spread x /\ attrs_from (sp_end (dspan (snd x))) r end.

Lemma attrs_laid : forall xs x p z, attrs_from p (x :: xs) ->
  let e := sp_end (dspan (snd (last (x :: xs) z))) in
  B e /\ sp_start (snd (fst x)) < e /\ laid_entries p e (map to_entry (map attr_entry (x :: xs))).
Proof.
  induction xs as [|y xs IH]; intros [[key ksp] v] p z (L & (Hk & Hw & Hv1 & Hv2 & Hv3 & Hv4) & Hr); cbn [fst snd] in *.
  - cbn [last snd map attr_entry to_entry option_map]. splits; [apply Hv1|lia|]. destruct ksp as [a b]; cbn in *.
    apply le_cons with (m := sp_end (dspan v)); auto; [apply Hk|apply Hk| |constructor; lia]. eapply laid_wider; [exact Hv4|lia|lia].
  - destruct (IH y _ z Hr) as (H1 & H2 & H3). destruct Hr as (L2 & _ & _).
    change (last ((key, ksp, v) :: y :: xs) z) with (last (y :: xs) z). splits; [exact H1|lia|].
    cbn [map] in *. destruct ksp as [a b]; cbn in Hk, Hw, Hv2, L. cbn [attr_entry to_entry option_map].
    apply le_cons with (m := sp_end (dspan v)); auto; [apply Hk|apply Hk|]. eapply laid_wider; [exact Hv4|cbn in *; lia|lia].
Qed.

Lemma stop_row r tr r' q : gstop r tr r' -> row q r -> exists q', q <= q' /\ row q' r'.
Proof.
  destruct 1; intros Hr; try (exists q; split; [lia|exact Hr]); apply row_cons in Hr as (H1 & H2 & H3 & _); eexists; (split; [|exact H3]); lia.
Qed.

(** The value of an entry whose key is [k]: its own or the unit in the key's place. *)
Definition valued (k v : dval) (q : nat) : Prop := v = DUnit (dspan k) /\ sp_end (dspan k) <= q \/ spread (sp_end (dspan k)) v /\ sp_end (dspan v) <= q.

Lemma entry_laid docs s1 s2 tag pl kd k v p q hi es : spread p k -> valued k v q -> laid_entries q hi es ->
  laid_entries p hi (to_entry (DEnt docs s1 (dspan k) tag pl kd v s2) :: es).
Proof.
  intros (H1 & H2 & H3 & _) Hv He. cbn [to_entry]. destruct (dspan k) as [a b] eqn:E. cbn in *. destruct Hv as [[-> L]|[Hv L]]; rewrite E in *; cbn [sp_start sp_end] in *.
  - apply le_unit; auto; [apply H1|apply H1|]. eapply laid_entries_wider; [exact He|exact L|lia].
  - apply le_cons with (m := q); auto; [apply H1|apply H1|]. destruct Hv as (_ & L2 & _ & Hv). eapply laid_wider; [exact Hv|exact L2|exact L].
Qed.

Lemma g_row :
  (forall l d tr r, gval l d tr r -> forall p, row p l -> spread p d /\ row (sp_end (dspan d)) r) /\
  (forall l ds tr e r, gitems l ds tr e r -> forall p, row p l -> laid_items p (sp_start e) (map to_value ds) /\ on src e /\ sp_start e < sp_end e /\ row (sp_end e) r) /\
  (forall docs l ks es tr e r, gents docs l ks es tr e r -> forall p, row p l -> laid_entries p (sp_start e) (map to_entry es) /\ on src e /\ sp_start e < sp_end e /\ row (sp_end e) r) /\
  (forall l k v tr r, gline l k v tr r -> forall p, row p l -> spread p k /\ exists q, valued k v q /\ row q r) /\
  (forall l attrs tr r, gattrs l attrs tr r -> forall p, row p l -> attrs_from p attrs /\ row (match attrs with [] => p | x :: _ => sp_end (dspan (snd (last attrs x))) end) r).
Proof.
  apply g_all.
  - intros sp t k r p H. apply row_cons in H as (H1 & H2 & H3 & H4). cbn in *. split; [|exact H3]. pose proof (scalar_wide _ _ _ H4) as W. apply lex_on in H4. cbn in H4. split; [exact H4|]. cbn [dspan to_value]. splits; auto. apply flat_value; eauto.
  - intros sp r _ p H. apply row_cons in H as (H1 & H2 & H3 & H4). cbn in *. split; [|exact H3]. destruct H4 as (t & Ht & ->). pose proof (len_text _ _ Ht) as W. cbn in W. apply slice_on in Ht. split; [exact Ht|]. cbn [dspan to_value]. splits; auto; [lia|]. apply flat_value; auto. lia.
  - intros sp text hp ns d r (Hne & Hn & ->) _ _ Hst p H. apply row_cons in H as (H1 & H2 & H3 & H4). cbn [lx_span] in *. destruct H4 as (t & Ht & -> & _). unfold lexeme_text in Ht; cbn [lx_span] in Ht. pose proof (len_text _ _ Ht) as W. rewrite blen_cons in W. change (clen cAT) with 1 in W. apply slice_some in Ht as (a & c & E & Ea & _). rewrite <- Ea in *.
    destruct (stacked_spread ns a c None d (sp_end sp) Hn E ltac:(lia) ltac:(discriminate) Hne Hst) as [(S1 & S2 & S3 & S4) E2]. rewrite E2. split; [|exact H3]. split; [exact S1|]. splits; auto. lia.
  - intros sp text hp ns w d r tr r' (Hne & Hn & ->) _ _ IH Hst p H. apply row_cons in H as (H1 & H2 & H3 & H4). cbn [lx_span] in *. destruct H4 as (t & Ht & -> & _). unfold lexeme_text in Ht; cbn [lx_span] in Ht. pose proof (len_text _ _ Ht) as W. rewrite blen_cons in W. change (clen cAT) with 1 in W. apply slice_some in Ht as (a & c & E & Ea & _). rewrite <- Ea in *.
    destruct (IH _ H3) as [I1 I2]. destruct (stacked_spread ns a c (Some w) d (sp_end sp) Hn E ltac:(lia) ltac:(intros x [= <-]; exact I1) Hne Hst) as [(S1 & S2 & S3 & S4) E2]. rewrite E2. split; [|exact I2]. split; [exact S1|]. splits; auto. lia.
  - intros sp r items tr e r' _ IH p H. apply row_cons in H as (H1 & H2 & H3 & H4). cbn [lx_span] in *. apply lex_on in H4. cbn [lx_span] in H4. destruct (IH _ H3) as (I1 & I2 & I3 & I4). pose proof (laid_items_le _ _ _ _ I1) as L. split; [|exact I4]. split; [now apply cover_on|]. cbn [dspan cover sp_start sp_end to_value]. splits; auto; [lia|].
    unfold cover. cbn [sp_start sp_end]. constructor; try lia; [apply H4|apply I2|]. constructor. eapply laid_items_wider; [exact I1|lia|lia].
  - intros sp r ks es tr e r' _ IH _ p H. apply row_cons in H as (H1 & H2 & H3 & H4). cbn [lx_span] in *. apply lex_on in H4. cbn [lx_span] in H4. destruct (IH _ H3) as (I1 & I2 & I3 & I4). pose proof (laid_entries_le _ _ _ _ I1) as L. split; [|exact I4]. split; [now apply cover_on|]. cbn [dspan cover sp_start sp_end to_value]. splits; auto; [lia|].
    unfold cover. cbn [sp_start sp_end]. constructor; try lia; [apply H4|apply I2|]. constructor. eapply laid_entries_wider; [exact I1|lia|lia].
  - intros asp ksp key r v tr r1 attrs tr' r' _ IHv _ IHa p H. apply row_cons in H as (H1 & H2 & H3 & H4). cbn [lx_span] in *. destruct H4 as (t & _ & _ & Hne & _ & Hk & K1 & K2). destruct (IHv _ H3) as [V1 V2]. destruct (IHa _ V2) as [A1 A2].
    assert (W : sp_start ksp < sp_end ksp) by (rewrite (len_text _ _ Hk); destruct key as [|c key]; [congruence|]; rewrite blen_cons; pose proof (clen_pos c); lia). apply slice_on in Hk.
    assert (AF : attrs_from (sp_start ksp) ((key, ksp, v) :: attrs)).
    { cbn [attrs_from fst snd]. splits; [lia| |exact A1]. unfold attr_spread. cbn [fst snd]. splits; auto. destruct V1 as (X1 & X2 & X3 & X4). split; [exact X1|]. splits; auto. lia. }
    destruct (attrs_laid _ _ _ ([], ksp, DUnit ksp) AF) as (E1 & E2 & E3). cbn [fst snd] in E2. cbn zeta in *.
    split.
    + split; [split; [apply Hk|exact E1]|]. cbn [dspan attr_end sp_start sp_end]. splits; [lia|exact E2|]. cbn [to_value]. unfold cover, attr_end. cbn [sp_start sp_end]. constructor; auto; [lia|apply Hk|]. constructor. exact E3.
    + cbn [dspan attr_end sp_end]. destruct attrs as [|x attrs]; [exact A2|]. change (last ((key, ksp, v) :: x :: attrs) ([], ksp, DUnit ksp)) with (last (x :: attrs) ([], ksp, DUnit ksp)).
      replace (last (x :: attrs) ([], ksp, DUnit ksp)) with (last (x :: attrs) x); [exact A2|]. clear. destruct (exists_last (l := x :: attrs)) as (l & y & E); [discriminate|]. rewrite E. now rewrite !last_last.
  - intros sp r p H. apply row_cons in H as (H1 & H2 & H3 & H4). cbn [lx_span] in *. destruct H4 as (t & Ht & ->). unfold lexeme_text in Ht; cbn [lx_span] in Ht. pose proof (len_text _ _ Ht) as W. cbn in W. apply slice_on in Ht. splits; auto; [constructor; lia|lia].
  - intros l r ds tr e r' _ _ IH p H. apply row_cons in H as (H1 & H2 & H3 & _). destruct (IH _ H3) as (I1 & I2 & I3 & I4). splits; auto. eapply laid_items_wider; [exact I1|lia|lia].
  - intros sp t r ds tr e r' _ IH p H. apply row_cons in H as (H1 & H2 & H3 & _). destruct (IH _ H3) as (I1 & I2 & I3 & I4). splits; auto. eapply laid_items_wider; [exact I1|lia|lia].
  - intros l d tr r ds tr' e r' _ IHv _ IHi p H. destruct (IHv _ H) as [(V1 & V2 & V3 & V4) V5]. destruct (IHi _ V5) as (I1 & I2 & I3 & I4). splits; auto. cbn [map]. apply ls_cons with (m := sp_end (dspan d)); [|exact I1]. eapply laid_wider; [exact V4|lia|lia].
  - intros sp r p H. apply row_cons in H as (H1 & H2 & H3 & H4). cbn [lx_span] in *. destruct H4 as (t & Ht & ->). unfold lexeme_text in Ht; cbn [lx_span] in Ht. pose proof (len_text _ _ Ht) as W. cbn in W. apply slice_on in Ht. splits; auto; [constructor; lia|lia].
  - intros docs l r ks es tr e r' _ _ IH p H. apply row_cons in H as (H1 & H2 & H3 & _). destruct (IH _ H3) as (I1 & I2 & I3 & I4). splits; auto. eapply laid_entries_wider; [exact I1|lia|lia].
  - intros docs sp t u r ks es tr e r' _ _ IH p H. apply row_cons in H as (H1 & H2 & H3 & _). destruct (IH _ H3) as (I1 & I2 & I3 & I4). splits; auto. eapply laid_entries_wider; [exact I1|lia|lia].
  - intros docs l k v tag pl kd tr r ks es tr' e r' _ IHl _ _ IHe p H. destruct (IHl _ H) as (K & q & V & R). destruct (IHe _ R) as (I1 & I2 & I3 & I4). splits; auto. cbn [map]. eapply entry_laid; eassumption.
  - intros l k tr r tr' r' _ IH Hs p H. destruct (IH _ H) as [K R]. split; [exact K|]. destruct (stop_row _ _ _ _ Hs R) as (q & L & R'). exists q. split; [|exact R']. left. auto.
  - intros l k tr r v tr1 r1 tr2 r2 _ IHk _ _ IHv Hs p H. destruct (IHk _ H) as [K R]. split; [exact K|]. destruct (IHv _ R) as [V R1]. destruct (stop_row _ _ _ _ Hs R1) as (q & L & R'). exists q. split; [|exact R']. right. auto.
  - intros r _ p H. split; [exact I|exact H].
  - intros asp ksp key r v tr r1 attrs tr' r' _ IHv _ IHa p H. apply row_cons in H as (H1 & H2 & H3 & H4). cbn [lx_span] in *. destruct H4 as (t & _ & _ & Hne & _ & Hk & K1 & K2). destruct (IHv _ H3) as [V1 V2]. destruct (IHa _ V2) as [A1 A2].
    assert (W : sp_start ksp < sp_end ksp) by (rewrite (len_text _ _ Hk); destruct key as [|c key]; [congruence|]; rewrite blen_cons; pose proof (clen_pos c); lia). apply slice_on in Hk. split.
    + cbn [attrs_from fst snd]. splits; [lia| |exact A1]. unfold attr_spread. cbn [fst snd]. splits; auto. destruct V1 as (X1 & X2 & X3 & X4). split; [exact X1|]. splits; auto. lia.
    + destruct attrs as [|x attrs]; [exact A2|]. change (last ((key, ksp, v) :: x :: attrs) (key, ksp, v)) with (last (x :: attrs) (key, ksp, v)).
      replace (last (x :: attrs) (key, ksp, v)) with (last (x :: attrs) x); [exact A2|]. clear. destruct (exists_last (l := x :: attrs)) as (l & y & E); [discriminate|]. rewrite E. now rewrite !last_last.
Qed.

(** ** The root *)

Lemma one_seg t segs : In cDOT t -> t = join [cDOT] segs -> Forall (fun s => s <> [] /\ ~ In cDOT s) segs -> exists s s2 r, segs = s :: s2 :: r.
Proof.
  intros Ht E F. destruct segs as [|s [|s2 r]]; [subst; destruct Ht| |eauto]. cbn in E. subst t. apply Forall_inv in F as [_ F]. contradiction.
Qed.

Lemma root_laid l k v tr r docs p e lo : gline l k v tr r -> root_entry k v docs p e -> ~ path_like (to_entry e) -> row lo l ->
  exists q, row q r /\ forall es hi, laid_entries q hi es -> laid_entries lo hi (to_entry e :: es).
Proof.
  intros Hl He Hn H. destruct (proj1 (proj2 (proj2 (proj2 g_row))) _ _ _ _ _ Hl _ H) as (K & q & V & R). exists q. split; [exact R|]. intros es hi Hes.
  destruct He as [k v docs tag pl kd _ _ _|sp t segs v docs e Ht Et F Hp].
  - eapply entry_laid; eassumption.
  - exfalso. apply Hn. destruct (one_seg _ _ Ht Et F) as (s & s2 & r' & ->). cbn [path_entry] in Hp.
    match type of Hp with match ?x with _ => _ end = _ => destruct x; [|discriminate] end. injection Hp as <-. unfold path_like. cbn. eauto 10.
Qed.

Lemma groot_laid opened docs ls es evs h : groot opened docs ls es evs h -> forall p, row p ls -> Forall (fun e => ~ path_like e) (map to_entry es) ->
  laid_entries p (blen src) (map to_entry es).
Proof.
  induction 1 as [opened|opened docs l r es evs h _ _ IH|opened docs sp t r es evs h _ IH|opened docs sp t u r es evs h _ _ IH|opened docs l k v tr r p e es evs h _ Hl He _ IH]; intros lo H Hp.
  - constructor. apply H.
  - apply row_cons in H as (H1 & H2 & H3 & _). eapply laid_entries_wider; [apply IH; eassumption|lia|lia].
  - apply row_cons in H as (H1 & H2 & H3 & _). eapply laid_entries_wider; [apply IH; eassumption|lia|lia].
  - apply row_cons in H as (H1 & H2 & H3 & _). eapply laid_entries_wider; [apply IH; eassumption|lia|lia].
  - cbn [map] in *. inversion_clear Hp as [|? ? Hp1 Hp2]. destruct (root_laid _ _ _ _ _ _ _ _ _ Hl He Hp1 H) as (q & R & G). apply G. now apply IH.
Qed.

Lemma row_end p l : row p l -> p <= blen src.
Proof.
  intros [_ H]. revert p H. induction l as [|x l IH]; intros p H; [exact H|]. destruct H as (H1 & H2 & H3). apply IH in H3. lia.
Qed.

Lemma gbody_laid docs ls ks es evs e r : gbody docs ls ks es evs e r -> forall p, row p ls -> Forall (fun e => ~ path_like e) (map to_entry es) ->
  laid_entries p (blen src) (map to_entry es).
Proof.
  induction 1 as [sp r|docs l r ks es evs e r' _ _ IH|docs sp t r ks es evs e r' _ IH|docs sp t u r ks es evs e r' _ _ IH|docs l k v tr r p x ks ks' es evs e r' Hl He _ IH _]; intros lo H Hp.
  - constructor. now apply row_end in H.
  - apply row_cons in H as (H1 & H2 & H3 & _). eapply laid_entries_wider; [apply IH; eassumption|lia|lia].
  - apply row_cons in H as (H1 & H2 & H3 & _). eapply laid_entries_wider; [apply IH; eassumption|lia|lia].
  - apply row_cons in H as (H1 & H2 & H3 & _). eapply laid_entries_wider; [apply IH; eassumption|lia|lia].
  - cbn [map] in *. inversion_clear Hp as [|? ? Hp1 Hp2]. destruct (root_laid _ _ _ _ _ _ _ _ _ Hl He Hp1 H) as (q & R & G). apply G. now apply IH.
Qed.

Lemma glead_row l evs r : glead l evs r -> forall p, row p l -> exists q, row q r.
Proof.
  induction 1 as [l|l r evs r' _ _ IH|sp t r evs r' _ IH]; intros p H; [eauto| |]; apply row_cons in H as (H1 & H2 & H3 & _); eauto.
Qed.

Lemma gdoc_laid ls es evs : gdoc (blen src) ls es evs -> row 0 ls -> Forall (fun e => ~ path_like e) (map to_entry es) -> laid_entries 0 (blen src) (map to_entry es).
Proof.
  destruct 1 as [ls es evs h Hr _|ls lead sp r ks es evs e r' Hl Hb _ _]; intros H Hp.
  - eapply groot_laid; eassumption.
  - destruct (glead_row _ _ _ Hl _ H) as [q R]. apply row_cons in R as (H1 & H2 & H3 & _). eapply laid_entries_wider; [eapply gbody_laid; eassumption|lia|lia].
Qed.

(** ** All documents: pieces of the text *)
Notation sized := (sized B).
Definition ent_sized (e : entry) : Prop := piece B (v_span (e_key e)) /\ sized (e_val e) /\ forward e.

Lemma piece_mk a b : a <= b -> B a -> B b -> piece B (Some (mkspan a b)).
Proof. intros L Ba Bb s [= <-]. auto. Qed.

Lemma leaf_sized t p sp : piece B sp -> (p = PNone \/ exists x k s, p = PScalar x k s) -> sized (Val t p sp).
Proof. intros L Hp. constructor; [exact L|intros es osp ->|intros items ssp ->]; destruct Hp as [Hp|(x & k & s & Hp)]; discriminate. Qed.

Lemma laid_sized lo hi v : laid lo hi v -> sized v.
Proof.
  revert lo hi v. apply (laid_mut B (fun _ _ v => sized v)
    (fun _ _ p => (forall es osp, p = PObj es osp -> Forall ent_sized es) /\ (forall items ssp, p = PSeq items ssp -> Forall sized items))
    (fun _ _ vs => Forall sized vs) (fun _ _ es => Forall ent_sized es)).
  - intros lo hi t p a b L1 L2 L3 Ba Bb _ [H1 H2]. constructor; auto. now apply piece_mk.
  - split; discriminate.
  - split; discriminate.
  - intros lo hi items _ IH. split; [discriminate|]. now intros ? ? [= <- _].
  - intros lo hi es _ IH. split; [|discriminate]. now intros ? ? [= <- _].
  - constructor.
  - constructor; assumption.
  - constructor.
  - intros lo hi a b t p d r L1 L2 Ba Bb _ IH. constructor; [|exact IH]. split; [apply piece_mk; auto; lia|]. cbn [e_val]. split; [apply leaf_sized; auto; apply piece_mk; auto; lia|]. intros s s' [= <-] [= <-]. cbn. lia.
  - intros lo hi a b m t p w d r L1 L2 Ba Bb Hl Hw _ IH. constructor; [|exact IH]. split; [apply piece_mk; auto; lia|]. split; [exact Hw|]. intros s s' [= <-] E. inversion Hl; subst. injection E as <-. cbn. lia.
Qed.

Lemma valued_sized k v p q : spread p k -> valued k v q -> sized (to_value v).
Proof.
  intros (H1 & H2 & H3 & _) [[-> L]|[(_ & _ & _ & H) _]]; [|eapply laid_sized; exact H]. cbn [to_value]. apply leaf_sized; auto. intros s [= <-]. destruct H1. splits; auto. lia.
Qed.

Lemma valued_after k v p q : spread p k -> valued k v q -> forall s, v_span (to_value v) = Some s -> sp_end (dspan k) <= sp_end s.
Proof.
  intros (H1 & H2 & H3 & _) [[-> L]|[(_ & L2 & _ & H) _]] s E; [injection E as <-; lia|]. revert H E. generalize (to_value v). intros w H E. destruct H. injection E as <-. cbn in *. lia.
Qed.

Lemma path_sized : forall segs docs off ksp v e a b, src = a ++ join [cDOT] segs ++ b -> off = blen a -> B (sp_end ksp) -> sp_end ksp = blen a + blen (join [cDOT] segs) ->
  sized (to_value v) -> (forall s, v_span (to_value v) = Some s -> sp_end ksp <= sp_end s) -> path_entry docs off ksp segs v = Some e -> ent_sized (to_entry e).
Proof.
  induction segs as [|s segs IH]; intros docs off ksp v e a b E -> Hk Ek Hv Hf H; [discriminate|]. cbn [path_entry] in H.
  assert (Hs : B (blen a) /\ B (blen a + blen s)).
  { split; [eexists a, _; eauto|]. exists (a ++ s), (match segs with [] => b | _ => [cDOT] ++ join [cDOT] segs ++ b end). rewrite blen_app. split; [|lia]. rewrite E.
    destruct segs as [|s2 segs]; [cbn [join]; now rewrite <- app_assoc|]. change (join [cDOT] (s :: s2 :: segs)) with (s ++ [cDOT] ++ join [cDOT] (s2 :: segs)). now rewrite <- !app_assoc. }
  destruct segs as [|s2 segs].
  - injection H as <-. cbn [to_entry]. split; [cbn [e_key v_span]; apply piece_mk; [lia|apply Hs|apply Hs]|]. split; [exact Hv|]. intros s1 s' [= <-] E'. apply Hf in E'. cbn. lia.
  - change (join [cDOT] (s :: s2 :: segs)) with (s ++ [cDOT] ++ join [cDOT] (s2 :: segs)) in E, Ek. rewrite !blen_app in Ek. change (blen [cDOT]) with 1 in Ek.
    destruct (path_entry [] (blen a + blen s + 1) ksp (s2 :: segs) v) as [e'|] eqn:P; [|discriminate]. injection H as <-. cbn [to_entry to_value map]. split; [cbn [e_key v_span]; apply piece_mk; [lia|apply Hs|apply Hs]|]. cbn [e_val].
    apply (IH [] _ ksp v e' (a ++ s ++ [cDOT]) b) in P; auto; [|rewrite E; now rewrite <- !app_assoc|rewrite !blen_app; change (blen [cDOT]) with 1; lia|rewrite !blen_app; change (blen [cDOT]) with 1; lia].
    split; [|intros s1 s' [= <-] [= <-]; cbn; lia].
    constructor; [unfold cover; cbn [sp_start sp_end]; apply piece_mk; [lia|apply Hs|exact Hk]|intros es osp [= <- _]; constructor; [exact P|constructor]|discriminate].
Qed.

Lemma root_sized l k v tr r docs p e lo : gline l k v tr r -> root_entry k v docs p e -> row lo l -> ent_sized (to_entry e) /\ exists q, row q r.
Proof.
  intros Hl He H. destruct (proj1 (proj2 (proj2 (proj2 g_row))) _ _ _ _ _ Hl _ H) as (K & q & V & R). split; [|eauto]. pose proof (valued_sized _ _ _ _ K V) as Hv. pose proof (valued_after _ _ _ _ K V) as Hf.
  destruct He as [k v docs tag pl kd _ _ _|sp t segs v docs e _ Et _ Hp].
  - destruct K as (K1 & K2 & K3 & _). split; [|split; [exact Hv|]]; cbn.
    + intros s [= <-]. destruct K1. splits; auto. lia.
    + intros s s' [= <-] E. apply Hf in E. lia.
  - destruct (line_key _ _ _ _ _ Hl sp t eq_refl) as [r0 ->]. destruct H as [H _]. inversion_clear H as [|? ? Hx _]. destruct Hx as (x & Hx & -> & _). unfold lexeme_text in Hx. cbn [lx_span] in Hx. pose proof (len_text _ _ Hx) as W. apply slice_some in Hx as (a & c & E & Ea & _).
    rewrite Et in E, W. refine (path_sized segs docs (sp_start sp) sp v e a c E (eq_sym Ea) _ _ Hv Hf Hp); [apply K|lia].
Qed.

Lemma groot_sized opened docs ls es evs h : groot opened docs ls es evs h -> forall p, row p ls -> Forall ent_sized (map to_entry es).
Proof.
  induction 1 as [opened|opened docs l r es evs h _ _ IH|opened docs sp t r es evs h _ IH|opened docs sp t u r es evs h _ _ IH|opened docs l k v tr r p e es evs h _ Hl He _ IH]; intros lo H; [constructor| | | |];
    try (apply row_cons in H as (H1 & H2 & H3 & _); eauto; fail).
  destruct (root_sized _ _ _ _ _ _ _ _ _ Hl He H) as [E [q R]]. cbn [map]. constructor; eauto.
Qed.
Lemma gbody_sized docs ls ks es evs e r : gbody docs ls ks es evs e r -> forall p, row p ls -> Forall ent_sized (map to_entry es).
Proof.
  induction 1 as [sp r|docs l r ks es evs e r' _ _ IH|docs sp t r ks es evs e r' _ IH|docs sp t u r ks es evs e r' _ _ IH|docs l k v tr r p x ks ks' es evs e r' Hl He _ IH _]; intros lo H; [constructor| | | |];
    try (apply row_cons in H as (H1 & H2 & H3 & _); eauto; fail).
  destruct (root_sized _ _ _ _ _ _ _ _ _ Hl He H) as [E [q R]]. cbn [map]. constructor; eauto.
Qed.
Lemma gdoc_sized ls es evs : gdoc (blen src) ls es evs -> row 0 ls -> Forall ent_sized (map to_entry es).
Proof.
  destruct 1 as [ls es evs h Hr _|ls lead sp r ks es evs e r' Hl Hb _ _]; intros H.
  - eapply groot_sized; eassumption.
  - destruct (glead_row _ _ _ Hl _ H) as [q R]. apply row_cons in R as (H1 & H2 & H3 & _). eapply gbody_sized; eassumption.
Qed.
End Laying.

Lemma sized_doc src es : Forall (ent_sized src) es -> sized (between src) (Val None (PObj es None) None).
Proof. intros H. constructor; [discriminate|intros es' osp [= <- _]; exact H|discriminate]. Qed.
