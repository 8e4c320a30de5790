(** Proofs for C57: a tree shows one document only, up to places. *)
From Verif Require Import Base BaseProofs TokModel LexModel LexSpec LexProofs EscapeProofs CstModel ParseModel ParseSpec PathSpec TreeSpec GrammarSpec GrammarRunProofs AgreeSpec.
Local Open Scope nat_scope.

Scheme shows_mut := Minimality for shows Sort Prop
  with shows_items_mut := Minimality for shows_items Sort Prop
  with shows_entries_mut := Minimality for shows_entries Sort Prop
  with shows_line_mut := Minimality for shows_line Sort Prop
  with shows_value_mut := Minimality for shows_value Sort Prop
  with shows_attrs_mut := Minimality for shows_attrs Sort Prop.
Combined Scheme shows_all from shows_mut, shows_items_mut, shows_entries_mut, shows_line_mut, shows_value_mut, shows_attrs_mut.

Lemma hashes_inj n m (a b : str) : repeat cHASH n ++ cDQ :: a = repeat cHASH m ++ cDQ :: b -> n = m /\ a = b.
Proof. revert m. induction n as [|n IH]; intros [|m]; cbn; intros [= H]; auto. destruct (IH _ H). auto. Qed.

Lemma blank_delim ind d ind' d' : Forall blank_char ind -> Forall blank_char ind' -> d <> [] -> d' <> [] -> forallb is_delim_char d = true -> forallb is_delim_char d' = true ->
  ind ++ d = ind' ++ d' -> ind = ind'.
Proof.
  intros Hi. revert ind'. induction Hi as [|c i Hc Hi IH]; intros [|c' i'] Hi' Hd Hd' Fd Fd' E; cbn in E; auto.
  - exfalso. apply Forall_inv in Hi' as B. destruct d as [|x d]; [contradiction|]. injection E as -> _. cbn in Fd. apply andb_prop in Fd as [F _]. destruct B as [-> | ->]; discriminate F.
  - exfalso. destruct d' as [|x d']; [contradiction|]. injection E as -> _. cbn in Fd'. apply andb_prop in Fd' as [F _]. destruct Hc as [-> | ->]; discriminate F.
  - injection E as -> E. f_equal. inversion Hi'; subst. eapply IH; eauto.
Qed.

Lemma scalar_unique c t k t' k' : shows_scalar c t k -> shows_scalar c t' k' -> t = t' /\ k = k'.
Proof.
  intros H H'. inversion H; subst; inversion H'; subst; auto.
  - match goal with E : _ ++ [_] = _ ++ [_] |- _ => apply app_inj_tail in E as [-> _] end. split; [eapply decodes_fun; eauto|auto].
  - match goal with E : repeat _ _ ++ _ = _ |- _ => apply hashes_inj in E as [-> E]; apply (app_inv_tail (cDQ :: repeat cHASH n)) in E end. auto.
  - match goal with E : ?i ++ ?d = ?i' ++ ?d' |- _ => assert (i = i') as -> by (apply (blank_delim i d i' d'); assumption) end. split; [eapply heredoc_value_fun; eauto|auto].
Qed.

Lemma doc_text_fun t u u' : doc_text t u -> doc_text t u' -> u = u'.
Proof. intros H H'. inversion H; subst; inversion H'; subst; auto; match goal with N : forall v, _ <> _ |- _ => exfalso; eapply N; eauto end. Qed.

(** ** Keys, equal up to places *)
Definition same (d d' : dval) : Prop := unplace d = unplace d'.

Lemma key_same k k' tag pl kd : same k k' -> key_is k tag pl kd -> key_is k' tag pl kd.
Proof.
  unfold same. intros E K. destruct K; destruct k'; cbn in E; try discriminate E; try (injection E; intros; subst); try constructor.
  - destruct payload; [discriminate|constructor].
  - destruct payload as [[]|]; try discriminate; constructor.
  - destruct payload as [[]|]; try discriminate. cbn in *. match goal with E : Some _ = Some _ |- _ => injection E; intros; subst end. now constructor.
Qed.
Lemma key_unique k tag pl kd tag' pl' kd' : key_is k tag pl kd -> key_is k tag' pl' kd' -> tag = tag' /\ pl = pl' /\ kd = kd'.
Proof. intros H H'. inversion H; subst; inversion H'; subst; auto. Qed.
Lemma dotted_same k k' : same k k' -> dotted_key k -> dotted_key k'.
Proof. intros E (sp & t & -> & Hi). destruct k'; try discriminate E. injection E as <- <-. exists sp0, t. auto. Qed.

Lemma docs_same root us ds ds' : docs_are root us ds -> docs_are root us ds' -> map (fun d : span * list str => (nowhere, snd d)) ds = map (fun d => (nowhere, snd d)) ds'.
Proof. unfold docs_are. intros H H'. rewrite <- !(map_map snd (fun u => (nowhere, u))). congruence. Qed.

Lemma path_same segs : forall docs docs' off off' ksp ksp' v v' e e', map (fun d : span * list str => (nowhere, snd d)) docs = map (fun d => (nowhere, snd d)) docs' -> same v v' ->
  path_entry docs off ksp segs v = Some e -> path_entry docs' off' ksp' segs v' = Some e' -> unplace_entry e = unplace_entry e'.
Proof.
  induction segs as [|s segs IH]; intros docs docs' off off' ksp ksp' v v' e e' Hd Hv E E'; [discriminate E|]. cbn [path_entry] in E, E'. destruct segs as [|s2 segs].
  - injection E as <-. injection E' as <-. cbn. rewrite Hd. f_equal. exact Hv.
  - destruct (path_entry [] _ ksp _ v) as [e1|] eqn:E1; [|discriminate E]. destruct (path_entry [] _ ksp' _ v') as [e2|] eqn:E2; [|discriminate E']. injection E as <-. injection E' as <-.
    cbn [unplace_entry unplace map]. rewrite Hd. do 3 f_equal. eapply (IH [] []); eauto.
Qed.

Lemma entry_same root k k' v v' us ds ds' e e' : same k k' -> same v v' -> docs_are root us ds -> docs_are root us ds' -> entry_of root k v ds e -> entry_of root k' v' ds' e' ->
  unplace_entry e = unplace_entry e'.
Proof.
  intros Hk Hv Hd Hd' E E'. assert (D := docs_same _ _ _ _ Hd Hd'). destruct root; cbn in E, E'.
  - destruct E as [p E], E' as [p' E']. destruct E as [k v docs tag pl kd ND NH K|sp t segs v docs e Hi Ej Hs Ep].
    + destruct E' as [k' v' docs' tag' pl' kd' ND' NH' K'|sp t segs v' docs' e' Hi Ej Hs Ep].
      * destruct (key_unique _ _ _ _ _ _ _ (key_same _ _ _ _ _ Hk K) K') as (<- & <- & <-). cbn. rewrite D, Hv. reflexivity.
      * exfalso. apply ND. apply (dotted_same (DScalar sp t Bare)); [now symmetry|]. exists sp, t. auto.
    + destruct E' as [k' v' docs' tag' pl' kd' ND' NH' K'|sp' t' segs' v' docs' e' Hi' Ej' Hs' Ep'].
      * exfalso. apply ND'. apply (dotted_same (DScalar sp t Bare)); [assumption|]. exists sp, t. auto.
      * injection Hk as Et. assert (segs = segs') as <-.
        { rewrite <- (split_dot_join segs), <- (split_dot_join segs'); auto; [congruence| |].
          - intros ->. discriminate Ep'.
          - intros ->. discriminate Ep. }
        eapply path_same; eauto.
  - destruct e as [d1 ? ? tag pl kd w ?], e' as [d2 ? ? tag' pl' kd' w' ?]. destruct E as (-> & -> & K), E' as (-> & -> & K'). destruct (key_unique _ _ _ _ _ _ _ (key_same _ _ _ _ _ Hk K) K') as (<- & <- & <-).
    cbn. rewrite D, Hv. reflexivity.
Qed.

(** ** Trees *)
Lemma gap_value ws cv ws' ws2 : Forall is_gap ws2 -> ws ++ Node VALUE [cv] :: ws' = ws2 -> False.
Proof. intros H <-. apply Forall_app in H as [_ H]. inversion H as [|? ? (t & E) _]. discriminate E. Qed.
Lemma gaps_value : forall ws cv ws' ws2 cv2 ws2', Forall is_gap ws -> Forall is_gap ws2 -> ws ++ Node VALUE [cv] :: ws' = ws2 ++ Node VALUE [cv2] :: ws2' -> cv = cv2.
Proof.
  induction ws as [|w ws IH]; intros cv ws' [|w2 ws2] cv2 ws2' H H2 E; cbn in E.
  - injection E. auto.
  - injection E as E _. inversion H2 as [|? ? (t & ->) _]. discriminate E.
  - injection E as E _. inversion H as [|? ? (t & ->) _]. discriminate E.
  - injection E as _ E. inversion H; inversion H2; subst. eauto.
Qed.
Lemma triv_not_entry c cs : is_triv c -> c <> Node ENTRY cs.
Proof. intros (k & t & -> & _). discriminate. Qed.
Lemma line_shape c k v : shows_line c k v -> exists x r, c = Node ENTRY (Node KEY [x] :: r).
Proof. destruct 1; eauto. Qed.
Lemma skip_line c x r : is_triv c \/ c = tok Comma [cCOMMA] \/ c = Node ENTRY [] -> c <> Node ENTRY (Node KEY [x] :: r).
Proof. intros [H|[-> | ->]]; try discriminate. now apply triv_not_entry. Qed.
Lemma skip_doc t : ~ (is_triv (tok DocComment t) \/ tok DocComment t = tok Comma [cCOMMA] \/ tok DocComment t = Node ENTRY []).
Proof. intros [(k & x & [= <- _] & Hi)|[[=]|[=]]]. cbn in Hi. intuition discriminate. Qed.

Lemma shows_unique :
  (forall c d, shows c d -> forall d', shows c d' -> same d d') /\
  (forall cs ds, shows_items cs ds -> forall ds', shows_items cs ds' -> map unplace ds = map unplace ds') /\
  (forall root docs cs kvs es, shows_entries root docs cs kvs es -> forall kvs' es', shows_entries root docs cs kvs' es' -> map unplace_entry es = map unplace_entry es') /\
  (forall c k v, shows_line c k v -> forall k' v', shows_line c k' v' -> same k k' /\ same v v') /\
  (forall c v, shows_value c v -> forall v', shows_value c v' -> same v v') /\
  (forall cs es, shows_attrs cs es -> forall es', shows_attrs cs es' -> map unplace_entry es = map unplace_entry es').
Proof.
  apply shows_all; unfold same.
  - intros c t k sp H d' H'. inversion H'; subst; try (now inversion H). destruct (scalar_unique _ _ _ _ _ H H0) as [<- <-]. reflexivity.
  - intros sp d' H'. inversion H'; subst; [now inversion H|reflexivity].
  - intros n sp s2 _ d' H'. inversion H'; subst; [now inversion H|reflexivity].
  - intros n c d sp s2 _ _ IH d' H'. inversion H'; subst; [now inversion H|]. cbn. erewrite IH by eassumption. reflexivity.
  - intros n c d sp s2 _ _ IH d' H'. inversion H'; subst; [now inversion H|]. cbn. erewrite IH by eassumption. reflexivity.
  - intros cs ds s1 s2 _ IH d' H'. inversion H'; subst; [now inversion H|]. apply app_inj_tail in H as [-> _]. cbn. erewrite IH by eassumption. reflexivity.
  - intros cs kvs es s1 s2 _ IH _ d' H'. inversion H'; subst; [now inversion H|]. apply app_inj_tail in H as [-> _]. cbn. erewrite IH by eassumption. reflexivity.
  - intros ds' H'. inversion H'. reflexivity.
  - intros c cs ds Hc _ IH ds' H'. inversion H'; subst; auto. exfalso. eapply triv_not_entry; eauto.
  - intros c d cs ds _ IH1 _ IH2 ds' H'. inversion H'; subst; [exfalso; eapply triv_not_entry; eauto|]. cbn. f_equal; auto.
  - intros root kvs' es' H'. inversion H'. reflexivity.
  - intros root docs c cs kvs es Hc _ IH kvs' es' H'. inversion H'; subst.
    + eauto.
    + exfalso. now apply skip_doc in Hc.
    + exfalso. match goal with X : shows_line _ _ _ |- _ => destruct (line_shape _ _ _ X) as (x & r & ->) end. exact (skip_line _ _ _ Hc eq_refl).
  - intros root docs t u cs kvs es Hd _ IH kvs' es' H'. inversion H'; subst.
    + exfalso. eapply skip_doc; eauto.
    + assert (u0 = u) as -> by (eapply doc_text_fun; eauto). eauto.
    + match goal with X : shows_line _ _ _ |- _ => inversion X end.
  - intros root docs c k v ds e cs kvs es HL IHL Hd He _ IH kvs' es' H'. inversion H'; subst.
    + exfalso. destruct (line_shape _ _ _ HL) as (x & r & ->). match goal with X : _ \/ _ |- _ => exact (skip_line _ _ _ X eq_refl) end.
    + inversion HL.
    + cbn. f_equal; [|eauto]. match goal with Y : entry_of _ ?k1 ?v1 _ ?e1 |- _ = unplace_entry ?e1 => destruct (IHL k1 v1); [assumption|]; exact (entry_same root k k1 v v1 docs ds _ e e1 ltac:(assumption) ltac:(assumption) Hd ltac:(eassumption) He Y) end.
  - intros c k ws sp _ IH Hw k' v' H'. inversion H'; subst; [split; [auto|reflexivity]|]. exfalso. exact (gap_value _ _ _ _ Hw eq_refl).
  - intros c k ws cv v ws' _ IH Hw _ IHv Hw' k' v' H'. inversion H'; subst; [match goal with X : Forall is_gap (_ ++ Node VALUE _ :: _) |- _ => destruct (gap_value _ _ _ _ X eq_refl) end|]. assert (cv0 = cv) as -> by (eapply gaps_value; [| |eassumption]; assumption). auto.
  - intros c v Hc IH v' H'. inversion H'; subst; auto. exfalso. inversion Hc; match goal with X : shows_scalar _ _ _ |- _ => inversion X end.
  - intros. inversion H2; subst. 2: { cbn. erewrite H0; eauto. } inversion H3; inversion H4.
  - intros es' H'. inversion H'. reflexivity.
  - intros c cs es Hc _ IH es' H'. inversion H'; subst; auto. destruct Hc as (t & Hc). discriminate Hc.
  - intros key c v s1 ksp s2 cs es _ IH _ IH2 es' H'. inversion H'; subst; [match goal with X : is_gap _ |- _ => destruct X as (t & X); discriminate X end|]. cbn. f_equal; auto. erewrite IH; eauto.
Qed.

(** Root braces cannot be read as an entry. *)
Lemma object_key_not_shown docs cs pre ocs ws post kvs es :
  cs = pre ++ Node ENTRY (Node KEY [Node OBJECT ocs] :: ws) :: post -> Forall (fun c => is_triv c \/ c = tok Comma [cCOMMA] \/ c = Node ENTRY []) pre -> ~ shows_entries true docs cs kvs es.
Proof.
  intros E Hp H. revert docs cs kvs es E H. induction Hp as [|p pre Hp _ IH]; intros docs cs kvs es E H; cbn in E; subst cs.
  - inversion H; subst.
    + match goal with X : _ \/ _ |- _ => exact (skip_line _ _ _ X eq_refl) end.
    + match goal with X : entry_of _ ?k _ _ _, Y : shows_line _ ?k _ |- _ => destruct X as [p X]; inversion Y; subst end;
      match goal with Z : shows (Node OBJECT _) ?k, X : root_entry ?k _ _ _ _ |- _ => inversion Z; subst; [match goal with W : shows_scalar _ _ _ |- _ => inversion W end|inversion X; subst; match goal with W : key_is _ _ _ _ |- _ => inversion W end] end.
  - inversion H; subst.
    + eapply IH; eauto.
    + exact (skip_doc _ Hp).
    + match goal with Y : shows_line _ _ _ |- _ => destruct (line_shape _ _ _ Y) as (x & r & ->) end. exact (skip_line _ _ _ Hp eq_refl).
Qed.

Lemma lead_unique : forall pre x r post pre2 x2 r2 post2,
  Forall (fun c => is_triv c \/ c = tok Comma [cCOMMA] \/ c = Node ENTRY []) pre -> Forall (fun c => is_triv c \/ c = tok Comma [cCOMMA] \/ c = Node ENTRY []) pre2 ->
  pre ++ Node ENTRY (Node KEY [x] :: r) :: post = pre2 ++ Node ENTRY (Node KEY [x2] :: r2) :: post2 -> x = x2.
Proof.
  induction pre as [|p pre IH]; intros x r post [|p2 pre2] x2 r2 post2 H H2 E; cbn in E.
  - now injection E.
  - injection E as E _. apply Forall_inv in H2. subst p2. destruct (skip_line _ _ _ H2 eq_refl).
  - injection E as E _. apply Forall_inv in H. subst p. destruct (skip_line _ _ _ H eq_refl).
  - injection E as _ E. inversion H; inversion H2; subst. eauto.
Qed.

Lemma doc_unique_shown t es es' : shows_doc t es -> shows_doc t es' -> map unplace_entry es = map unplace_entry es'.
Proof.
  destruct shows_unique as (_ & _ & SE & _). intros H H'. destruct H as [cs kvs es h H _ _|pre cs ws post kvs ks es Hp H _ _ _ _]; inversion H'; subst.
  - eauto.
  - exfalso. match goal with X : Forall _ pre |- _ => exact (object_key_not_shown _ _ _ _ _ _ _ _ eq_refl X H) end.
  - exfalso. match goal with X : shows_entries _ _ (_ ++ _) _ _ |- _ => exact (object_key_not_shown _ _ _ _ _ _ _ _ eq_refl Hp X) end.
  - match goal with X : _ ++ Node ENTRY _ :: _ = pre ++ _ |- _ => apply lead_unique in X; [|assumption|assumption]; injection X as X; apply app_inj_tail in X as [-> _] end. eauto.
Qed.
