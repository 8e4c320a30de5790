(** Formatted text reads back as the document that the tree shows: acts and grammar. *)
From Coq Require Import String.
From Verif Require Import Base BaseProofs TokModel TokSpec TokProofs LexModel LexSpec LexProofs LexRunProofs RetokProofs RelexProofs.
From Verif Require Import ParseModel ParseSpec PathSpec TreeSpec GrammarSpec CstModel CstSpec CstProofs CstFmtModel CstShapeProofs CstFmtSpec CstFmtProofs AgreeSpec AgreeUnique FmtLexProofs FmtRowProofs.
Local Open Scope nat_scope.

(** ** The entries and items that acts tell *)
Inductive tells (root : bool) : list str -> list act -> list (dval * dval) -> list dentry -> Prop :=
| te_end : tells root [] [] [] []
| te_comment docs t acts kvs es : tells root docs acts kvs es -> tells root docs (AComment t :: acts) kvs es
| te_doc docs t u acts kvs es : doc_text t u -> tells root (docs ++ [u]) acts kvs es -> tells root docs (ADoc t :: acts) kvs es
| te_line docs k v ds e acts kvs es : docs_are root docs ds -> entry_of root k v ds e -> tells root [] acts kvs es ->
    tells root docs (ALine k v :: acts) ((k, v) :: kvs) (e :: es).
Inductive tells_items : list act -> list dval -> Prop :=
| ti_end : tells_items [] []
| ti_comment t acts ds : tells_items acts ds -> tells_items (AComment t :: acts) ds
| ti_item d acts ds : tells_items acts ds -> tells_items (AItem d :: acts) (d :: ds).
Definition remark_act (a : act) : Prop := exists t, a = AComment t.
Lemma tells_none root docs acts es : tells root docs acts [] es -> docs = [] /\ es = [] /\ Forall remark_act acts.
Proof.
  remember [] as kvs eqn:E. induction 1 as [|docs t acts kvs es H IH|docs t u acts kvs es D H IH|]; try discriminate E.
  - auto.
  - destruct (IH E) as (-> & -> & F). splits; auto. constructor; [now exists t|exact F].
  - destruct (IH E) as (X & _). destruct docs; discriminate X.
Qed.

(** ** Things equal up to places *)
Lemma key_id_unplace : forall d, key_id (unplace d) = key_id d.
Proof. fix IH 1. intros [sp t k|sp|s1 items s2|s1 es s2|s1 n [w|] s2]; cbn; try reflexivity. now rewrite IH. Qed.
Lemma key_id_same k k' : same k k' -> key_id k = key_id k'.
Proof. intros H. rewrite <- (key_id_unplace k), H. apply key_id_unplace. Qed.
Lemma same_sym a b : same a b -> same b a.
Proof. unfold same. congruence. Qed.
Lemma shape_same v v' : same v v' -> value_shape v = value_shape v'.
Proof. intros E. destruct v, v'; (discriminate E || reflexivity). Qed.
Lemma path_entry_some segs : forall docs off ksp v, segs <> [] -> exists e, path_entry docs off ksp segs v = Some e.
Proof.
  induction segs as [|s segs IH]; intros docs off ksp v H; [now destruct H|]. cbn [path_entry]. destruct segs as [|s2 segs]; [eauto|].
  destruct (IH [] (off + blen s + 1) ksp v ltac:(discriminate)) as [e ->]. eauto.
Qed.
Lemma root_entry_same k v ds p e k' v' ds' : root_entry k v ds p e -> same k k' -> same v v' -> exists e', root_entry k' v' ds' p e'.
Proof.
  intros H Ek Ev. destruct H as [k v docs tag pl kd ND NH K|sp t segs v docs e Hi Ej Hs Ep].
  - eexists. apply re_plain; [|intros sp t ->|].
    + intros D. apply ND. eapply dotted_same; [apply same_sym, Ek|exact D].
    + destruct k; try discriminate Ek. injection Ek as -> ->. now apply (NH sp0 t).
    + eapply key_same; eassumption.
  - destruct k' as [sp' t' k'| | | |]; try discriminate Ek. injection Ek as <- <-. destruct (path_entry_some segs ds' (sp_start sp') sp' v') as [e' Ee].
    { intros ->. discriminate Ep. }
    exists e'. eapply re_path; eauto.
Qed.
Lemma root_path_unique k v ds p e v2 ds2 p2 e2 : root_entry k v ds p e -> root_entry k v2 ds2 p2 e2 -> p = p2.
Proof.
  intros H H'. destruct H as [k v docs tag pl kd ND NH K|sp t segs v docs e Hi Ej Hs Ep]; inversion H' as [k2 v2' d2 tag' pl' kd' ND' NH' K' |sp' t' segs' v2' d2 e2' Hi' Ej' Hs' Ep']; subst.
  - destruct (key_unique _ _ _ _ _ _ _ K K') as (<- & <- & _). reflexivity.
  - exfalso. apply ND. exists sp', (join [cDOT] p2). auto.
  - exfalso. match goal with X : ~ dotted_key _ |- _ => apply X end. eexists _, _. split; [reflexivity|exact Hi].
  - match goal with X : join _ _ = join _ _ |- _ => apply (f_equal (split_on cDOT)) in X end.
    rewrite <- (GrammarRunProofs.split_dot_join segs), <- (GrammarRunProofs.split_dot_join p2); auto; congruence || (intros ->; (discriminate Ep || discriminate Ep')).
Qed.
Definition alike (a b : assign) : Prop := as_path a = as_path b /\ as_kind a = as_kind b.
Lemma alike_current h0 h0' r x x' : Forall2 alike h0 h0' -> Forall2 alike x x' -> current_root r h0 x -> current_root r h0' x'.
Proof.
  intros F0 F1 [C1 C2]. split.
  - intros h b ->. apply Forall2_app_inv_r in F0 as (g & c & _ & Fc & ->). inversion Fc as [|y b' ? ? [A _] Fn]; subst. inversion Fn; subst. specialize (C1 _ _ eq_refl). unfold root_key in *. now rewrite <- A.
  - clear - F1 C2. induction F1 as [|a b x x' [A _] _ IH]; [constructor|]. inversion C2; subst. constructor; auto. unfold root_key in *. now rewrite <- A.
Qed.
Lemma alike_sym h h' : Forall2 alike h h' -> Forall2 alike h' h.
Proof. induction 1 as [|a b h h' [A B] _ IH]; constructor; [split; auto|exact IH]. Qed.
Lemma alike_in q h h' : Forall2 alike h h' -> In q h' -> exists p, In p h /\ alike p q.
Proof. induction 1 as [|a b h h' A _ IH]; intros [].
  - subst. exists a. split; [now left|exact A].
  - destruct (IH H) as (p & Hp & E). exists p. split; [now right|exact E].
Qed.
Lemma alike_fine h1 h1' a a' : Forall2 alike h1 h1' -> alike a a' -> fine_after h1 a -> fine_after h1' a'.
Proof.
  intros F [Ea _] (A & B & C). unfold fine_after. rewrite <- Ea. splits.
  - intros h b ->. apply Forall2_app_inv_r in F as (g & c & _ & Fc & ->). inversion Fc as [|y b' ? ? [E _] Fn]; subst. inversion Fn; subst. rewrite <- E. eauto.
  - intros t ((q & Hq & Et & Ek) & N). apply (B t). split; [|exact N]. destruct (alike_in _ _ _ F Hq) as (p & Hp & E1 & E2). exists p. splits; [exact Hp|congruence|congruence].
  - intros c Hc (P & x & q1 & y & q2 & z & -> & P1 & P2). apply (C c Hc). split; [exact P|].
    apply Forall2_app_inv_r in F as (x' & r1 & _ & F & ->). inversion F as [|p1 ? r2 ? [E1 _] F2]; subst. apply Forall2_app_inv_r in F2 as (y' & r3 & _ & F2 & ->). inversion F2 as [|p2 ? z' ? [E2 _] _]; subst.
    exists x', p1, y', p2, z'. splits; [reflexivity|congruence|congruence].
Qed.
Lemma alike_paths h h' : Forall2 alike h h' -> paths_fine h -> paths_fine h'.
Proof.
  intros F H h0 h1 a h2 r -> C. apply Forall2_app_inv_r in F as (g0 & r1 & F0 & F & ->). apply Forall2_app_inv_r in F as (g1 & r2 & F1 & F & ->). inversion F as [|a' ? g2 ? Fa F2]; subst.
  apply (alike_fine g1 h1 a' a F1 Fa). eapply H; [reflexivity|]. eapply (alike_current h0 g0 r (h1 ++ [a])); [now apply alike_sym| |exact C].
  apply Forall2_app; [now apply alike_sym|]. constructor; [|constructor]. destruct Fa. split; auto.
Qed.

(** ** From acts to the grammar *)
Lemma follow_items lt acts r : follow false lt acts r -> forall e ls ds, lt = LxSeqEnd e :: ls -> tells_items acts ds ->
  exists ds', gitems r ds' [] e ls /\ map unplace ds = map unplace ds'.
Proof.
  remember false as q eqn:Q. induction 1 as [q lt|q lt sp acts r H IH|lt sp acts r H IH|q lt sp t acts r H IH|q lt sp t acts r H IH|q lt k v k' v' r l1 acts G E1 E2 H IH|q lt d d' r l1 acts G E H IH|q lt sp inner r e0 l1 acts _ _ H IH];
    intros e ls ds -> T; try discriminate Q; try (now inversion T).
  - inversion T; subst. exists []. split; [constructor|reflexivity].
  - destruct (IH Q _ _ _ eq_refl T) as (ds' & G & E). exists ds'. split; [now constructor|exact E].
  - inversion T; subst. destruct (IH eq_refl _ _ _ eq_refl ltac:(eassumption)) as (ds' & G & E). exists ds'. split; [now constructor|exact E].
  - inversion T; subst. destruct (IH eq_refl _ _ _ eq_refl ltac:(eassumption)) as (ds' & G' & E'). exists (d' :: ds'). split.
    + exact (gi_item _ _ _ _ _ _ _ _ G G').
    + cbn [map]. now rewrite E', E.
Qed.
Lemma doc_block_are docs : docs_are false (map snd docs) (doc_block docs).
Proof. destruct docs as [|[s u] docs]; reflexivity. Qed.
Lemma follow_entries q lt acts r : follow q lt acts r -> forall e ls docs kvs es, lt = LxObjEnd e :: ls -> tells false (map snd docs) acts kvs es ->
  exists es', gents docs r (map (fun kv => key_id (fst kv)) kvs) es' [] e ls /\ map unplace_entry es = map unplace_entry es'.
Proof.
  induction 1 as [q lt|q lt sp acts r H IH|lt sp acts r H IH|q lt sp t acts r H IH|q lt sp t acts r H IH|q lt k v k' v' r l1 acts G E1 E2 H IH|q lt d d' r l1 acts G E H IH|q lt sp inner r e0 l1 acts _ _ H IH];
    intros e ls docs kvs es -> T; try (now inversion T).
  - inversion T as [E1 E2 E3 E4| | |]; subst. symmetry in E1. apply map_eq_nil in E1 as ->. exists []. split; [constructor|reflexivity].
  - destruct (IH _ _ _ _ _ eq_refl T) as (es' & G & E). exists es'. split; [|exact E]. apply ge_sep; [left; exact I|exact G].
  - destruct (IH _ _ _ _ _ eq_refl T) as (es' & G & E). exists es'. split; [|exact E]. apply ge_sep; [left; exact I|exact G].
  - inversion T; subst. destruct (IH _ _ _ _ _ eq_refl ltac:(eassumption)) as (es' & G & E). exists es'. split; [|exact E]. apply ge_sep; [right; exact I|exact G].
  - inversion T as [| |? ? u ? ? ? D T'|]; subst. destruct (IH e ls (docs ++ [(sp, u)]) kvs es eq_refl) as (es' & G & E); [now rewrite map_app|]. exists es'. split; [|exact E]. eapply ge_doc; eauto.
  - inversion T as [| | |? ? ? ds x ? kvs' es0 D En T']; subst. destruct (IH e ls [] kvs' es0 eq_refl T') as (es' & G' & E).
    pose proof En as Eo. destruct x as [dx a b tag pl kd w c]. cbn [entry_of] in Eo. destruct Eo as (-> & -> & K).
    pose proof (key_same _ _ _ _ _ E1 K) as K'. exists (DEnt (doc_block docs) (dspan k') (dspan k') tag pl kd v' (dspan v') :: es'). split.
    + cbn [map fst]. rewrite (key_id_same _ _ E1). exact (ge_entry docs r k' v' tag pl kd [] l1 _ es' [] e ls G K' G').
    + cbn [map]. rewrite E. f_equal. apply (entry_same false k k' v v' (map snd docs) ds (doc_block docs)); auto; [apply doc_block_are|]. cbn. auto.
Qed.
Lemma line_key k v ds p e ls k' v' tr l1 : root_entry k v ds p e -> same k k' -> gline ls k' v' tr l1 -> no_open_brace ls.
Proof.
  intros R E G sp r ->. assert (exists d tr' r', gval (LxObjStart sp :: r) d tr' r' /\ same k d) as (d & tr' & r' & GV & Ed) by (inversion G; subst; eauto).
  inversion GV; subst. destruct k; try discriminate Ed. inversion R; subst. match goal with X : key_is _ _ _ _ |- _ => inversion X end.
Qed.
Lemma follow_root q lt acts r : follow q lt acts r -> lt = [] -> forall opened us docs kvs es h, tells true us acts kvs es -> map snd docs = map (fun u => [u]) us ->
  Forall2 assigns kvs h -> exists es' evs h', groot opened docs r es' evs h' /\ map unplace_entry es = map unplace_entry es' /\ Forall2 alike h h'.
Proof.
  induction 1 as [q lt|q lt sp acts r H IH|lt sp acts r H IH|q lt sp t acts r H IH|q lt sp t acts r H IH|q lt k v k' v' r l1 acts G E1 E2 H IH|q lt d d' r l1 acts G E H IH|q lt sp inner r e0 l1 acts _ _ H IH];
    intros -> opened us docs kvs es h T Hd F; try (now inversion T).
  - inversion T; subst. apply map_eq_nil in Hd as ->. inversion F; subst. eexists [], _, []. splits; [constructor|reflexivity|constructor].
  - destruct (IH eq_refl opened _ _ _ _ _ T Hd F) as (es' & evs & h' & G & E & A). exists es', evs, h'. splits; auto. apply gr_sep; [exact I|exact G].
  - destruct (IH eq_refl opened _ _ _ _ _ T Hd F) as (es' & evs & h' & G & E & A). exists es', evs, h'. splits; auto. apply gr_sep; [exact I|exact G].
  - inversion T; subst. destruct (IH eq_refl opened us docs kvs es h ltac:(assumption) Hd F) as (es' & evs & h' & G & E & A). eexists es', _, h'. splits; auto. apply gr_comment, G.
  - inversion T as [| |? ? u ? ? ? D T'|]; subst. destruct (IH eq_refl true (us ++ [u]) (docs ++ [(sp, [u])]) kvs es h T') as (es' & evs & h' & G & E & A).
    { rewrite !map_app, Hd. reflexivity. } { exact F. }
    eexists es', _, h'. splits; auto. eapply gr_doc; eauto.
  - inversion T as [| | |? ? ? ds x ? kvs' es0 D En T']; subst. inversion F as [|kv a ? h0 (ds2 & e2 & R2 & Ka) F']; subst. cbn [fst snd] in *.
    destruct (IH eq_refl true [] [] kvs' es0 h0 T' eq_refl F') as (es' & evs & h' & G' & E & A). pose proof En as Eo. destruct Eo as (p & R).
    pose proof (root_path_unique _ _ _ _ _ _ _ _ _ R R2) as Ep. destruct (root_entry_same _ _ _ _ _ k' v' (docs ++ docs_in []) R E1 E2) as (e' & R').
    eexists (e' :: es'), _, ((p, dspan k', value_shape v') :: h'). splits.
    + exact (gr_entry opened docs _ _ _ _ _ _ _ _ _ _ (line_key _ _ _ _ _ _ _ _ _ _ R E1 G) G R' G').
    + cbn [map]. rewrite E. f_equal. apply (entry_same true k k' v v' us ds (docs ++ docs_in [])); auto; [|now exists p]. unfold docs_are. cbn [docs_in flat_map]. now rewrite app_nil_r.
    + constructor; [|exact A]. split; [now rewrite <- Ep|]. cbn. rewrite Ka. now apply shape_same.
Qed.
Lemma follow_body q lt acts r : follow q lt acts r -> forall e ls us docs kvs es ks, lt = LxObjEnd e :: ls -> tells true us acts kvs es -> map snd docs = map (fun u => [u]) us ->
  braced_keys kvs ks -> exists es' evs, gbody docs r ks es' evs e ls /\ map unplace_entry es = map unplace_entry es'.
Proof.
  induction 1 as [q lt|q lt sp acts r H IH|lt sp acts r H IH|q lt sp t acts r H IH|q lt sp t acts r H IH|q lt k v k' v' r l1 acts G E1 E2 H IH|q lt d d' r l1 acts G E H IH|q lt sp inner r e0 l1 acts _ _ H IH];
    intros e ls us docs kvs es ks -> T Hd F; try (now inversion T).
  - inversion T; subst. apply map_eq_nil in Hd as ->. inversion F; subst. eexists [], _. split; [constructor|reflexivity].
  - destruct (IH _ _ _ _ _ _ _ eq_refl T Hd F) as (es' & evs & G & E). exists es', evs. split; auto. apply gb_sep; [exact I|exact G].
  - destruct (IH _ _ _ _ _ _ _ eq_refl T Hd F) as (es' & evs & G & E). exists es', evs. split; auto. apply gb_sep; [exact I|exact G].
  - inversion T; subst. destruct (IH _ _ us docs kvs es ks eq_refl ltac:(assumption) Hd F) as (es' & evs & G & E). eexists es', _. split; auto. apply gb_comment, G.
  - inversion T as [| |? ? u ? ? ? D T'|]; subst. destruct (IH e ls (us ++ [u]) (docs ++ [(sp, [u])]) kvs es ks eq_refl T') as (es' & evs & G & E).
    { rewrite !map_app, Hd. reflexivity. } { exact F. }
    eexists es', _. split; auto. eapply gb_doc; eauto.
  - inversion T as [| | |? ? ? ds x ? kvs' es0 D En T']; subst.
    assert (exists ks0, braced_keys kvs' ks0 /\ (dotted_key k' /\ ks = ks0 \/ ~ dotted_key k' /\ ks = key_id k' :: ks0)) as (ks0 & F' & Kk).
    { inversion F as [|? ? ? ? Dk F'|? ? ? ? Dk F']; subst; eexists; (split; [exact F'|]).
      - left. split; [eapply dotted_same; eauto|reflexivity].
      - right. split; [|now rewrite (key_id_same _ _ E1)]. intros D'. apply Dk. eapply dotted_same; [apply same_sym, E1|exact D']. }
    destruct (IH e ls [] [] kvs' es0 ks0 eq_refl T' eq_refl F') as (es' & evs & G' & E). pose proof En as (p & R).
    destruct (root_entry_same _ _ _ _ _ k' v' (docs ++ docs_in []) R E1 E2) as (e' & R'). eexists (e' :: es'), _. split.
    + eapply gb_entry; [exact G|exact R'|exact G'|exact Kk].
    + cbn [map]. rewrite E. f_equal. apply (entry_same true k k' v v' us ds (docs ++ docs_in [])); auto; [|now exists p]. unfold docs_are. cbn [docs_in flat_map]. now rewrite app_nil_r.
Qed.
(** Comments before and after root braces. *)
Lemma follow_remarks lt acts r : follow false lt acts r -> lt = [] -> Forall remark_act acts -> Forall is_remark r.
Proof.
  remember false as q eqn:Q. induction 1 as [q lt|q lt sp acts r H IH|lt sp acts r H IH|q lt sp t acts r H IH|q lt sp t acts r H IH|q lt k v k' v' r l1 acts G E1 E2 H IH|q lt d d' r l1 acts G E H IH|q lt sp inner r e0 l1 acts _ _ H IH];
    intros -> F; try discriminate Q; try (apply Forall_inv in F as (x & F); discriminate F).
  - constructor.
  - constructor; [exact I|auto].
  - inversion F; subst. constructor; [exact I|auto].
Qed.
Lemma follow_lead q lt acts r : follow q lt acts r -> forall a inner b, acts = a ++ ABraces inner :: b -> Forall remark_act a ->
  exists lead sp r1 e r2, glead r lead (LxObjStart sp :: r1) /\ follow true (LxObjEnd e :: r2) inner r1 /\ follow q lt b r2.
Proof.
  induction 1 as [q lt|q lt sp acts r H IH|lt sp acts r H IH|q lt sp t acts r H IH|q lt sp t acts r H IH|q lt k v k' v' r l1 acts G E1 E2 H IH|q lt d d' r l1 acts G E3 H IH|q lt sp inner0 r e0 l1 acts F0 _ H IH];
    intros a inner b E F.
  - destruct a; discriminate E.
  - destruct (IH _ _ _ E F) as (lead & sp' & r1 & e & r2 & X & Y & Z). eexists _, _, _, _, _. splits; [apply gd_sep; [exact I|exact X]|exact Y|exact Z].
  - destruct (IH _ _ _ E F) as (lead & sp' & r1 & e & r2 & X & Y & Z). eexists _, _, _, _, _. splits; [apply gd_sep; [exact I|exact X]|exact Y|exact Z].
  - destruct a as [|x a]; [discriminate E|]. cbn in E. injection E as <- E. inversion F; subst. destruct (IH _ _ _ eq_refl ltac:(assumption)) as (lead & sp' & r1 & e & r2 & X & Y & Z). eexists _, _, _, _, _. splits; [apply gd_comment; exact X|exact Y|exact Z].
  - exfalso. destruct a as [|x a]; [discriminate E|]. cbn in E. injection E as <- E. apply Forall_inv in F as (y & F). discriminate F.
  - exfalso. destruct a as [|x a]; [discriminate E|]. cbn in E. injection E as <- E. apply Forall_inv in F as (y & F). discriminate F.
  - exfalso. destruct a as [|x a]; [discriminate E|]. cbn in E. injection E as <- E. apply Forall_inv in F as (y & F). discriminate F.
  - destruct a as [|x a].
    + injection E as -> ->. eexists _, _, _, _, _. splits; [apply gd_here|exact F0|assumption].
    + exfalso. cbn in E. injection E as <- E. apply Forall_inv in F as (y & F). discriminate F.
Qed.
