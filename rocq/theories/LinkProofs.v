(** The events of an error-free source are those of a document (C18). *)
From Verif Require Import Base BaseProofs TokModel LexModel ParseModel ParseSpec ParseProofs EmitProofs RunProofs TreeModel TreeSpec BuildProofs.

Definition no_err (e : event) : Prop := forall k, ev_kind e <> EvError k.

(** ** Events pushed while atoms are read *)

Definition aside (e : event) : Prop :=
  match ev_kind e with EvComment _ | EvDoc _ | EvError _ => True | _ => False end.

Section Aside.
Variable input : str.

Definition aside3 {A} (r : res (A * list event * lsrc)) : Prop :=
  forall a ev s, r = Ok (a, ev, s) -> Forall aside ev.

Lemma bind_inv {A B} (r : res A) (f : A -> res B) b : bind r f = Ok b -> exists a, r = Ok a /\ f a = Ok b.
Proof. destruct r; cbn; try discriminate. eauto. Qed.

Ltac inv_bind :=
  repeat match goal with
  | H : bind ?r _ = Ok _ |- _ => let x := fresh "x" in let Hx := fresh "Hx" in apply bind_inv in H; destruct H as (x & Hx & H)
  | H : (let '(_, _) := ?p in _) = Ok _ |- _ => destruct p
  | H : Ok _ = Ok _ |- _ => inversion H; subst; clear H
  | H : (if ?b then _ else _) = Ok _ |- _ => destruct b
  | H : (let (_, _) := ?p in _) = Ok _ |- _ => destruct p
  end.

Lemma aside_all f :
  (forall l s, aside3 (parse_atom input f l s)) /\
  (forall e b acc s a ev s', collect_loop input f e b acc s = Ok (a, ev, s') -> Forall aside ev /\ exists more, a = acc ++ more) /\
  (forall st en se du pe s, aside3 (obj_loop input f st en se du pe s)) /\
  (forall st el co s, aside3 (seq_loop input f st el co s)) /\
  (forall fi at_ s, aside3 (attr_loop input f fi at_ s)).
Proof.
  induction f as [|f (H1 & H2 & H3 & H4 & H5)]; [unfold aside3; splits; intros; discriminate|].
  unfold aside3 in *. splits.
  - intros l s a ev s' E. cbn [parse_atom] in E.
    destruct l; try (inv_bind; auto; fail).
    + inv_bind. destruct l; inv_bind; auto. destruct k; inv_bind; auto.
    + inv_bind; eauto. destruct l; inv_bind; auto. destruct k; inv_bind; auto.
    + eapply H3; exact E.
    + eapply H4; exact E.
    + inv_bind. apply Forall_app. split; [|eapply H5; exact Hx0]. eauto.
  - intros e b acc s a ev s' E. cbn [collect_loop] in E. destruct (src_next s) as [l s1].
    assert (Hdef : forall l0, (do (a1, ev, s2) <- parse_atom input f l0 s1;
                               do (r, ev2, s3) <- collect_loop input f e b (acc ++ [a1]) s2;
                               Ok (r, ev ++ ev2, s3)) = Ok (a, ev, s') -> Forall aside ev /\ exists more, a = acc ++ more).
    { intros l0 E0. inv_bind. destruct (H2 _ _ _ _ _ _ _ Hx0) as (? & more & ->).
      rewrite <- app_assoc. split; [apply Forall_app; eauto|eauto]. }
    assert (Hst : forall l0, (do s2 <- src_stash l0 s1; Ok (acc, [], s2)) = Ok (a, ev, s') -> Forall aside ev /\ exists more, a = acc ++ more).
    { intros l0 E0. inv_bind. split; [constructor|exists []; now rewrite app_nil_r]. }
    assert (Hob : forall l0 (c : bool) ek, (do (a1, ev, s2) <- parse_atom input f l0 s1;
                               do (r, ev2, s3) <- collect_loop input f e b (acc ++ [a1]) s2;
                               Ok (r, (if c then [mkev (lx_span l0) (EvError ek)] else []) ++ ev ++ ev2, s3)) = Ok (a, ev, s') -> Forall aside ev /\ exists more, a = acc ++ more).
    { intros l0 c ek E0. inv_bind; destruct (H2 _ _ _ _ _ _ _ Hx0) as (Hm & more & ->);
      rewrite <- app_assoc; (split; [|eauto]); rewrite !Forall_app; splits; eauto; destruct c; repeat constructor. }
    destruct l; try (apply Hdef in E; exact E); try (apply Hst in E; exact E).
    + exact (Hob (LxObjStart sp) _ _ E).
    + exact (Hob (LxSeqStart sp) _ _ E).
    + inv_bind. split; [repeat constructor|exists []; now rewrite app_nil_r].
    + inv_bind. split; [repeat constructor|exists []; now rewrite app_nil_r].
  - intros st en se du pe s a ev s' E. cbn [obj_loop] in E. destruct (src_next s) as [l s1].
    destruct l; try (eapply H3; exact E); try (inv_bind; now auto);
      inv_bind; rewrite !Forall_app; splits; eauto; eapply H2; eauto.
  - intros st el co s a ev s' E. cbn [seq_loop] in E. destruct (src_next s) as [l s1].
    destruct l; try (eapply H4; exact E); try (inv_bind; now auto);
      inv_bind; rewrite !Forall_app; splits; eauto.
  - intros fi at_ s a ev s' E. cbn [attr_loop] in E. destruct (src_next s) as [l s1].
    destruct l; try (inv_bind; now auto). inv_bind. rewrite !Forall_app; splits; eauto.
Qed.

Lemma collect_entry_aside f l s atoms ev s' : collect_entry input f l s = Ok (atoms, ev, s') ->
  Forall aside ev /\ exists a more, atoms = a :: more.
Proof.
  destruct (aside_all f) as (H1 & H2 & _). unfold collect_entry. intros E. inv_bind.
  destruct (H2 _ _ _ _ _ _ _ Hx0) as (? & more & ->). split; [|eexists _, more; reflexivity].
  apply Forall_app. split; [|assumption]. eapply H1; eauto.
Qed.
End Aside.

(** ** Events of atoms *)

Definition is_err (e : event) : Prop := exists k, ev_kind e = EvError k.

Lemma errs_nil l : Forall is_err l -> Forall no_err l -> l = [].
Proof. destruct 1 as [|e l [k E] _]; [reflexivity|]. inversion_clear 1. exfalso. eapply H0; eauto. Qed.

Lemma mkerr_no sp k : ~ no_err (mkerr sp k).
Proof. intros H. exact (H k eq_refl). Qed.

Lemma escape_errors_err b t l : escape_errors b t = Ok l -> Forall is_err l.
Proof.
  unfold escape_errors. intros E. apply bind_inv in E. destruct E as (x & _ & E). inversion E. subst. apply Forall_forall.
  intros e He. apply in_map_iff in He. destruct He as (y & <- & _). eexists. reflexivity.
Qed.

Lemma map_err {A} (g : A -> span) (h : A -> errkind) l : Forall is_err (map (fun x => mkerr (g x) (h x)) l).
Proof. apply Forall_forall. intros e He. apply in_map_iff in He. destruct He as (y & <- & _). eexists. reflexivity. Qed.

Lemma emit_key_one a evs : emit_key a = Ok evs -> Forall no_err evs ->
  exists ksp tag pl k, evs = [mkev ksp (EvKey tag pl k)].
Proof.
  intros E H.
  assert (Hi : forall (i : bool) sp k, Forall no_err (if i then [mkerr sp k] else []) -> (if i then [mkerr sp k] else []) = []).
  { intros [] sp k Hn; [|reflexivity]. inversion_clear Hn. exfalso. eapply mkerr_no; eauto. }
  destruct a; cbn [emit_key] in E; try (inversion E; subst; clear E; eauto; fail);
    try (inversion E; subst; clear E; inversion_clear H; exfalso; eapply mkerr_no; eauto; fail).
  - destruct payload as [p|].
    + destruct p; try (inversion E; subst; clear E; apply Forall_app in H; destruct H as [_ H]; inversion_clear H; exfalso; eapply mkerr_no; eauto; fail).
      * apply bind_inv in E. destruct E as (e1 & E1 & E). inversion E; subst; clear E. apply Forall_app in H. destruct H as [H0 H].
        apply Forall_app in H. destruct H as [H1 H]. rewrite (Hi _ _ _ H0). rewrite (errs_nil e1); [cbn; eauto| |exact H1].
        destruct k; try (inversion E1; subst; constructor). eapply escape_errors_err; eauto.
      * inversion E; subst; clear E. apply Forall_app in H. destruct H as [H0 H]. rewrite (Hi _ _ _ H0). cbn. eauto.
    + inversion E; subst; clear E. apply Forall_app in H. destruct H as [H0 H]. rewrite (Hi _ _ _ H0). cbn. eauto.
  - apply bind_inv in E. destruct E as (e1 & E1 & E). inversion E; subst; clear E. apply Forall_app in H. destruct H as [H0 H].
    rewrite (errs_nil e1); [cbn; eauto| |exact H0]. eapply escape_errors_err; eauto.
Qed.

Lemma flat_cons {A B} (f : A -> list B) x l : flat_map f (x :: l) = f x ++ flat_map f l.
Proof. reflexivity. Qed.

Lemma emit_value_doc a : forall evs, emit_value a = Ok evs -> Forall no_err evs -> exists d, evs = val_events d.
Proof.
  assert (Hi : forall (i : bool) sp k, Forall no_err (if i then [mkerr sp k] else []) -> (if i then [mkerr sp k] else []) = []).
  { intros [] sp k Hn; [|reflexivity]. inversion_clear Hn. exfalso. eapply mkerr_no; eauto. }
  apply (atom_ind' (fun a => forall evs, emit_value a = Ok evs -> Forall no_err evs -> exists d, evs = val_events d)); clear a.
  - intros sp v k evs E _. inversion E. exists (DScalar sp v k). reflexivity.
  - intros sp evs E _. inversion E. exists (DUnit sp). reflexivity.
  - intros sp n i e evs E H. cbn in E. inversion E; subst; clear E. apply Forall_app in H. destruct H as [H0 _].
    rewrite (Hi _ _ _ H0). exists (DTag sp n None sp). reflexivity.
  - intros sp n p i e IH evs E H. cbn [emit_value] in E. apply bind_inv in E. destruct E as (e1 & E1 & E). inversion E; subst; clear E.
    apply Forall_app in H. destruct H as [H0 H]. rewrite (Hi _ _ _ H0). inversion_clear H as [|? ? _ H1]. apply Forall_app in H1. destruct H1 as [H1 _].
    destruct (IH _ E1 H1) as [d ->]. exists (DTag sp n (Some d) sp). reflexivity.
  - intros sp es ds dg u IH evs E H. cbn [emit_value] in E. apply bind_inv in E. destruct E as (e1 & E1 & E). inversion E; subst; clear E.
    inversion_clear H as [|? ? _ H1]. apply Forall_app in H1. destruct H1 as [H0 H]. apply Forall_app in H0. destruct H0 as [H01 H0].
    apply Forall_app in H0. destruct H0 as [H02 H03]. apply Forall_app in H. destruct H as [H _].
    rewrite (Hi _ _ _ H01), (errs_nil _ (map_err _ _ _) H02), (errs_nil _ (map_err _ _ _) H03). cbn [app].
    enough (exists l, e1 = flat_map ent_events l) as [l ->] by (exists (DObj sp l sp); reflexivity).
    clear H01 H02 H03. revert e1 E1 H. induction IH as [|x r [_ IHv] _ IHr]; intros e1 E1 H.
    + inversion E1. exists []. reflexivity.
    + destruct x as [[[key value] doc] tm]. cbn [fst snd] in IHv. apply bind_inv in E1. destruct E1 as (ek & Ek & E1).
      apply bind_inv in E1. destruct E1 as (evv & Ev & E1). apply bind_inv in E1. destruct E1 as (er & Er & E1). inversion E1; subst; clear E1.
      apply Forall_app in H. destruct H as [_ H]. inversion_clear H as [|? ? _ H1]. rewrite !Forall_app in H1. destruct H1 as (Hk & Hv & Ht & Hr).
      destruct (emit_key_one _ _ Ek Hk) as (ksp & tag & pl & k & ->). destruct (IHv _ Ev Hv) as [d ->]. destruct (IHr _ Er Hr) as [l ->].
      destruct tm as [x|]; [inversion_clear Ht; exfalso; eapply mkerr_no; eauto|].
      exists (DEnt (match doc with Some (dsp, lines) => [(dsp, lines)] | None => [] end) (a_span key) ksp tag pl k d (a_span value) :: l).
      rewrite flat_cons. cbn [ent_events]. rewrite <- app_assoc. cbn [app]. rewrite <- app_assoc. destruct doc as [[dsp lines]|]; reflexivity.
  - intros sp es u cs IH evs E H. cbn [emit_value] in E. apply bind_inv in E. destruct E as (e1 & E1 & E). inversion E; subst; clear E.
    inversion_clear H as [|? ? _ H1]. apply Forall_app in H1. destruct H1 as [H0 H]. apply Forall_app in H0. destruct H0 as [H01 H02].
    apply Forall_app in H. destruct H as [H _]. rewrite (Hi _ _ _ H01), (errs_nil _ (map_err _ _ _) H02). cbn [app].
    enough (exists l, e1 = flat_map val_events l) as [l ->] by (exists (DSeq sp l sp); reflexivity).
    clear H01 H02. revert e1 E1 H. induction IH as [|x r IHx _ IHr]; intros e1 E1 H.
    + inversion E1. exists []. reflexivity.
    + apply bind_inv in E1. destruct E1 as (ex & Ex & E1). apply bind_inv in E1. destruct E1 as (er & Er & E1). inversion E1; subst; clear E1.
      apply Forall_app in H. destruct H as [Hx Hr]. destruct (IHx _ Ex Hx) as [d ->]. destruct (IHr _ Er Hr) as [l ->].
      exists (d :: l). reflexivity.
  - intros sp es IH evs E H. cbn [emit_value] in E. apply bind_inv in E. destruct E as (e1 & E1 & E). inversion E; subst; clear E.
    inversion_clear H as [|? ? _ H1]. apply Forall_app in H1. destruct H1 as [H _].
    enough (exists l, e1 = flat_map ent_events l) as [l ->] by (exists (DObj sp l sp); reflexivity).
    revert e1 E1 H. induction IH as [|x r IHx _ IHr]; intros e1 E1 H.
    + inversion E1. exists []. reflexivity.
    + destruct x as [[key ksp] v]. cbn [snd] in IHx. apply bind_inv in E1. destruct E1 as (ex & Ex & E1). apply bind_inv in E1. destruct E1 as (er & Er & E1).
      inversion E1; subst; clear E1. inversion_clear H as [|? ? _ H1]. inversion_clear H1 as [|? ? _ H2]. apply Forall_app in H2. destruct H2 as [Hx Hr].
      inversion_clear Hr as [|? ? _ Hr']. destruct (IHx _ Ex Hx) as [d ->]. destruct (IHr _ Er Hr') as [l ->].
      exists (DEnt [] ksp ksp None (Some key) Bare d (a_span v) :: l). rewrite flat_cons. cbn [ent_events map app]. rewrite <- app_assoc. reflexivity.
  - intros sp raw evs E H. cbn [emit_value] in E. apply bind_inv in E. destruct E as (e1 & E1 & E). inversion E; subst; clear E.
    apply Forall_app in H. destruct H as [H0 _]. rewrite (errs_nil e1); [|eapply escape_errors_err; eauto|exact H0]. eexists (DScalar _ _ _). reflexivity.
  - intros sp m evs E H. cbn [emit_value] in E. inversion E; subst; clear E. inversion_clear H. exfalso. eapply mkerr_no; eauto.
Qed.

(** An entry without its doc comments *)
Definition bare_entry (evs : list event) : Prop := exists s1 ksp tag pl k v s2, evs = ent_events (DEnt [] s1 ksp tag pl k v s2).

Lemma entry_value_doc usp rest evs : emit_entry_value usp rest = Ok evs -> Forall no_err evs -> exists d, evs = val_events d.
Proof.
  unfold emit_entry_value. destruct rest as [|v more]; intros E H.
  - inversion E. exists (DUnit usp). reflexivity.
  - apply bind_inv in E. destruct E as (e1 & E1 & E). inversion E; subst; clear E. apply Forall_app in H. destruct H as [H H'].
    destruct more as [|x more]; [|inversion_clear H'; exfalso; eapply mkerr_no; eauto]. rewrite app_nil_r. eapply emit_value_doc; eauto.
Qed.

Lemma simple_entry_doc key rest evs : emit_simple_entry key rest = Ok evs -> Forall no_err evs -> bare_entry evs.
Proof.
  unfold emit_simple_entry. intros E H. apply bind_inv in E. destruct E as (ek & Ek & E). apply bind_inv in E. destruct E as (ev & Ev & E).
  inversion E; subst; clear E. inversion_clear H as [|? ? _ H1]. rewrite !Forall_app in H1. destruct H1 as (Hk & Hv & _).
  destruct (emit_key_one _ _ Ek Hk) as (ksp & tag & pl & k & ->). destruct (entry_value_doc _ _ _ Ev Hv) as [d ->].
  repeat eexists.
Qed.

Lemma segments_doc segs : segs <> [] -> forall off d sp, bare_entry (open_segments off segs ++ val_events d ++ close_segments sp segs).
Proof.
  induction segs as [|s r IH]; [congruence|]. intros _ off d sp. cbn [open_segments close_segments]. destruct r as [|s' r].
  - cbn [open_segments close_segments app]. repeat eexists.
  - destruct (IH ltac:(discriminate) (off + blen s + 1) d sp) as (s1 & ksp & tag & pl & k & v & s2 & E).
    set (ssp := mkspan off (off + blen s)). exists ssp, ssp, None, (Some s), Bare, (DObj ssp [DEnt [] s1 ksp tag pl k v s2] sp), sp.
    change (ent_events (DEnt [] ssp ssp None (Some s) Bare (DObj ssp [DEnt [] s1 ksp tag pl k v s2] sp) sp)) with
      (mkev ssp EvEntryStart :: mkev ssp (EvKey None (Some s) Bare) :: (mkev ssp EvObjStart :: (ent_events (DEnt [] s1 ksp tag pl k v s2) ++ []) ++ [mkev sp EvObjEnd]) ++ [mkev sp EvEntryEnd]).
    rewrite <- E. generalize (open_segments (off + blen s + 1) (s' :: r)), (close_segments sp (s' :: r)), (val_events d). intros O C V.
    cbn [app]. rewrite app_nil_r, <- !app_assoc. reflexivity.
Qed.

Lemma dotted_doc text sp rest path evs path' : emit_dotted text sp rest path = Ok (evs, path') -> Forall no_err evs -> bare_entry evs.
Proof.
  unfold emit_dotted. destruct (existsb is_nil (split_on cDOT text)) eqn:Ex.
  - intros E H. inversion E; subst. inversion_clear H. exfalso. eapply mkerr_no; eauto.
  - intros E H. set (pp := match path with Some _ => _ | None => _ end) in E. destruct pp as [p1 perr] eqn:Ep. subst pp.
    apply bind_inv in E. destruct E as (ev & Ev & E). inversion E; subst; clear E.
    rewrite !Forall_app in H. destruct H as (Hp & _ & Hv & _).
    assert (perr = []) as ->.
    { destruct path as [ps|]; [|inversion Ep; reflexivity]. destruct (check_and_update _ _ _ _) as [ps' [e|]]; inversion Ep; subst; [|reflexivity].
      inversion_clear Hp. exfalso. eapply mkerr_no; eauto. }
    destruct (entry_value_doc _ _ _ Ev Hv) as [d ->]. cbn [app]. apply segments_doc. 
    apply split_on_nonempty.
Qed.

Lemma at_root_doc input key rest path evs path' : emit_at_root input key rest path = Ok (evs, path') -> Forall no_err evs -> bare_entry evs.
Proof.
  unfold emit_at_root. intros E H. apply bind_inv in E. destruct E as (e0 & E0 & E).
  assert (He0 : Forall is_err e0).
  { destruct key; try (inversion E0; constructor). destruct k; try (inversion E0; constructor).
    apply bind_inv in E0. destruct E0 as (x & _ & E0). inversion E0. repeat constructor. eexists. reflexivity. }
  destruct (is_dotted key) as [v|].
  - apply bind_inv in E. destruct E as ([ev p] & Ev & E). inversion E; subst; clear E. apply Forall_app in H. destruct H as [H0 H].
    rewrite (errs_nil _ He0 H0). eapply dotted_doc; eauto.
  - destruct (check_and_update _ _ _ _) as [p1 e]. apply bind_inv in E. destruct E as (ev & Ev & E). inversion E; subst; clear E.
    rewrite !Forall_app in H. destruct H as (H0 & H1 & H). rewrite (errs_nil _ He0 H0). destruct e as [x|].
    + inversion_clear H1. exfalso. eapply mkerr_no; eauto.
    + eapply simple_entry_doc; eauto.
Qed.

Lemma in_object_doc key rest seen evs seen' : emit_in_object key rest seen = Ok (evs, seen') -> Forall no_err evs -> bare_entry evs.
Proof.
  unfold emit_in_object. intros E H.
  set (e0 := match key with AScalar sp _ Heredoc => [mkerr sp EInvalidKey] | _ => [] end) in E.
  assert (He0 : Forall is_err e0).
  { subst e0. destruct key; try constructor. destruct k; repeat constructor. eexists. reflexivity. }
  destruct (is_dotted key) as [v|].
  - apply bind_inv in E. destruct E as ([ev p] & Ev & E). inversion E; subst; clear E. apply Forall_app in H. destruct H as [H0 H].
    rewrite (errs_nil _ He0 H0). eapply dotted_doc; eauto.
  - destruct (match seen_get (key_of_atom key) seen with Some o => _ | None => _ end) as [seen1 e1] eqn:Es.
    apply bind_inv in E. destruct E as (ev & Ev & E). inversion E; subst; clear E.
    rewrite !Forall_app in H. destruct H as (H0 & H1 & H). rewrite (errs_nil _ He0 H0). destruct (seen_get _ _) as [o|]; inversion Es; subst.
    + inversion_clear H1. exfalso. eapply mkerr_no; eauto.
    + eapply simple_entry_doc; eauto.
Qed.

(** ** Documents being built *)

Definition docev (docs : list (span * list str)) : list event := map (fun d => mkev (fst d) (EvDoc (snd d))) docs.
Definition opened (s1 : span) (es : list dentry) (docs : list (span * list str)) : list event :=
  mkev s1 EvObjStart :: flat_map ent_events es ++ docev docs.

Lemma docev_app a b : docev (a ++ b) = docev a ++ docev b.
Proof. apply map_app. Qed.

Lemma quiet_val d : filter not_comment (val_events d) = val_events d.
Proof.
  apply (dval_rect' (fun d => filter not_comment (val_events d) = val_events d) (fun e => filter not_comment (ent_events e) = ent_events e)); auto.
  - intros s1 items s2 H. cbn. rewrite filter_app. do 2 f_equal. induction H as [|x l Hx _ IH]; [reflexivity|]. cbn. now rewrite filter_app, Hx, IH.
  - intros s1 items s2 H. cbn. rewrite filter_app. do 2 f_equal. induction H as [|x l Hx _ IH]; [reflexivity|]. cbn. now rewrite filter_app, Hx, IH.
  - intros s1 n p s2 H. cbn. rewrite filter_app. do 2 f_equal. destruct p; auto.
  - intros docs s1 ksp tag pl k v s2 H. cbn [ent_events]. rewrite filter_app. f_equal.
    + induction docs as [|x l IH]; [reflexivity|]. cbn. now rewrite IH.
    + cbn. do 2 f_equal. rewrite filter_app, H. reflexivity.
Qed.

Lemma quiet_ent e : filter not_comment (ent_events e) = ent_events e.
Proof.
  destruct e as [docs s1 ksp tag pl k v s2]. cbn [ent_events]. rewrite filter_app. f_equal.
  - induction docs as [|x l IH]; [reflexivity|]. cbn. now rewrite IH.
  - cbn. do 2 f_equal. rewrite filter_app, quiet_val. reflexivity.
Qed.

Lemma aside_docs ev : Forall aside ev -> Forall no_err ev -> exists docs, filter not_comment ev = docev docs.
Proof.
  induction 1 as [|e ev He _ IH]; intros H.
  - exists []. reflexivity.
  - inversion_clear H as [|? ? H0 H1]. destruct (IH H1) as [docs E]. destruct e as [sp k]. cbn [filter not_comment ev_kind]. unfold aside in He. cbn in He.
    destruct k; try contradiction; cbn.
    + exists docs. exact E.
    + exists ((sp, lines) :: docs). cbn. now rewrite E.
    + exfalso. eapply H0. reflexivity.
Qed.

Lemma opened_snoc s1 es docs docs' ev2 : bare_entry ev2 -> exists e, opened s1 es docs ++ docev docs' ++ ev2 = opened s1 (es ++ [e]) [].
Proof.
  intros (a & ksp & tag & pl & k & v & b & ->). exists (DEnt (docs ++ docs') a ksp tag pl k v b). unfold opened.
  rewrite flat_map_app. cbn [flat_map docev map]. rewrite !app_nil_r. cbn [ent_events map app]. fold (docev (docs ++ docs')). rewrite docev_app, <- !app_assoc. reflexivity.
Qed.

Lemma nest_flat {A} (f : A -> list event) l : Forall (fun x => forall st r, nest st (f x ++ r) = nest st r) l ->
  forall st r, nest st (flat_map f l ++ r) = nest st r.
Proof. induction 1 as [|y l Hy _ IH]; intros st x; [reflexivity|]. cbn [flat_map]. now rewrite <- app_assoc, Hy, IH. Qed.

Lemma nest_docs docs st r : nest st (docev docs ++ r) = nest st r.
Proof. induction docs as [|x l IH]; [reflexivity|]. exact IH. Qed.

Lemma nest_val d : forall st r, nest st (val_events d ++ r) = nest st r.
Proof.
  apply (dval_rect' (fun d => forall st r, nest st (val_events d ++ r) = nest st r) (fun e => forall st r, nest st (ent_events e ++ r) = nest st r)).
  - reflexivity.
  - reflexivity.
  - intros s1 items s2 H st r. cbn [val_events app]. rewrite <- app_assoc. cbn [nest ev_kind]. now rewrite nest_flat.
  - intros s1 items s2 H st r. cbn [val_events app]. rewrite <- app_assoc. cbn [nest ev_kind]. now rewrite nest_flat.
  - intros s1 n p s2 H st r. cbn [val_events app]. rewrite <- app_assoc. cbn [nest ev_kind]. destruct p as [w|]; [now rewrite (H w eq_refl)|reflexivity].
  - intros docs s1 ksp tag pl k v s2 H st r. cbn [ent_events]. rewrite <- app_assoc. fold (docev docs). rewrite nest_docs.
    cbn [nest ev_kind app]. rewrite <- app_assoc, H. reflexivity.
Qed.

Lemma nest_ents es st r : nest st (flat_map ent_events es ++ r) = nest st r.
Proof.
  apply nest_flat. apply Forall_forall. intros [docs s1 ksp tag pl k v s2] _ st' r'. cbn [ent_events]. rewrite <- app_assoc. fold (docev docs). rewrite nest_docs.
  cbn [nest ev_kind app]. rewrite <- app_assoc, nest_val. reflexivity.
Qed.

Lemma nest_opened s1 es docs st r : nest st (opened s1 es docs ++ r) = nest (ParseSpec.FObj :: st) r.
Proof. unfold opened. cbn [app nest ev_kind]. rewrite <- app_assoc, nest_ents. apply nest_docs. Qed.

Lemma nest_quiet evs : forall st, nest st (filter not_comment evs) = nest st evs.
Proof.
  induction evs as [|[sp k] evs IH]; intros st; [reflexivity|].
  destruct k; cbn [filter not_comment ev_kind nest]; try apply IH; destruct st as [|[] st]; auto.
Qed.

(** A root object closed before the implicit root *)
Definition stuck (l : list event) : Prop := exists a s0 es0 docs0 s1 es1 s2 b,
  l = mkev a EvDocStart :: opened s0 es0 docs0 ++ val_events (DObj s1 es1 s2) ++ [mkev b EvDocEnd].

Lemma nest_stuck l : stuck l -> nest [] l = Some [ParseSpec.FObj].
Proof. intros (a & s0 & es0 & docs0 & s1 & es1 & s2 & b & ->). cbn [nest ev_kind]. now rewrite nest_opened, nest_val. Qed.

(** What has been built so far *)
Definition built (acc : list event) (st : pstate) : Prop :=
  Forall no_err acc -> let l := filter not_comment acc in
  match st with
  | PBeforeDoc => l = []
  | PRoot pend _ false => exists a, l = [mkev a EvDocStart]
  | PRoot pend _ true => exists a s1 es docs, l = mkev a EvDocStart :: opened s1 es docs /\ (pend = None -> docs = [])
  | PInObj _ _ pend _ => exists a pre s1 es docs, l = mkev a EvDocStart :: pre ++ opened s1 es docs /\ (pend = None -> docs = []) /\
      (pre = [] \/ exists s0 es0 docs0, pre = opened s0 es0 docs0)
  | PAfterDoc => (exists es, doc_events es l) \/ stuck l
  | _ => False
  end.

Definition st_ok (st : pstate) : Prop := match st with PInObj _ _ _ parent => parent = PAfterDoc | PBeforeExpr | PAfterExpr => False | _ => True end.

Definition pend_ok (st : pstate) : Prop := match st with PRoot pe _ false => pe = None | _ => True end.

Definition built_step (acc : list event) (x : option event * parser) : Prop :=
  match x with
  | (Some e, p') => built (acc ++ e :: p_queue p') (p_state p') /\ st_ok (p_state p') /\ pend_ok (p_state p')
  | (None, _) => False
  end.

Lemma pop_built input s st acc q x : pop_queue input s st q = x -> built (acc ++ q) st -> st_ok st -> pend_ok st -> q <> [] -> built_step acc x.
Proof. intros <-. destruct q as [|e q]; cbn; auto. Qed.

Lemma bare_nonempty : ~ bare_entry [].
Proof. intros (? & ? & ? & ? & ? & ? & ? & E). discriminate. Qed.
Lemma app_ne {A} (a b : list A) : b <> [] -> a ++ b <> [].
Proof. intros H E. apply app_eq_nil in E. tauto. Qed.

Lemma filt1 acc q : filter not_comment (acc ++ q) = filter not_comment acc ++ filter not_comment q.
Proof. apply filter_app. Qed.

#[local] Opaque collect_entry parse_fuel emit_at_root emit_in_object opened.

Lemma root_built fuel : forall input acc s pend path emitted x,
  built acc (PRoot pend path emitted) -> (emitted = false -> pend = None) -> advance_root fuel input s pend path emitted [] = Ok x -> built_step acc x.
Proof.
  induction fuel as [|f IH]; intros input acc s pend path emitted x Hb Hp E; [discriminate|]. cbn [advance_root] in E.
  destruct (src_next s) as [l s1]. cbn [app] in E.
  assert (Hopen : forall ev, Forall no_err (acc ++ (if emitted then [] else [mkev (empty_span 0) EvObjStart]) ++ ev) ->
    exists a s0 es docs, filter not_comment (acc ++ (if emitted then [] else [mkev (empty_span 0) EvObjStart]) ++ ev) = mkev a EvDocStart :: opened s0 es docs ++ filter not_comment ev).
  { intros ev H. apply Forall_app in H. destruct H as [H _]. specialize (Hb H). cbn in Hb. destruct emitted.
    - destruct Hb as (a & s0 & es & docs & Hl & _). exists a, s0, es, docs. cbn [app]. now rewrite filt1, Hl.
    - destruct Hb as (a & Hl). exists a, (empty_span 0), [], []. rewrite !filt1, Hl. Transparent opened. reflexivity. }
  #[local] Opaque opened.
  assert (Hgo : forall x0, (do (atoms, ev, s2) <- collect_entry input (parse_fuel s1) l s1;
      match atoms with
      | [] => Ok (pop_queue input s2 (PRoot None path true) ((if emitted then [] else [mkev (empty_span 0) EvObjStart]) ++ ev))
      | key :: rest =>
        do (ev2, path') <- emit_at_root input key rest path;
        Ok (pop_queue input s2 (PRoot None path' true) ((if emitted then [] else [mkev (empty_span 0) EvObjStart]) ++ ev ++ ev2))
      end) = Ok x0 -> built_step acc x0).
  { intros x0 E0. apply bind_inv in E0. destruct E0 as ([[atoms ev] s2] & Ec & E0).
    destruct (collect_entry_aside _ _ _ _ _ _ _ Ec) as (Ha & key & rest & ->).
    apply bind_inv in E0. destruct E0 as ([ev2 path'] & Ee & E0). inversion E0 as [Ep]. subst x0. eapply pop_built; [reflexivity| |exact I|exact I|do 2 apply app_ne; intros ->; exact (bare_nonempty (at_root_doc _ _ _ _ _ _ Ee (Forall_nil _)))].
    intros H. cbn. destruct (Hopen _ H) as (a & s0 & es & docs & ->). rewrite !Forall_app in H. destruct H as (_ & _ & H1 & H2).
    destruct (aside_docs _ Ha H1) as [docs' Hd]. pose proof (at_root_doc _ _ _ _ _ _ Ee H2) as Hb2.
    rewrite filt1, Hd. destruct (opened_snoc s0 es docs docs' ev2 Hb2) as [e Ho]. exists a, s0, (es ++ [e]), [].
    rewrite <- Ho. split; [|reflexivity]. destruct Hb2 as (? & ? & ? & ? & ? & ? & ? & ->). now rewrite quiet_ent. }
  destruct l; try (apply Hgo; exact E); try (inversion E; subst; clear E).
  - split; [|split; [reflexivity|exact I]]. intros H. cbn. rewrite filt1. apply Forall_app in H. destruct H as [H _]. specialize (Hb H). cbn in Hb. destruct emitted.
    + destruct Hb as (a & s0 & es & docs & -> & _). exists a, (opened s0 es docs), sp, [], []. splits; eauto.
    + destruct Hb as (a & ->). exists a, [], sp, [], []. splits; eauto.
  - eapply IH; eauto.
  - eapply IH; eauto.
  - split; [|split; [exact I|destruct emitted; cbn; auto]]. intros H. apply Forall_app in H. destruct H as [H _]. specialize (Hb H). cbn [p_queue p_state]. rewrite filt1. cbn [filter not_comment ev_kind].
    rewrite app_nil_r. exact Hb.
  - eapply pop_built; [reflexivity| |exact I|exact I|apply app_ne; discriminate]. intros H. cbn [p_state]. destruct (Hopen _ H) as (a & s0 & es & docs & ->).
    exists a, s0, es, (docs ++ [(sp, [doc_line text])]). split; [|discriminate]. cbn [filter not_comment ev_kind].
    Transparent opened. unfold opened. rewrite docev_app. cbn [app]. now rewrite <- app_assoc. 
    #[local] Opaque opened.
  - eapply pop_built; [reflexivity| |exact I|exact I|do 2 apply app_ne; discriminate]. intros H. cbn [p_state]. rewrite !Forall_app in H. destruct H as (H & H1 & _).
    destruct pend as [psp|]; [inversion_clear H1; exfalso; eapply mkerr_no; eauto|]. cbn [dangling app]. specialize (Hb H). cbn in Hb. rewrite filt1. left. destruct emitted.
    + destruct Hb as (a & s0 & es & docs & -> & Hd). rewrite (Hd eq_refl). exists es. Transparent opened. unfold opened. #[local] Opaque opened.
      cbn [docev map]. rewrite app_nil_r. pose proof (de_root a s0 es (empty_span 0) (empty_span (blen input))) as G. cbn [val_events app] in G |- *.
      rewrite <- app_assoc in G. exact G.
    + destruct Hb as (a & ->). exists []. apply de_empty.
Qed.

Lemma obj_built fuel : forall input acc s start seen pend x,
  built acc (PInObj start seen pend PAfterDoc) -> advance_obj fuel input s start seen pend PAfterDoc [] = Ok x -> built_step acc x.
Proof.
  induction fuel as [|f IH]; intros input acc s start seen pend x Hb E; [discriminate|]. cbn [advance_obj] in E.
  destruct (src_next s) as [l s1]. cbn [app is_after_doc] in E.
  assert (Hgo : forall x0, (do (atoms, ev, s2) <- collect_entry input (parse_fuel s1) l s1;
      match atoms with
      | [] => Ok (pop_queue input s2 (PInObj start seen None PAfterDoc) ev)
      | key :: rest =>
        do (ev2, seen') <- emit_in_object key rest seen;
        Ok (pop_queue input s2 (PInObj start seen' None PAfterDoc) (ev ++ ev2))
      end) = Ok x0 -> built_step acc x0).
  { intros x0 E0. apply bind_inv in E0. destruct E0 as ([[atoms ev] s2] & Ec & E0).
    destruct (collect_entry_aside _ _ _ _ _ _ _ Ec) as (Ha & key & rest & ->).
    apply bind_inv in E0. destruct E0 as ([ev2 seen'] & Ee & E0). inversion E0 as [Ep]. subst x0. eapply pop_built; [reflexivity| |reflexivity|exact I|apply app_ne; intros ->; exact (bare_nonempty (in_object_doc _ _ _ _ _ Ee (Forall_nil _)))].
    intros H. cbn. rewrite !Forall_app in H. destruct H as (H0 & H1 & H2). specialize (Hb H0). cbn in Hb.
    destruct Hb as (a & pre & s0 & es & docs & Hl & _ & Hpre).
    destruct (aside_docs _ Ha H1) as [docs' Hd]. pose proof (in_object_doc _ _ _ _ _ Ee H2) as Hb2.
    rewrite !filt1, Hd, Hl. destruct (opened_snoc s0 es docs docs' ev2 Hb2) as [e Ho]. exists a, pre, s0, (es ++ [e]), [].
    rewrite <- Ho. splits; auto. destruct Hb2 as (? & ? & ? & ? & ? & ? & ? & ->). rewrite quiet_ent. cbn [app]. now rewrite <- !app_assoc. }
  destruct l; try (apply Hgo; exact E); try (inversion E; subst; clear E).
  - split; [|split; [exact I|exact I]]. intros H. cbn [p_state p_queue] in *. rewrite !Forall_app in H. destruct H as (H0 & H). inversion_clear H as [|? ? _ H1].
    apply Forall_app in H1. destruct H1 as [H1 _].
    destruct pend as [psp|]; [inversion_clear H1; exfalso; eapply mkerr_no; eauto|]. cbn [dangling app]. specialize (Hb H0). cbn in Hb.
    destruct Hb as (a & pre & s0 & es & docs & Hl & Hd & Hpre). rewrite (Hd eq_refl) in Hl. rewrite filt1, Hl. cbn [filter not_comment ev_kind doc_end].
    destruct Hpre as [->|(s2 & es2 & docs2 & ->)]; [left|right].
    + exists es. Transparent opened. unfold opened. #[local] Opaque opened.
      cbn [docev map]. rewrite app_nil_r. pose proof (de_root a s0 es sp (empty_span (blen input))) as G. cbn [val_events app] in G |- *.
      rewrite <- app_assoc in G. exact G.
    + exists a, s2, es2, docs2, s0, es, sp, (empty_span (blen input)). Transparent opened. unfold opened. #[local] Opaque opened.
      cbn [docev map val_events app]. rewrite app_nil_r, <- !app_assoc. cbn [app]. try rewrite <- !app_assoc. reflexivity.
  - eapply IH; eauto.
  - eapply IH; eauto.
  - split; [|split; [reflexivity|exact I]]. intros H. apply Forall_app in H. destruct H as [H _]. specialize (Hb H). cbn [p_queue p_state]. rewrite filt1. cbn [filter not_comment ev_kind].
    rewrite app_nil_r. exact Hb.
  - split; [|split; [reflexivity|exact I]]. intros H. cbn. rewrite filt1. apply Forall_app in H. destruct H as [H _]. specialize (Hb H). cbn in Hb.
    destruct Hb as (a & pre & s0 & es & docs & -> & _ & Hpre). exists a, pre, s0, es, (docs ++ [(sp, [doc_line text])]). splits; auto; [|discriminate].
    Transparent opened. unfold opened. rewrite docev_app. cbn [app]. rewrite <- app_assoc. cbn [app]. now rewrite <- app_assoc. 
    #[local] Opaque opened.
  - eapply pop_built; [reflexivity| |exact I|exact I|apply app_ne; discriminate]. intros H. rewrite !Forall_app in H. destruct H as (_ & _ & H). inversion_clear H.
    exfalso. eapply mkerr_no; eauto.
Qed.

Lemma trailing_built fuel : forall input acc s x, built acc PAfterDoc -> check_trailing fuel input s [] = Ok x -> fst x = None \/ built_step acc x.
Proof.
  induction fuel as [|f IH]; intros input acc s x Hb E; [discriminate|]. cbn [check_trailing] in E. destruct (src_next s) as [l s1].
  destruct l; try (eapply IH; eauto; fail); try (inversion E; subst; now left); right;
    apply bind_inv in E; destruct E as ([e s2] & _ & E); inversion E; subst; (split; [|split; exact I]);
    intros H; apply Forall_app in H; destruct H as [_ H]; inversion_clear H; exfalso; eapply mkerr_no; eauto.
Qed.

Lemma run_built fuel : forall input acc s st evs, built acc st -> st_ok st -> pend_ok st ->
  events_from fuel (mkp input s st []) = Ok evs -> Forall no_err (acc ++ evs) ->
  (exists es, doc_events es (filter not_comment (acc ++ evs))) \/ stuck (filter not_comment (acc ++ evs)).
Proof.
  induction fuel as [fuel IH] using lt_wf_ind. intros input acc s st evs Hb Hs Hp E Hn.
  destruct fuel as [|fuel]; [discriminate|]. cbn [events_from] in E.
  assert (next_event (mkp input s st []) = advance (mkp input s st [])) as En by reflexivity. rewrite En in E. clear En.
  apply bind_inv in E. destruct E as ([o p'] & Ea & E).
  assert (Hst : (o = None /\ st = PAfterDoc) \/ built_step acc (o, p')).
  { unfold advance in Ea. cbn [p_src p_input p_queue p_state] in Ea. destruct st as [| |pend path emitted|start seen pend parent| |].
    - right. inversion Ea; subst. split; [|split; [exact I|reflexivity]]. intros H. apply Forall_app in H. destruct H as [H _]. specialize (Hb H). cbn in Hb |- *.
      rewrite filt1, Hb. eexists. reflexivity.
    - destruct Hs.
    - right. eapply root_built; eauto. intros ->. exact Hp.
    - right. cbn in Hs. subst. eapply obj_built; eauto.
    - destruct (trailing_built _ _ _ _ _ Hb Ea) as [H|H]; auto.
    - destruct Hs. }
  destruct Hst as [[-> ->]|Hst].
  - inversion E; subst. rewrite app_nil_r in *. exact (Hb Hn).
  - destruct o as [e|]; [|destruct Hst]. cbn in Hst. destruct p' as [i s' st' q]. cbn [p_input p_src p_state p_queue] in *. destruct Hst as (H1 & H2 & H3).
    apply bind_inv in E. destruct E as (r & Er & E). inversion E; subst.
    assert (events_from (length q + fuel) (mkp i s' st' q) = Ok r) as Er2.
    { rewrite Nat.add_comm. apply events_from_mono; [exact Er|discriminate]. }
    rewrite events_from_queue in Er2. apply bind_inv in Er2. destruct Er2 as (r' & Er3 & Er2). inversion Er2; subst.
    specialize (IH fuel ltac:(lia) i (acc ++ e :: q) s' st' r' H1 H2 H3 Er3). rewrite <- app_assoc in IH. exact (IH Hn).
Qed.

Lemma parses_shape src evs : parses src evs -> Forall no_err evs ->
  (exists es, doc_events es (filter not_comment evs)) \/ stuck (filter not_comment evs).
Proof.
  intros (ls & fuel & _ & E) Hn. eapply (run_built fuel src [] (mksrc ls None) PBeforeDoc evs); eauto; try exact I. intros _. reflexivity.
Qed.

(** C18: error-free, properly nested events are those of a document. *)
Lemma parses_doc src evs : parses src evs -> Forall no_err evs -> balanced evs -> exists es, doc_events es (filter not_comment evs).
Proof.
  intros Hp Hn Hb. destruct (parses_shape _ _ Hp Hn) as [H|H]; [exact H|].
  apply nest_stuck in H. rewrite nest_quiet in H. unfold balanced in Hb. congruence.
Qed.

(** What the builder makes of errors *)
Lemma run_errs evs : forall b, exists l, b_errs (run evs b) = b_errs b ++ l /\
  l = flat_map (fun e => match ev_kind e with EvError k => [(k, ev_span e)] | _ => [] end) evs.
Proof.
  induction evs as [|[sp k] evs IH]; intros b; [exists []; now rewrite app_nil_r|]. rewrite run_cons.
  destruct (IH (build_event b (mkev sp k))) as (l & -> & ->). eexists. split; [|reflexivity]. cbn [flat_map ev_kind].
  destruct b as [stack root pdoc errs]. 
  assert (Hp : forall b v, b_errs (pushed b v) = b_errs b) by (intros b v; unfold pushed; destruct (push_value _ _ _ _) as [[? ?] ?]; reflexivity).
  destruct k; cbn [build_event ev_kind ev_span app]; try reflexivity; try (rewrite Hp; reflexivity);
    try (destruct stack as [|[] stack]; try reflexivity; try (rewrite Hp; reflexivity)).
  all: try (destruct stack as [|f0 stack]; [reflexivity|rewrite Hp; reflexivity]).
  all: try (destruct key; try reflexivity; destruct stack as [|[] stack]; reflexivity).
  all: cbn; now rewrite <- app_assoc.
Qed.

Lemma builds_ents es : Forall builds_entry es.
Proof.
  apply Forall_forall. intros e _. destruct e. intros es0 sp0 stk root pdoc errs.
  cbn [ent_events]. rewrite run_app, docs_run, append_join0.
  rewrite run_cons. cbn [build_event ev_kind ev_span]. rewrite run_cons. cbn [build_event ev_kind ev_span].
  rewrite run_app, val_build by exact I. cbn. destruct docs; reflexivity.
Qed.

Lemma no_err_errs evs : Forall no_err evs <-> flat_map (fun e => match ev_kind e with EvError k => [(k, ev_span e)] | _ => [] end) evs = [].
Proof.
  induction evs as [|[sp k] evs IH]; cbn; [split; auto|]. split.
  - inversion_clear 1. destruct k; try (now apply IH). exfalso. eapply H0. reflexivity.
  - intros E. constructor; [|apply IH; destruct k; try exact E; discriminate]. intros k' E'. cbn in E'. subst k. discriminate.
Qed.

Lemma stuck_build evs : Forall no_err evs -> stuck (filter not_comment evs) -> build evs = inr BUnclosed.
Proof.
  intros Hn (a & s0 & es0 & docs0 & s1 & es1 & s2 & b & E). unfold build. fold (run evs builder_new).
  pose proof (run_errs evs builder_new) as (l & El & ->). rewrite (proj1 (no_err_errs evs) Hn) in El.
  unfold build_finish. rewrite El. cbn [builder_new b_errs app].
  rewrite <- run_comments, E. rewrite run_cons. cbn [build_event ev_kind builder_new]. Transparent opened. unfold opened. #[local] Opaque opened.
  cbn [app]. rewrite run_cons. unfold builder_new. cbn [build_event ev_kind ev_span]. rewrite <- app_assoc, run_app, entries_build by apply builds_ents.
  rewrite run_app. unfold docev. rewrite docs_run. cbn [val_events app]. rewrite run_cons. cbn [build_event ev_kind ev_span].
  rewrite <- app_assoc, run_app, entries_build by apply builds_ents. cbn. reflexivity.
Qed.

(** C18: the tree of every source whose events are known. *)
Lemma tree_of src evs : parses src evs ->
  match flat_map (fun e => match ev_kind e with EvError k => [(k, ev_span e)] | _ => [] end) evs with
  | (k, sp) :: _ => build evs = inr (BParse k sp)
  | [] => (balanced evs /\ exists es, doc_events es (filter not_comment evs) /\ build evs = inl (Val None (PObj (map to_entry es) None) None)) \/
          (~ balanced evs /\ build evs = inr BUnclosed)
  end.
Proof.
  intros Hp. destruct (flat_map _ evs) as [|[k sp] r] eqn:Ee.
  - apply no_err_errs in Ee. destruct (parses_shape _ _ Hp Ee) as [[es H]|H]; [left|right].
    + split; [|exists es; split; [exact H|now apply doc_build]]. unfold balanced. rewrite <- nest_quiet. destruct H as [a b|a s1 es s2 b]; [reflexivity|].
      cbn [nest ev_kind]. now rewrite nest_val.
    + split; [|now apply stuck_build]. unfold balanced. rewrite <- nest_quiet, (nest_stuck _ H). discriminate.
  - unfold build. fold (run evs builder_new). pose proof (run_errs evs builder_new) as (l & El & ->). unfold build_finish. rewrite El.
    cbn [builder_new b_errs app]. now rewrite Ee.
Qed.
