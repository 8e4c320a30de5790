(** Proofs about the adapter for facet. *)
From Coq Require Import String.
From Verif Require Import Base BaseProofs TokModel LexModel ParseModel ParseSpec TreeModel TreeSpec BuildProofs LinkProofs SchemaModel SchemaSpec SchemaProofs SerdeModel.
From Verif Require CliSpec.
From Verif Require Import FacetModel FacetSpec.

Scheme says_mut := Minimality for says Sort Prop
with says_items_mut := Minimality for says_items Sort Prop
with says_fields_mut := Minimality for says_fields Sort Prop.
Combined Scheme says_all from says_mut, says_items_mut, says_fields_mut.

(** ** Streams are unambiguous *)
Section Unique.
Context {F : Type}.

Definition uniq (c : content) (s : list (fkind F)) : Prop :=
  forall c' s' r r', says c' s' -> s ++ r = s' ++ r' -> c' = c /\ s' = s.
Definition uniq_items (l : list content) (s : list (fkind F)) : Prop :=
  forall l' s' r r', says_items l' s' -> s ++ FSeqEnd :: r = s' ++ FSeqEnd :: r' -> l' = l /\ s' = s.
Definition uniq_fields (l : list field) (s : list (fkind F)) : Prop :=
  forall l' s' r r', says_fields l' s' -> s ++ FStructEnd :: r = s' ++ FStructEnd :: r' -> l' = l /\ s' = s.

Lemma says_head c (s : list (fkind F)) : says c s -> exists k r, s = k :: r /\ k <> FSeqEnd /\ k <> FStructEnd.
Proof. destruct 1; eexists _, _; (split; [reflexivity|split; discriminate]). Qed.

Lemma says_unique : (forall c s, says c s -> uniq c s) /\ (forall l s, says_items l s -> uniq_items l s) /\ (forall l s, says_fields l s -> uniq_fields l s).
Proof.
  apply says_all.
  - intros t c' s' r r' H E. destruct H; cbn in E; try discriminate. injection E as -> _. auto.
  - intros c' s' r r' H E. destruct H; cbn in E; try discriminate. auto.
  - intros c' s' r r' H E. destruct H; cbn in E; try discriminate. auto.
  - intros n c s Hs IH c' s' r r' H E. destruct H as [| | |n' c' s' H| |]; cbn in E; try discriminate. injection E as -> E. destruct (IH _ _ _ _ H E) as [-> ->]. auto.
  - intros l s Hs IH c' s' r r' H E. destruct H as [| | | |l' s' H|]; cbn in E; try discriminate. injection E as E. rewrite <- !app_assoc in E. destruct (IH _ _ _ _ H E) as [-> ->]. auto.
  - intros l s Hs IH c' s' r r' H E. destruct H as [| | | | |l' s' H]; cbn in E; try discriminate. injection E as E. rewrite <- !app_assoc in E. destruct (IH _ _ _ _ H E) as [-> ->]. auto.
  - intros l' s' r r' H E. destruct H as [|c l s q Hc _]; [auto|]. destruct (says_head _ _ Hc) as (k & t & -> & Hk & _). cbn in E. congruence.
  - intros c l s q Hc IHc Hl IHl l' s' r r' H E. destruct H as [|c' l' s' q' Hc' Hl'].
    + destruct (says_head _ _ Hc) as (k & t & -> & Hk & _). cbn in E. congruence.
    + rewrite <- !app_assoc in E. destruct (IHc _ _ _ _ Hc' E) as [-> ->]. apply app_inv_head in E. destruct (IHl _ _ _ _ Hl' E) as [-> ->]. auto.
  - intros l' s' r r' H E. destruct H as [|tag name docs c l s q Hc _]; [auto|]. discriminate.
  - intros tag name docs c l s q Hc IHc Hl IHl l' s' r r' H E. destruct H as [|tag' name' docs' c' l' s' q' Hc' Hl']; [discriminate|].
    cbn in E. injection E as -> -> -> E. rewrite <- !app_assoc in E. destruct (IHc _ _ _ _ Hc' E) as [-> ->]. apply app_inv_head in E. destruct (IHl _ _ _ _ Hl' E) as [-> ->]. auto.
Qed.
End Unique.

(** ** Running the adapter event by event *)
Section Run.
Context {F : Type}.
Variable parse_f64 : str -> option F.
Variable src : str.
Notation convert := (convert_event parse_f64 src).
Notation next := (next_event parse_f64 src).
Notation loop := (fun f => next_loop parse_f64 f src).
Notation yields := (yields parse_f64 src).

(** What one event can do to the state. *)
Lemma skip_length : forall evs z, length (fst (skip_schema z evs)) <= length evs.
Proof.
  induction evs as [|e r IH]; intros z; [cbn; lia|]. cbn [skip_schema length]. pose proof (IH (z + 1)%Z). pose proof (IH (z - 1)%Z). pose proof (IH z).
  destruct (ev_kind e); repeat match goal with |- context [if ?b then _ else _] => destruct b end; cbn [fst]; lia.
Qed.

Ltac conv H := unfold convert_event in H; destruct (ev_kind _) eqn:?; cbn in H.

Lemma convert_facts ev (c c' : core F) a : convert ev c = Ok (c', a) -> length (c_rest c') <= length (c_rest c) /\ c_done c' = c_done c.
Proof.
  unfold convert_event. destruct (ev_kind ev); cbn; intros H; try (injection H as <- <-; cbn; auto; fail).
  - unfold dec_depth in H. cbn in H. destruct (c_depth c); [discriminate|]. cbn in H. destruct (_ =? 0); injection H as <- <-; cbn; auto.
  - unfold dec_depth in H. cbn in H. destruct (c_depth c); [discriminate|]. cbn in H. injection H as <- <-; cbn; auto.
  - destruct (_ && _ && _).
    + pose proof (skip_length (c_rest c) 0). destruct (skip_schema 0 (c_rest c)) as [r [e|]]; injection H as <- <-; cbn in *; auto.
    + injection H as <- <-; cbn; auto.
  - unfold span_text in H. destruct (slice _ _ _); [|discriminate]. cbn in H. injection H as <- <-. cbn. auto.
  - unfold span_text in H. destruct (slice _ _ _); [|discriminate]. cbn in H. destruct (_ && _); injection H as <- <-; cbn; auto.
  - destruct (c_tags c); injection H as <- <-; cbn; auto.
  - discriminate.
Qed.

Lemma loop_more : forall f g (c : core F), length (c_rest c) < f -> length (c_rest c) < g -> loop f c = loop g c.
Proof.
  induction f as [|f IH]; intros g c Hf Hg; [lia|]. destruct g as [|g]; [lia|]. cbn [next_loop]. destruct (c_rest c) as [|e r] eqn:E; [reflexivity|].
  destruct (inner_error e); [reflexivity|]. destruct (convert e (set_rest r c)) as [[c' a]| |] eqn:C; try reflexivity. cbn [bind].
  destruct a; try reflexivity. apply convert_facts in C as [C _]. cbn in C, Hf, Hg. apply IH; lia.
Qed.

(** [runs c l c']: from [c], handling events one at a time, the adapter says [l] and is in [c']. *)
Inductive runs : core F -> list (fevent F) -> core F -> Prop :=
| run_nil c : runs c [] c
| run_silent c e r c1 l c' : c_rest c = e :: r -> no_err e -> convert e (set_rest r c) = Ok (c1, ANone) -> runs c1 l c' -> runs c l c'
| run_says c e r c1 f l c' : c_rest c = e :: r -> no_err e -> convert e (set_rest r c) = Ok (c1, AEvent f) -> runs (set_queue [] c1) l c' ->
    runs c (f :: c_queue c1 ++ l) c'.

Lemma runs_trans c l c1 l2 c2 : runs c l c1 -> runs c1 l2 c2 -> runs c (l ++ l2) c2.
Proof.
  induction 1 as [c|c e r c1 l c' E N C H IH|c e r c1 f l c' E N C H IH]; intros H2; [exact H2| |].
  - eapply run_silent; eauto.
  - cbn. rewrite <- app_assoc. eapply run_says; eauto.
Qed.

Lemma no_err_inner e : no_err e -> inner_error e = None.
Proof. intros N. unfold inner_error. destruct (ev_kind e) eqn:E; try reflexivity. now destruct (N e0). Qed.

Lemma set_queue_same (c : core F) : c_queue c = [] -> set_queue [] c = c.
Proof. destruct c; cbn. intros ->. reflexivity. Qed.

Lemma convert_silent_queue e (c c' : core F) : convert e c = Ok (c', ANone) -> c_queue c' = c_queue c.
Proof.
  unfold convert_event. destruct (ev_kind e); cbn; intros H; try (injection H as <-; cbn; auto; fail); try discriminate.
  - unfold dec_depth in H. cbn in H. destruct (c_depth c); [discriminate|]. cbn in H. destruct (_ =? 0); discriminate.
  - unfold dec_depth in H. cbn in H. destruct (c_depth c); discriminate.
  - destruct (_ && _ && _); [|discriminate]. destruct (skip_schema 0 (c_rest c)) as [r [x|]]; [discriminate|]. injection H as <-. reflexivity.
  - unfold span_text in H. destruct (slice _ _ _); discriminate.
  - unfold span_text in H. destruct (slice _ _ _); [|discriminate]. cbn in H. destruct (_ && _); discriminate.
  - destruct (c_tags c) as [|[|] ?]; try (injection H as <-; reflexivity).
Qed.

Lemma yields_queue q : forall (c : core F) l, c_queue c = [] -> yields (set_queue q c) l <-> exists l', l = q ++ l' /\ yields c l'.
Proof.
  induction q as [|e q IH]; intros c l Hq.
  - rewrite set_queue_same by exact Hq. split; [intros H; exists l; auto|]. intros (l' & -> & H). exact H.
  - split.
    + intros H. inversion H as [? ? E|? ? ? ? E H1]; subst; unfold next_event in E; cbn in E; [discriminate|]. injection E as <- <-.
      change (set_queue q (set_queue (e :: q) c)) with (set_queue q c) in H1. apply IH in H1 as (l' & -> & H1); [|exact Hq]. exists l'. auto.
    + intros (l' & -> & H). cbn. eapply y_more; [unfold next_event; cbn; reflexivity|]. change (set_queue q (set_queue (e :: q) c)) with (set_queue q c). apply IH; eauto.
Qed.

Lemma next_step e r (c c1 : core F) a : c_queue c = [] -> c_done c = false -> c_rest c = e :: r -> no_err e ->
  convert e (set_rest r c) = Ok (c1, a) ->
  next c = match a with ANone => next c1 | _ => Ok (c1, a) end.
Proof.
  intros Hq Hd E N C. unfold next_event at 1. rewrite Hq, Hd, E. cbn [next_loop length]. rewrite E, (no_err_inner e N), C. cbn [bind].
  destruct a; try reflexivity. pose proof (convert_silent_queue _ _ _ C) as Q. cbn in Q. unfold next_event. rewrite Q, Hq.
  apply convert_facts in C as [C D]. cbn in C, D. rewrite D, Hd. apply (loop_more (S (length r)) (S (length (c_rest c1)))); lia.
Qed.

Lemma runs_yields c l c' l' : runs c l c' -> c_queue c = [] -> c_done c = false -> yields c' l' -> yields c (l ++ l').
Proof.
  intros H. revert l'. induction H as [c|c e r c1 l c' E N C H IH|c e r c1 f l c' E N C H IH]; intros l' Hq Hd Hy; [exact Hy| |].
  - pose proof (next_step e r c c1 ANone Hq Hd E N C) as Hn. pose proof (convert_silent_queue _ _ _ C) as Q. pose proof (convert_facts _ _ _ _ C) as [_ D]. cbn in Q, D.
    rewrite Hq in Q. rewrite Hd in D. specialize (IH l' Q D Hy). inversion IH as [? ? E1|? ? ? ? E1 H1]; subst; rewrite <- Hn in E1; econstructor; eauto.
  - pose proof (next_step e r c c1 (AEvent f) Hq Hd E N C) as Hn. cbn in Hn. pose proof (convert_facts _ _ _ _ C) as [_ D]. cbn in D. rewrite Hd in D.
    cbn. eapply y_more; [exact Hn|]. rewrite <- app_assoc. replace c1 with (set_queue (c_queue c1) (set_queue [] c1)) by (destruct c1; reflexivity).
    apply yields_queue; [reflexivity|]. eexists. split; [reflexivity|]. apply IH; auto.
Qed.

(** *** The events of a value *)
Definition readable (e : event) : Prop :=
  match ev_kind e with
  | EvScalar _ _ | EvUnit => exists t, slice src (sp_start (ev_span e)) (sp_end (ev_span e)) = Some t
  | EvTagStart n => n <> []
  | _ => True
  end.

Definition marked (l : list bool) : list bool := match l with _ :: r => true :: r | [] => [] end.
Lemma marked_marked l : marked (marked l) = marked l.
Proof. destruct l; reflexivity. Qed.

(** A state between two events, without hint. *)
Definition at_ev (rest : list event) (sp : option span) (doc : list str) (root : bool) (depth : nat) (tags : list bool) : core F :=
  mkc rest [] sp false doc root depth tags None.

Definition value_runs (d : dval) : Prop := forall k sp root depth tags, Forall readable (val_events d) -> (root = true -> 1 <= depth) ->
  exists l sp', runs (at_ev (val_events d ++ k) sp [] root depth tags) l (at_ev k sp' [] root depth (marked tags)) /\
    says (content_of d) (map fe_kind l).
Definition entry_runs (e : dentry) : Prop := forall k sp root depth tags, Forall readable (ent_events e) -> (root = true -> 2 <= depth) ->
  exists l sp', runs (at_ev (ent_events e ++ k) sp [] root depth (marked tags)) l (at_ev k sp' [] root depth (marked tags)) /\
    says_fields [field_of e] (map fe_kind l).

Lemma silent e k sp doc root depth tags l c' sp1 doc1 tags1 : no_err e ->
  convert e (at_ev k sp doc root depth tags) = Ok (at_ev k sp1 doc1 root depth tags1, ANone) ->
  runs (at_ev k sp1 doc1 root depth tags1) l c' -> runs (at_ev (e :: k) sp doc root depth tags) l c'.
Proof. intros N C H. eapply run_silent; [reflexivity|exact N|exact C|exact H]. Qed.

Lemma speaks e k sp doc root depth tags f l c' c1 : no_err e ->
  convert e (at_ev k sp doc root depth tags) = Ok (c1, AEvent f) -> c_queue c1 = [] ->
  runs c1 l c' -> runs (at_ev (e :: k) sp doc root depth tags) (f :: l) c'.
Proof.
  intros N C Q H. change (f :: l) with (f :: [] ++ l). rewrite <- Q. eapply run_says; [reflexivity|exact N|exact C|]. rewrite set_queue_same; assumption.
Qed.

Ltac noerr := intros ?; discriminate.

Lemma docs_run : forall (docs : list (span * list str)) k sp doc root depth tags,
  exists sp', forall l c', runs (at_ev k sp' (doc ++ flat_map snd docs) root depth tags) l c' ->
  runs (at_ev (map (fun d => mkev (fst d) (EvDoc (snd d))) docs ++ k) sp doc root depth tags) l c'.
Proof.
  induction docs as [|[ds dl] docs IH]; intros k sp doc root depth tags.
  - exists sp. cbn. rewrite app_nil_r. auto.
  - destruct (IH k (Some ds) (doc ++ dl) root depth tags) as [sp' H]. exists sp'. intros l c' R. cbn [map app fst snd].
    eapply silent; [noerr|reflexivity|]. apply H. cbn [flat_map snd] in R. now rewrite <- app_assoc.
Qed.

Lemma items_run items : Forall value_runs items -> forall k sp root depth tags, Forall readable (flat_map val_events items) -> (root = true -> 1 <= depth) ->
  exists l sp', runs (at_ev (flat_map val_events items ++ k) sp [] root depth (marked tags)) l (at_ev k sp' [] root depth (marked tags)) /\
    says_items (map content_of items) (map fe_kind l).
Proof.
  induction 1 as [|d items Hd _ IH]; intros k sp root depth tags R D.
  - exists [], sp. split; constructor.
  - cbn [flat_map] in *. apply Forall_app in R as [R1 R2]. destruct (Hd (flat_map val_events items ++ k) sp root depth (marked tags) R1 D) as (l1 & sp1 & H1 & S1).
    destruct (IH k sp1 root depth tags R2 D) as (l2 & sp2 & H2 & S2). exists (l1 ++ l2), sp2. rewrite <- app_assoc, map_app. rewrite marked_marked in H1. split; [eapply runs_trans; eauto|]. cbn. now constructor.
Qed.

Lemma fields_one tag name docs c l s r : says_fields [CField tag name docs c] s -> @says_fields F l r -> says_fields (CField tag name docs c :: l) (s ++ r).
Proof. intros H1 H2. inversion H1 as [|? ? ? ? ? s0 r0 Hc Hl]; subst. inversion Hl; subst. rewrite app_nil_r. cbn. now constructor. Qed.

Lemma entries_run es : Forall entry_runs es -> forall k sp root depth tags, Forall readable (flat_map ent_events es) -> (root = true -> 2 <= depth) ->
  exists l sp', runs (at_ev (flat_map ent_events es ++ k) sp [] root depth (marked tags)) l (at_ev k sp' [] root depth (marked tags)) /\
    says_fields (map field_of es) (map fe_kind l).
Proof.
  induction 1 as [|d items Hd _ IH]; intros k sp root depth tags R D.
  - exists [], sp. split; constructor.
  - cbn [flat_map] in *. apply Forall_app in R as [R1 R2]. destruct (Hd (flat_map ent_events items ++ k) sp root depth tags R1 D) as (l1 & sp1 & H1 & S1).
    destruct (IH k sp1 root depth tags R2 D) as (l2 & sp2 & H2 & S2). exists (l1 ++ l2), sp2. rewrite <- app_assoc, map_app. split; [eapply runs_trans; eauto|]. cbn. destruct d. now apply fields_one.
Qed.

Lemma entry_run docs s1 ksp tag pl kd v s2 k sp root depth tags : value_runs v ->
  Forall readable (ent_events (DEnt docs s1 ksp tag pl kd v s2)) -> (root = true -> 1 <= depth) ->
  root && (depth =? 1) && (match tag with Some t => str_eqb t (lit "schema") | None => false end) = false ->
  exists l sp', runs (at_ev (ent_events (DEnt docs s1 ksp tag pl kd v s2) ++ k) sp [] root depth (marked tags)) l (at_ev k sp' [] root depth (marked tags)) /\
    says_fields [field_of (DEnt docs s1 ksp tag pl kd v s2)] (map fe_kind l).
Proof.
  intros IH R D B. cbn [ent_events] in *. apply Forall_app in R as [_ R]. inversion_clear R as [|? ? _ R1]. inversion_clear R1 as [|? ? _ R2].
  apply Forall_app in R2 as [R2 _]. rewrite <- app_assoc. cbn [app]. rewrite <- app_assoc. cbn [app].
  destruct (IH (mkev s2 EvEntryEnd :: k) (Some ksp) root depth (marked tags) R2 D) as (l & sp1 & H & S0).
  destruct (docs_run docs (mkev s1 EvEntryStart :: mkev ksp (EvKey tag pl kd) :: val_events v ++ mkev s2 EvEntryEnd :: k) sp [] root depth (marked tags)) as [sp0 HD].
  eexists (_ :: l), sp1. split.
  - apply HD. eapply silent; [noerr|reflexivity|]. eapply speaks; [noerr| | |].
    + unfold convert_event. cbn [ev_kind ev_span]. cbn [c_root c_depth set_span at_ev]. rewrite B. cbn. reflexivity.
    + reflexivity.
    + rewrite <- (app_nil_r l). eapply runs_trans; [exact H|]. eapply silent; [noerr|reflexivity|]. rewrite marked_marked. constructor.
  - cbn. rewrite <- (app_nil_r (map fe_kind l)). constructor; [exact S0|constructor].
Qed.

Lemma all_run : (forall d, value_runs d) /\ (forall e, entry_runs e).
Proof.
  assert (E : forall docs s1 ksp tag pl k v s2, value_runs v -> entry_runs (DEnt docs s1 ksp tag pl k v s2)).
  { intros docs s1 ksp tag pl kd v s2 IH k sp root depth tags R D. apply entry_run; auto.
    - intros Hr. specialize (D Hr). lia.
    - replace (root && (depth =? 1)) with false; [reflexivity|]. destruct root; [|reflexivity]. specialize (D eq_refl). symmetry. apply Nat.eqb_neq. lia. }
  assert (V : forall d, value_runs d).
  { apply (dval_rect' value_runs entry_runs).
    - intros sp t kd k sp0 root depth tags R D. inversion_clear R as [|? ? Hr _]. cbn in Hr. destruct Hr as [x Hx]. exists [mkfe sp (FScalar (SStr t))], (Some sp). split; [|constructor].
      cbn [val_events app]. eapply speaks; [noerr| | |].
      + unfold convert_event. cbn [ev_kind ev_span]. unfold span_text. rewrite Hx. cbn. reflexivity.
      + reflexivity.
      + constructor.
    - intros sp k sp0 root depth tags R D. inversion_clear R as [|? ? Hr _]. cbn in Hr. destruct Hr as [x Hx].
      cbn [val_events app]. destruct (str_eqb x [cAT] && match tags with [] => true | _ => false end) eqn:B.
      + apply andb_prop in B as [B1 B2]. destruct tags; [|discriminate]. exists [mkfe sp (FTag None); mkfe sp (FScalar SUnit)], (Some sp). split.
        * eapply (run_says _ (mkev sp EvUnit) k (set_queue [mkfe sp (FScalar SUnit)] (at_ev k (Some sp) [] root depth [])) (mkfe sp (FTag None)) []);
            [reflexivity|noerr| |constructor]. unfold convert_event, span_text. cbn [ev_kind ev_span]. rewrite Hx. cbn. rewrite B1. reflexivity.
        * cbn. apply says_at.
      + exists [mkfe sp (FScalar SUnit)], (Some sp). split; [|constructor]. eapply speaks; [noerr| | |].
        * unfold convert_event, span_text. cbn [ev_kind ev_span]. rewrite Hx. cbn.
          replace (match match tags with [] => [] | _ :: r => true :: r end with [] => true | _ => false end) with (match tags with [] => true | _ => false end) by (destruct tags; reflexivity). rewrite B. reflexivity.
        * reflexivity.
        * constructor.
    - intros s1 items s2 IH k sp root depth tags R D. cbn [val_events] in *. inversion_clear R as [|? ? _ R1]. apply Forall_app in R1 as [R1 _].
      destruct (items_run items IH (mkev s2 EvSeqEnd :: k) (Some s1) root (S depth) tags R1) as (l & sp1 & H & S0). { intros Hr. lia. }
      eexists (_ :: l ++ [_]), (Some s2). split.
      + rewrite <- !app_comm_cons, <- app_assoc. eapply speaks; [noerr|reflexivity|reflexivity|]. eapply runs_trans; [exact H|]. eapply speaks; [noerr|reflexivity|reflexivity|constructor].
      + cbn. rewrite map_app. cbn. now constructor.
    - intros s1 es s2 IH k sp root depth tags R D. cbn [val_events] in *. inversion_clear R as [|? ? _ R1]. apply Forall_app in R1 as [R1 _].
      destruct (entries_run es IH (mkev s2 EvObjEnd :: k) (Some s1) root (S depth) tags R1) as (l & sp1 & H & S0). { intros Hr. specialize (D Hr). lia. }
      eexists (_ :: l ++ [_]), (Some s2). split.
      + rewrite <- !app_comm_cons, <- app_assoc. eapply speaks; [noerr|reflexivity|reflexivity|]. eapply runs_trans; [exact H|].
        eapply (speaks _ _ _ _ _ _ _ _ _ _ (at_ev k (Some s2) [] root depth (marked tags))); [noerr| |reflexivity|constructor]. unfold convert_event. cbn.
        destruct (depth =? 0) eqn:Z; [|reflexivity]. destruct root; [|reflexivity]. apply Nat.eqb_eq in Z. specialize (D eq_refl). lia.
      + cbn. rewrite map_app. cbn. now constructor.
    - intros s1 n p s2 IH k sp root depth tags R D. cbn [val_events] in *. inversion_clear R as [|? ? Rn R1]. cbn in Rn. apply Forall_app in R1 as [R1 _].
      destruct p as [w|].
      + destruct (IH w eq_refl (mkev s2 EvTagEnd :: k) (Some s1) root depth (false :: marked tags) R1 D) as (l & sp1 & H & S0).
        eexists (_ :: l), sp1. split.
        * rewrite <- !app_comm_cons, <- app_assoc. eapply speaks; [noerr|reflexivity|reflexivity|]. rewrite <- (app_nil_r l). eapply runs_trans; [exact H|]. eapply silent; [noerr|reflexivity|]. constructor.
        * cbn. destruct n; [congruence|]. now constructor.
      + eexists [_; _], (Some s1). split.
        * cbn [app]. eapply speaks; [noerr|reflexivity|reflexivity|]. eapply speaks; [noerr|reflexivity|reflexivity|]. constructor.
        * cbn. destruct n; [congruence|]. repeat constructor.
    - exact E. }
  split; [exact V|]. intros [docs s1 ksp tag pl k v s2]. apply E, V.
Qed.


(** *** Skipping the entry of the schema *)
Lemma skip_inside_list {A} (ev : A -> list event) (xs : list A) : Forall (fun x => forall k z, (1 <= z)%Z -> skip_schema z (ev x ++ k) = skip_schema z k) xs ->
  forall k z, (1 <= z)%Z -> skip_schema z (flat_map ev xs ++ k) = skip_schema z k.
Proof.
  induction 1 as [|x xs Hx _ IH]; intros k z Hz; [reflexivity|]. cbn [flat_map]. rewrite <- app_assoc, Hx by exact Hz. apply IH, Hz.
Qed.

Lemma skip_docs : forall (docs : list (span * list str)) z k, skip_schema z (map (fun d => mkev (fst d) (EvDoc (snd d))) docs ++ k) = skip_schema z k.
Proof. induction docs as [|x docs IH]; intros z k; [reflexivity|]. cbn. apply IH. Qed.

Lemma skip_inside : (forall d k z, (1 <= z)%Z -> skip_schema z (val_events d ++ k) = skip_schema z k) /\
  (forall e k z, (1 <= z)%Z -> skip_schema z (ent_events e ++ k) = skip_schema z k).
Proof.
  assert (E : forall docs s1 ksp tag pl kd v s2, (forall k z, (1 <= z)%Z -> skip_schema z (val_events v ++ k) = skip_schema z k) ->
     forall k z, (1 <= z)%Z -> skip_schema z (ent_events (DEnt docs s1 ksp tag pl kd v s2) ++ k) = skip_schema z k).
  { intros docs s1 ksp tag pl kd v s2 IH k z Hz. cbn [ent_events]. rewrite <- app_assoc, skip_docs. cbn. rewrite <- app_assoc, IH by exact Hz. cbn. destruct (z =? 0)%Z eqn:E; [lia|reflexivity]. }
  assert (V : forall d k z, (1 <= z)%Z -> skip_schema z (val_events d ++ k) = skip_schema z k).
  { apply (dval_rect' (fun d => forall k z, (1 <= z)%Z -> skip_schema z (val_events d ++ k) = skip_schema z k)
                      (fun e => forall k z, (1 <= z)%Z -> skip_schema z (ent_events e ++ k) = skip_schema z k)).
    - intros sp t kd k z Hz. cbn. destruct (z =? 0)%Z eqn:E0; [lia|reflexivity].
    - intros sp k z Hz. cbn. destruct (z =? 0)%Z eqn:E0; [lia|reflexivity].
    - intros s1 items s2 IH k z Hz. cbn. rewrite <- app_assoc, (skip_inside_list _ _ IH) by lia. cbn. destruct (z + 1 - 1 <=? 0)%Z eqn:E0; [lia|]. f_equal. lia.
    - intros s1 items s2 IH k z Hz. cbn. rewrite <- app_assoc, (skip_inside_list _ _ IH) by lia. cbn. destruct (z + 1 - 1 <=? 0)%Z eqn:E0; [lia|]. f_equal. lia.
    - intros s1 n p s2 IH k z Hz. cbn. rewrite <- app_assoc. destruct p as [w|]; [rewrite (IH w eq_refl) by exact Hz|]; reflexivity.
    - exact E. }
  split; [exact V|]. intros [docs s1 ksp tag pl kd v s2]. apply E, V.
Qed.

Definition tag_end (e : event) : Prop := ev_kind e = EvTagEnd.

Lemma skip_value_events : forall d k, (exists r, Forall tag_end r /\ skip_schema 0 (val_events d ++ k) = (r ++ k, None)) \/ skip_schema 0 (val_events d ++ k) = skip_schema 0 k.
Proof.
  pose proof skip_inside as [SV SE].
  apply (dval_rect' (fun d => forall k, (exists r, Forall tag_end r /\ skip_schema 0 (val_events d ++ k) = (r ++ k, None)) \/ skip_schema 0 (val_events d ++ k) = skip_schema 0 k) (fun _ => True)); auto.
  - intros sp t kd k. left. exists []. split; [constructor|]. reflexivity.
  - intros sp k. left. exists []. split; [constructor|]. reflexivity.
  - intros s1 items s2 _ k. left. exists []. split; [constructor|]. cbn. rewrite <- app_assoc, (skip_inside_list val_events items); [reflexivity| |lia]. apply Forall_forall. intros; now apply SV.
  - intros s1 items s2 _ k. left. exists []. split; [constructor|]. cbn. rewrite <- app_assoc, (skip_inside_list ent_events items); [reflexivity| |lia]. apply Forall_forall. intros; now apply SE.
  - intros s1 n p s2 IH k. cbn. rewrite <- app_assoc. destruct p as [w|]; [|right; reflexivity]. destruct (IH w eq_refl ([mkev s2 EvTagEnd] ++ k)) as [(r & Hr & E)|E].
    + left. exists (r ++ [mkev s2 EvTagEnd]). split; [apply Forall_app; split; [exact Hr|repeat constructor]|]. now rewrite E, <- app_assoc.
    + right. rewrite E. reflexivity.
Qed.

Lemma tag_ends_run r k sp : Forall tag_end r -> runs (at_ev (r ++ k) sp [] true 1 []) [] (at_ev k sp [] true 1 []).
Proof.
  induction 1 as [|[esp ek] r He _ IH]; [constructor|]. red in He. cbn in He. subst ek. cbn [app]. eapply silent; [noerr|reflexivity|exact IH].
Qed.

Lemma schema_runs docs s1 ksp pl kd v s2 k sp : exists sp', 
  runs (at_ev (ent_events (DEnt docs s1 ksp (Some (lit "schema")) pl kd v s2) ++ k) sp [] true 1 []) [] (at_ev k sp' [] true 1 []).
Proof.
  cbn [ent_events]. rewrite <- app_assoc. cbn [app]. rewrite <- app_assoc. cbn [app].
  destruct (docs_run docs (mkev s1 EvEntryStart :: mkev ksp (EvKey (Some (lit "schema")) pl kd) :: val_events v ++ mkev s2 EvEntryEnd :: k) sp [] true 1 []) as [sp0 HD].
  exists (Some ksp). apply HD. eapply silent; [noerr|reflexivity|].
  assert (S0 : exists r, runs (at_ev r (Some ksp) [] true 1 []) [] (at_ev k (Some ksp) [] true 1 []) /\ skip_schema 0 (val_events v ++ mkev s2 EvEntryEnd :: k) = (r, None)).
  { destruct (skip_value_events v (mkev s2 EvEntryEnd :: k)) as [(r & Hr & E)|E].
    - eexists. split; [|exact E]. change (@nil (fevent F)) with (@nil (fevent F) ++ []). eapply runs_trans; [apply tag_ends_run, Hr|]. eapply silent; [noerr|reflexivity|constructor].
    - cbn in E. eexists. split; [|exact E]. constructor. }
  destruct S0 as (r & Hr & E). eapply run_silent; [reflexivity|noerr| |exact Hr]. unfold convert_event. cbn [ev_kind ev_span]. cbn. rewrite E. reflexivity.
Qed.

Lemma root_entries_run : forall es k sp, Forall readable (flat_map ent_events es) ->
  exists l sp', runs (at_ev (flat_map ent_events es ++ k) sp [] true 1 []) l (at_ev k sp' [] true 1 []) /\
    says_fields (map field_of (filter (fun e => negb (schema_entry e)) es)) (map fe_kind l).
Proof.
  induction es as [|e es IH]; intros k sp R.
  - exists [], sp. split; constructor.
  - cbn [flat_map] in *. apply Forall_app in R as [R1 R2]. rewrite <- app_assoc. destruct e as [docs s1 ksp tag pl kd v s2]. cbn [filter].
    destruct (schema_entry (DEnt docs s1 ksp tag pl kd v s2)) eqn:B.
    + destruct tag as [t|]; [|discriminate]. cbn in B. apply str_eqb_eq in B. subst t.
      destruct (schema_runs docs s1 ksp pl kd v s2 (flat_map ent_events es ++ k) sp) as [sp1 H1]. destruct (IH k sp1 R2) as (l & sp2 & H2 & S2).
      exists l, sp2. split; [|exact S2]. change l with ([] ++ l). eapply runs_trans; eauto.
    + destruct (entry_run docs s1 ksp tag pl kd v s2 (flat_map ent_events es ++ k) sp true 1 []) as (l1 & sp1 & H1 & S1).
      * apply all_run.
      * exact R1.
      * lia.
      * cbn in B |- *. destruct tag; [exact B|reflexivity].
      * destruct (IH k sp1 R2) as (l2 & sp2 & H2 & S2). exists (l1 ++ l2), sp2. split; [eapply runs_trans; eauto|]. rewrite map_app. cbn [negb map]. now apply fields_one.
Qed.

(** A whole document without comments. *)
Lemma yields_end sp doc root depth tags : yields (at_ev [] sp doc root depth tags) [].
Proof. eapply y_end. reflexivity. Qed.

Lemma doc_yields es evs : doc_events es evs -> Forall readable evs ->
  exists l, yields (facet_new evs) l /\ (es = [] /\ l = [] \/ says (data_of es) (map fe_kind l)).
Proof.
  intros H R. destruct H as [a b|a s1 es s2 b].
  - exists []. split; [|left; auto]. change (facet_new [mkev a EvDocStart; mkev b EvDocEnd]) with (at_ev [mkev a EvDocStart; mkev b EvDocEnd] None [] true 0 []).
    change (@nil (fevent F)) with (@nil (fevent F) ++ []). eapply runs_yields; [|reflexivity|reflexivity|apply yields_end].
    eapply silent; [noerr|reflexivity|]. eapply silent; [noerr|reflexivity|]. constructor.
  - cbn [val_events] in R. inversion_clear R as [|? ? _ R1]. inversion_clear R1 as [|? ? _ R2]. apply Forall_app in R2 as [R2 _]. apply Forall_app in R2 as [R2 _].
    destruct (root_entries_run es [mkev s2 EvObjEnd; mkev b EvDocEnd] (Some s1) R2) as (l & sp1 & H & S0).
    exists ((mkfe s1 FStructStart :: l ++ [mkfe s2 FStructEnd]) ++ []). split; [|right].
    + cbn [val_events]. rewrite <- app_comm_cons, <- app_assoc. change ([mkev s2 EvObjEnd] ++ [mkev b EvDocEnd]) with [mkev s2 EvObjEnd; mkev b EvDocEnd].
      change (facet_new ?x) with (at_ev x None [] true 0 []).
      eapply runs_yields; [|reflexivity|reflexivity|apply yields_end]. eapply silent; [noerr|reflexivity|]. eapply speaks; [noerr|reflexivity|reflexivity|].
      eapply runs_trans; [exact H|]. eapply (speaks _ _ _ _ _ _ _ _ _ _ (at_ev _ (Some s2) [] false 0 [])); [noerr|reflexivity|reflexivity|]. eapply silent; [noerr|reflexivity|constructor].
    + rewrite app_nil_r. cbn. rewrite map_app. cbn. now constructor.
Qed.

(** *** Comments do not matter *)
Definition strip (c : core F) : core F := set_rest (filter not_comment (c_rest c)) c.
Definition lift (r : res (core F * answer F)) : res (core F * answer F) :=
  match r with Ok (c, a) => Ok (strip c, a) | Panic => Panic | OutOfFuel => OutOfFuel end.

Lemma skip_strip : forall evs z, skip_schema z (filter not_comment evs) = (filter not_comment (fst (skip_schema z evs)), snd (skip_schema z evs)).
Proof.
  induction evs as [|[sp k] r IH]; intros z; [reflexivity|]. cbn [filter skip_schema]. unfold not_comment at 1. cbn [ev_kind].
  destruct k; cbn [skip_schema ev_kind]; repeat match goal with |- context [if ?b then _ else _] => destruct b end; auto.
Qed.

Lemma convert_strip ev (c : core F) : convert ev (strip c) = lift (convert ev c).
Proof.
  unfold convert_event, strip. destruct (ev_kind ev); cbn; try reflexivity.
  - unfold dec_depth. cbn. destruct (c_depth c); [reflexivity|]. cbn. destruct (_ =? 0); reflexivity.
  - unfold dec_depth. cbn. destruct (c_depth c); reflexivity.
  - destruct (_ && _ && _); [|reflexivity]. rewrite skip_strip. destruct (skip_schema 0 (c_rest c)) as [r [e|]]; reflexivity.
  - unfold span_text. destruct (slice _ _ _); reflexivity.
  - unfold span_text. destruct (slice _ _ _); [|reflexivity]. cbn. destruct (_ && _); reflexivity.
  - destruct (c_tags c) as [|[|] ?]; reflexivity.
Qed.

Lemma filter_short {A} p (l : list A) : length (filter p l) <= length l.
Proof. induction l as [|x l IH]; [cbn; lia|]. cbn. destruct (p x); cbn; lia. Qed.

Lemma loop_strip : forall f g (c : core F), length (c_rest c) < f -> length (filter not_comment (c_rest c)) < g -> loop g (strip c) = lift (loop f c).
Proof.
  induction f as [|f IH]; intros g c Hf Hg; [lia|]. cbn [next_loop]. destruct (c_rest c) as [|e r] eqn:E.
  - destruct g as [|g]; [cbn in Hg; lia|]. cbn [next_loop]. unfold strip. rewrite E. cbn. unfold strip, set_done. cbn. now rewrite E.
  - destruct (not_comment e) eqn:B.
    + cbn [filter] in Hg. rewrite B in Hg. destruct g as [|g]; [cbn in Hg; lia|]. cbn [next_loop]. unfold strip at 1. cbn [c_rest set_rest]. rewrite E. cbn [filter]. rewrite B.
      destruct (inner_error e); [unfold lift, strip; reflexivity|]. change (set_rest (filter not_comment r) (strip c)) with (strip (set_rest r c)). pose proof (convert_strip e (set_rest r c)) as X. rewrite X.
      destruct (convert e (set_rest r c)) as [[c' a]| |] eqn:C; try reflexivity. cbn [bind lift] in *.
      destruct a; try reflexivity. apply convert_facts in C as [C _]. apply convert_facts in X as [X _]. cbn in C, X, Hf, Hg. apply IH; lia.
    + destruct e as [sp k]. cbn in B. destruct k; try discriminate. cbn [inner_error ev_kind]. cbn [convert_event ev_kind bind].
      rewrite <- (IH g (set_rest r c)); [f_equal; unfold strip; cbn [c_rest set_rest]; rewrite E; reflexivity| |]; cbn in *; lia.
Qed.

Lemma next_strip (c : core F) : next (strip c) = lift (next c).
Proof.
  unfold next_event. cbn [c_queue c_done strip set_rest]. destruct (c_queue c) as [|e q]; [|reflexivity]. destruct (c_done c); [reflexivity|].
  apply loop_strip; cbn; lia.
Qed.

Lemma yields_strip (c : core F) l : yields (strip c) l -> yields c l.
Proof.
  intros H. remember (strip c) as d eqn:E. revert c E. induction H as [d d' Hn|d d' e l Hn H IH]; intros c ->; rewrite next_strip in Hn; destruct (next c) as [[c' a]| |] eqn:N; try discriminate;
    injection Hn as <- ->.
  - eapply y_end; exact N.
  - eapply y_more; [exact N|]. now apply IH.
Qed.

(** *** A document that is read to its end has no error *)
Lemma skip_no_err : forall evs z r, skip_schema z evs = (r, None) -> exists p, evs = p ++ r /\ Forall no_err p.
Proof.
  induction evs as [|[sp k] evs IH]; intros z r H; cbn [skip_schema] in H.
  - injection H as <-. exists []. auto.
  - assert (N : (forall x, k <> EvError x) -> forall p, evs = p ++ r -> Forall no_err p -> exists p', mkev sp k :: evs = p' ++ r /\ Forall no_err p').
    { intros Hk p -> Hp. exists (mkev sp k :: p). split; [reflexivity|]. constructor; auto. }
    assert (N0 : (forall x, k <> EvError x) -> exists p', mkev sp k :: evs = p' ++ evs /\ Forall no_err p').
    { intros Hk. exists [mkev sp k]. split; [reflexivity|]. repeat constructor; auto. }
    cbn [ev_kind] in H. destruct k; try discriminate;
      repeat match type of H with context [if ?b then _ else _] => destruct b end;
      try (apply IH in H as (p & Hp1 & Hp2); apply (N ltac:(discriminate) p Hp1 Hp2));
      injection H as <-; apply N0; discriminate.
Qed.

Lemma convert_rest ev (c c' : core F) a : convert ev c = Ok (c', a) -> (forall sp, a <> AErr sp) -> exists p, c_rest c = p ++ c_rest c' /\ Forall no_err p.
Proof.
  assert (Z : forall c0 : core F, c_rest c0 = c_rest c -> exists p, c_rest c = p ++ c_rest c0 /\ Forall no_err p) by (intros c0 ->; exists []; auto).
  unfold convert_event. destruct (ev_kind ev); cbn; intros H Ha; try (injection H as <- _; apply Z; reflexivity).
  - unfold dec_depth in H. cbn in H. destruct (c_depth c); [discriminate|]. cbn in H. destruct (_ =? 0); injection H as <- _; apply Z; reflexivity.
  - unfold dec_depth in H. cbn in H. destruct (c_depth c); [discriminate|]. cbn in H. injection H as <- _; apply Z; reflexivity.
  - destruct (_ && _ && _); [|injection H as <- _; apply Z; reflexivity]. destruct (skip_schema 0 (c_rest c)) as [r [e|]] eqn:E; injection H as <- <-; [now destruct (Ha e)|]. cbn. eapply skip_no_err; eauto.
  - unfold span_text in H. destruct (slice _ _ _); [|discriminate]. cbn in H. injection H as <- _; apply Z; reflexivity.
  - unfold span_text in H. destruct (slice _ _ _); [|discriminate]. cbn in H. destruct (_ && _); injection H as <- _; apply Z; reflexivity.
  - destruct (c_tags c); injection H as <- _; apply Z; reflexivity.
  - discriminate.
Qed.

Lemma inner_no_err e : inner_error e = None -> no_err e.
Proof. unfold inner_error. intros H x E. rewrite E in H. discriminate. Qed.

Lemma loop_rest : forall f (c c' : core F) a, loop f c = Ok (c', a) -> (forall sp, a <> AErr sp) ->
  (exists p, c_rest c = p ++ c_rest c' /\ Forall no_err p) /\ (a = ANone -> c_rest c' = [] /\ c_done c' = true /\ c_queue c' = c_queue c) /\ (a <> ANone -> c_done c' = c_done c).
Proof.
  induction f as [|f IH]; intros c c' a H Ha; [discriminate|]. cbn [next_loop] in H. destruct (c_rest c) as [|e r] eqn:E.
  - injection H as <- <-. cbn. rewrite E. splits; [exists []; auto|auto|]. intros X. congruence.
  - destruct (inner_error e) eqn:I; [injection H as <- <-; now destruct (Ha s)|]. destruct (convert e (set_rest r c)) as [[c1 a1]| |] eqn:C; try discriminate. cbn [bind] in H.
    apply inner_no_err in I. destruct a1 as [x| |sp].
    + injection H as <- <-. apply convert_facts in C as C1. destruct C1 as [_ D]. apply convert_rest in C as (p & Ep & Hp); [|discriminate]. cbn in Ep, D. splits; [|discriminate|auto].
      exists (e :: p). split; [cbn; congruence|]. now constructor.
    + pose proof (convert_silent_queue _ _ _ C) as Q. apply convert_facts in C as C1. destruct C1 as [_ D]. apply convert_rest in C as (p & Ep & Hp); [|discriminate]. destruct (IH _ _ _ H Ha) as ((p' & E' & Hp') & H1 & H2). cbn in *. splits.
      * exists (e :: p ++ p'). split; [cbn; rewrite <- app_assoc, <- E'; congruence|]. constructor; [exact I|]. apply Forall_app. auto.
      * intros X. destruct (H1 X) as (? & ? & ?). splits; congruence.
      * intros X. rewrite H2 by exact X. exact D.
    + injection H as <- <-. now destruct (Ha sp).
Qed.

Lemma next_rest (c c' : core F) a : next c = Ok (c', a) -> (forall sp, a <> AErr sp) ->
  (exists p, c_rest c = p ++ c_rest c' /\ Forall no_err p) /\ (a = ANone -> c_queue c' = [] /\ c_done c' = true /\ (c_done c = false -> c_rest c' = [])) /\ (a <> ANone -> c_done c' = c_done c).
Proof.
  intros H Ha. unfold next_event in H. destruct (c_queue c) as [|e q] eqn:Q.
  - destruct (c_done c) eqn:D.
    + injection H as <- <-. splits; [exists []; auto| |]; auto. intros _. splits; auto. congruence.
    + apply loop_rest in H as (H1 & H2 & H3); [|exact Ha]. splits; [exact H1|intros X; destruct (H2 X) as (? & ? & ?); splits; auto; congruence|]. intros X. rewrite (H3 X). exact D.
  - injection H as <- <-. splits; [exists []; auto|discriminate|auto].
Qed.

Lemma yields_no_err (c : core F) l : yields c l -> c_done c = false -> Forall no_err (c_rest c).
Proof.
  induction 1 as [c c' Hn|c c' e l Hn H IH]; intros D.
  - apply next_rest in Hn as ((p & -> & Hp) & H1 & _); [|discriminate]. destruct (H1 eq_refl) as (_ & _ & X). rewrite (X D), app_nil_r. exact Hp.
  - apply next_rest in Hn as ((p & -> & Hp) & _ & H1); [|discriminate]. apply Forall_app. split; [exact Hp|]. apply IH. rewrite H1 by discriminate. exact D.
Qed.

(** *** Peeking *)
Lemma peek_more (c : core F) e l : yields c (e :: l) -> exists c', peek_event parse_f64 src c = Ok (c', AEvent e) /\ yields c' (e :: l).
Proof.
  intros H. inversion H as [|? c1 ? ? Hn Hy]; subst. unfold peek_event. destruct (c_queue c) as [|x q] eqn:Q.
  - rewrite Hn. cbn [bind]. eexists. split; [reflexivity|]. eapply y_more; [|exact Hy]. unfold next_event. cbn. destruct c1; reflexivity.
  - exists c. split; [|exact H]. unfold next_event in Hn. rewrite Q in Hn. injection Hn as _ ->. reflexivity.
Qed.

Lemma peek_end (c : core F) : yields c [] -> exists c', peek_event parse_f64 src c = Ok (c', ANone) /\ yields c' [].
Proof.
  intros H. inversion H as [? c1 Hn|]; subst. unfold peek_event. destruct (c_queue c) as [|x q] eqn:Q.
  - rewrite Hn. cbn [bind]. apply next_rest in Hn as (_ & H1 & _); [|discriminate]. destruct (H1 eq_refl) as (Q1 & D1 & _). exists c1. rewrite Q1. split; [reflexivity|].
    eapply y_end. unfold next_event. rewrite Q1, D1. reflexivity.
  - unfold next_event in Hn. rewrite Q in Hn. discriminate.
Qed.

(** *** Skipping a value *)
Definition left (c : core F) : nat := length (c_queue c) + 2 * length (c_rest c).

Lemma convert_queue ev (c c' : core F) a : convert ev c = Ok (c', a) -> length (c_queue c') <= length (c_queue c) + 1.
Proof.
  unfold convert_event. destruct (ev_kind ev); cbn; intros H; try (injection H as <- _; cbn; lia).
  - unfold dec_depth in H. cbn in H. destruct (c_depth c); [discriminate|]. cbn in H. destruct (_ =? 0); injection H as <- _; cbn; lia.
  - unfold dec_depth in H. cbn in H. destruct (c_depth c); [discriminate|]. cbn in H. injection H as <- _; cbn; lia.
  - destruct (_ && _ && _); [|injection H as <- _; cbn; lia]. destruct (skip_schema 0 (c_rest c)) as [r [e|]] eqn:E; injection H as <- <-; cbn; lia.
  - unfold span_text in H. destruct (slice _ _ _); [|discriminate]. cbn in H. injection H as <- _; cbn; lia.
  - unfold span_text in H. destruct (slice _ _ _); [|discriminate]. cbn in H. destruct (_ && _); injection H as <- _; cbn; rewrite ?app_length; cbn; lia.
  - destruct (c_tags c); injection H as <- _; cbn; lia.
  - discriminate.
Qed.

Lemma loop_left : forall f (c c' : core F) e, loop f c = Ok (c', AEvent e) -> S (left c') <= left c.
Proof.
  induction f as [|f IH]; intros c c' e H; [discriminate|]. cbn [next_loop] in H. destruct (c_rest c) as [|x r] eqn:E; [discriminate|].
  destruct (inner_error x); [discriminate|]. destruct (convert x (set_rest r c)) as [[c1 a1]| |] eqn:C; try discriminate. cbn [bind] in H.
  apply convert_facts in C as C1. destruct C1 as [L _]. cbn in L. unfold left. rewrite E. cbn [length]. destruct a1; [|apply IH in H; pose proof (convert_silent_queue _ _ _ C) as Q; cbn in Q; unfold left in H; rewrite Q in H; lia|discriminate].
  injection H as <- <-. apply convert_queue in C. cbn in C. lia.
Qed.

Lemma next_left (c c' : core F) e : next c = Ok (c', AEvent e) -> S (left c') <= left c.
Proof.
  unfold next_event, left. destruct (c_queue c) as [|x q] eqn:Q.
  - destruct (c_done c); [discriminate|]. intros H. apply loop_left in H. unfold left in H. rewrite Q in H. exact H.
  - intros [= <- _]. cbn. lia.
Qed.

Lemma yields_left (c : core F) l : yields c l -> length l <= left c.
Proof. induction 1 as [c c' Hn|c c' e l Hn H IH]; [cbn; lia|]. apply next_left in Hn. cbn. lia. Qed.

Notation skips := (skip_loop parse_f64).

Definition skip_in (s : list (fkind F)) : Prop := forall z c s1 s2 f, (1 <= z)%Z -> map fe_kind s1 = s -> yields c (s1 ++ s2) ->
  exists c', skips (length s1 + f) src z c = skips f src z c' /\ yields c' s2.

Lemma skip_app a b : skip_in a -> skip_in b -> skip_in (a ++ b).
Proof.
  intros Ha Hb z c s1 s2 f Hz E Y. apply map_eq_app in E as (x & y & -> & Ex & Ey). rewrite <- app_assoc in Y. destruct (Ha z c x (y ++ s2) (length y + f) Hz Ex Y) as (c1 & E1 & Y1).
  destruct (Hb z c1 y s2 f Hz Ey Y1) as (c2 & E2 & Y2). exists c2. split; [|exact Y2]. rewrite app_length, <- Nat.add_assoc. congruence.
Qed.

Lemma yields_inv (c : core F) e l : yields c (e :: l) -> exists c', next c = Ok (c', AEvent e) /\ yields c' l.
Proof. intros H. inversion H; subst. eauto. Qed.

Lemma skip_brackets s (o e : fkind F) : (o = FStructStart \/ o = FSeqStart) -> (e = FStructEnd \/ e = FSeqEnd) -> skip_in s ->
  forall z c s1 s2 f, (0 <= z)%Z -> map fe_kind s1 = o :: s ++ [e] -> yields c (s1 ++ s2) ->
  exists c', skips (length s1 + f) src z c = (if (z =? 0)%Z then Ok (c', None) else skips f src z c') /\ yields c' s2.
Proof.
  intros Ho He Hs z c s1 s2 f Hz E Y. destruct s1 as [|x s1]; [discriminate|]. cbn in E. injection E as Ex E. apply map_eq_app in E as (a & b & -> & Ea & Eb).
  destruct b as [|y [|]]; try discriminate. injection Eb as Ey. cbn [app] in Y. apply yields_inv in Y as (c1 & N1 & Y1). rewrite <- app_assoc in Y1.
  destruct (Hs (z + 1)%Z c1 a ([y] ++ s2) (1 + f) ltac:(lia) Ea Y1) as (c2 & E2 & Y2). cbn [app] in Y2. apply yields_inv in Y2 as (c3 & N3 & Y3). exists c3. split; [|exact Y3].
  cbn [length Nat.add skip_loop]. rewrite N1. cbn [bind]. rewrite Ex, app_length. replace (length a + length [y] + f) with (length a + (1 + f)) by (cbn; lia).
  replace (match o with FStructStart | FSeqStart => skips (length a + (1 + f)) src (z + 1)%Z c1 | _ => _ end) with (skips (length a + (1 + f)) src (z + 1)%Z c1) by (destruct Ho as [->| ->]; reflexivity).
  rewrite E2. cbn [Nat.add skip_loop]. rewrite N3. cbn [bind]. rewrite Ey. replace (z + 1 - 1)%Z with z by lia. destruct (z + 1 =? 0)%Z eqn:Z0; [lia|]. destruct He as [->| ->]; reflexivity.
Qed.

Lemma says_skip : (forall v s, says v s -> skip_in s) /\ (forall l s, says_items l s -> skip_in s) /\ (forall l s, says_fields l s -> skip_in s).
Proof.
  assert (One : forall k : fkind F, (match k with FStructStart | FSeqStart | FStructEnd | FSeqEnd => False | _ => True end) -> skip_in [k]).
  { intros k Hk z c s1 s2 f Hz E Y. destruct s1 as [|x [|]]; try discriminate. injection E as E. cbn [app] in Y. apply yields_inv in Y as (c1 & N1 & Y1). exists c1. split; [|exact Y1].
    cbn [length Nat.add skip_loop]. rewrite N1. cbn [bind]. rewrite E. destruct (z =? 0)%Z eqn:Z0; [lia|]. destruct k; try contradiction; reflexivity. }
  assert (Nil : skip_in []).
  { intros z c s1 s2 f Hz E Y. destruct s1; [|discriminate]. exists c. auto. }
  apply says_all; intros.
  - now apply One.
  - now apply One.
  - apply (skip_app [FTag None]); now apply One.
  - apply (skip_app [FTag (Some n)]); [now apply One|assumption].
  - intros z c s1 s2 f Hz E Y. destruct (skip_brackets s FSeqStart FSeqEnd ltac:(auto) ltac:(auto) H0 z c s1 s2 f ltac:(lia) E Y) as (c' & E' & Y').
    exists c'. split; [|exact Y']. destruct (z =? 0)%Z eqn:Z0; [lia|]. exact E'.
  - intros z c s1 s2 f Hz E Y. destruct (skip_brackets s FStructStart FStructEnd ltac:(auto) ltac:(auto) H0 z c s1 s2 f ltac:(lia) E Y) as (c' & E' & Y').
    exists c'. split; [|exact Y']. destruct (z =? 0)%Z eqn:Z0; [lia|]. exact E'.
  - exact Nil.
  - now apply skip_app.
  - exact Nil.
  - change (FKey tag name docs :: s ++ r) with ([FKey tag name docs] ++ (s ++ r)). apply skip_app; [now apply One|]. now apply skip_app.
Qed.

Lemma skip_at_zero : forall v s, says v s -> forall c s1 s2 f, map fe_kind s1 = s -> yields c (s1 ++ s2) ->
  exists c', skips (length s1 + f) src 0 c = Ok (c', None) /\ yields c' s2.
Proof.
  induction 1 as [t| | |n v s H IH|l s H|l s H]; intros c s1 s2 f E Y.
  - destruct s1 as [|x [|]]; try discriminate. injection E as E. cbn [app] in Y. apply yields_inv in Y as (c1 & N1 & Y1). exists c1. split; [|exact Y1].
    cbn [length Nat.add skip_loop]. rewrite N1. cbn [bind]. rewrite E. reflexivity.
  - destruct s1 as [|x [|]]; try discriminate. injection E as E. cbn [app] in Y. apply yields_inv in Y as (c1 & N1 & Y1). exists c1. split; [|exact Y1].
    cbn [length Nat.add skip_loop]. rewrite N1. cbn [bind]. rewrite E. reflexivity.
  - destruct s1 as [|x [|y [|]]]; try discriminate. injection E as Ex Ey. cbn [app] in Y. apply yields_inv in Y as (c1 & N1 & Y1). apply yields_inv in Y1 as (c2 & N2 & Y2). exists c2. split; [|exact Y2].
    cbn [length Nat.add skip_loop]. rewrite N1. cbn [bind]. rewrite Ex. cbn [skip_loop]. rewrite N2. cbn [bind]. rewrite Ey. reflexivity.
  - destruct s1 as [|x s1]; try discriminate. injection E as Ex Es. cbn [app] in Y. apply yields_inv in Y as (c1 & N1 & Y1). destruct (IH c1 s1 s2 f Es Y1) as (c2 & E2 & Y2). exists c2. split; [|exact Y2].
    cbn [length Nat.add skip_loop]. rewrite N1. cbn [bind]. rewrite Ex. exact E2.
  - apply says_skip in H. destruct (skip_brackets s FSeqStart FSeqEnd ltac:(auto) ltac:(auto) H 0%Z c s1 s2 f ltac:(lia) E Y) as (c' & E' & Y'). exists c'. auto.
  - apply says_skip in H. destruct (skip_brackets s FStructStart FStructEnd ltac:(auto) ltac:(auto) H 0%Z c s1 s2 f ltac:(lia) E Y) as (c' & E' & Y'). exists c'. auto.
Qed.

Lemma skip_value_says v s1 s2 c : says v (map fe_kind s1) -> yields c (s1 ++ s2) ->
  exists c', skip_value parse_f64 src c = Ok (c', None) /\ yields c' s2.
Proof.
  intros H Y. pose proof (yields_left _ _ Y) as L. rewrite app_length in L. unfold skip_value. fold (left c).
  replace (1 + length (c_queue c) + 2 * length (c_rest c)) with (length s1 + (1 + left c - length s1)) by (unfold left in *; lia).
  eapply skip_at_zero; eauto.
Qed.

(** *** Hints *)
Lemma convert_hint ev (c c1 : core F) a h : c_hint c = None -> convert ev c = Ok (c1, a) ->
  match a with
  | AEvent (mkfe sp (FScalar (SStr t))) => convert ev (set_hint h c) = Ok (c1, AEvent (mkfe sp (FScalar (parse_scalar parse_f64 h t))))
  | _ => convert ev (set_hint h c) = Ok (set_hint h c1, a) /\ c_hint c1 = None
  end.
Proof.
  unfold convert_event. intros Hh H. destruct (ev_kind ev); cbn in H |- *; try (injection H as <- <-; cbn; auto; fail).
  - unfold dec_depth in *. cbn in *. destruct (c_depth c); [discriminate|]. cbn in *. destruct (_ =? 0); injection H as <- <-; cbn; auto.
  - unfold dec_depth in *. cbn in *. destruct (c_depth c); [discriminate|]. cbn in *. injection H as <- <-; cbn; auto.
  - destruct (_ && _ && _); [|injection H as <- <-; cbn; auto]. destruct (skip_schema 0 (c_rest c)) as [r [e|]] eqn:E; injection H as <- <-; cbn; auto.
  - unfold span_text in *. destruct (slice _ _ _); [|discriminate]. cbn in *. injection H as <- <-. cbn. rewrite Hh. cbn. reflexivity.
  - unfold span_text in *. destruct (slice _ _ _); [|discriminate]. cbn in *. destruct (_ && _); injection H as <- <-; cbn; auto.
  - destruct (c_tags c) as [|[|] ?]; injection H as <- <-; cbn; auto.
  - discriminate.
Qed.

Lemma loop_hint : forall f (c c1 : core F) sp t h, c_hint c = None -> loop f c = Ok (c1, AEvent (mkfe sp (FScalar (SStr t)))) ->
  loop f (set_hint h c) = Ok (c1, AEvent (mkfe sp (FScalar (parse_scalar parse_f64 h t)))).
Proof.
  induction f as [|f IH]; intros c c1 sp t h Hh H; [discriminate|]. cbn [next_loop] in *. cbn [c_rest set_hint]. destruct (c_rest c) as [|e r] eqn:E; [discriminate|].
  destruct (inner_error e); [discriminate|]. change (set_rest r (set_hint h c)) with (set_hint h (set_rest r c)). destruct (convert e (set_rest r c)) as [[c2 a]| |] eqn:C; try discriminate. cbn [bind] in H.
  apply (convert_hint _ _ _ _ h) in C; [|exact Hh]. destruct a as [x| |s0]; try discriminate.
  - injection H as -> ->. rewrite C. reflexivity.
  - destruct C as [-> C]. cbn [bind]. now apply IH.
Qed.

Lemma next_hint (c : core F) sp t l h : c_queue c = [] -> c_hint c = None -> yields c (mkfe sp (FScalar (SStr t)) :: l) ->
  exists c', next (set_hint h c) = Ok (c', AEvent (mkfe sp (FScalar (parse_scalar parse_f64 h t)))) /\ yields c' l.
Proof.
  intros Q Hh Y. apply yields_inv in Y as (c1 & N & Y). exists c1. split; [|exact Y]. unfold next_event in *. cbn [c_queue c_done set_hint c_rest]. rewrite Q in *. destruct (c_done c); [discriminate|].
  now apply loop_hint.
Qed.

(** *** Saving *)
Lemma acts_saved p q : acts parse_f64 src p q -> f_saved q = f_saved p.
Proof. induction 1; auto. Qed.
End Run.

(** ** Scalars *)
Section Scalars.
Context {F : Type}.
Variable parse_f64 : str -> option F.

Lemma decimal_head c r n : CliSpec.decimal (c :: r) n -> is_digit c = true.
Proof. intros (_ & H & _). apply Forall_cons_iff in H. tauto. Qed.

Lemma parse_u64_spec t z : SerdeModel.parse_u64 t = Some z <-> integer t z /\ (forall r, t <> 45%N :: r) /\ (z < 2 ^ 64)%Z.
Proof.
  unfold SerdeModel.parse_u64.
  assert (G : forall r, match r with [] => None | _ => match dec_all 0 r with Some n => if (n <? 2 ^ 64)%N then Some (Z.of_N n) else None | None => None end end = Some z <->
    (exists n, CliSpec.decimal r n /\ z = Z.of_N n) /\ (z < 2 ^ 64)%Z).
  { intros r. destruct r as [|c r]; [split; [discriminate|intros [(n & ([] & _) & _) _]; reflexivity]|]. destruct (dec_all 0 (c :: r)) as [n|] eqn:E.
    - apply dec_all_spec in E as [E1 E2]. assert (D : CliSpec.decimal (c :: r) n) by (repeat split; [discriminate|exact E1|symmetry; exact E2]).
      destruct (n <? 2 ^ 64)%N eqn:B.
      + split; [intros [= <-]; split; [eauto|lia]|]. intros [(m & (_ & _ & Hm) & ->) _]. f_equal. destruct D as (_ & _ & Hn). congruence.
      + split; [discriminate|]. intros [(m & (_ & _ & Hm) & ->) R]. destruct D as (_ & _ & Hn). assert (m = n) by congruence. subst m. lia.
    - split; [discriminate|]. intros [(m & (_ & Hd & Hm) & _) _]. assert (dec_all 0 (c :: r) = Some m) by (apply dec_all_spec; split; [assumption|symmetry; exact Hm]). congruence. }
  destruct t as [|c r].
  - split; [discriminate|]. intros [H _]. inversion H; subst. match goal with X : CliSpec.decimal [] _ |- _ => destruct X as [[] _]; reflexivity end.
  - destruct (c =? 43)%N eqn:E2.
    + apply N.eqb_eq in E2. subst c. rewrite (G r). split.
      * intros [(n & Hn & ->) R]. splits; [now constructor|intros r' [=]|exact R].
      * intros (H & _ & R). split; [|exact R]. inversion H; subst; [|eauto]. match goal with X : CliSpec.decimal (43%N :: _) _ |- _ => apply decimal_head in X; vm_compute in X; discriminate end.
    + rewrite (G (c :: r)). split.
      * intros [(n & Hn & ->) R]. splits; [now constructor| |exact R]. intros r' [= -> ->]. apply decimal_head in Hn. vm_compute in Hn. discriminate.
      * intros (H & Hm & R). split; [|exact R]. inversion H; subst; [eauto| |]; [now rewrite N.eqb_refl in E2|now destruct (Hm r)].
Qed.

Lemma parse_scalar_means h t v : parse_scalar parse_f64 (Some h) t = v <-> means parse_f64 h t v \/ v = SStr t /\ forall w, ~ means parse_f64 h t w.
Proof.
  assert (K : forall w, means parse_f64 h t w -> parse_scalar parse_f64 (Some h) t = w).
  { intros w H. destruct H as [| |h t z Hh Hi Hr|h t z Hh [Hi Hm] Hr|h t f Hh Hf|c]; try reflexivity.
    - assert (E : parse_i64 t = Some z) by (apply parse_signed_spec; auto).
      unfold signed_hint in Hh. cbn in Hh. repeat destruct Hh as [<-|Hh]; try contradiction; cbn; rewrite E; reflexivity.
    - assert (E : SerdeModel.parse_u64 t = Some z) by (apply parse_u64_spec; auto).
      unfold unsigned_hint in Hh. cbn in Hh. repeat destruct Hh as [<-|Hh]; try contradiction; cbn; rewrite E; reflexivity.
    - unfold float_hint in Hh. cbn in Hh. repeat destruct Hh as [<-|Hh]; try contradiction; cbn; rewrite Hf; reflexivity. }
  assert (J : means parse_f64 h t (parse_scalar parse_f64 (Some h) t) \/ parse_scalar parse_f64 (Some h) t = SStr t).
  { destruct h; cbn [parse_scalar]; auto;
      try (destruct (parse_i64 t) as [z|] eqn:E; [left; apply parse_signed_spec in E as [? ?]; constructor; [unfold signed_hint; cbn; tauto|assumption|lia]|auto]);
      try (destruct (SerdeModel.parse_u64 t) as [z|] eqn:E; [left; apply parse_u64_spec in E as (? & ? & ?); constructor; [unfold unsigned_hint; cbn; tauto|auto|lia]|auto]);
      try (destruct (parse_f64 t) as [z|] eqn:E; [left; constructor; [unfold float_hint; cbn; tauto|assumption]|auto]).
    - destruct (str_eqb t (lit "true")) eqn:E; [apply str_eqb_eq in E; subst; left; constructor|]. destruct (str_eqb t (lit "false")) eqn:E'; [apply str_eqb_eq in E'; subst; left; constructor|auto].
    - destruct t as [|c [|]]; auto. left. constructor. }
  split.
  - intros <-. destruct J as [J|J]; [auto|]. right. split; [exact J|]. intros w Hw. pose proof (K w Hw) as E. rewrite J in E. subst w. inversion Hw.
  - intros [H|[-> Hn]]; [now apply K|]. destruct J as [J|J]; [now destruct (Hn _ J)|exact J].
Qed.
End Scalars.
