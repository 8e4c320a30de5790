(** Proofs about the schema generator. *)
From Coq Require Import String ZArith Lia.
From Verif Require Import BaseProofs TreeModel TreeProofs CliSpec SchemaModel SchemaSpec SchemaProofs GenModel GenSpec.
Local Open Scope nat_scope.

Section Gen.
Variable F : Type.
Variable env : types.
Notation schema := (schema F).
Notation shape_to_schema := (shape_to_schema F env).
Notation type_definition := (type_definition F env).

(** ** The schemas, without the state *)
Fixpoint sch (s : shape) : schema :=
  match s with
  | HBool => SBool _
  | HInt _ _ => SInt _ None
  | HFloat => SFloat _ None
  | HText => SString _ None
  | HNever => SUnit _
  | HOpaque scalar n => if has n (text_names scalar) then SString _ None else SType _ (Some n)
  | HOption s => SOptional _ (sch s)
  | HList s => SSeq _ (sch s)
  | HMap k v => SMap _ [sch k; sch v]
  | HResult t e => SEnum _ [(lit "ok", sch t); (lit "err", sch e)]
  | HPointer s => sch s
  | HMeta s => sch s
  | HUser id => match nth_error env id with Some t => SType _ (Some (ut_name t)) | None => SAny _ end
  | HSchema => SType _ (Some (lit "Schema"))
  | HAny => SAny _
  end.
Definition obj (l : list ufield) (acc : list (obj_key * schema)) : list (obj_key * schema) :=
  fold_left (fun acc f => add_field F f (sch (uf_shape f)) acc) l acc.
Definition ksch (k : ukind) : schema :=
  match k with
  | KUnit => SUnit _
  | KTuple [s] => sch s
  | KTuple l => STuple _ (map sch l)
  | KStruct l => SObject _ (obj l [])
  end.
Definition vsch (vs : list uvariant) (acc : list (str * schema)) : list (str * schema) :=
  fold_left (fun acc v => put str_eqb (uv_name v) (ksch (uv_kind v)) acc) vs acc.
Definition dsch (d : udef) : schema :=
  match d with
  | UStruct k => ksch k
  | UEnum vs => if existsb uv_other vs then SAny _ else SEnum _ (vsch vs [])
  end.

(** ** The state: what is queued *)
Definition qid (id : nat) (st : gstate) : gstate :=
  match nth_error env id with Some t => queue_type id (ut_name t) st | None => st end.
Definition qall (l : list nat) (st : gstate) : gstate := fold_left (fun st id => qid id st) l st.
Fixpoint ids (s : shape) : list nat :=
  match s with
  | HOption s | HList s | HPointer s | HMeta s => ids s
  | HMap k v => ids k ++ ids v
  | HResult k v => ids k ++ ids v
  | HUser id => [id]
  | _ => []
  end.
Definition kids (k : ukind) : list nat :=
  match k with
  | KUnit => []
  | KTuple l => flat_map ids l
  | KStruct l => flat_map (fun f => ids (uf_shape f)) l
  end.
Definition dids (d : udef) : list nat :=
  match d with
  | UStruct k => kids k
  | UEnum vs => if existsb uv_other vs then [] else flat_map (fun v => kids (uv_kind v)) vs
  end.

Lemma qall_app : forall a b st, qall (a ++ b) st = qall b (qall a st).
Proof. intros. unfold qall. apply fold_left_app. Qed.

Lemma shape_eq : forall s st, shape_to_schema s st = (sch s, qall (ids s) st).
Proof.
  induction s; intros st; cbn [GenModel.shape_to_schema sch ids]; try reflexivity;
    try (rewrite IHs; reflexivity).
  - rewrite IHs1, IHs2, qall_app. reflexivity.
  - rewrite IHs1, IHs2, qall_app. reflexivity.
  - unfold qall. cbn [fold_left]. unfold qid. destruct (nth_error env id); reflexivity.
Qed.
Lemma shapes_eq : forall l st, shapes_to_schemas F env l st = (map sch l, qall (flat_map ids l) st).
Proof.
  induction l as [|s l IH]; intros st; cbn [shapes_to_schemas map flat_map]; [reflexivity|].
  rewrite shape_eq, IH, qall_app. reflexivity.
Qed.
Lemma fields_eq : forall l acc st, fields_to_object F env l acc st = (obj l acc, qall (flat_map (fun f => ids (uf_shape f)) l) st).
Proof.
  induction l as [|f l IH]; intros acc st; cbn [fields_to_object flat_map]; [reflexivity|].
  rewrite shape_eq, IH, qall_app. reflexivity.
Qed.
Lemma struct_eq : forall k st, struct_to_schema F env k st = (ksch k, qall (kids k) st).
Proof.
  intros [|l|l] st; unfold struct_to_schema, ksch, kids.
  - reflexivity.
  - destruct l as [|s [|s2 l]]; [reflexivity | rewrite shape_eq; cbn [flat_map]; rewrite app_nil_r; reflexivity |].
    rewrite shapes_eq. reflexivity.
  - rewrite fields_eq. reflexivity.
Qed.
Lemma variants_eq : forall vs acc st, variants_to_enum F env vs acc st = (vsch vs acc, qall (flat_map (fun v => kids (uv_kind v)) vs) st).
Proof.
  induction vs as [|f l IH]; intros acc st; cbn [variants_to_enum flat_map]; [reflexivity|].
  rewrite struct_eq, IH, qall_app. reflexivity.
Qed.
Lemma definition_eq : forall d st, type_definition d st = (dsch d, qall (dids d) st).
Proof.
  intros [k|vs] st; cbn [GenModel.type_definition]; [apply struct_eq|].
  unfold enum_to_schema, dsch, dids. destruct (existsb uv_other vs); [reflexivity|]. rewrite variants_eq. reflexivity.
Qed.

Lemma ids_spec : forall s id, In id (ids s) <-> mentions s id.
Proof.
  induction s; intros i; cbn [ids]; (split; [intros H | intros H; inversion H; subst]);
    try (destruct H; fail); try tauto;
    try (constructor; apply IHs; assumption); try (apply IHs; assumption);
    try (apply in_or_app; rewrite ?IHs1, ?IHs2; tauto).
  - apply in_app_or in H as [H|H]; [apply m_key, IHs1 | apply m_val, IHs2]; exact H.
  - apply in_app_or in H as [H|H]; [apply m_ok, IHs1 | apply m_err, IHs2]; exact H.
  - destruct H as [<-|[]]. constructor.
  - left. reflexivity.
Qed.
Lemma kids_spec : forall k id, In id (kids k) <-> exists s, kind_has k s /\ mentions s id.
Proof.
  intros [|l|l] id; cbn [kids]; (split; [intros H | intros (s & H & M); inversion H; subst]).
  - destruct H.
  - apply in_flat_map in H as (s & I & H). exists s. split; [constructor; exact I | apply ids_spec; exact H].
  - apply in_flat_map. exists s. split; [assumption | apply ids_spec; exact M].
  - apply in_flat_map in H as (s & I & H). exists (uf_shape s). split; [constructor; exact I | apply ids_spec; exact H].
  - apply in_flat_map. exists f. split; [assumption | apply ids_spec; exact M].
Qed.
Lemma no_other : forall vs, existsb uv_other vs = false <-> forall w, In w vs -> uv_other w = false.
Proof.
  intros vs. split.
  - intros E w I. destruct (uv_other w) eqn:O; [|reflexivity].
    assert (existsb uv_other vs = true) by (apply existsb_exists; eauto). congruence.
  - intros H. destruct (existsb uv_other vs) eqn:E; [|reflexivity]. apply existsb_exists in E as (w & I & O). rewrite (H w I) in O. discriminate.
Qed.
Lemma dids_spec : forall d id, In id (dids d) <-> exists s, def_has d s /\ mentions s id.
Proof.
  intros [k|vs] id; cbn [dids].
  - rewrite kids_spec. split; intros (s & H & M); exists s; (split; [|exact M]); [constructor; exact H | inversion H; assumption].
  - destruct (existsb uv_other vs) eqn:E.
    + split; [intros [] | intros (s & H & M)]. inversion H as [|? v ? N I K]; subst. apply no_other in N. congruence.
    + pose proof (proj1 (no_other vs) E) as N. rewrite in_flat_map. split.
      * intros (v & I & H). apply kids_spec in H as (s & H & M). exists s. split; [econstructor; eassumption | exact M].
      * intros (s & H & M). inversion H as [|? v ? _ I K]; subst. exists v. split; [exact I|]. apply kids_spec. eauto.
Qed.

(** ** Queueing *)
Definition nm (id : nat) : str := match nth_error env id with Some t => ut_name t | None => [] end.
Definition valid (id : nat) : Prop := exists t, is_type env id t.
Lemma has_in : forall n l, has n l = true <-> In n l.
Proof.
  intros n l. unfold has. rewrite existsb_exists. split.
  - intros (x & I & E). apply str_eqb_eq in E. subst. exact I.
  - intros I. exists n. split; [exact I | apply str_eqb_refl].
Qed.

(** The state fits the file: what is queued is what is defined or pending, each once. *)
Definition defs (file : schema_file F) : list str :=
  flat_map (fun p => match fst p with Some n => [n] | None => [] end) file.
Record fits (file : schema_file F) (st : gstate) : Prop := {
  fit_all : forall n, In n (queued st) <-> In n (defs file ++ map nm (pending st));
  fit_nodup : NoDup (defs file ++ map nm (pending st));
  fit_valid : forall id, In id (pending st) -> valid id }.
Lemma fits_qid : forall file st id, fits file st -> fits file (qid id st).
Proof.
  intros file st id [A N V]. unfold qid. destruct (nth_error env id) as [t|] eqn:E; [|constructor; assumption].
  unfold queue_type. destruct (has (ut_name t) (queued st)) eqn:H; [constructor; assumption|].
  assert (NI : ~ In (ut_name t) (queued st)) by (intros I; apply has_in in I; congruence).
  assert (NM : nm id = ut_name t) by (unfold nm; rewrite E; reflexivity).
  constructor; cbn [queued pending map].
  - intros n. cbn [In]. rewrite A, NM. rewrite !in_app_iff. cbn [In]. tauto.
  - rewrite NM. apply NoDup_Add with (a := ut_name t) (l := defs file ++ map nm (pending st)).
    + apply Add_app.
    + split; [exact N|]. rewrite <- A. exact NI.
  - intros i [<-|I]; [exists t; exact E | apply V; exact I].
Qed.
Lemma fits_qall : forall l file st, fits file st -> fits file (qall l st).
Proof. induction l as [|i l IH]; intros file st H; [exact H|]. apply (IH file (qid i st)). apply fits_qid. exact H. Qed.
Lemma qid_mono : forall id st n, In n (queued st) -> In n (queued (qid id st)).
Proof.
  intros id st n I. unfold qid. destruct (nth_error env id); [|exact I]. unfold queue_type. destruct (has _ _); [exact I | right; exact I].
Qed.
Lemma qall_mono : forall l st n, In n (queued st) -> In n (queued (qall l st)).
Proof. induction l as [|i l IH]; intros st n I; [exact I|]. apply (IH (qid i st)). apply qid_mono. exact I. Qed.
Lemma qid_in : forall id st t, is_type env id t -> In (ut_name t) (queued (qid id st)).
Proof.
  intros id st t E. unfold qid. red in E. rewrite E. unfold queue_type. destruct (has _ _) eqn:H; [apply has_in; exact H | left; reflexivity].
Qed.
Lemma qall_in : forall l st id t, In id l -> is_type env id t -> In (ut_name t) (queued (qall l st)).
Proof.
  induction l as [|i l IH]; intros st id t [].
  - subst. intros E. apply (qall_mono l (qid id st)). apply qid_in. exact E.
  - intros E. apply (IH (qid i st) id t); assumption.
Qed.
Lemma qall_pending : forall l st id, In id (pending (qall l st)) -> In id (pending st) \/ In id l.
Proof.
  induction l as [|i l IH]; intros st id I; [left; exact I|].
  destruct (IH (qid i st) id I) as [H|H]; [|right; right; exact H].
  unfold qid in H. destruct (nth_error env i); [|left; exact H]. unfold queue_type in H.
  destruct (has _ _); [left; exact H|]. destruct H as [<-|H]; [right; left; reflexivity | left; exact H].
Qed.

(** ** The file *)
Variable root : nat.
Variable rt : utype.
Hypothesis ROOT : is_type env root rt.

(** Every definition is that of a used type, and the types it mentions are among [l]. *)
Definition covered (l : list str) (d : udef) : Prop :=
  forall s id t, def_has d s -> mentions s id -> is_type env id t -> In (ut_name t) l.
Record good (file : schema_file F) (st : gstate) : Prop := {
  good_fits : fits file st;
  good_root : exists r, file = (None, dsch (ut_def rt)) :: r /\ forall s, ~ In (None, s) r;
  good_covered : covered (queued st) (ut_def rt);
  good_defs : forall n s, In (Some n, s) file ->
    exists id t, is_type env id t /\ used env root id /\ ut_name t = n /\ s = dsch (ut_def t) /\ covered (queued st) (ut_def t);
  good_pending : forall id, In id (pending st) -> used env root id }.

Lemma covered_mono : forall l l' d, (forall n, In n l -> In n l') -> covered l d -> covered l' d.
Proof. intros l l' d H C s id t X Y Z. apply H. eapply C; eassumption. Qed.
Lemma covered_qall : forall d st, covered (queued (qall (dids d) st)) d.
Proof. intros d st s id t X Y Z. apply qall_in with (id := id); [|exact Z]. apply dids_spec. eauto. Qed.

Lemma good_start : good [(None, dsch (ut_def rt))] (qall (dids (ut_def rt)) (mkg [] [])).
Proof.
  constructor.
  - apply fits_qall. constructor; cbn; [tauto | constructor | tauto].
  - exists []. split; [reflexivity | intros s []].
  - apply covered_qall.
  - intros n s [[=]|[]].
  - intros id I. apply qall_pending in I as [[]|I]. apply dids_spec in I as (s & H & M). eapply u_root; eassumption.
Qed.

Lemma defs_app : forall a b, defs (a ++ b) = defs a ++ defs b.
Proof. intros. apply flat_map_app. Qed.
Lemma defs_in : forall file n, In n (defs file) <-> file_defines file n.
Proof.
  intros file n. unfold defs, file_defines. rewrite in_flat_map, in_map_iff. split.
  - intros ([[k|] s] & I & H); cbn in H; [|destruct H]. destruct H as [<-|[]]. exists (Some k, s). auto.
  - intros ([k s] & E & I). cbn in E. subst. exists (Some n, s). split; [exact I | left; reflexivity].
Qed.
Lemma lookup_none : forall (file : schema_file F) n, ~ In n (defs file) -> lookup_type F (Some n) file = None.
Proof.
  induction file as [|[[k|] s] r IH]; intros n H; cbn [lookup_type]; [reflexivity | |].
  - destruct (str_eqb_spec k n) as [->|D]; [exfalso; apply H; left; reflexivity|]. apply IH. intros I. apply H. right. exact I.
  - apply IH. exact H.
Qed.

Definition final (file : schema_file F) : Prop := exists st, good file st /\ pending st = [].

Lemma good_step : forall file st id p, good file st -> pending st = id :: p ->
  exists t, nth_error env id = Some t /\ lookup_type F (Some (ut_name t)) file = None /\
    good (file ++ [(Some (ut_name t), dsch (ut_def t))]) (qall (dids (ut_def t)) (mkg (queued st) p)) /\
    List.length (defs file) < List.length env.
Proof.
  intros file st id p [[A N V] (r & R & RN) CR D P] E. rewrite E in *.
  destruct (V id (or_introl eq_refl)) as [t T]. exists t.
  assert (NM : nm id = ut_name t) by (unfold nm; rewrite T; reflexivity).
  cbn [map] in N. rewrite NM in N.
  assert (NI : ~ In (ut_name t) (defs file)).
  { intros I. apply NoDup_remove_2 in N. apply N. apply in_or_app. left. exact I. }
  splits; [exact T | apply lookup_none; exact NI | |].
  - constructor.
    + apply fits_qall. constructor; cbn [queued pending].
      * intros n. rewrite A, defs_app. cbn [map]. rewrite NM. cbn [defs flat_map fst app]. rewrite !in_app_iff. cbn [In]. tauto.
      * rewrite defs_app, <- app_assoc. exact N.
      * intros i I. apply V. right. exact I.
    + exists (r ++ [(Some (ut_name t), dsch (ut_def t))]). split; [rewrite R; reflexivity|].
      intros s I. apply in_app_or in I as [I|[[=]|[]]]. exact (RN s I).
    + eapply covered_mono; [|exact CR]. intros n I. apply qall_mono. exact I.
    + intros n s I. apply in_app_or in I as [I|[[= <- <-]|[]]].
      * destruct (D n s I) as (i & u & X1 & X2 & X3 & X4 & X5). exists i, u. splits; auto.
        eapply covered_mono; [|exact X5]. intros m J. apply qall_mono. exact J.
      * exists id, t. splits; auto; [apply P; left; reflexivity|]. apply covered_qall.
    + intros i I. apply qall_pending in I as [I|I]; [apply P; right; exact I|].
      apply dids_spec in I as (s & H & M). eapply u_step; [apply P; left; reflexivity | exact T | exact H | exact M].
  - assert (L : List.length (defs file ++ ut_name t :: map nm p) <= List.length (map ut_name env)).
    { apply NoDup_incl_length; [exact N|]. intros n I. apply in_app_or in I as [I|[<-|I]].
      - apply defs_in in I. apply in_map_iff in I as ([k s] & X & I). cbn in X. subst k.
        destruct (D n s I) as (i & u & X1 & _ & X3 & _). subst n. apply in_map. eapply nth_error_In. exact X1.
      - apply in_map. eapply nth_error_In. exact T.
      - apply in_map_iff in I as (i & <- & I). destruct (V i (or_intror I)) as [u U].
        unfold nm. red in U. rewrite U. apply in_map. eapply nth_error_In. exact U. }
    rewrite app_length, map_length in L. cbn [List.length] in L. lia.
Qed.

Lemma loop_good : forall fuel file st file', good file st -> generate_pending F env fuel file st = Ok file' -> final file'.
Proof.
  induction fuel as [|fuel IH]; intros file st file' G H; cbn [generate_pending] in H;
    (destruct (pending st) as [|id p] eqn:E; [injection H as <-; exists st; auto|]); [discriminate|].
  destruct (good_step _ _ _ _ G E) as (t & T & L & G' & _). rewrite T, L, definition_eq in H. eapply IH; eassumption.
Qed.
Lemma loop_ends : forall fuel file st, good file st -> List.length env <= List.length (defs file) + fuel ->
  exists file', generate_pending F env fuel file st = Ok file'.
Proof.
  induction fuel as [|fuel IH]; intros file st G L; cbn [generate_pending];
    (destruct (pending st) as [|id p] eqn:E; [eauto|]); destruct (good_step _ _ _ _ G E) as (t & T & K & G' & LT); [lia|].
  rewrite T, K, definition_eq. apply (IH _ _ G'). rewrite defs_app, app_length. cbn [defs flat_map fst app List.length]. lia.
Qed.

Lemma gen_final : forall fuel file, generate_schema_file F env fuel root = Ok file -> final file.
Proof.
  intros fuel file H. unfold generate_schema_file in H. red in ROOT. rewrite ROOT, definition_eq in H.
  eapply loop_good; [|exact H]. apply good_start.
Qed.
Theorem gen_ends : forall fuel, List.length env <= fuel -> exists file, generate_schema_file F env fuel root = Ok file.
Proof.
  intros fuel L. unfold generate_schema_file. red in ROOT. rewrite ROOT, definition_eq. apply loop_ends; [apply good_start|].
  cbn [defs flat_map fst app List.length]. lia.
Qed.

Lemma final_defines : forall file, final file -> exists l, (forall n, In n l <-> file_defines file n) /\
  covered l (ut_def rt) /\ NoDup (map fst file) /\
  (exists r, file = (None, dsch (ut_def rt)) :: r) /\
  forall n s, In (Some n, s) file ->
    exists id t, is_type env id t /\ used env root id /\ ut_name t = n /\ s = dsch (ut_def t) /\ covered l (ut_def t).
Proof.
  intros file (st & [[A N V] (r & R & RN) CR D P] & E). rewrite E in *. cbn [map] in *. rewrite app_nil_r in *.
  exists (queued st). splits; auto.
  - intros n. rewrite A. apply defs_in.
  - subst file. cbn [map fst]. cbn [defs flat_map fst app] in N. change (flat_map _ r) with (defs r) in N.
    assert (Q : map fst r = map Some (defs r)).
    { clear - RN. induction r as [|[[k|] s] r IH]; [reflexivity | |].
      - cbn. f_equal. apply IH. intros s' I. apply (RN s'). right. exact I.
      - exfalso. apply (RN s). left. reflexivity. }
    rewrite Q. constructor; [intros I; apply in_map_iff in I as (x & [=] & _)|].
    apply FinFun.Injective_map_NoDup; [intros x y [= ->]; reflexivity | exact N].
  - exists r. exact R.
Qed.

Theorem gen_names_once : forall fuel file, generate_schema_file F env fuel root = Ok file -> NoDup (map fst file).
Proof. intros fuel file H. destruct (final_defines _ (gen_final _ _ H)) as (l & _ & _ & N & _). exact N. Qed.

(** What is defined is used. *)
Theorem gen_defined_used : forall fuel file n, generate_schema_file F env fuel root = Ok file -> file_defines file n ->
  exists id t, used env root id /\ is_type env id t /\ ut_name t = n.
Proof.
  intros fuel file n H I. destruct (final_defines _ (gen_final _ _ H)) as (l & _ & _ & _ & _ & D).
  apply in_map_iff in I as ([k s] & E & I). cbn in E. subst k. destruct (D n s I) as (id & t & X & Y & Z & _). eauto.
Qed.
(** What is used is defined, if identifiers tell types apart. *)
Theorem gen_used_defined : forall fuel file id t, NoDup (map ut_name env) -> generate_schema_file F env fuel root = Ok file ->
  used env root id -> is_type env id t -> file_defines file (ut_name t).
Proof.
  intros fuel file id t U H. destruct (final_defines _ (gen_final _ _ H)) as (l & L & CR & _ & _ & D).
  intros X. revert t. induction X as [t0 s id T0 DH M|j t0 s id X IH T0 DH M]; intros t T; apply L.
  - red in ROOT, T0. rewrite ROOT in T0. injection T0 as <-. eapply CR; eassumption.
  - specialize (IH t0 T0). apply in_map_iff in IH as ([k s'] & E & I). cbn in E. subst k.
    destruct (D _ _ I) as (i & u & X1 & X2 & X3 & X4 & X5).
    assert (i = j).
    { red in X1, T0. apply (proj1 (NoDup_nth_error (map ut_name env))); [exact U| |].
      - rewrite map_length. apply nth_error_Some. congruence.
      - rewrite (map_nth_error _ _ _ X1), (map_nth_error _ _ _ T0). congruence. }
    subst i. red in X1, T0. rewrite X1 in T0. injection T0 as <-. eapply X5; eassumption.
Qed.

(** ** Names in schemas *)
Lemma part_leaf : forall (a s : schema), part a s -> (forall c, ~ child F c s) -> a = s.
Proof. intros a s P N. inversion P; subst; [reflexivity|]. exfalso. eapply N. eassumption. Qed.
Lemma part_of : forall (a s : schema), part a s -> a = s \/ exists c, child F c s /\ part a c.
Proof. intros a s P. inversion P; subst; [left; reflexivity | right; eauto]. Qed.

Definition from_shape (s : shape) (n : str) : Prop :=
  (exists id t, mentions s id /\ is_type env id t /\ ut_name t = n) \/ n = lit "Schema" \/
  (exists b, opaque_in s b n /\ ~ In n (text_names b)).
Lemma sch_names : forall s n, part (SType F (Some n)) (sch s) -> from_shape s n.
Proof.
  assert (UP : forall s s' n, (forall id, mentions s id -> mentions s' id) -> (forall b m, opaque_in s b m -> opaque_in s' b m) ->
    from_shape s n -> from_shape s' n).
  { intros s s' n A B [(id & t & X & Y)|[X|(b & X & Y)]]; [left; exists id, t; auto | right; left; exact X | right; right; exists b; auto]. }
  induction s; intros m P; cbn [sch] in P; apply part_of in P as [P|(c & C & P)]; try discriminate; try (inversion C; subst; fail).
  - destruct (has name _) eqn:H; [discriminate|]. injection P as <-. right. right. exists scalar. split; [constructor|].
    intros I. apply has_in in I. congruence.
  - destruct (has name _) eqn:H; inversion C.
  - inversion C; subst. eapply UP; [| |apply IHs; exact P]; intros; constructor; assumption.
  - inversion C; subst. eapply UP; [| |apply IHs; exact P]; intros; constructor; assumption.
  - inversion C as [| | |? ? I| | | | | | |]; subst. destruct I as [<-|[<-|[]]].
    + eapply UP; [| |apply IHs1; exact P]; intros; [apply m_key | apply o_key]; assumption.
    + eapply UP; [| |apply IHs2; exact P]; intros; [apply m_val | apply o_val]; assumption.
  - inversion C as [| | | | | |? ? ? I| | | |]; subst. destruct I as [[= <- <-]|[[= <- <-]|[]]].
    + eapply UP; [| |apply IHs1; exact P]; intros; [apply m_ok | apply o_ok]; assumption.
    + eapply UP; [| |apply IHs2; exact P]; intros; [apply m_err | apply o_err]; assumption.
  - eapply UP; [| |apply IHs; rewrite <- P; constructor]; intros; constructor; assumption.
  - eapply UP; [| |apply IHs; econstructor; eassumption]; intros; constructor; assumption.
  - eapply UP; [| |apply IHs; rewrite <- P; constructor]; intros; constructor; assumption.
  - eapply UP; [| |apply IHs; econstructor; eassumption]; intros; constructor; assumption.
  - destruct (nth_error env id) as [t|] eqn:E; [|discriminate]. injection P as ->. left. exists id, t. splits; [constructor | exact E | reflexivity].
  - destruct (nth_error env id) as [t|] eqn:E; inversion C.
  - injection P as ->. right. left. reflexivity.
Qed.

Lemma put_in : forall K V eqb (k : K) (v : V) l p, In p (put eqb k v l) -> snd p = v \/ In p l.
Proof.
  induction l as [|[k' v'] r IH]; intros p; cbn [put].
  - intros [<-|[]]. left. reflexivity.
  - destruct (eqb k k'); intros [<-|I]; auto; [right; right; exact I | right; left; reflexivity|].
    destruct (IH p I); [left; assumption | right; right; assumption].
Qed.
(** A value of the object is a schema of a field, with a default or without, or the value schema of a flattened map. *)
Lemma child_part : forall (a b s : schema), child F b s -> part a b -> part a s.
Proof. intros. econstructor; eassumption. Qed.
Lemma add_field_in : forall f s fields p, In p (add_field F f s fields) ->
  In p fields \/ snd p = s \/ child F (snd p) s \/ exists d, snd p = SDefault _ d s.
Proof.
  intros f s fields p. unfold add_field. destruct (uf_flat f).
  - assert (G : In p (put key_eqb unit_key s fields) -> In p fields \/ snd p = s \/ child F (snd p) s \/ exists d, snd p = SDefault _ d s)
      by (intros I; apply put_in in I as [->|I]; auto).
    destruct s as [c|c|c| | | |fs|s|l|l|l|s|vs|s allowed|s|d s|re s|x|name]; try exact G.
    + clear G. assert (X : forall inner acc, (forall q, In q inner -> In q fs) ->
        In p (fold_left (fun acc p => put key_eqb (fst p) (snd p) acc) inner acc) -> In p acc \/ child F (snd p) (SObject F fs)).
      { induction inner as [|[k v] inner IH]; intros acc Q H; cbn [fold_left] in H; [left; exact H|].
        apply IH in H as [H|H]; [|right; exact H | intros q J; apply Q; right; exact J].
        apply put_in in H as [->|H]; [|left; exact H]. right. econstructor. apply Q. left. reflexivity. }
      intros I. apply X in I as [I|I]; auto.
    + destruct l as [|k [|v l]]; [exact G | |].
      * intros I. apply put_in in I as [->|I]; [|auto]. right. right. left. constructor. left. reflexivity.
      * intros I. apply put_in in I as [->|I]; [|auto]. right. right. left. constructor. right. left. reflexivity.
  - intros I. apply put_in in I as [->|I]; [|auto]. destruct (uf_default f); eauto.
Qed.
Lemma obj_in : forall l acc p, In p (obj l acc) ->
  In p acc \/ exists f, In f l /\ (snd p = sch (uf_shape f) \/ child F (snd p) (sch (uf_shape f)) \/ exists d, snd p = SDefault _ d (sch (uf_shape f))).
Proof.
  unfold obj. induction l as [|f l IH]; intros acc p I; cbn [fold_left] in I; [left; exact I|].
  apply IH in I as [I|(g & J & X)]; [|right; exists g; split; [right; exact J | exact X]].
  apply add_field_in in I as [I|X]; [left; exact I|]. right. exists f. split; [left; reflexivity | exact X].
Qed.
Lemma ksch_names : forall k n, part (SType F (Some n)) (ksch k) -> exists s, kind_has k s /\ from_shape s n.
Proof.
  intros [|l|l] n P.
  - apply part_of in P as [P|(c & C & _)]; [discriminate | inversion C].
  - destruct l as [|s [|s2 l]].
    + cbn in P. apply part_of in P as [P|(c & C & _)]; [discriminate | inversion C as [| |? ? I| | | | | | | |]; subst; destruct I].
    + exists s. split; [constructor; left; reflexivity | apply sch_names; exact P].
    + apply part_of in P as [P|(c & C & P)]; [discriminate|]. inversion C as [| |? ? I| | | | | | | |]; subst.
      change (In c (map sch (s :: s2 :: l))) in I. apply in_map_iff in I as (x & <- & I). exists x. split; [constructor; exact I | apply sch_names; exact P].
  - apply part_of in P as [P|(c & C & P)]; [discriminate|]. inversion C as [? k ? I| | | | | | | | | |]; subst.
    apply obj_in in I as [[]|(f & I & X)]. exists (uf_shape f). split; [constructor; exact I|]. apply sch_names. cbn [snd] in X.
    destruct X as [->|[X|(d & ->)]]; [exact P | eapply child_part; eassumption |].
    apply part_of in P as [P|(c' & C' & P)]; [discriminate|]. inversion C'; subst. exact P.
Qed.
Lemma vsch_in : forall vs acc p, In p (vsch vs acc) -> In p acc \/ exists v, In v vs /\ snd p = ksch (uv_kind v).
Proof.
  unfold vsch. induction vs as [|v vs IH]; intros acc p I; cbn [fold_left] in I; [left; exact I|].
  apply IH in I as [I|(w & J & X)]; [|right; exists w; split; [right; exact J | exact X]].
  apply put_in in I as [X|I]; [|left; exact I]. right. exists v. split; [left; reflexivity | exact X].
Qed.
Lemma dsch_names : forall d n, part (SType F (Some n)) (dsch d) -> exists s, def_has d s /\ from_shape s n.
Proof.
  intros [k|vs] n P; cbn [dsch] in P.
  - destruct (ksch_names _ _ P) as (s & H & X). exists s. split; [constructor; exact H | exact X].
  - destruct (existsb uv_other vs) eqn:E.
    + apply part_of in P as [P|(c & C & _)]; [discriminate | inversion C].
    + apply part_of in P as [P|(c & C & P)]; [discriminate|]. inversion C as [| | | | | |? k ? I| | | |]; subst.
      apply vsch_in in I as [[]|(v & I & X)]. cbn [snd] in X. subst c.
      destruct (ksch_names _ _ P) as (s & H & X). exists s. split; [|exact X].
      econstructor; [apply no_other; exact E | exact I | exact H].
Qed.

(** Every name in the file is defined there, or is [Schema], or is an opaque type's. *)
Theorem gen_closed : forall fuel file n, generate_schema_file F env fuel root = Ok file -> file_names file n ->
  file_defines file n \/ n = lit "Schema" \/
  exists id t s b, (id = root \/ used env root id) /\ is_type env id t /\ def_has (ut_def t) s /\ opaque_in s b n /\
    ~ In n (text_names b).
Proof.
  intros fuel file n H (k & s & I & P). destruct (final_defines _ (gen_final _ _ H)) as (l & L & CR & _ & (r & R) & D).
  assert (G : forall id t, (id = root \/ used env root id) -> is_type env id t -> covered l (ut_def t) -> part (SType F (Some n)) (dsch (ut_def t)) ->
    file_defines file n \/ n = lit "Schema" \/
    exists id t s b, (id = root \/ used env root id) /\ is_type env id t /\ def_has (ut_def t) s /\ opaque_in s b n /\ ~ In n (text_names b)).
  { intros id t U T C Q. destruct (dsch_names _ _ Q) as (sh & DH & [(i & u & X & Y & <-)|[X|(b & X & Y)]]).
    - left. apply L. eapply C; eassumption.
    - right. left. exact X.
    - right. right. exists id, t, sh, b. splits; auto. }
  destruct k as [m|].
  - destruct (D m s I) as (id & t & T & U & _ & -> & C). eapply G; eauto.
  - assert (E : s = dsch (ut_def rt)).
    { destruct (final_defines _ (gen_final _ _ H)) as (_ & _ & _ & ND & _ & _). subst file.
      destruct I as [[= <-]|I]; [reflexivity|]. cbn in ND. inversion ND as [|? ? NI]; subst. exfalso. apply NI. apply (in_map fst) in I. exact I. }
    subst s. apply (G root rt); auto.
Qed.
End Gen.
