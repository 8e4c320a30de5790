(** The validator accepts the documents of a type under the schema generated from it. *)
From Coq Require Import String ZArith Lia.
From Verif Require Import BaseProofs TreeModel TreeProofs CliSpec SchemaModel SchemaSpec SchemaProofs GenModel GenSpec GenProofs.
Local Open Scope nat_scope.

Scheme doc_of_mind := Minimality for doc_of Sort Prop
  with def_doc_mind := Minimality for def_doc Sort Prop
  with kind_doc_mind := Minimality for kind_doc Sort Prop
  with entry_doc_mind := Minimality for entry_doc Sort Prop.
Combined Scheme docs_ind from doc_of_mind, def_doc_mind, kind_doc_mind, entry_doc_mind.

Section Accept.
Variable F : Type.
Variable parse_f64 : str -> option F.
Variable f_ltb : F -> F -> bool.
Variable env : types.
Notation schema := (schema F).
Notation sch := (sch F env).
Notation ksch := (ksch F env).
Notation dsch := (dsch F env).

(** ** Objects and enums with different keys *)
Lemma opt_str_eqb_eq : forall a b, opt_str_eqb a b = true <-> a = b.
Proof.
  intros [a|] [b|]; cbn; try (split; congruence). rewrite str_eqb_eq. split; congruence.
Qed.
Lemma key_eqb_eq : forall a b, key_eqb a b = true <-> a = b.
Proof.
  intros [a b] [c d]. unfold key_eqb. cbn. rewrite andb_true_iff, !opt_str_eqb_eq. split; [intros [-> ->]; reflexivity | intros [= -> ->]; auto].
Qed.
Lemma put_new : forall K V (eqb : K -> K -> bool) (k : K) (v : V) l, (forall a b, eqb a b = true <-> a = b) ->
  ~ In k (map fst l) -> put eqb k v l = l ++ [(k, v)].
Proof.
  intros K V eqb k v l E. induction l as [|[k' v'] r IH]; intros N; cbn [put app]; [reflexivity|].
  destruct (eqb k k') eqn:Q; [exfalso; apply N; left; symmetry; apply E; exact Q|].
  rewrite IH; [reflexivity|]. intros I. apply N. right. exact I.
Qed.
Lemma fold_put : forall A K V (eqb : K -> K -> bool) (key : A -> K) (val : A -> V) l acc, (forall a b, eqb a b = true <-> a = b) ->
  NoDup (map fst acc ++ map key l) ->
  fold_left (fun acc x => put eqb (key x) (val x) acc) l acc = acc ++ map (fun x => (key x, val x)) l.
Proof.
  intros A K V eqb key val l acc E. revert acc. induction l as [|x l IH]; intros acc N; cbn [fold_left map]; [symmetry; apply app_nil_r|].
  cbn [map] in N. rewrite put_new; [|exact E|].
  - rewrite IH; [rewrite <- app_assoc; reflexivity|]. rewrite map_app, <- app_assoc. exact N.
  - intros I. apply NoDup_remove_2 in N. apply N. apply in_or_app. left. exact I.
Qed.

Definition fkey (f : ufield) : obj_key :=
  if uf_flat f then match uf_shape f with HMap k _ => typed (schema_to_tag_name F (sch k)) | _ => unit_key end
  else match uf_name f with [] => unit_key | n => named n end.
Definition fval (f : ufield) : schema :=
  if uf_flat f then match uf_shape f with HMap _ v => sch v | s => sch s end
  else match uf_default f with Some d => SDefault _ d (sch (uf_shape f)) | None => sch (uf_shape f) end.

Lemma filter_length_in : forall A (p : A -> bool) l x, In x l -> p x = true -> 1 <= List.length (filter p l).
Proof.
  intros A p l x I E. assert (J : In x (filter p l)) by (apply filter_In; auto). destruct (filter p l); [destruct J | cbn; lia].
Qed.
Lemma fields_ok_tail : forall f fs, fields_ok (f :: fs) -> fields_ok fs.
Proof.
  intros f fs (A & B & C & D). unfold fields_ok. splits.
  - cbn [filter] in A. destruct (negb (uf_flat f)); [|exact A]. cbn [map] in A. inversion A; assumption.
  - intros g I. apply B. right. exact I.
  - cbn [filter] in C. destruct (uf_flat f); cbn [List.length] in C; lia.
  - intros g I. apply D. right. exact I.
Qed.
Lemma fkey_named : forall f, uf_flat f = false -> uf_name f <> [] -> fkey f = named (uf_name f).
Proof. intros f E N. unfold fkey. rewrite E. destruct (uf_name f); [congruence | reflexivity]. Qed.
Lemma fkeys_nodup : forall fs, fields_ok fs -> NoDup (map fkey fs).
Proof.
  induction fs as [|f fs IH]; intros OK; cbn [map]; constructor; [|apply IH; eapply fields_ok_tail; exact OK].
  destruct OK as (A & B & C & D). intros I. apply in_map_iff in I as (g & E & I).
  assert (FL : forall h, In h (f :: fs) -> uf_flat h = true -> exists t, fkey h = typed t).
  { intros h J X. destruct (D h J X) as (k & v & Y). unfold fkey. rewrite X, Y. eauto. }
  assert (NK : forall h, In h (f :: fs) -> uf_flat h = false -> fkey h = named (uf_name h)).
  { intros h J X. apply fkey_named; [exact X | apply B; assumption]. }
  destruct (uf_flat f) eqn:X, (uf_flat g) eqn:Y.
  - cbn [filter] in C. rewrite X in C. cbn [List.length] in C. pose proof (filter_length_in _ uf_flat fs g I Y). lia.
  - destruct (FL f (or_introl eq_refl) X) as [t T]. rewrite (NK g (or_intror I) Y), T in E. discriminate.
  - destruct (FL g (or_intror I) Y) as [t T]. rewrite (NK f (or_introl eq_refl) X), T in E. discriminate.
  - rewrite (NK f (or_introl eq_refl) X), (NK g (or_intror I) Y) in E.
    injection E as E. cbn [filter] in A. rewrite X in A. cbn [negb map] in A. inversion A as [|? ? NI]; subst.
    apply NI. rewrite <- E. apply in_map. apply filter_In. rewrite Y. auto.
Qed.
Lemma obj_map : forall fs, fields_ok fs -> obj F env fs [] = map (fun f => (fkey f, fval f)) fs.
Proof.
  intros fs OK. rewrite <- (app_nil_l (map _ _)). rewrite <- (fold_put _ _ _ key_eqb fkey fval); [|apply key_eqb_eq | apply fkeys_nodup; exact OK].
  unfold obj. destruct OK as (_ & _ & _ & D). generalize (@nil (obj_key * schema)). revert D.
  induction fs as [|f fs IH]; intros D acc; cbn [fold_left]; [reflexivity|].
  rewrite IH by (intros g I; apply D; right; exact I). f_equal.
  unfold add_field, fkey, fval. destruct (uf_flat f) eqn:X; [|reflexivity].
  destruct (D f (or_introl eq_refl) X) as (k & v & ->). reflexivity.
Qed.
Lemma vsch_map : forall vs, NoDup (map uv_name vs) -> vsch F env vs [] = map (fun v => (uv_name v, ksch (uv_kind v))) vs.
Proof. intros vs N. unfold vsch. rewrite fold_put; [reflexivity | apply str_eqb_eq | exact N]. Qed.

(** ** Acceptance *)
Variable file : schema_file F.
Notation validate := (validate_value F parse_f64 f_ltb file).
Definition okf (f : nat) (v : value) (s : schema) : Prop := forall path, exists r, validate f v s path = Ok r /\ v_errors r = [].
Definition accepts (v : value) (s : schema) : Prop := exists f, okf f v s.
Lemma okf_mono : forall f g v s, f <= g -> okf f v s -> okf g v s.
Proof. intros f g v s L H path. destruct (H path) as (r & E & X). exists r. split; [eapply validate_mono; eassumption | exact X]. Qed.
Lemma common : forall A (Q : nat -> A -> Prop) l, (forall f g x, f <= g -> Q f x -> Q g x) ->
  (forall x, In x l -> exists f, Q f x) -> exists f, forall x, In x l -> Q f x.
Proof.
  intros A Q l M. induction l as [|x l IH]; intros H; [exists 0; intros x []|].
  destruct (H x (or_introl eq_refl)) as [f Hf]. destruct IH as [g Hg]; [intros y I; apply H; right; exact I|].
  exists (max f g). intros y [<-|I]; [eapply M; [|exact Hf]; lia | eapply M; [|apply Hg; exact I]; lia].
Qed.
Lemma now : forall v s, (forall path, exists r, validate 1 v s path = Ok r /\ v_errors r = []) -> accepts v s.
Proof. intros v s H. exists 1. exact H. Qed.

Definition chosen (fields : list (obj_key * schema)) (k : value) (s : schema) : Prop :=
  exists t, entry_key k = Some (Some t) /\
    (field_schema F t fields = Some s \/ field_schema F t fields = None /\ additional_schema F fields = Some s).
Lemma accepts_object : forall fields es a b,
  (forall k v d, In (Ent k v d) es -> exists s, chosen fields k s /\ accepts v s) ->
  (forall key s n, In (key, s) fields -> k_value key = Some n -> not_required F s = true \/ given n es) ->
  accepts (Val None (PObj es a) b) (SObject _ fields).
Proof.
  intros fields es a b H M.
  destruct (common entry (fun f e => exists s, chosen fields (e_key e) s /\ okf f (e_val e) s) es) as [f Hf].
  { intros f g [k v d] L (s & C & O). exists s. split; [exact C | eapply okf_mono; eassumption]. }
  { intros [k v d] I. destruct (H k v d I) as (s & C & (f & O)). exists f, s. auto. }
  exists (S f). intros path. cbn [validate_value]. unfold validate_object. cbn [as_object v_payload].
  assert (X : exists r, object_entries F (validate f) fields es path = Ok r /\ v_errors r = []).
  { clear H M. induction es as [|[k v d] es IH]; cbn [object_entries]; [exists vok; auto|].
    destruct IH as (r & -> & R); [intros e I; apply Hf; right; exact I|].
    destruct (Hf (Ent k v d) (or_introl eq_refl)) as (s & (t & EK & C) & O). cbn [e_val e_key] in O, EK. rewrite EK. cbv zeta.
    destruct (O (sub_path path t)) as (r0 & E0 & R0).
    destruct C as [->|[-> ->]]; rewrite E0; cbn [bind]; eexists; (split; [reflexivity|]); cbn [vmerge v_errors]; rewrite R0, R; reflexivity. }
  destruct X as (r & -> & R). cbn [bind]. eexists. split; [reflexivity|]. cbn [vmerge v_errors]. rewrite R. cbn [app v_span].
  clear - M. assert (G : forall fs, (forall p, In p fs -> In p fields) -> v_errors (missing_fields F fs es path b) = []).
  { induction fs as [|[key s] fs IH]; intros S; [reflexivity|]. cbn [missing_fields vmerge v_errors].
    rewrite IH by (intros p I; apply S; right; exact I). rewrite app_nil_r.
    destruct (k_value key) as [n|] eqn:K; [|reflexivity].
    destruct (M key s n (S _ (or_introl eq_refl)) K) as [->|(k & v & d & I & q & a' & b' & ->)]; [rewrite andb_false_r; reflexivity|].
    assert (SE : seen n es = true).
    { unfold seen. apply existsb_exists. exists (Ent (Val None (PScalar n q a') b') v d). split; [exact I|].
      cbn. apply str_eqb_refl. }
    rewrite SE. reflexivity. }
  apply G. auto.
Qed.
Lemma accepts_seq : forall s l a b, (forall x, In x l -> accepts x s) -> accepts (Val None (PSeq l a) b) (SSeq _ s).
Proof.
  intros s l a b H. destruct (common value (fun f x => okf f x s) l) as [f Hf]; [intros; eapply okf_mono; eassumption | exact H|].
  exists (S f). intros path. cbn [validate_value]. unfold validate_seq. cbn [as_sequence v_payload]. generalize 0 as i.
  clear H. induction l as [|x l IH]; intros i; cbn [seq_items]; [exists vok; auto|].
  destruct (Hf x (or_introl eq_refl) (item_path path i)) as (r & -> & R). cbn [bind].
  destruct (IH (fun y I => Hf y (or_intror I)) (S i)) as (r' & -> & R'). cbn [bind]. eexists. split; [reflexivity|].
  cbn [vmerge v_errors]. rewrite R, R'. reflexivity.
Qed.
Lemma accepts_tuple : forall ss l a b, List.length l = List.length ss ->
  (forall i s x, nth_error ss i = Some s -> nth_error l i = Some x -> accepts x s) ->
  accepts (Val None (PSeq l a) b) (STuple _ ss).
Proof.
  intros ss l a b L H.
  assert (X : exists f, forall i s x, nth_error ss i = Some s -> nth_error l i = Some x -> okf f x s).
  { clear a b. revert l L H. induction ss as [|s ss IH]; intros [|x l] L H; cbn [List.length] in L; try discriminate.
    - exists 0. intros [|i] s x E; discriminate.
    - destruct (H 0 s x eq_refl eq_refl) as [f Hf]. destruct (IH l) as [g Hg]; [lia | intros i; apply (H (S i))|].
      exists (max f g). intros [|i] s' x' E1 E2.
      + injection E1 as <-. injection E2 as <-. eapply okf_mono; [|exact Hf]. lia.
      + eapply okf_mono; [|eapply (Hg i); [exact E1 | exact E2]]. lia. }
  destruct X as [f Hf]. exists (S f). intros path. cbn [validate_value]. unfold validate_tuple. cbn [as_sequence v_payload].
  assert (X : forall i, exists r, tuple_items F (validate f) ss l i path = Ok r /\ v_errors r = []).
  { clear H. revert l L Hf. induction ss as [|s ss IH]; intros [|x l] L Hf i; cbn [List.length] in L; try discriminate; cbn [tuple_items]; [exists vok; auto|].
    destruct (Hf 0 s x eq_refl eq_refl (item_path path i)) as (r & -> & R). cbn [bind].
    destruct (IH l ltac:(lia) (fun j => Hf (S j)) (S i)) as (r' & -> & R'). cbn [bind]. eexists. split; [reflexivity|].
    cbn [vmerge v_errors]. rewrite R, R'. reflexivity. }
  destruct (X 0) as (r & -> & R). cbn [bind]. eexists. split; [reflexivity|].
  assert (L' : (List.length l =? List.length ss) = true) by (apply Nat.eqb_eq; exact L).
  rewrite L'. cbn. exact R.
Qed.
Lemma accepts_map : forall ks vs es a b,
  (forall k v d, In (Ent k v d) es -> exists t, scalar k t) ->
  (forall k v d, In (Ent k v d) es -> accepts k ks) ->
  (forall k v d, In (Ent k v d) es -> accepts v vs) ->
  accepts (Val None (PObj es a) b) (SMap _ [ks; vs]).
Proof.
  intros ks vs es a b S K V.
  destruct (common entry (fun f e => okf f (e_key e) ks /\ okf f (e_val e) vs) es) as [f Hf].
  { intros f g e L [A B]. split; eapply okf_mono; eassumption. }
  { intros [k v d] I. destruct (K k v d I) as [f Hf]. destruct (V k v d I) as [g Hg]. exists (max f g).
    split; [eapply okf_mono; [|exact Hf] | eapply okf_mono; [|exact Hg]]; lia. }
  exists (Datatypes.S f). intros path. cbn [validate_value]. unfold validate_map. cbn [as_object v_payload].
  clear K V. induction es as [|[k v d] es IH]; cbn [map_entries]; [exists vok; auto|].
  destruct (S k v d (or_introl eq_refl)) as (t & q & a' & b' & ->). cbn [as_str].
  destruct (Hf _ (or_introl eq_refl)) as [A B]. cbn [e_key e_val] in A, B.
  destruct (A path) as (r1 & -> & R1). cbn [bind]. destruct (B (sub_path path t)) as (r2 & -> & R2). cbn [bind].
  destruct IH as (r3 & -> & R3); [intros; eapply S; right; eassumption | intros e I; apply Hf; right; exact I|].
  cbn [bind]. eexists. split; [reflexivity|]. cbn [vmerge v_errors]. rewrite R1, R2, R3. reflexivity.
Qed.
Lemma accepts_up : forall v s s', accepts v s -> (forall f path r, validate f v s path = Ok r -> v_errors r = [] ->
  exists r', validate (S f) v s' path = Ok r' /\ v_errors r' = []) -> accepts v s'.
Proof. intros v s s' (f & O) H. exists (S f). intros path. destruct (O path) as (r & E & R). eapply H; eassumption. Qed.

(** ** The file *)
Variable reads : str -> Prop.
Hypothesis READS : forall t, reads t -> exists x, parse_f64 t = Some x.
Hypothesis OK : types_ok env reads.
Variable l : list str.
(** What is generated for the types whose names are in [l]. *)
Hypothesis DEF : forall id t, is_type env id t -> In (ut_name t) l ->
  lookup_type F (Some (ut_name t)) file = Some (dsch (ut_def t)) /\ covered env l (ut_def t).
Definition within (s : shape) : Prop := forall id t, mentions s id -> is_type env id t -> In (ut_name t) l.
Definition kwithin (k : ukind) : Prop := forall s, kind_has k s -> within s.

Lemma scalar_text_of : forall v t, scalar v t -> scalar_text v = Some t.
Proof. intros v t (k & a & b & ->). reflexivity. Qed.

Theorem docs_accepted :
  (forall s v, doc_of env reads s v -> plain s -> within s -> accepts v (sch s)) /\
  (forall d v, def_doc env reads d v -> def_ok env reads d -> covered env l d -> accepts v (dsch d)) /\
  (forall k v, kind_doc env reads k v -> kind_ok k -> kwithin k -> accepts v (ksch k)) /\
  (forall fs k v, entry_doc env reads fs k v -> kind_ok (KStruct fs) -> kwithin (KStruct fs) ->
     exists s, chosen (obj F env fs []) k s /\ accepts v s).
Proof.
  assert (IN : forall fs f, fields_ok fs -> In f fs -> uf_flat f = false ->
    field_schema F (uf_name f) (obj F env fs []) = Some (fval f)).
  { intros fs f FO I X. rewrite obj_map by exact FO. apply field_schema_spec.
    - rewrite map_map. cbn. apply fkeys_nodup. exact FO.
    - apply in_map_iff. exists f. split; [|exact I]. rewrite fkey_named; [reflexivity | exact X|]. apply (proj1 (proj2 FO)); assumption. }
  apply docs_ind.
  - (* bool *) intros v t S B _ _. apply now. intros path. cbn. unfold validate_bool. rewrite (scalar_text_of _ _ S).
    exists vok. destruct B as [-> | ->]; auto.
  - (* int *) intros lo hi v t n S I R P _. inversion P; subst. apply now. intros path. cbn. unfold validate_int. rewrite (scalar_text_of _ _ S).
    unfold parse_i128. rewrite (proj2 (parse_signed_spec _ _ n)); [exists vok; auto|]. split; [exact I | lia].
  - (* float *) intros v t S R _ _. apply now. intros path. cbn. unfold validate_float. rewrite (scalar_text_of _ _ S).
    destruct (READS _ R) as [x ->]. exists vok. auto.
  - (* text *) intros v t S _ _. apply now. intros path. cbn. unfold validate_string. rewrite (scalar_text_of _ _ S). exists vok. auto.
  - (* opaque *) intros b n v t S P _. inversion P as [| | | | |? ? I| | | | | | | |]; subst. cbn [GenProofs.sch].
    assert (H : has n (text_names b) = true) by (apply has_in; exact I). rewrite H.
    apply now. intros path. cbn. unfold validate_string. rewrite (scalar_text_of _ _ S). exists vok. auto.
  - (* none *) intros s b _ _. apply now. intros path. cbn. exists vok. auto.
  - (* some *) intros s v _ IH P W. inversion P; subst. cbn [GenProofs.sch].
    eapply accepts_up; [apply IH; [assumption | intros id t M; apply W; constructor; exact M]|].
    intros f path r E R. cbn [validate_value]. unfold validate_optional. destruct (is_unit v); [exists vok; auto | eauto].
  - (* list *) intros s li a b _ IH P W. inversion P; subst. cbn [GenProofs.sch]. apply accepts_seq.
    intros x I. apply IH; [exact I | assumption | intros id t M; apply W; constructor; exact M].
  - (* map *) intros ks vs es a b S _ IHk _ IHv P W. inversion P; subst. cbn [GenProofs.sch]. apply accepts_map; [exact S | |]; intros k v d I.
    + eapply IHk; [exact I | assumption | intros id t M; apply W; apply m_key; exact M].
    + eapply IHv; [exact I | assumption | intros id t M; apply W; apply m_val; exact M].
  - (* pointer *) intros s v _ IH P W. inversion P; subst. cbn [GenProofs.sch]. apply IH; [assumption | intros id t M; apply W; constructor; exact M].
  - (* meta *) intros s v _ IH P W. inversion P; subst. cbn [GenProofs.sch]. apply IH; [assumption | intros id t M; apply W; constructor; exact M].
  - (* any *) intros v _ _. apply now. intros path. cbn. exists vok. auto.
  - (* user *) intros id t v T _ IH _ W. cbn [GenProofs.sch]. pose proof T as T'. red in T'. rewrite T'.
    destruct (DEF id t T (W id t (m_user id) T)) as [LK C].
    eapply accepts_up; [apply IH; [|exact C]|].
    + apply (proj2 OK). eapply nth_error_In. exact T.
    + intros f path r E R. cbn [validate_value]. unfold validate_type_ref. rewrite LK. eauto.
  - (* struct *) intros k v _ IH D C. apply IH; [exact D|]. intros s K id t M. eapply C; [constructor; exact K | exact M].
  - (* variant *) intros vs u ts p b I _ KD IH (ND & D) C. destruct (D u I) as [KO NN]. cbn [GenProofs.dsch].
    destruct (existsb uv_other vs) eqn:E; [apply now; intros path; cbn; exists vok; auto|].
    assert (VS : variant_schema F (uv_name u) (vsch F env vs []) = Some (ksch (uv_kind u))).
    { rewrite vsch_map by exact ND. apply variant_schema_spec; [rewrite map_map; exact ND|].
      apply in_map_iff. exists u. auto. }
    assert (KW : kwithin (uv_kind u)).
    { intros s K id t M T. eapply C; [|exact M | exact T]. econstructor; [apply no_other; exact E | exact I | exact K]. }
    destruct (IH KO KW) as (f & O). exists (S f). intros path. cbn [validate_value]. unfold validate_enum. cbn [v_tag v_payload]. rewrite VS.
    destruct p as [|tx q sp|xs sp|es sp]; [|apply O..].
    inversion KD as [? E1|s v DO E1 E2|? ? ? ? ? ? ? E1|? ? ? ? ? ? E1]; try discriminate.
    + exists vok. auto.
    + exfalso. eapply NN; [symmetry; exact E1 | exact DO].
  - (* other *) intros vs u n ts p b I O _ _ _. cbn [GenProofs.dsch].
    assert (E : existsb uv_other vs = true) by (apply existsb_exists; eauto). rewrite E. apply now. intros path. cbn. exists vok. auto.
  - (* unit *) intros b _ _. apply now. intros path. cbn. exists vok. auto.
  - (* newtype *) intros s v _ IH [P _] W. cbn [GenProofs.ksch]. apply IH; [apply P | apply W]; constructor; left; reflexivity.
  - (* tuple *) intros ss li a b N L _ IH [P _] W.
    assert (E : ksch (KTuple ss) = STuple _ (map sch ss)) by (destruct ss as [|s [|s2 ss]]; [reflexivity | exfalso; apply N; reflexivity | reflexivity]).
    rewrite E. apply accepts_tuple; [rewrite map_length; exact L|].
    intros i s' x E1 E2. rewrite nth_error_map in E1. destruct (nth_error ss i) as [s|] eqn:E3; [|discriminate]. injection E1 as <-.
    eapply IH; [exact E3 | exact E2 | apply P | apply W]; constructor; eapply nth_error_In; exact E3.
  - (* struct *) intros fs es a b _ IH RQ KO W. cbn [GenProofs.ksch]. apply accepts_object.
    + intros k v d I. eapply IH; eassumption.
    + destruct KO as [_ FO]. rewrite obj_map by exact FO. intros key s n I E.
      apply in_map_iff in I as (f & X & I). injection X as <- <-.
      destruct (uf_flat f) eqn:FL.
      { unfold fkey in E. rewrite FL in E. destruct (uf_shape f); discriminate. }
      rewrite fkey_named in E by (try exact FL; apply (proj1 (proj2 FO)); assumption). injection E as <-.
      unfold fval. rewrite FL. destruct (uf_default f) as [d|] eqn:D; [left; reflexivity|].
      destruct (uf_shape f) eqn:SH; try (right; apply RQ; apply rq_field; [exact I | exact FL | exact D | intros s0; congruence]).
      left. reflexivity.
  - (* field *) intros fs f k v I FL SK _ IH [P FO] W. exists (fval f). split.
    + exists (uf_name f). split; [destruct SK as (q & a & b & ->); reflexivity|]. left. apply IN; assumption.
    + assert (A : accepts v (sch (uf_shape f))) by (apply IH; [apply P | apply W]; constructor; exact I).
      unfold fval. rewrite FL. destruct (uf_default f); [|exact A]. eapply accepts_up; [exact A|]. cbn [validate_value]. eauto.
  - (* map *) intros fs f ks vs k v t I FL SH SK NG _ _ _ IHv [P FO] W. exists (sch vs). split.
    + exists t. split; [destruct SK as (q & a & b & ->); reflexivity|]. right. rewrite obj_map by exact FO. split.
      * match goal with |- ?x = None => destruct x as [s|] eqn:E; [|reflexivity] end. exfalso.
        apply field_schema_spec in E; [|rewrite map_map; cbn; apply fkeys_nodup; exact FO].
        apply in_map_iff in E as (g & X & J). injection X as X _. unfold fkey in X. destruct (uf_flat g) eqn:G.
        { destruct (uf_shape g); discriminate. }
        destruct (uf_name g) as [|c r] eqn:N; [discriminate|]. injection X as X. apply (NG g J G). congruence.
      * assert (X : forall g, In g fs -> uf_flat g = true -> g = f).
        { intros g J G. destruct FO as (_ & _ & L1 & _). clear - I FL J G L1.
          assert (A : In f (filter uf_flat fs)) by (apply filter_In; auto). assert (B : In g (filter uf_flat fs)) by (apply filter_In; auto).
          destruct (filter uf_flat fs) as [|x [|y r]]; [destruct A | | cbn in L1; lia]. destruct A as [<-|[]], B as [<-|[]]. reflexivity. }
        destruct FO as (_ & NE & _ & _). clear - I FL SH X NE. induction fs as [|g fs IH]; [destruct I|]. cbn [map additional_schema].
        destruct (uf_flat g) eqn:G.
        { rewrite (X g (or_introl eq_refl) G). unfold fkey, fval. rewrite FL, SH. reflexivity. }
        rewrite fkey_named; [|exact G | apply NE; [left; reflexivity | exact G]]. cbn [named k_tag].
        destruct I as [->|I]; [congruence|]. apply IH; [exact I | |]; intros h J; [apply NE | apply X]; right; exact J.
    + assert (PM : plain (HMap ks vs)) by (rewrite <- SH; apply P; constructor; exact I). inversion PM; subst.
      apply IHv; [assumption|]. intros id t0 M. apply (W (uf_shape f)); [constructor; exact I|]. rewrite SH. apply m_val. exact M.
  - (* inner *) intros fs f id t fs' k v I FL SH _ _ _ _ [_ FO] _. exfalso.
    destruct FO as (_ & _ & _ & D). destruct (D f I FL) as (x & y & E). congruence.
Qed.
End Accept.

(** ** Generated files *)
Section Generated.
Variable F : Type.
Variable parse_f64 : str -> option F.
Variable f_ltb : F -> F -> bool.
Variable env : types.

Theorem generated_accepts : forall root t fuel file v,
  let reads := fun t => exists x, parse_f64 t = Some x in
  types_ok env reads -> is_type env root t ->
  generate_schema_file F env fuel root = Ok file ->
  doc_of env reads (HUser root) v ->
  exists f r, validate_document F parse_f64 f_ltb file f v = Ok r /\ v_errors r = [].
Proof.
  intros root t fuel file v reads OK T G D.
  destruct (final_defines F env root t file (gen_final F env root t T fuel file G)) as (l & L & CR & ND & (r & R) & DF).
  assert (DEF : forall id u, is_type env id u -> In (ut_name u) l ->
    lookup_type F (Some (ut_name u)) file = Some (dsch F env (ut_def u)) /\ covered env l (ut_def u)).
  { intros id u U I. apply L in I. apply in_map_iff in I as ([k s] & E & I). cbn in E. subst k.
    destruct (DF _ _ I) as (i & w & X1 & X2 & X3 & X4 & X5).
    assert (w = u).
    { assert (i = id).
      { red in X1, U. apply (proj1 (NoDup_nth_error (map ut_name env))); [apply OK| |].
        - rewrite map_length. apply nth_error_Some. congruence.
        - rewrite (map_nth_error _ _ _ X1), (map_nth_error _ _ _ U). congruence. }
      subst i. red in X1, U. congruence. }
    subst w s. split; [apply lookup_type_spec; assumption | exact X5]. }
  destruct (docs_accepted F parse_f64 f_ltb env file reads (fun t H => H) OK l DEF) as (_ & A & _).
  inversion D as [| | | | | | | | | | | |? u ? U DD]; subst. red in U, T. rewrite T in U. injection U as <-.
  destruct (A _ _ DD) as (f & O); [apply (proj2 OK); eapply nth_error_In; exact T | exact CR|].
  destruct (O []) as (res & E & N). exists f, res. split; [|exact N].
  unfold validate_document. cbn [lookup_type]. exact E.
Qed.
End Generated.
