(** Proofs about the schema validator. *)
From Coq Require Import String ZArith Lia Permutation.
From Verif Require Import BaseProofs TreeModel TreeProofs LinkProofs CliSpec CliProofs SchemaModel SchemaSpec.
Local Open Scope nat_scope.

(** ** Numbers *)
Lemma dec_all_spec : forall s acc n, dec_all acc s = Some n <->
  Forall (fun c => is_digit c = true) s /\ n = fold_left (fun n c => (10 * n + (c - 48))%N) s acc.
Proof.
  induction s as [|c s IH]; intros acc n; cbn [dec_all fold_left].
  - split; [intros [= ->]; auto | intros [_ ->]; reflexivity].
  - rewrite Forall_cons_iff. destruct (is_digit c) eqn:E.
    + rewrite IH. tauto.
    + split; [discriminate | intros [[H _] _]; discriminate].
Qed.
Lemma parse_signed_spec : forall lim s z, parse_signed lim s = Some z <->
  integer s z /\ (- lim <= z < lim)%Z.
Proof.
  intros lim s z. unfold parse_signed.
  assert (G : forall neg r,
    match r with
    | [] => None
    | _ => match dec_all 0 r with
           | Some n => let z := if (neg : bool) then (- Z.of_N n)%Z else Z.of_N n in
                       if ((- lim <=? z) && (z <? lim))%Z then Some z else None
           | None => None end end = Some z <->
    (exists n, decimal r n /\ z = if neg then (- Z.of_N n)%Z else Z.of_N n) /\ (- lim <= z < lim)%Z).
  { intros neg r. destruct r as [|c r].
    - split; [discriminate | intros [(n & ([] & _) & _) _]; reflexivity].
    - destruct (dec_all 0 (c :: r)) as [n|] eqn:E.
      + apply dec_all_spec in E as [E1 E2]. cbv zeta.
        set (w := if neg then (- Z.of_N n)%Z else Z.of_N n).
        destruct (((- lim <=? w) && (w <? lim))%Z) eqn:B.
        * apply andb_true_iff in B as [B1 B2]. split.
          { intros [= <-]. split; [exists n; split; [|reflexivity] | lia].
            repeat split; [discriminate | assumption | symmetry; exact E2]. }
          { intros [(m & (_ & _ & Hm) & ->) _]. unfold w, digits_value in *. f_equal. rewrite <- Hm, E2. reflexivity. }
        * split; [discriminate|]. intros [(m & (_ & _ & Hm) & Hz) R].
          assert (w = z). { unfold w, digits_value in *. rewrite Hz, <- Hm, E2. reflexivity. }
          rewrite H in B. apply andb_false_iff in B. lia.
      + split; [discriminate|]. intros [(m & (_ & Hd & Hm) & _) _].
        assert (dec_all 0 (c :: r) = Some m) by (apply dec_all_spec; split; [assumption | symmetry; exact Hm]).
        congruence. }
  destruct s as [|c r].
  - split; [discriminate|]. intros [H _]. inversion H; subst. match goal with X : decimal [] _ |- _ => destruct X as [[] _]; reflexivity end.
  - assert (ND : forall n, decimal (c :: r) n -> is_digit c = true).
    { intros n (_ & H & _). apply Forall_cons_iff in H. tauto. }
    destruct (c =? 45)%N eqn:E1; [|destruct (c =? 43)%N eqn:E2].
    + apply N.eqb_eq in E1. subst c. rewrite (G true r). split; intros [H R]; (split; [|exact R]).
      * destruct H as (n & Hn & ->). apply int_minus. exact Hn.
      * inversion H; subst; try (exists n; auto; fail).
        all: match goal with X : decimal (45%N :: _) _ |- _ => specialize (ND _ X); vm_compute in ND; discriminate end.
    + apply N.eqb_eq in E2. subst c. rewrite (G false r). split; intros [H R]; (split; [|exact R]).
      * destruct H as (n & Hn & ->). apply int_plus. exact Hn.
      * inversion H; subst; try (exists n; auto; fail).
        all: match goal with X : decimal (43%N :: _) _ |- _ => specialize (ND _ X); vm_compute in ND; discriminate end.
    + rewrite (G false (c :: r)). split; intros [H R]; (split; [|exact R]).
      * destruct H as (n & Hn & ->). apply int_plain. exact Hn.
      * inversion H; subst; try (exists n; auto; fail).
        all: try (rewrite N.eqb_refl in *; discriminate).
Qed.
Lemma integer_fun : forall s a b, integer s a -> integer s b -> a = b.
Proof.
  intros s a b Ha Hb.
  set (lim := (Z.abs a + Z.abs b + 1)%Z).
  assert (A : parse_signed lim s = Some a) by (apply parse_signed_spec; split; [assumption | lia]).
  assert (B : parse_signed lim s = Some b) by (apply parse_signed_spec; split; [assumption | lia]).
  congruence.
Qed.

(** ** Results *)
Lemma no_errors_merge : forall a b, v_errors (vmerge a b) = [] <-> v_errors a = [] /\ v_errors b = [].
Proof.
  intros a b. unfold vmerge. cbn. split.
  - apply app_eq_nil.
  - intros [-> ->]. reflexivity.
Qed.
Lemma no_errors_if : forall b p k sp, v_errors (if_err b p k sp) = [] <-> b = false.
Proof. intros [|] p k sp; cbn; split; congruence. Qed.
Lemma verr_errors : forall p k sp, v_errors (verr p k sp) = [] <-> False.
Proof. intros; cbn; split; [discriminate | tauto]. Qed.
Lemma is_valid_iff : forall r, is_valid r = true <-> v_errors r = [].
Proof. intros [[|e es] w]; cbn; split; congruence. Qed.
Lemma opt_test_false : forall A (o : option A) f, opt_test o f = false <-> forall a, o = Some a -> f a = false.
Proof. intros A [a|] f; cbn; split; intros H; [intros b [= <-]; exact H | apply H; reflexivity | discriminate | reflexivity]. Qed.

(** ** The values inside a value *)
Fixpoint insides (v : value) : list value :=
  v :: match v with Val t p _ => match t with Some _ => [Val None p None] | None => [] end ++ pinsides p end
with pinsides (p : payload) : list value :=
  match p with
  | PNone | PScalar _ _ _ => []
  | PSeq l _ => flat_map insides l
  | PObj es _ => flat_map (fun e => match e with Ent k x _ => insides k ++ insides x end) es
  end.
Lemma inside_insides : forall w v, inside w v -> In w (insides v).
Proof.
  induction 1 as [v|w x t l a b I _ IH|w k x d t es a b I _ IH|w k x d t es a b I _ IH|w t p b _ IH].
  - destruct v. left. reflexivity.
  - right. apply in_or_app. right. cbn [pinsides]. apply in_flat_map. exists x. auto.
  - right. apply in_or_app. right. cbn [pinsides]. apply in_flat_map. exists (Ent k x d). split; [exact I | apply in_or_app; auto].
  - right. apply in_or_app. right. cbn [pinsides]. apply in_flat_map. exists (Ent k x d). split; [exact I | apply in_or_app; auto].
  - cbn [insides app] in *. destruct IH as [<-|IH]; [right; left; reflexivity | right; right; exact IH].
Qed.

(** ** Lookups *)
Section Proofs.
Variable F : Type.
Notation schema := (schema F).
Notation schema_file := (schema_file F).

Lemma lookup_type_spec : forall (file : schema_file) n s, NoDup (map fst file) ->
  (lookup_type F n file = Some s <-> In (n, s) file).
Proof.
  induction file as [|[k t] r IH]; intros n s ND; cbn [lookup_type In map fst] in *.
  - split; [discriminate | tauto].
  - apply NoDup_cons_iff in ND as [NI ND].
    assert (C : (k = n /\ match k, n with None, None => Some t
        | Some a, Some b => if str_eqb a b then Some t else lookup_type F n r
        | _, _ => lookup_type F n r end = Some t) \/
       (k <> n /\ match k, n with None, None => Some t
        | Some a, Some b => if str_eqb a b then Some t else lookup_type F n r
        | _, _ => lookup_type F n r end = lookup_type F n r)).
    { destruct k as [a|], n as [b|]; try (right; split; [congruence | reflexivity]); [|left; auto].
      destruct (str_eqb a b) eqn:E.
      - apply str_eqb_eq in E. subst. left; auto.
      - right. split; [|reflexivity]. intros [= ->]. rewrite str_eqb_refl in E. discriminate. }
    destruct C as [[<- ->]|[N ->]].
    + split; [intros [= ->]; left; reflexivity|]. intros [[= ->]|H]; [reflexivity|].
      exfalso. apply NI. apply in_map_iff. exists (k, s). auto.
    + rewrite IH by assumption. split; [auto|]. intros [[= -> ->]|H]; [congruence | assumption].
Qed.
Lemma variant_schema_spec : forall (vs : list (str * schema)) n s, NoDup (map fst vs) ->
  (variant_schema F n vs = Some s <-> In (n, s) vs).
Proof.
  induction vs as [|[k t] r IH]; intros n s ND; cbn [variant_schema In map fst] in *.
  - split; [discriminate | tauto].
  - apply NoDup_cons_iff in ND as [NI ND]. destruct (str_eqb k n) eqn:E.
    + apply str_eqb_eq in E. subst k. split; [intros [= ->]; left; reflexivity|].
      intros [[= ->]|H]; [reflexivity|]. exfalso. apply NI. apply in_map_iff. exists (n, s). auto.
    + rewrite IH by assumption. split; [auto|].
      intros [[= -> ->]|H]; [rewrite str_eqb_refl in E; discriminate | assumption].
Qed.
Lemma field_schema_spec : forall (fs : list (obj_key * schema)) n s, NoDup (map fst fs) ->
  (field_schema F n fs = Some s <-> In (mkkey (Some n) None, s) fs).
Proof.
  induction fs as [|[k t] r IH]; intros n s ND; cbn [field_schema In map fst] in *.
  - split; [discriminate | tauto].
  - apply NoDup_cons_iff in ND as [NI ND]. destruct k as [[kv|] [kt|]]; cbn [k_value k_tag].
    + rewrite IH by assumption. split; [auto|]. intros [[=]|H]; assumption.
    + destruct (str_eqb kv n) eqn:E.
      * apply str_eqb_eq in E. subst kv. split; [intros [= ->]; left; reflexivity|].
        intros [[= ->]|H]; [reflexivity|]. exfalso. apply NI. apply in_map_iff. eexists (_, s). split; [reflexivity | exact H].
      * rewrite IH by assumption. split; [auto|].
        intros [[= -> ->]|H]; [rewrite str_eqb_refl in E; discriminate | assumption].
    + rewrite IH by assumption. split; [auto|]. intros [[=]|H]; assumption.
    + rewrite IH by assumption. split; [auto|]. intros [[=]|H]; assumption.
Qed.
Lemma additional_schema_spec : forall (fs : list (obj_key * schema)) s,
  additional_schema F fs = Some s <-> catch_all F fs s.
Proof.
  induction fs as [|[k t] r IH]; intros s; cbn [additional_schema].
  - split; [discriminate | intros ([|] & ? & ? & [=] & _)].
  - destruct (k_tag k) as [kt|] eqn:E.
    + split.
      * intros [= <-]. exists [], k, r. repeat split; [congruence | constructor].
      * intros (a & k' & b & H & N & A). destruct a as [|[k2 t2] a]; inversion H; subst; [reflexivity|].
        apply Forall_cons_iff in A as [A _]. cbn in A. congruence.
    + rewrite IH. split.
      * intros (a & k' & b & -> & N & A). exists ((k, t) :: a), k', b. repeat split; auto.
      * intros (a & k' & b & H & N & A). destruct a as [|[k2 t2] a]; inversion H; subst; [congruence|].
        apply Forall_cons_iff in A as [_ A]. exists a, k', b. auto.
Qed.

Variable parse_f64 : str -> option F.
Variable f_ltb : F -> F -> bool.

(** ** Validation and conformance *)
Section Exact.
Variable matches : str -> str -> Prop.
Variable D : dialect.
Variable file : schema_file.
Variable root : schema.
Variable v0 : value.
Hypothesis WF : well_formed F file root.
Hypothesis UD : undisputed F parse_f64 f_ltb matches D file root v0.
Notation conforms := (conforms F parse_f64 f_ltb matches D file).
Notation occurs := (occurs F file root).
Notation field := (field F D file).

Lemma text_iff : forall w t, inside w v0 -> (scalar_text w = Some t <-> is_text D w t).
Proof.
  intros w t IN. destruct UD as [V _]. apply V in IN as [T _].
  destruct w as [tg p b]. unfold scalar_text, tag_ok in *. cbn in *. split.
  - destruct p; try discriminate. intros [= ->]. constructor. unfold tag_ok.
    destruct (any_tag D); [auto | right; destruct T; [reflexivity | assumption | discriminate]].
  - intros H. inversion H; subst. reflexivity.
Qed.
Lemma object_iff : forall w t, inside w v0 -> (as_object w = Some t <-> is_object D w t).
Proof.
  intros w t IN. destruct UD as [V _]. apply V in IN as [T _].
  destruct w as [tg p b]. unfold as_object, tag_ok in *. cbn in *. split.
  - destruct p; try discriminate. intros [= ->]. constructor. unfold tag_ok.
    destruct (any_tag D); [auto | right; destruct T; [reflexivity | assumption | discriminate]].
  - intros H. inversion H; subst. reflexivity.
Qed.
Lemma sequence_iff : forall w t, inside w v0 -> (as_sequence w = Some t <-> is_sequence D w t).
Proof.
  intros w t IN. destruct UD as [V _]. apply V in IN as [T _].
  destruct w as [tg p b]. unfold as_sequence, tag_ok in *. cbn in *. split.
  - destruct p; try discriminate. intros [= ->]. constructor. unfold tag_ok.
    destruct (any_tag D); [auto | right; destruct T; [reflexivity | assumption | discriminate]].
  - intros H. inversion H; subst. reflexivity.
Qed.
Lemma nothing_iff : forall w, is_unit w = true <-> is_nothing w.
Proof.
  intros [[tg|] [| | |] b]; cbn; split; intros H; try discriminate; try (inversion H; fail); [constructor | reflexivity].
Qed.
Lemma inside_trans : forall a b c, inside a b -> inside b c -> inside a c.
Proof.
  intros u b c H1 H2. revert u H1. induction H2; intros u H1; [assumption | eapply in_item | eapply in_key | eapply in_value | eapply in_untagged]; eauto.
Qed.
Lemma blen_ascii : forall t, Forall (fun c => (c < 128)%N) t -> blen t = List.length t.
Proof.
  induction 1 as [|c t H _ IH]; [reflexivity|]. cbn [blen List.length]. rewrite IH.
  unfold clen. apply N.ltb_lt in H. rewrite H. reflexivity.
Qed.

Lemma string_exact : forall w c path, inside w v0 -> occurs (SString _ c) ->
  (v_errors (validate_string w c path) = [] <-> conforms w (SString _ c)).
Proof.
  intros w c path IN OC. unfold validate_string.
  assert (N : match c with Some c0 => no_pattern D = true \/ pattern c0 = None | None => True end).
  { destruct UD as (_ & N & _). apply N in OC. exact OC. }
  destruct (scalar_text w) as [t|] eqn:E.
  - assert (L : str_len D t = blen t).
    { destruct UD as (V & _). apply V in IN as [_ V']. destruct (V' t E) as [B _].
      unfold str_len. destruct (byte_length D); [reflexivity|]. symmetry. apply blen_ascii, B. reflexivity. }
    assert (S : conforms w (SString _ c) <-> string_ok matches D c t).
    { split.
      - intros H. inversion H; subst.
        match goal with T : is_text _ _ _ |- _ => apply text_iff in T; [|assumption]; rewrite E in T; injection T as T; subst end. assumption.
      - intros H. apply c_string with t; [apply text_iff; assumption | assumption]. }
    rewrite S. unfold string_ok. destruct c as [c|].
    + rewrite no_errors_merge, !no_errors_if, !opt_test_false. rewrite L. split.
      * intros [A B] c0 [= <-]. repeat split; intros m Hm.
        { apply A in Hm. apply Nat.ltb_ge in Hm. exact Hm. }
        { apply B in Hm. apply Nat.ltb_ge in Hm. exact Hm. }
        { destruct N; [congruence|]. congruence. }
      * intros H. destruct (H c eq_refl) as (A & B & _). split; intros m Hm; apply Nat.ltb_ge; auto.
    + cbn. split; [intros _ c0 [=] | reflexivity].
  - rewrite verr_errors. split; [tauto|]. intros H.
    inversion H; subst.
    match goal with T : is_text _ _ _ |- _ => apply text_iff in T; [|assumption]; congruence end.
Qed.

Lemma int_exact : forall w c path, inside w v0 ->
  (v_errors (validate_int w c path) = [] <-> conforms w (SInt _ c)).
Proof.
  intros w c path IN. unfold validate_int. destruct (scalar_text w) as [t|] eqn:E.
  - assert (S : conforms w (SInt _ c) <-> exists n, parse_i128 t = Some n /\ int_ok D c n).
    { destruct UD as (V & _). destruct (V _ IN) as [_ V']. destruct (V' t E) as (_ & B & _). split.
      - intros H. inversion H; subst.
        match goal with T : is_text _ _ _ |- _ => apply text_iff in T; [|assumption]; rewrite E in T; injection T as T; subst end.
        exists n. split; [|assumption]. apply parse_signed_spec. split; [assumption|].
        match goal with T : int_ok _ _ _ |- _ => destruct T as [T _] end.
        destruct (small_int D); [auto | apply B; auto].
      - intros (n & P & K). apply parse_signed_spec in P as [P R].
        apply c_int with t n; [apply text_iff; assumption | assumption | assumption]. }
    rewrite S. destruct (parse_i128 t) as [n|] eqn:P.
    + assert (X : (exists n0, Some n = Some n0 /\ int_ok D c n0) <-> int_ok D c n).
      { split; [intros (m & [= <-] & K); exact K | intros K; exists n; auto]. }
      rewrite X. unfold int_ok. apply parse_signed_spec in P as [_ R]. destruct c as [c|].
      * rewrite no_errors_merge, !no_errors_if, !opt_test_false. split.
        { intros [A B]. split; [intros _; exact R|]. intros c0 [= <-]. split; intros m Hm.
          - apply A in Hm. apply Z.ltb_ge in Hm. exact Hm.
          - apply B in Hm. apply Z.ltb_ge in Hm. exact Hm. }
        { intros [_ H]. destruct (H c eq_refl) as (A & B). split; intros m Hm; apply Z.ltb_ge; auto. }
      * cbn. split; [intros _; split; [intros _; exact R | intros c0 [=]] | reflexivity].
    + rewrite verr_errors. split; [tauto|]. intros (n & [=] & _).
  - rewrite verr_errors. split; [tauto|]. intros H. inversion H; subst.
    match goal with T : is_text _ _ _ |- _ => apply text_iff in T; [|assumption]; congruence end.
Qed.
Lemma float_exact : forall w c path, inside w v0 ->
  (v_errors (validate_float F parse_f64 f_ltb w c path) = [] <-> conforms w (SFloat _ c)).
Proof.
  intros w c path IN. unfold validate_float. destruct (scalar_text w) as [t|] eqn:E.
  - assert (S : conforms w (SFloat _ c) <-> float_ok F parse_f64 f_ltb D c t).
    { split.
      - intros H. inversion H; subst.
        match goal with T : is_text _ _ _ |- _ => apply text_iff in T; [|assumption]; rewrite E in T; injection T as T; subst end.
        assumption.
      - intros H. apply c_float with t; [apply text_iff; assumption | assumption]. }
    rewrite S. unfold float_ok. destruct UD as (V & _). destruct (V _ IN) as [_ V']. destruct (V' t E) as (_ & _ & B).
    destruct (parse_f64 t) as [x|] eqn:P.
    + assert (J : rust_float D = false -> json_number t) by (intros K; apply B; [exact K | discriminate]).
      destruct c as [c|].
      * rewrite no_errors_merge, !no_errors_if, !opt_test_false. split.
        { intros [A A']. split; [exact J|]. exists x. split; [reflexivity|]. intros c0 [= <-]. split; assumption. }
        { intros (_ & y & [= <-] & H). destruct (H c eq_refl) as (A & A'). split; assumption. }
      * cbn. split; [intros _ | reflexivity]. split; [exact J|]. exists x. split; [reflexivity | intros c0 [=]].
    + rewrite verr_errors. split; [tauto|]. intros (_ & n & [=] & _).
  - rewrite verr_errors. split; [tauto|]. intros H. inversion H; subst.
    match goal with T : is_text _ _ _ |- _ => apply text_iff in T; [|assumption]; congruence end.
Qed.
Lemma is_bool_text_iff : forall t, is_bool_text t = true <-> t = lit "true" \/ t = lit "false".
Proof. intros t. unfold is_bool_text. rewrite orb_true_iff, !str_eqb_eq. tauto. Qed.
Lemma bool_exact : forall w path, inside w v0 ->
  (v_errors (validate_bool w path) = [] <-> conforms w (SBool _)).
Proof.
  intros w path IN. unfold validate_bool. destruct (scalar_text w) as [t|] eqn:E.
  - assert (S : conforms w (SBool _) <-> is_bool_text t = true).
    { rewrite is_bool_text_iff. split.
      - intros H. inversion H; subst.
        match goal with T : is_text _ _ _ |- _ => apply text_iff in T; [|assumption]; rewrite E in T; injection T as T; subst end.
        assumption.
      - intros H. apply c_bool with t; [apply text_iff; assumption | assumption]. }
    rewrite S. destruct (is_bool_text t); cbn; split; congruence.
  - rewrite verr_errors. split; [tauto|]. intros H. inversion H; subst.
    match goal with T : is_text _ _ _ |- _ => apply text_iff in T; [|assumption]; congruence end.
Qed.
Lemma literal_exact : forall w x path, inside w v0 ->
  (v_errors (validate_literal w x path) = [] <-> conforms w (SLiteral _ x)).
Proof.
  intros w x path IN. unfold validate_literal. destruct (scalar_text w) as [t|] eqn:E.
  - assert (S : conforms w (SLiteral _ x) <-> str_eqb t x = true).
    { rewrite str_eqb_eq. split.
      - intros H. inversion H; subst.
        match goal with T : is_text _ _ _ |- _ => apply text_iff in T; [|assumption]; rewrite E in T; injection T as T; subst end.
        reflexivity.
      - intros ->. apply c_literal. apply text_iff; assumption. }
    rewrite S. destruct (str_eqb t x); cbn; split; congruence.
  - rewrite verr_errors. split; [tauto|]. intros H. inversion H; subst.
    match goal with T : is_text _ _ _ |- _ => apply text_iff in T; [|assumption]; congruence end.
Qed.
Lemma unit_exact : forall w path, v_errors (validate_unit w path) = [] <-> is_nothing w.
Proof.
  intros w path. unfold validate_unit. rewrite <- nothing_iff. destruct (is_unit w); cbn; split; congruence.
Qed.

(** *** Objects *)
Lemma field_iff : forall fs n s, occurs (SObject _ fs) -> (field fs n s <-> In (mkkey (Some n) None, s) fs).
Proof.
  intros fs n s OC.
  assert (NF : nested_flatten D = true \/ forall k t, ~ In (k, SFlatten _ t) fs).
  { destruct (nested_flatten D) eqn:E; [auto | right]. intros k t IN.
    assert (O : occurs (SFlatten _ t)) by (eapply oc_child; [exact OC | econstructor; exact IN]).
    destruct UD as (_ & N & _). apply N in O. cbn in O. congruence. }
  split.
  - intros H. inversion H; subst; [assumption|].
    destruct NF as [NF|NF]; [congruence|]. exfalso. eapply NF; eassumption.
  - intros H. apply field_own; [exact H|]. intros E [t ->].
    destruct NF as [NF|NF]; [congruence|]. eapply NF; eassumption.
Qed.

Section Step.
Variable vv : value -> schema -> str -> res vresult.
Hypothesis IH : forall w s path r, inside w v0 -> occurs s -> vv w s path = Ok r ->
  (v_errors r = [] <-> conforms w s).

Lemma entries_exact : forall fs, occurs (SObject _ fs) -> forall es path r,
  (forall k x d, In (Ent k x d) es -> inside x v0) ->
  object_entries F vv fs es path = Ok r ->
  (v_errors r = [] <->
   forall k x d, In (Ent k x d) es -> exists s, entry_schema F D file fs k s /\ conforms x s).
Proof.
  intros fs OC.
  assert (ND : NoDup (map fst fs)). { destruct WF as [_ W]. apply W in OC. apply OC. }
  induction es as [|[k x d] es IHes]; intros path r IN H; cbn [object_entries] in H.
  - injection H as <-. cbn. split; [intros _ k x d [] | reflexivity].
  - apply bind_inv in H as (here & Hh & H). apply bind_inv in H as (rest & Hr & H). injection H as <-.
    rewrite no_errors_merge. rewrite (IHes _ _ (fun k x d i => IN k x d (or_intror i)) Hr).
    assert (X : v_errors here = [] <-> exists s, entry_schema F D file fs k s /\ conforms x s).
    { assert (INx : inside x v0) by (eapply IN; left; reflexivity).
      destruct (entry_key k) as [key|] eqn:EK.
      - (* a key *)
        set (name := match key with Some s => s | None => [] end) in *.
        assert (KN : forall s, entry_schema F D file fs k s <->
                  match field_schema F name fs with Some s' => s = s' | None => catch_all F fs s end).
        { assert (K : exists nm, key_name D k nm /\ (forall nm', key_name D k nm' -> nm' = nm) /\
                      (nm = Some name \/ nm = None /\ forall s', ~ field fs name s')).
          { unfold entry_key in EK. destruct k as [[tg|] [|t q a| |] b]; cbn in EK; inversion EK; subst; cbn in name.
            - exists (if unit_is_empty D then Some [] else None). splits.
              + constructor.
              + intros nm' Hn. inversion Hn; subst. reflexivity.
              + destruct UD as (_ & N & _). apply N in OC. destruct OC as [_ [U|U]].
                * rewrite U. left. reflexivity.
                * destruct (unit_is_empty D); [left; reflexivity | right]. split; [reflexivity | exact U].
            - exists (Some t). splits; [constructor | intros nm' Hn; inversion Hn; subst; reflexivity | left; reflexivity]. }
          destruct K as (nm & K1 & K2 & K3). intros s. unfold entry_schema.
          destruct (field_schema F name fs) as [s'|] eqn:FS.
          - apply field_schema_spec in FS; [|assumption]. apply field_iff in FS; [|assumption].
            destruct K3 as [->|[-> NF]]; [|exfalso; exact (NF _ FS)]. split.
            + intros (nm & Hn & C). apply K2 in Hn. subst nm. destruct C as [(n & [= <-] & Hf)|[Hf _]].
              * apply field_iff in Hf; [|assumption]. apply field_iff in FS; [|assumption].
                apply field_schema_spec in Hf; [|assumption]. apply field_schema_spec in FS; [|assumption]. congruence.
              * exfalso. exact (Hf _ _ eq_refl FS).
            + intros ->. exists (Some name). split; [exact K1 | left]. exists name. auto.
          - assert (NF : forall s', ~ field fs name s').
            { intros s' Hf. apply field_iff in Hf; [|assumption]. apply field_schema_spec in Hf; [|assumption]. congruence. }
            split.
            + intros (nm' & Hn & C). apply K2 in Hn. subst nm'. destruct C as [(n & E & Hf)|[_ C]]; [|exact C].
              destruct K3 as [->|[-> _]]; [injection E as <-; exfalso; exact (NF _ Hf) | discriminate].
            + intros C. exists nm. split; [exact K1 | right]. split; [|exact C].
              intros n s' E. destruct K3 as [->|[-> _]]; [injection E as <-; apply NF | discriminate]. }
        destruct (field_schema F name fs) as [s'|] eqn:FS.
        + assert (O : occurs s').
          { apply field_schema_spec in FS; [|assumption]. eapply oc_child; [exact OC | econstructor; exact FS]. }
          apply IH in Hh; [|assumption|assumption]. rewrite Hh. split.
          * intros C. exists s'. split; [apply KN; reflexivity | exact C].
          * intros (s & E & C). apply KN in E. subst. exact C.
        + destruct (additional_schema F fs) as [s'|] eqn:AS.
          * apply additional_schema_spec in AS.
            assert (O : occurs s').
            { destruct AS as (a & k' & b & -> & _). eapply oc_child; [exact OC|]. econstructor. apply in_or_app. right. left. reflexivity. }
            apply IH in Hh; [|assumption|assumption]. rewrite Hh. split.
            { intros C. exists s'. split; [apply KN; exact AS | exact C]. }
            { intros (s & E & C). apply KN in E. apply additional_schema_spec in E. apply additional_schema_spec in AS.
              assert (s = s') by congruence. subst. exact C. }
          * injection Hh as <-. rewrite verr_errors. split; [tauto|]. intros (s & E & _). apply KN in E.
            apply additional_schema_spec in E. congruence.
      - injection Hh as <-. rewrite verr_errors. split; [tauto|]. intros (s & (nm & K & _) & _).
        inversion K; subst; discriminate. }
    rewrite X. split.
    + intros [A B] k' x' d' [[= <- <- <-]|I]; [exact A | exact (B _ _ _ I)].
    + intros A. split; [apply (A k x d); left; reflexivity | intros k' x' d' I; apply (A k' x' d'); right; exact I].
Qed.

Lemma seen_iff : forall n es, seen n es = true <-> present n es.
Proof.
  intros n es. unfold seen, present. rewrite existsb_exists. split.
  - intros ([k v d] & I & E). cbn [e_key] in E. unfold entry_key in E.
    destruct k as [[tg|] [|t q a| |] b]; cbn in E; try discriminate.
    apply str_eqb_eq in E. exists t, q, a, b, v, d. auto.
  - intros (x & k & a & b & v & d & -> & I). eexists. split; [exact I|]. cbn. apply str_eqb_refl.
Qed.
Lemma missing_exact : forall (fs : list (obj_key * schema)) es path sp,
  Forall (fun p => k_value (fst p) = None \/ k_tag (fst p) = None) fs ->
  (v_errors (missing_fields F fs es path sp) = [] <->
   forall n s, In (mkkey (Some n) None, s) fs -> not_required F s = true \/ present n es).
Proof.
  induction fs as [|[k s] fs IHfs]; intros es path sp W; cbn [missing_fields].
  - cbn. split; [intros _ n s [] | reflexivity].
  - apply Forall_cons_iff in W as [W0 W]. rewrite no_errors_merge, IHfs by assumption.
    destruct k as [[n|] tg]; cbn in W0; cbn [k_value].
    + destruct W0 as [W0|W0]; [discriminate | subst tg].
      assert (X : v_errors (if negb (seen n es) && negb (not_required F s)
                   then verr (sub_path path n) (EMissingField n) sp else vok) = [] <->
                  not_required F s = true \/ present n es).
      { rewrite <- seen_iff. destruct (seen n es), (not_required F s); cbn; split; auto; try discriminate.
        intros [|]; discriminate. }
      rewrite X. split.
      * intros [A B] n' s' [[= <- <-]|I]; [exact A | exact (B _ _ I)].
      * intros A. split; [apply A; left; reflexivity | intros n' s' I; apply A; right; exact I].
    + cbn. split.
      * intros [_ B] n' s' [[=]|I]; exact (B _ _ I).
      * intros A. split; [reflexivity | intros n' s' I; apply A; right; exact I].
Qed.
Lemma object_exact : forall w fs path r, inside w v0 -> occurs (SObject _ fs) ->
  validate_object F vv w fs path = Ok r -> (v_errors r = [] <-> conforms w (SObject _ fs)).
Proof.
  intros w fs path r IN OC H. unfold validate_object in H.
  destruct (as_object w) as [es|] eqn:E.
  - apply bind_inv in H as (a & Ha & H). injection H as <-.
    assert (INx : forall k x d, In (Ent k x d) es -> inside x v0).
    { intros k x d I. apply inside_trans with w; [|exact IN].
      destruct w as [tg p b]. unfold as_object in E. cbn in E. destruct p; try discriminate. injection E as ->.
      eapply in_value; [exact I | constructor]. }
    pose proof (entries_exact fs OC es path a INx Ha) as EX.
    assert (W : distinct_keys F (SObject _ fs)) by (apply WF; exact OC). cbn in W.
    rewrite no_errors_merge, EX, (missing_exact fs es path _ (proj2 W)).
    assert (AB : forall n s, field fs n s -> (not_required F s = true <-> absent_ok F D file s)).
    { intros n s Hf. destruct UD as (_ & N & _). pose proof (N _ OC) as [DA _]. split.
      - destruct s; try discriminate; intros _; constructor.
      - intros A. destruct DA as [DA|DA].
        + inversion A; subst; try congruence; reflexivity.
        + destruct (DA _ _ Hf A) as [[s' ->]|(d & s' & ->)]; reflexivity. }
    split.
    + intros [A B]. apply c_object with es; [apply object_iff; assumption | exact A|].
      intros n s Hf. rewrite <- (AB _ _ Hf). apply B. apply field_iff; assumption.
    + intros C. inversion C; subst.
      match goal with T : is_object _ _ _ |- _ => apply object_iff in T; [|assumption]; rewrite E in T; injection T as T; subst end.
      split; [assumption|]. intros n s Hf. apply field_iff in Hf; [|assumption]. rewrite (AB _ _ Hf). auto.
  - injection H as <-. rewrite verr_errors. split; [tauto|]. intros C. inversion C; subst.
    match goal with T : is_object _ _ _ |- _ => apply object_iff in T; [|assumption]; congruence end.
Qed.

(** *** Sequences and maps *)
Lemma seq_items_exact : forall s, occurs s -> forall l i path r, (forall x, In x l -> inside x v0) ->
  seq_items F vv s l i path = Ok r -> (v_errors r = [] <-> forall x, In x l -> conforms x s).
Proof.
  intros s OC. induction l as [|x l IHl]; intros i path r IN H; cbn [seq_items] in H.
  - injection H as <-. cbn. split; [intros _ x [] | reflexivity].
  - apply bind_inv in H as (a & Ha & H). apply bind_inv in H as (b & Hb & H). injection H as <-.
    rewrite no_errors_merge, (IHl _ _ _ (fun x i => IN x (or_intror i)) Hb).
    apply IH in Ha; [|apply IN; left; reflexivity|assumption]. rewrite Ha. split.
    + intros [A B] y [<-|I]; auto.
    + intros A. split; [apply A; left; reflexivity | intros y I; apply A; right; exact I].
Qed.
Lemma items_inside : forall w l, inside w v0 -> as_sequence w = Some l -> forall x, In x l -> inside x v0.
Proof.
  intros w l IN E x I. apply inside_trans with w; [|exact IN].
  destruct w as [tg p b]. unfold as_sequence in E. cbn in E. destruct p; try discriminate. injection E as ->.
  eapply in_item; [exact I | constructor].
Qed.
Lemma entries_inside : forall w es, inside w v0 -> as_object w = Some es -> forall k x d, In (Ent k x d) es ->
  inside k v0 /\ inside x v0.
Proof.
  intros w es IN E k x d I. destruct w as [tg p b]. unfold as_object in E. cbn in E. destruct p; try discriminate. injection E as ->.
  split; (eapply inside_trans; [|exact IN]).
  - eapply in_key; [exact I | constructor].
  - eapply in_value; [exact I | constructor].
Qed.
Lemma seq_exact : forall w s path r, inside w v0 -> occurs (SSeq _ s) ->
  validate_seq F vv w s path = Ok r -> (v_errors r = [] <-> conforms w (SSeq _ s)).
Proof.
  intros w s path r IN OC H. unfold validate_seq in H.
  destruct (as_sequence w) as [l|] eqn:E.
  - rewrite (seq_items_exact s (oc_child _ _ _ _ _ OC (ch_seq _ s)) l _ _ _ (items_inside _ _ IN E) H). split.
    + intros A. apply c_seq with l; [apply sequence_iff; assumption | exact A].
    + intros C. inversion C; subst.
      match goal with T : is_sequence _ _ _ |- _ => apply sequence_iff in T; [|assumption]; rewrite E in T; injection T as T; subst end.
      assumption.
  - injection H as <-. rewrite verr_errors. split; [tauto|]. intros C. inversion C; subst.
    match goal with T : is_sequence _ _ _ |- _ => apply sequence_iff in T; [|assumption]; congruence end.
Qed.
Lemma tuple_items_exact : forall ss l i path r, (forall x, In x l -> inside x v0) -> (forall s, In s ss -> occurs s) ->
  tuple_items F vv ss l i path = Ok r ->
  (v_errors r = [] <-> forall i x s, nth_error l i = Some x -> nth_error ss i = Some s -> conforms x s).
Proof.
  induction ss as [|s ss IHss]; intros [|x l] i path r IN OC H; cbn [tuple_items] in H;
    try (injection H as <-; cbn; split; [intros _ [|j] y t; cbn; discriminate | reflexivity]).
  apply bind_inv in H as (a & Ha & H). apply bind_inv in H as (b & Hb & H). injection H as <-.
  rewrite no_errors_merge.
  rewrite (IHss _ _ _ _ (fun x i => IN x (or_intror i)) (fun x i => OC x (or_intror i)) Hb).
  apply IH in Ha; [|apply IN; left; reflexivity|apply OC; left; reflexivity]. rewrite Ha. split.
  - intros [A B] [|j] y t; cbn; [intros [= <-] [= <-]; exact A | apply B].
  - intros A. split; [apply (A 0); reflexivity | intros j y t; apply (A (S j))].
Qed.
Lemma tuple_exact : forall w ss path r, inside w v0 -> occurs (STuple _ ss) ->
  validate_tuple F vv w ss path = Ok r -> (v_errors r = [] <-> conforms w (STuple _ ss)).
Proof.
  intros w ss path r IN OC H. unfold validate_tuple in H.
  destruct (as_sequence w) as [l|] eqn:E.
  - apply bind_inv in H as (a & Ha & H). injection H as <-. rewrite no_errors_merge, no_errors_if.
    rewrite (tuple_items_exact ss l _ _ _ (items_inside _ _ IN E) (fun s i => oc_child _ _ _ _ _ OC (ch_tuple _ ss s i)) Ha).
    rewrite negb_false_iff, Nat.eqb_eq. split.
    + intros [A B]. apply c_tuple with l; [apply sequence_iff; assumption | exact A | exact B].
    + intros C. inversion C; subst.
      match goal with T : is_sequence _ _ _ |- _ => apply sequence_iff in T; [|assumption]; rewrite E in T; injection T as T; subst end.
      split; assumption.
  - injection H as <-. rewrite verr_errors. split; [tauto|]. intros C. inversion C; subst.
    match goal with T : is_sequence _ _ _ |- _ => apply sequence_iff in T; [|assumption]; congruence end.
Qed.
Lemma map_entries_exact : forall ks s, occurs s -> (forall k, ks = Some k -> occurs k) -> forall es path r,
  (forall k x d, In (Ent k x d) es -> inside k v0 /\ inside x v0) ->
  map_entries F vv ks s es path = Ok r ->
  (v_errors r = [] <-> forall k x d, In (Ent k x d) es ->
     (exists t, as_str k = Some t) /\ (forall s', ks = Some s' -> conforms k s') /\ conforms x s).
Proof.
  intros ks s OC OK. induction es as [|[k x d] es IHes]; intros path r IN H; cbn [map_entries] in H.
  - injection H as <-. cbn. split; [intros _ k x d [] | reflexivity].
  - apply bind_inv in H as (here & Hh & H). apply bind_inv in H as (rest & Hr & H). injection H as <-.
    rewrite no_errors_merge. rewrite (IHes _ _ (fun k x d i => IN k x d (or_intror i)) Hr).
    destruct (IN k x d (or_introl eq_refl)) as [INk INx].
    assert (X : v_errors here = [] <-> (exists t, as_str k = Some t) /\ (forall s', ks = Some s' -> conforms k s') /\ conforms x s).
    { destruct (as_str k) as [t|] eqn:EK.
      - apply bind_inv in Hh as (a & Ha & Hh). apply bind_inv in Hh as (b & Hb & Hh). injection Hh as <-.
        rewrite no_errors_merge. apply IH in Hb; [|assumption|assumption]. rewrite Hb.
        assert (KA : v_errors a = [] <-> forall s', ks = Some s' -> conforms k s').
        { destruct ks as [ks|].
          - apply IH in Ha; [|assumption|apply OK; reflexivity]. rewrite Ha. split; [intros C s' [= <-]; exact C | auto].
          - injection Ha as <-. cbn. split; [intros _ s' [=] | reflexivity]. }
        rewrite KA. split; [intros [A B]; splits; eauto | intros (_ & A & B); auto].
      - injection Hh as <-. rewrite verr_errors. split; [tauto | intros ((t & [=]) & _)]. }
    rewrite X. split.
    + intros [A B] k' x' d' [[= <- <- <-]|I]; [exact A | exact (B _ _ _ I)].
    + intros A. split; [apply (A k x d); left; reflexivity | intros k' x' d' I; apply (A k' x' d'); right; exact I].
Qed.
Lemma map_exact : forall w ss path r, inside w v0 -> occurs (SMap _ ss) ->
  validate_map F vv w ss path = Ok r -> (v_errors r = [] <-> conforms w (SMap _ ss)).
Proof.
  intros w ss path r IN OC H. unfold validate_map in H.
  assert (OS : forall s, In s ss -> occurs s) by (intros s i; eapply oc_child; [exact OC | apply ch_map; exact i]).
  destruct (as_object w) as [es|] eqn:E.
  - assert (IE := entries_inside _ _ IN E).
    destruct ss as [|s1 [|s2 [|s3 ss]]].
    + injection H as <-. rewrite verr_errors. split; [tauto|]. intros C. inversion C.
    + apply map_entries_exact in H; [|apply OS; left; reflexivity | discriminate | assumption]. rewrite H. split.
      * intros A. apply c_map1 with es; [apply object_iff; assumption|].
        intros k x d I. destruct (A _ _ _ I) as (A1 & _ & A3). auto.
      * intros C. inversion C; subst.
        match goal with T : is_object _ _ _ |- _ => apply object_iff in T; [|assumption]; rewrite E in T; injection T as T; subst end.
        intros k x d I. match goal with T : forall k x d, _ |- _ => destruct (T _ _ _ I) as [T1 T2] end.
        splits; [assumption | discriminate | assumption].
    + apply map_entries_exact in H;
        [|apply OS; right; left; reflexivity | intros k [= <-]; apply OS; left; reflexivity | assumption].
      rewrite H. split.
      * intros A. apply c_map2 with es; [apply object_iff; assumption|].
        intros k x d I. destruct (A _ _ _ I) as (A1 & A2 & A3). auto.
      * intros C. inversion C; subst.
        match goal with T : is_object _ _ _ |- _ => apply object_iff in T; [|assumption]; rewrite E in T; injection T as T; subst end.
        intros k x d I. match goal with T : forall k x d, _ |- _ => destruct (T _ _ _ I) as (T1 & T2 & T3) end.
        splits; [|intros s' [= <-]; assumption | assumption].
        destruct UD as (_ & N & _). apply N in OC. cbn in OC. destruct OC as [OC|[OC KT]]; [auto|].
        assert (TX : exists t, is_text D k t).
        { destruct KT as [[c ->]|[[c ->]| ->]]; inversion T2; subst; eauto. }
        destruct TX as [t TX]. exists t. inversion TX; subst.
        match goal with Z : tag_ok _ _ |- _ => destruct Z as [Z|Z]; [congruence | subst] end. reflexivity.
    + injection H as <-. rewrite verr_errors. split; [tauto|]. intros C. inversion C.
  - injection H as <-. rewrite verr_errors. split; [tauto|]. intros C. inversion C; subst;
    match goal with T : is_object _ _ _ |- _ => apply object_iff in T; [|assumption]; congruence end.
Qed.

(** *** Combinators *)
Lemma union_variants_exact : forall w l path r, inside w v0 -> (forall s, In s l -> occurs s) ->
  union_variants F vv w l path = Ok r -> (v_errors r = [] <-> exists s, In s l /\ conforms w s).
Proof.
  intros w l path r IN. revert r. induction l as [|s l IHl]; intros r OC H; cbn [union_variants] in H.
  - injection H as <-. rewrite verr_errors. split; [tauto | intros (s & [] & _)].
  - apply bind_inv in H as (a & Ha & H). apply IH in Ha; [|assumption|apply OC; left; reflexivity].
    rewrite <- is_valid_iff in Ha. destruct (is_valid a).
    + injection H as <-. cbn. split; [intros _|reflexivity]. exists s. split; [left; reflexivity | apply Ha; reflexivity].
    + rewrite (IHl _ (fun x i => OC x (or_intror i)) H). split.
      * intros (t & I & C). exists t. split; [right; exact I | exact C].
      * intros (t & [<-|I] & C); [apply Ha in C; discriminate | exists t; auto].
Qed.
Lemma union_exact : forall w l path r, inside w v0 -> occurs (SUnion _ l) ->
  validate_union F vv w l path = Ok r -> (v_errors r = [] <-> conforms w (SUnion _ l)).
Proof.
  intros w l path r IN OC H.
  assert (OS : forall s, In s l -> occurs s) by (intros s i; eapply oc_child; [exact OC | apply ch_union; exact i]).
  assert (X : conforms w (SUnion _ l) <-> exists s, In s l /\ conforms w s).
  { split; [intros C; inversion C; subst; eauto | intros (s & I & C); econstructor; eassumption]. }
  rewrite X. destruct l as [|s l].
  - injection H as <-. rewrite verr_errors. split; [tauto | intros (s & [] & _)].
  - exact (union_variants_exact w (s :: l) path r IN OS H).
Qed.
Lemma accepts_untagged_iff : forall t s, accepts_untagged F parse_f64 t s = true <-> scalar_variant F parse_f64 t s.
Proof.
  intros t s. destruct s; cbn; try (split; [discriminate | tauto]); try tauto.
  - destruct (parse_i64 t) as [n|] eqn:P.
    + apply parse_signed_spec in P. split; [intros _; exists n; exact P | reflexivity].
    + split; [discriminate|]. intros (n & H). pose proof (proj2 (parse_signed_spec (2 ^ 63)%Z t n) H). unfold parse_i64 in P. congruence.
  - destruct (parse_f64 t); split; try congruence; try discriminate; reflexivity.
  - apply is_bool_text_iff.
Qed.
Lemma find_split : forall A (f : A -> bool) l x, find f l = Some x <->
  exists a b, l = a ++ x :: b /\ f x = true /\ Forall (fun y => f y = false) a.
Proof.
  intros A f. induction l as [|y l IHl]; intros x; cbn [find].
  - split; [discriminate | intros ([|] & b & [=] & _)].
  - destruct (f y) eqn:E.
    + split.
      * intros [= <-]. exists [], l. auto.
      * intros (a & b & H & Fx & Fa). destruct a as [|z a]; inversion H; subst; [reflexivity|].
        apply Forall_cons_iff in Fa as [Fa _]. congruence.
    + rewrite IHl. split.
      * intros (a & b & -> & Fx & Fa). exists (y :: a), b. auto.
      * intros (a & b & H & Fx & Fa). destruct a as [|z a]; inversion H; subst; [congruence|].
        apply Forall_cons_iff in Fa as [_ Fa]. exists a, b. auto.
Qed.
Lemma find_map : forall A B (f : B -> bool) (g : A -> B) l,
  find f (map g l) = option_map g (find (fun a => f (g a)) l).
Proof. intros A B f g. induction l as [|a l IHl]; cbn; [reflexivity|]. destruct (f (g a)); [reflexivity | exact IHl]. Qed.
Lemma takes_no_payload_iff : forall s, takes_no_payload F s = true <-> no_payload_variant F s.
Proof.
  intros s. unfold no_payload_variant. destruct s; cbn;
    try (split; [discriminate | intros [[=]|[[=]|[=]]]]); [split; auto|].
  destruct name as [n|]; [|split; auto]. rewrite str_eqb_eq. split.
  - intros ->. auto.
  - intros [[=]|[[=]|[= ->]]]. reflexivity.
Qed.
Lemma enum_exact : forall w vs path r, inside w v0 -> occurs (SEnum _ vs) ->
  validate_enum F parse_f64 vv w vs path = Ok r -> (v_errors r = [] <-> conforms w (SEnum _ vs)).
Proof.
  intros w vs path r IN OC H.
  assert (OS : forall n s, In (n, s) vs -> occurs s) by (intros n s i; eapply oc_child; [exact OC | eapply ch_enum; exact i]).
  assert (ND : NoDup (map fst vs)). { destruct WF as [_ W]. apply W in OC. exact OC. }
  assert (NO : node_ok F parse_f64 f_ltb matches D file (SEnum _ vs)) by (apply UD; exact OC).
  destruct NO as [NF NU].
  destruct w as [[[tag ts]|] p b]; unfold validate_enum in H; cbn [v_tag v_payload] in H.
  - assert (V : forall s', variant_schema F tag vs = Some s' -> forall s, In (tag, s) vs -> s = s').
    { intros s' E s I. apply variant_schema_spec in I; [|assumption]. congruence. }
    destruct (variant_schema F tag vs) as [s|] eqn:E.
    + specialize (V _ eq_refl). apply variant_schema_spec in E; [|assumption].
      destruct p as [|t q a|l a|es a].
      * injection H as <-.
        assert (X : conforms (Val (Some (tag, ts)) PNone b) (SEnum _ vs) <-> takes_no_payload F s = true).
        { rewrite takes_no_payload_iff. split.
          - intros C. inversion C; subst; try congruence.
            + match goal with I : In (tag, ?s') vs |- _ => assert (s' = s) by (apply V; exact I) end. subst.
              destruct NU as [NU|NU]; [congruence|]. apply (NU _ _ E). auto.
            + match goal with I : In (tag, ?s') vs |- _ => assert (s' = s) by (apply V; exact I) end. subst.
              destruct NU as [NU|NU]; [congruence|]. apply (NU _ _ E). auto.
            + match goal with I : In (tag, ?s') vs |- _ => assert (s' = s) by (apply V; exact I) end. subst.
              assumption.
          - intros T. destruct (direct_unit D) eqn:DU.
            + eapply c_variant_direct; [exact DU | exact E | exact T].
            + destruct NU as [NU|NU]; [congruence|].
              apply (NU _ _ E) in T as [T|T]; [eapply c_variant_unit | eapply c_variant_absent]; eassumption. }
        rewrite X. destruct (takes_no_payload F s); cbn; split; congruence.
      * apply IH in H; [|apply inside_trans with (2 := IN); constructor; constructor | eapply OS; exact E]. rewrite H. split.
        { intros C. eapply c_variant; [exact E | discriminate | exact C]. }
        { intros C. inversion C; subst.
          match goal with I : In (tag, ?s') vs |- _ => assert (s' = s) by (apply V; exact I) end. subst. assumption. }
      * apply IH in H; [|apply inside_trans with (2 := IN); constructor; constructor | eapply OS; exact E]. rewrite H. split.
        { intros C. eapply c_variant; [exact E | discriminate | exact C]. }
        { intros C. inversion C; subst.
          match goal with I : In (tag, ?s') vs |- _ => assert (s' = s) by (apply V; exact I) end. subst. assumption. }
      * apply IH in H; [|apply inside_trans with (2 := IN); constructor; constructor | eapply OS; exact E]. rewrite H. split.
        { intros C. eapply c_variant; [exact E | discriminate | exact C]. }
        { intros C. inversion C; subst.
          match goal with I : In (tag, ?s') vs |- _ => assert (s' = s) by (apply V; exact I) end. subst. assumption. }
    + injection H as <-. rewrite verr_errors. split; [tauto|]. intros C.
      assert (I : exists s, In (tag, s) vs) by (inversion C; subst; eauto).
      destruct I as [s I]. apply variant_schema_spec in I; [|assumption]. congruence.
  - unfold find_enum_fallback in H. cbn [scalar_text v_payload] in H.
    assert (NC : find_enum_fallback F parse_f64 (Val None p b) vs = None -> conforms (Val None p b) (SEnum _ vs) -> False).
    { intros E C. inversion C as [| | | | | | | | | | | | | | | | | |t q a b' before n s after FB SV NV CS| | | | | | | |]; subst.
      unfold find_enum_fallback in E. cbn [scalar_text v_payload] in E.
      apply find_none with (x := s) in E.
      - apply accepts_untagged_iff in SV. congruence.
      - apply in_map_iff. exists (n, s). split; [reflexivity|]. apply in_or_app. right. left. reflexivity. }
    unfold find_enum_fallback in NC. cbn [scalar_text v_payload] in NC.
    destruct p as [|t q a|l a|es a]; try (injection H as <-; rewrite verr_errors; split; [tauto | exact (NC eq_refl)]).
    unfold scalar_text in H, NC. cbn [v_payload] in H, NC. rewrite find_map in H, NC.
    destruct (find (fun a => accepts_untagged F parse_f64 t (snd a)) vs) as [[n s]|] eqn:E; cbn [option_map snd] in H, NC.
    + apply find_split in E as (before & after & EV & SV & NV). cbn in SV.
      assert (O : occurs s). { eapply OS. rewrite EV. apply in_or_app. right. left. reflexivity. }
      apply IH in H; [|assumption|assumption]. rewrite H. apply accepts_untagged_iff in SV.
      assert (FB : fallback D = true).
      { destruct NF as [NF|NF]; [exact NF|]. exfalso. eapply NF; [|exact SV]. rewrite EV. apply in_or_app. right. left. reflexivity. }
      assert (NV' : Forall (fun p => ~ scalar_variant F parse_f64 t (snd p)) before).
      { eapply Forall_impl; [|exact NV]. cbn. intros p Hp Q. apply accepts_untagged_iff in Q. congruence. }
      split.
      * intros C. rewrite EV. apply c_fallback; assumption.
      * intros C. inversion C as [| | | | | | | | | | | | | | | | | |t2 q2 a2 b2 before2 n2 s2 after2 FB2 SV2 NV2 CS2| | | | | | | |]; subst.
        assert (Q : s2 = s); [|subst; assumption].
        assert (U1 : find (fun a => accepts_untagged F parse_f64 t (snd a)) (before ++ (n, s) :: after) = Some (n, s)).
        { apply find_split. exists before, after. splits; [reflexivity | apply accepts_untagged_iff; exact SV | exact NV]. }
        assert (U2 : find (fun a => accepts_untagged F parse_f64 t (snd a)) (before2 ++ (n2, s2) :: after2) = Some (n2, s2)).
        { apply find_split. exists before2, after2. splits; [reflexivity | apply accepts_untagged_iff; exact SV2|].
          eapply Forall_impl; [|exact NV2]. cbn. intros p Hp. destruct (accepts_untagged F parse_f64 t (snd p)) eqn:W; [|reflexivity].
          apply accepts_untagged_iff in W. tauto. }
        match goal with T : _ ++ _ = _ ++ _ |- _ => rewrite T in * end. congruence.
    + injection H as <-. rewrite verr_errors. split; [tauto | exact (NC eq_refl)].
Qed.
Lemma one_of_exact : forall w s allowed path r, inside w v0 -> occurs (SOneOf _ s allowed) ->
  validate_one_of F vv w s allowed path = Ok r -> (v_errors r = [] <-> conforms w (SOneOf _ s allowed)).
Proof.
  intros w s allowed path r IN OC H. unfold validate_one_of in H.
  assert (NO : node_ok F parse_f64 f_ltb matches D file (SOneOf _ s allowed)) by (apply UD; exact OC). cbn in NO.
  apply bind_inv in H as (a & Ha & H).
  assert (Ca := Ha). apply IH in Ca; [|assumption | eapply oc_child; [exact OC | constructor]].
  rewrite <- is_valid_iff in Ca.
  destruct (is_valid a) eqn:V; cbn [negb] in H.
  - assert (C : conforms w s) by (apply Ca; reflexivity). destruct allowed as [|x allowed].
    + injection H as <-. cbn. split; [intros _ | reflexivity].
      destruct NO as [NO|NO]; [|congruence]. apply c_one_of_all; assumption.
    + destruct (scalar_text w) as [t|] eqn:E.
      * match type of H with Ok ?x = _ => assert (Q : r = x) by congruence end. subst r.
        rewrite no_errors_if, negb_false_iff, existsb_exists. split.
        { intros (y & I & Q). apply str_eqb_eq in Q. subst y. eapply c_one_of; [exact C | apply text_iff; eassumption | exact I]. }
        { intros C'. inversion C'; subst.
          match goal with T : is_text _ _ _ |- _ => apply text_iff in T; [|assumption]; rewrite E in T; injection T as T; subst end.
          eexists. split; [eassumption | apply str_eqb_refl]. }
      * injection H as <-. rewrite verr_errors. split; [tauto|]. intros C'. inversion C'; subst.
        match goal with T : is_text _ _ _ |- _ => apply text_iff in T; [|assumption]; congruence end.
  - injection H as <-. rewrite <- is_valid_iff, V. split; [discriminate|].
    intros C. inversion C; subst; apply Ca; assumption.
Qed.
Lemma optional_exact : forall w s path r, inside w v0 -> occurs (SOptional _ s) ->
  validate_optional F vv w s path = Ok r -> (v_errors r = [] <-> conforms w (SOptional _ s)).
Proof.
  intros w s path r IN OC H. unfold validate_optional in H.
  destruct UD as (_ & _ & NU). destruct (is_unit w) eqn:E.
  - apply nothing_iff in E. injection H as <-. cbn. split; [intros _ | reflexivity].
    destruct NU as [NU|[NU|NU]]; [apply c_optional_unit; assumption | exfalso; eapply NU; eassumption | exfalso; eapply NU; eassumption].
  - apply IH in H; [|assumption | eapply oc_child; [exact OC | constructor]]. rewrite H. split.
    + intros C. apply c_optional. exact C.
    + intros C. inversion C; subst; [assumption|].
      match goal with T : is_nothing _ |- _ => apply nothing_iff in T; congruence end.
Qed.
End Step.

Theorem validate_exact : forall fuel w s path r, inside w v0 -> occurs s ->
  validate_value F parse_f64 f_ltb file fuel w s path = Ok r -> (v_errors r = [] <-> conforms w s).
Proof.
  induction fuel as [|fuel IH]; intros w s path r IN OC H; cbn [validate_value] in H; [discriminate|].
  destruct s as [c|c|c| | | |fs|s|l|l|l|s|vs|s allowed|s|d s|re s|x|name]; try (injection H as <-).
  - apply string_exact; assumption.
  - apply int_exact; assumption.
  - apply float_exact; assumption.
  - apply bool_exact; assumption.
  - rewrite unit_exact. split; [constructor; assumption | intros C; inversion C; assumption].
  - cbn. split; [constructor | reflexivity].
  - eapply object_exact; eassumption.
  - eapply seq_exact; eassumption.
  - eapply tuple_exact; eassumption.
  - eapply map_exact; eassumption.
  - eapply union_exact; eassumption.
  - eapply optional_exact; eassumption.
  - eapply enum_exact; eassumption.
  - eapply one_of_exact; eassumption.
  - apply IH in H; [|assumption | eapply oc_child; [exact OC | constructor]]. rewrite H.
    assert (NF : nested_flatten D = true). { destruct UD as (_ & N & _). exact (N _ OC). }
    split; [intros C; apply c_flatten; assumption | intros C; inversion C; assumption].
  - apply IH in H; [|assumption | eapply oc_child; [exact OC | constructor]]. rewrite H.
    split; [intros C; constructor; assumption | intros C; inversion C; assumption].
  - unfold validate_deprecated in H. apply bind_inv in H as (a & Ha & H). injection H as <-. cbn [v_errors].
    apply IH in Ha; [|assumption | eapply oc_child; [exact OC | constructor]]. rewrite Ha.
    split; [intros C; constructor; assumption | intros C; inversion C; assumption].
  - apply literal_exact; assumption.
  - unfold validate_type_ref in H. destruct name as [n|].
    + destruct (lookup_type F (Some n) file) as [s|] eqn:E.
      * apply lookup_type_spec in E; [|apply WF].
        apply IH in H; [|assumption | eapply oc_def; exact E]. rewrite H. split.
        { intros C. eapply c_type; eassumption. }
        { intros C. inversion C; subst.
          match goal with I : In (Some n, ?t) file |- _ =>
            match t with s => fail 1 | _ => assert (Q : t = s) end end.
          { apply lookup_type_spec in E; [|apply WF].
            match goal with I : In (Some n, s0) file |- _ => apply lookup_type_spec in I; [|apply WF] end. congruence. }
          subst. assumption. }
      * injection H as <-. rewrite verr_errors. split; [tauto|]. intros C. inversion C; subst.
        match goal with I : In (Some n, _) file |- _ => apply lookup_type_spec in I; [|apply WF] end. congruence.
    + injection H as <-. rewrite unit_exact. split; [constructor; assumption | intros C; inversion C; assumption].
Qed.
End Exact.

(** ** Termination *)
Fixpoint dsize (v : value) : nat :=
  match v with Val t p _ => S (match t with Some _ => 1 | None => 0 end + dpsize p) end
with dpsize (p : payload) : nat :=
  match p with
  | PNone | PScalar _ _ _ => 0
  | PSeq l _ => list_sum (map dsize l)
  | PObj es _ => list_sum (map (fun e => match e with Ent k v _ => dsize k + dsize v end) es)
  end.
Lemma sum_in : forall A (f : A -> nat) l x, In x l -> f x <= list_sum (map f l).
Proof.
  intros A f. induction l as [|y l IH]; intros x I; [destruct I|].
  destruct I as [<-|I]; cbn; [lia | specialize (IH _ I); unfold list_sum in IH; lia].
Qed.
Lemma dsize_item : forall v l x, as_sequence v = Some l -> In x l -> dsize x < dsize v.
Proof.
  intros [t p b] l x E I. unfold as_sequence in E. cbn [v_payload] in E. destruct p; try discriminate. injection E as ->.
  cbn [dsize dpsize]. pose proof (sum_in _ dsize _ _ I). lia.
Qed.
Lemma dsize_entry : forall v es k x d, as_object v = Some es -> In (Ent k x d) es -> dsize k < dsize v /\ dsize x < dsize v.
Proof.
  intros [t p b] es k x d E I. unfold as_object in E. cbn [v_payload] in E. destruct p; try discriminate. injection E as ->.
  cbn [dsize dpsize]. pose proof (sum_in _ (fun e => match e with Ent k v _ => dsize k + dsize v end) _ _ I). cbn in H. lia.
Qed.

Section Terminate.
Variable file : schema_file.
Notation validate := (validate_value F parse_f64 f_ltb file).

Section Mono.
Variables vv vv' : value -> schema -> str -> res vresult.
Hypothesis LE : forall w s p r, vv w s p = Ok r -> vv' w s p = Ok r.
Ltac step_mono :=
  repeat match goal with
  | H : bind _ _ = Ok _ |- _ => let a := fresh "a" in let Ha := fresh "Ha" in apply bind_inv in H as (a & Ha & H)
  | H : vv _ _ _ = Ok _ |- _ => apply LE in H
  end.
Lemma object_entries_mono : forall fs es path r, object_entries F vv fs es path = Ok r -> object_entries F vv' fs es path = Ok r.
Proof.
  intros fs. induction es as [|[k x d] es IHes]; intros path r H; cbn [object_entries] in *; [exact H|].
  apply bind_inv in H as (a & Ha & H). apply bind_inv in H as (b & Hb & H). rewrite (IHes _ _ Hb).
  destruct (entry_key k) as [key|]; [|rewrite Ha; exact H]. cbv zeta in *.
  destruct (field_schema _ _ fs); [rewrite (LE _ _ _ _ Ha); exact H|].
  destruct (additional_schema _ fs); [rewrite (LE _ _ _ _ Ha); exact H | rewrite Ha; exact H].
Qed.
Lemma seq_items_mono : forall s l i path r, seq_items F vv s l i path = Ok r -> seq_items F vv' s l i path = Ok r.
Proof.
  intros s. induction l as [|x l IHl]; intros i path r H; cbn [seq_items] in *; [exact H|].
  apply bind_inv in H as (a & Ha & H). apply bind_inv in H as (b & Hb & H). rewrite (LE _ _ _ _ Ha), (IHl _ _ _ Hb). exact H.
Qed.
Lemma tuple_items_mono : forall ss l i path r, tuple_items F vv ss l i path = Ok r -> tuple_items F vv' ss l i path = Ok r.
Proof.
  induction ss as [|s ss IHs]; intros [|x l] i path r H; cbn [tuple_items] in *; try exact H.
  apply bind_inv in H as (a & Ha & H). apply bind_inv in H as (b & Hb & H). rewrite (LE _ _ _ _ Ha), (IHs _ _ _ _ Hb). exact H.
Qed.
Lemma map_entries_mono : forall ks s es path r, map_entries F vv ks s es path = Ok r -> map_entries F vv' ks s es path = Ok r.
Proof.
  intros ks s. induction es as [|[k x d] es IHes]; intros path r H; cbn [map_entries] in *; [exact H|].
  apply bind_inv in H as (a & Ha & H). apply bind_inv in H as (b & Hb & H). rewrite (IHes _ _ Hb).
  destruct (as_str k); [|rewrite Ha; exact H].
  apply bind_inv in Ha as (a1 & Ha1 & Ha). apply bind_inv in Ha as (a2 & Ha2 & Ha).
  rewrite (LE _ _ _ _ Ha2). destruct ks; [rewrite (LE _ _ _ _ Ha1) | injection Ha1 as <-]; cbn in *; injection Ha as <-; exact H.
Qed.
Lemma union_variants_mono : forall w l path r, union_variants F vv w l path = Ok r -> union_variants F vv' w l path = Ok r.
Proof.
  intros w. induction l as [|s l IHl]; intros path r H; cbn [union_variants] in *; [exact H|].
  apply bind_inv in H as (a & Ha & H). rewrite (LE _ _ _ _ Ha). cbn. destruct (is_valid a); auto.
Qed.
End Mono.
Lemma validate_mono : forall f f' w s path r, f <= f' -> validate f w s path = Ok r -> validate f' w s path = Ok r.
Proof.
  induction f as [|f IH]; intros f' w s path r L H; [discriminate|].
  destruct f' as [|f']; [lia|]. assert (LE : forall w s p r, validate f w s p = Ok r -> validate f' w s p = Ok r) by (intros; apply IH; [lia | assumption]).
  cbn [validate_value] in *.
  destruct s as [c|c|c| | | |fs|s|l|l|l|s|vs|s allowed|s|d s|re s|x|name]; auto.
  - unfold validate_object in *. destruct (as_object w); [|exact H].
    apply bind_inv in H as (a & Ha & H). rewrite (object_entries_mono _ _ LE _ _ _ _ Ha). exact H.
  - unfold validate_seq in *. destruct (as_sequence w); [|exact H]. exact (seq_items_mono _ _ LE _ _ _ _ _ H).
  - unfold validate_tuple in *. destruct (as_sequence w); [|exact H].
    apply bind_inv in H as (a & Ha & H). rewrite (tuple_items_mono _ _ LE _ _ _ _ _ Ha). exact H.
  - unfold validate_map in *. destruct (as_object w); [|exact H].
    destruct l as [|s1 [|s2 [|s3 l]]]; try exact H; exact (map_entries_mono _ _ LE _ _ _ _ _ H).
  - destruct l; [exact H | exact (union_variants_mono _ _ LE _ _ _ _ H)].
  - unfold validate_optional in *. destruct (is_unit w); auto.
  - unfold validate_enum in *. destruct (v_tag w) as [[tag ts]|].
    + destruct (variant_schema _ tag vs); [|exact H]. destruct (v_payload w); auto.
    + destruct (find_enum_fallback _ _ w vs); auto.
  - unfold validate_one_of in *. apply bind_inv in H as (a & Ha & H). rewrite (LE _ _ _ _ Ha). exact H.
  - unfold validate_deprecated in *. apply bind_inv in H as (a & Ha & H). rewrite (LE _ _ _ _ Ha). exact H.
  - unfold validate_type_ref in *. destruct name as [n|]; [|exact H]. destruct (lookup_type _ (Some n) file); auto.
Qed.

(** Enough fuel for a value and a schema. *)
Definition enough (f : nat) (p : value * schema) : Prop := forall path, exists r, validate f (fst p) (snd p) path = Ok r.
Lemma enough_mono : forall f f' p, f <= f' -> enough f p -> enough f' p.
Proof. intros f f' p L E path. destruct (E path) as [r H]. exists r. eapply validate_mono; eassumption. Qed.
Lemma enough_common : forall l, Forall (fun p => exists f, enough f p) l -> exists f, Forall (enough f) l.
Proof.
  induction 1 as [|p l [f E] _ [g IH]].
  - exists 0. constructor.
  - exists (max f g). constructor; [eapply enough_mono; [|exact E]; lia|].
    eapply Forall_impl; [|exact IH]. intros q. apply enough_mono. lia.
Qed.

Section Loops2.
Variable vv : value -> schema -> str -> res vresult.
Definition fine (v : value) (s : schema) : Prop := forall path, exists r, vv v s path = Ok r.
Lemma object_entries_fine : forall fs es path,
  (forall k x d n s, In (Ent k x d) es -> In (n, s) fs -> fine x s) ->
  exists r, object_entries F vv fs es path = Ok r.
Proof.
  intros fs. induction es as [|[k x d] es IHes]; intros path H; cbn [object_entries]; [eauto|].
  destruct (IHes path) as [b Hb]; [intros; eapply H; [right|]; eassumption|]. rewrite Hb.
  assert (X : forall n s p, In (n, s) fs -> exists r, vv x s p = Ok r) by (intros n s p I; exact (H k x d n s (or_introl eq_refl) I p)).
  destruct (entry_key k) as [key|]; [|cbn; eauto]. cbv zeta.
  assert (FI : forall n s, field_schema F n fs = Some s -> exists k, In (k, s) fs).
  { clear. induction fs as [|[k t] fs IH]; cbn; [discriminate|]. intros n s.
    destruct (k_value k), (k_tag k); try destruct (str_eqb _ n); intros E;
      try (injection E as ->; eauto; fail); destruct (IH _ _ E) as [k' I]; eauto. }
  destruct (field_schema F _ fs) as [s|] eqn:FS.
  - apply FI in FS as [n I]. match goal with |- context [vv x s ?p] => destruct (X _ _ p I) as [a ->] end. cbn. eauto.
  - destruct (additional_schema F fs) as [s|] eqn:AS; [|cbn; eauto].
    apply additional_schema_spec in AS as (a & k' & b' & -> & _).
    match goal with |- context [vv x s ?p] => destruct (X k' s p) as [a' ->] end; [apply in_or_app; right; left; reflexivity|]. cbn. eauto.
Qed.
Lemma seq_items_fine : forall s l i path, (forall x, In x l -> fine x s) -> exists r, seq_items F vv s l i path = Ok r.
Proof.
  intros s. induction l as [|x l IHl]; intros i path H; cbn [seq_items]; [eauto|].
  destruct (H x (or_introl eq_refl) (item_path path i)) as [a ->]. cbn.
  destruct (IHl (S i) path) as [b ->]; [intros; apply H; right; assumption|]. cbn. eauto.
Qed.
Lemma tuple_items_fine : forall ss l i path, (forall x s, In x l -> In s ss -> fine x s) -> exists r, tuple_items F vv ss l i path = Ok r.
Proof.
  induction ss as [|s ss IHs]; intros [|x l] i path H; cbn [tuple_items]; eauto.
  destruct (H x s (or_introl eq_refl) (or_introl eq_refl) (item_path path i)) as [a ->]. cbn.
  destruct (IHs l (S i) path) as [b ->]; [intros; apply H; right; assumption|]. cbn. eauto.
Qed.
Lemma map_entries_fine : forall ks s es path,
  (forall k x d, In (Ent k x d) es -> fine x s /\ forall s', ks = Some s' -> fine k s') ->
  exists r, map_entries F vv ks s es path = Ok r.
Proof.
  intros ks s. induction es as [|[k x d] es IHes]; intros path H; cbn [map_entries]; [eauto|].
  destruct (IHes path) as [b Hb]; [intros; eapply H; right; eassumption|]. rewrite Hb.
  destruct (as_str k) as [t|]; [|cbn; eauto].
  destruct (H k x d (or_introl eq_refl)) as [H1 H2].
  destruct (H1 (sub_path path t)) as [a ->]. destruct ks as [ks|]; [|cbn; eauto].
  destruct (H2 ks eq_refl path) as [c ->]. cbn. eauto.
Qed.
Lemma union_variants_fine : forall w l path, (forall s, In s l -> fine w s) -> exists r, union_variants F vv w l path = Ok r.
Proof.
  intros w. induction l as [|s l IHl]; intros path H; cbn [union_variants]; [eauto|].
  destruct (H s (or_introl eq_refl) path) as [a ->]. cbn. destruct (is_valid a); [eauto|].
  apply IHl. intros; apply H; right; assumption.
Qed.
End Loops2.

Lemma enough_step : forall w s,
  (forall s', same_value F file s' s -> exists f, enough f (w, s')) ->
  (forall x s', dsize x < dsize w -> child F s' s -> exists f, enough f (x, s')) ->
  (lookup_type F (match s with SType _ n => n | _ => None end) file = None \/
   exists t, lookup_type F (match s with SType _ n => n | _ => None end) file = Some t /\
     In (match s with SType _ n => n | _ => None end, t) file) ->
  exists f, enough f (w, s).
Proof.
  intros w s SV CH LK. unfold enough. cbn [fst snd].
  destruct s as [c|c|c| | | |fs|s|l|l|l|s|vs|s allowed|s|d s|re s|x|name];
    try (exists 1; intros path; cbn; eauto; fail).
  - (* object *)
    destruct (as_object w) as [es|] eqn:E.
    + destruct (enough_common (list_prod (map e_val es) (map snd fs))) as [f Hf].
      { apply Forall_forall. intros [x s'] I. apply in_prod_iff in I as [I1 I2].
        apply in_map_iff in I1 as ([k x' d] & <- & I1). apply in_map_iff in I2 as ([n s''] & <- & I2).
        apply CH; [eapply dsize_entry; eassumption | econstructor; exact I2]. }
      exists (S f). intros path. cbn. unfold validate_object. rewrite E.
      destruct (object_entries_fine (validate f) fs es path) as [a ->]; [|cbn; eauto].
      intros k x d n s' I1 I2 p. rewrite Forall_forall in Hf. apply (Hf (x, s')).
      apply in_prod_iff. split; apply in_map_iff; [exists (Ent k x d) | exists (n, s')]; auto.
    + exists 1. intros path. cbn. unfold validate_object. rewrite E. eauto.
  - (* seq *)
    destruct (as_sequence w) as [l|] eqn:E.
    + destruct (enough_common (map (fun x => (x, s)) l)) as [f Hf].
      { apply Forall_forall. intros [x s'] I. apply in_map_iff in I as (x' & [= <- <-] & I).
        apply CH; [eapply dsize_item; eassumption | constructor]. }
      exists (S f). intros path. cbn. unfold validate_seq. rewrite E.
      apply seq_items_fine. intros x I p. rewrite Forall_forall in Hf. apply (Hf (x, s)). apply in_map_iff. eauto.
    + exists 1. intros path. cbn. unfold validate_seq. rewrite E. eauto.
  - (* tuple *)
    destruct (as_sequence w) as [items|] eqn:E.
    + destruct (enough_common (list_prod items l)) as [f Hf].
      { apply Forall_forall. intros [x s'] I. apply in_prod_iff in I as [I1 I2].
        apply CH; [eapply dsize_item; eassumption | constructor; exact I2]. }
      exists (S f). intros path. cbn. unfold validate_tuple. rewrite E.
      destruct (tuple_items_fine (validate f) l items 0 path) as [a ->]; [|cbn; eauto].
      intros x s I1 I2 p. rewrite Forall_forall in Hf. apply (Hf (x, s)). apply in_prod_iff. auto.
    + exists 1. intros path. cbn. unfold validate_tuple. rewrite E. eauto.
  - (* map *)
    destruct (as_object w) as [es|] eqn:E.
    + destruct (enough_common (list_prod (map e_key es ++ map e_val es) l)) as [f Hf].
      { apply Forall_forall. intros [x s'] I. apply in_prod_iff in I as [I1 I2].
        apply CH; [|constructor; exact I2]. apply in_app_or in I1 as [I1|I1]; apply in_map_iff in I1 as ([k x' d] & <- & I1).
        - exact (proj1 (dsize_entry _ _ _ _ _ E I1)).
        - exact (proj2 (dsize_entry _ _ _ _ _ E I1)). }
      exists (S f). intros path. cbn. unfold validate_map. rewrite E. rewrite Forall_forall in Hf.
      assert (K : forall k x d s, In (Ent k x d) es -> In s l -> fine (validate f) k s).
      { intros k x d s I1 I2 p. apply (Hf (k, s)). apply in_prod_iff. split; [|exact I2].
        apply in_or_app. left. apply in_map_iff. exists (Ent k x d). auto. }
      assert (V : forall k x d s, In (Ent k x d) es -> In s l -> fine (validate f) x s).
      { intros k x d s I1 I2 p. apply (Hf (x, s)). apply in_prod_iff. split; [|exact I2].
        apply in_or_app. right. apply in_map_iff. exists (Ent k x d). auto. }
      destruct l as [|s1 [|s2 [|s3 l]]]; eauto; apply map_entries_fine; intros k x d I.
      * split; [eapply V; [exact I | left; reflexivity] | discriminate].
      * split; [eapply V; [exact I | right; left; reflexivity]|]. intros s' [= <-]. eapply K; [exact I | left; reflexivity].
    + exists 1. intros path. cbn. unfold validate_map. rewrite E. eauto.
  - (* union *)
    destruct (enough_common (map (fun s => (w, s)) l)) as [f Hf].
    { apply Forall_forall. intros [x s'] I. apply in_map_iff in I as (s2 & [= <- <-] & I). apply SV. constructor. exact I. }
    exists (S f). intros path. cbn. unfold validate_union. destruct l as [|s l]; [eauto|].
    apply union_variants_fine. intros s' I p. rewrite Forall_forall in Hf. apply (Hf (w, s')). apply in_map_iff. eauto.
  - destruct (SV s) as [f Hf]; [constructor|]. exists (S f). intros path. cbn. unfold validate_optional.
    destruct (is_unit w); [eauto | exact (Hf path)].
  - (* enum *)
    destruct w as [[[tag ts]|] p b].
    + assert (IV : forall s, variant_schema F tag vs = Some s -> In (tag, s) vs).
      { clear. induction vs as [|[n t] vs IH]; cbn; [discriminate|]. intros s. destruct (str_eqb n tag) eqn:E; intros H.
        - injection H as ->. apply str_eqb_eq in E. subst. auto.
        - right. auto. }
      destruct (variant_schema F tag vs) as [s|] eqn:E; [|exists 1; intros path; cbn; rewrite E; eauto].
      destruct (CH (Val None p None) s) as [f Hf]; [cbn [dsize]; lia | econstructor; apply IV; reflexivity|].
      exists (S f). intros path. cbn. rewrite E. destruct p; [eauto | apply Hf..].
    + destruct (find_enum_fallback F parse_f64 (Val None p b) vs) as [s|] eqn:E.
      * assert (A : match s with SString _ _ | SInt _ _ | SFloat _ _ | SBool _ => True | _ => False end).
        { unfold find_enum_fallback in E. destruct (scalar_text _); [|discriminate]. apply find_some in E as [_ E].
          destruct s; try discriminate; exact I. }
        exists 2. intros path. cbn -[find_enum_fallback]. unfold validate_enum. cbn [v_tag]. rewrite E. destruct s; try contradiction; cbn; eauto.
      * exists 1. intros path. cbn -[find_enum_fallback]. unfold validate_enum. cbn [v_tag]. rewrite E. eauto.
  - destruct (SV s) as [f Hf]; [constructor|]. exists (S f). intros path. cbn. unfold validate_one_of.
    destruct (Hf path) as [r Hr]. cbn [fst snd] in Hr. rewrite Hr. cbn. destruct (is_valid r); cbn; [|eauto]. destruct allowed; [eauto|]. destruct (scalar_text w); eauto.
  - destruct (SV s) as [f Hf]; [constructor|]. exists (S f). intros path. cbn. exact (Hf path).
  - destruct (SV s) as [f Hf]; [constructor|]. exists (S f). intros path. cbn. exact (Hf path).
  - destruct (SV s) as [f Hf]; [constructor|]. exists (S f). intros path. cbn. unfold validate_deprecated.
    destruct (Hf path) as [r Hr]. cbn [fst snd] in Hr. rewrite Hr. cbn. eauto.
  - destruct name as [n|]; [|exists 1; intros path; cbn; eauto].
    destruct LK as [LK|(t & LK & I)].
    + exists 1. intros path. cbn. rewrite LK. eauto.
    + destruct (SV t) as [f Hf]; [constructor; exact I|]. exists (S f). intros path. cbn. rewrite LK. exact (Hf path).
Qed.

Theorem validate_terminates : forall root,
  (forall s, occurs F file root s -> Acc (same_value F file) s) ->
  forall w s, occurs F file root s -> exists f, enough f (w, s).
Proof.
  intros root WFd.
  assert (G : forall n w, dsize w < n -> forall s, occurs F file root s -> exists f, enough f (w, s)).
  { induction n as [|n IHn]; intros w L; [lia|]. intros s OC.
    pose proof (WFd _ OC) as A. revert OC. induction A as [s _ IHA]. intros OC.
    assert (LI : forall (fl : schema_file) n t, lookup_type F n fl = Some t -> In (n, t) fl).
    { clear. induction fl as [|[k t0] fl IH]; cbn; [discriminate|]. intros n t.
      destruct k as [a|], n as [b|]; try (intros E; right; apply IH; exact E).
      - destruct (str_eqb a b) eqn:Q; intros E; [|right; apply IH; exact E].
        injection E as ->. apply str_eqb_eq in Q. subst. left. reflexivity.
      - intros [= ->]. left. reflexivity. }
    apply enough_step.
    - intros s' S'. apply IHA; [exact S'|]. inversion S'; subst;
        try (eapply oc_child; [exact OC | constructor; assumption]);
        try (eapply oc_child; [exact OC | constructor]). eapply oc_def. eassumption.
    - intros x s' Lx C. apply IHn; [lia|]. eapply oc_child; eassumption.
    - destruct (lookup_type _ _ file) as [t|] eqn:E; [right | left; reflexivity]. exists t. split; [reflexivity | apply LI; exact E]. }
  intros w s. apply (G (S (dsize w))). lia.
Qed.
End Terminate.
End Proofs.
