(** Proofs about schema changes. *)
From Coq Require Import String ZArith Lia.
From Verif Require Import BaseProofs TreeModel TreeProofs CliModel CliSpec CliProofs SchemaModel SchemaSpec SchemaProofs CompatSpec.
Local Open Scope nat_scope.

Section Compat.
Variable F : Type.
Variable parse_f64 : str -> option F.
Variable f_ltb : F -> F -> bool.
Variable matches : str -> str -> Prop.
Notation schema := (schema F).
Notation schema_file := (schema_file F).

(** ** Wider definitions *)
Inductive wider : schema -> schema -> Prop :=
| wider_same : forall s, wider s s
| wider_object : forall fs fs',
    named F fs ->
    (forall k s, In (k, s) fs -> In (k, s) fs') ->
    NoDup (map fst fs') ->
    (forall n s, In (mkkey (Some n) None, s) fs' ->
       In (mkkey (Some n) None, s) fs \/ absent_ok F validator [] s) ->
    wider (SObject _ fs) (SObject _ fs')
| wider_enum : forall vs vs',
    (forall n s, In (n, s) vs -> ~ scalar_type F s) ->
    (forall n s, In (n, s) vs -> In (n, s) vs') ->
    wider (SEnum _ vs) (SEnum _ vs').
Definition wider_file (old new : schema_file) : Prop :=
  forall n s, In (n, s) old -> exists s', In (n, s') new /\ wider s s'.

Lemma absent_validator : forall file file' s, absent_ok F validator file s -> absent_ok F validator file' s.
Proof. intros file file' s H. inversion H; subst; try discriminate; constructor. Qed.
Lemma field_validator : forall file fs n s, field F validator file fs n s <-> In (mkkey (Some n) None, s) fs.
Proof.
  intros. split; intros H; [inversion H; subst; [assumption | discriminate] | apply field_own; [exact H | discriminate]].
Qed.
Lemma entry_schema_file : forall file file' fs k s,
  entry_schema F validator file fs k s -> entry_schema F validator file' fs k s.
Proof.
  intros file file' fs k s (nm & K & C). exists nm. split; [exact K|]. destruct C as [(n & -> & Hf)|[N C]].
  - left. exists n. split; [reflexivity|]. apply field_validator. apply field_validator in Hf. exact Hf.
  - right. split; [|exact C]. intros n s' E Hf. apply (N n s' E). apply field_validator. apply field_validator in Hf. exact Hf.
Qed.

Notation conforms := (conforms F parse_f64 f_ltb matches validator).

Lemma wider_conforms : forall file v s s', wider s s' -> conforms file v s -> conforms file v s'.
Proof.
  intros file v s s' W C. destruct W as [s|fs fs' NM IN ND OPT|vs vs' NS IN]; [exact C| |].
  - inversion C as [| | | | | |? es ? O E A| | | | | | | | | | | | | | | | | | | |]; subst.
    apply c_object with es; [exact O| |].
    + intros k x d I. destruct (E k x d I) as (s & (nm & K & S) & CX). exists s. split; [|exact CX].
      exists nm. split; [exact K|]. destruct S as [(n & -> & Hf)|[_ (a & k' & b & EQ & T & _)]].
      * left. exists n. split; [reflexivity|]. apply field_validator. apply field_validator in Hf. auto.
      * exfalso. unfold named in NM. rewrite EQ in NM. apply Forall_app in NM as [_ NM]. apply Forall_cons_iff in NM as [NM _].
        apply T. exact NM.
    + intros n s Hf. apply field_validator in Hf. destruct (OPT _ _ Hf) as [I|AB].
      * apply A. apply field_validator. exact I.
      * left. eapply absent_validator. exact AB.
  - inversion C; subst; try discriminate.
    + eapply c_variant; eauto.
    + eapply c_variant_direct; eauto.
    + exfalso. eapply NS; [apply in_or_app; right; left; reflexivity|].
      match goal with T : scalar_variant _ _ _ _ |- _ => revert T end. destruct s; cbn; tauto.
Qed.

Lemma wider_file_conforms : forall old new, wider_file old new -> forall v s, conforms old v s -> conforms new v s.
Proof.
  intros old new W. fix IH 3. intros v s H. destruct H as
    [v t c T S|v t n c T I S|v t c T S|v t T S|v U|v|v es fs O E A|v l s Q E|v l ss Q L E|v es s O E|v es ks s O E
    |v l s I C|v s C|v s D U|tag ts p sp s vs I N C|tag ts sp s vs D I C|tag ts sp s vs D I C|tag ts sp s vs D I C
    |t k a b before n s after D S N C|v s t al C T I|v s D C|v s D C|v d s C|v r s C|v t T|v U|v n s I C].
  - eapply c_string; eassumption.
  - eapply c_int; eassumption.
  - eapply c_float; eassumption.
  - eapply c_bool; eassumption.
  - constructor; assumption.
  - constructor.
  - apply c_object with es; [exact O| |].
    + intros k x d I. destruct (E k x d I) as (s & ES & C). exists s. split; [eapply entry_schema_file; exact ES | exact (IH _ _ C)].
    + intros n s Hf. destruct (A n s) as [AB|P]; [apply field_validator; apply field_validator in Hf; exact Hf| |auto].
      left. eapply absent_validator. exact AB.
  - apply c_seq with l; [exact Q|]. intros x I. exact (IH _ _ (E x I)).
  - apply c_tuple with l; [exact Q | exact L|]. intros i x s I1 I2. exact (IH _ _ (E i x s I1 I2)).
  - apply c_map1 with es; [exact O|]. intros k x d I. destruct (E k x d I) as [K C]. split; [exact K | exact (IH _ _ C)].
  - apply c_map2 with es; [exact O|]. intros k x d I. destruct (E k x d I) as (K & C1 & C2).
    split; [exact K | split; [exact (IH _ _ C1) | exact (IH _ _ C2)]].
  - eapply c_union; [exact I | exact (IH _ _ C)].
  - apply c_optional. exact (IH _ _ C).
  - apply c_optional_unit; assumption.
  - eapply c_variant; [exact I | exact N | exact (IH _ _ C)].
  - discriminate.
  - discriminate.
  - eapply c_variant_direct; eassumption.
  - apply c_fallback; [exact D | exact S | exact N | exact (IH _ _ C)].
  - eapply c_one_of; [exact (IH _ _ C) | exact T | exact I].
  - apply c_one_of_all; [exact D | exact (IH _ _ C)].
  - apply c_flatten; [exact D | exact (IH _ _ C)].
  - constructor. exact (IH _ _ C).
  - constructor. exact (IH _ _ C).
  - constructor. exact T.
  - constructor. exact U.
  - destruct (W _ _ I) as (s' & I' & WD). eapply c_type; [exact I'|].
    eapply wider_conforms; [exact WD | exact (IH _ _ C)].
Qed.

End Compat.

(** ** The maps of the comparison *)
Lemma filter_nil : forall A (f : A -> bool) l, filter f l = [] <-> forall x, In x l -> f x = false.
Proof.
  intros A f. induction l as [|x l IH]; cbn; [split; [intros _ x [] | reflexivity]|].
  destruct (f x) eqn:E.
  - split; [discriminate | intros H; rewrite (H x) in E; [discriminate | auto]].
  - rewrite IH. split; [intros H y [<-|I]; auto | intros H y I; apply H; auto].
Qed.
Section Maps.
Variable K V : Type.
Variable keqb : K -> K -> bool.
Hypothesis keqb_eq : forall a b, keqb a b = true <-> a = b.
Lemma map_get_in : forall (m : list (K * V)) k v, map_get keqb k m = Some v -> In (k, v) m.
Proof.
  induction m as [|[k' v'] m IH]; intros k v H; cbn in H; [discriminate|].
  destruct (keqb k k') eqn:E; [|right; auto]. apply keqb_eq in E. injection H as ->. subst. left. reflexivity.
Qed.
Lemma map_get_nodup : forall (m : list (K * V)) k v, NoDup (map fst m) -> In (k, v) m -> map_get keqb k m = Some v.
Proof.
  induction m as [|[k' v'] m IH]; intros k v ND I0; [destruct I0|]. destruct I0 as [E|I]; cbn in *.
  - injection E as -> ->. destruct (keqb k k) eqn:Q; [reflexivity|]. assert (keqb k k = true) by (apply keqb_eq; reflexivity). congruence.
  - apply NoDup_cons_iff in ND as [NI ND]. destruct (keqb k k') eqn:Q; [|auto].
    apply keqb_eq in Q. subst. exfalso. apply NI. apply in_map_iff. exists (k', v). auto.
Qed.
Lemma map_has_iff : forall (m : list (K * V)) k, map_has keqb k m = true <-> In k (map fst m).
Proof.
  intros m k. unfold map_has. destruct (map_get keqb k m) as [v|] eqn:E.
  - apply map_get_in in E. split; [intros _|reflexivity]. apply in_map_iff. exists (k, v). auto.
  - split; [discriminate|]. intros I. exfalso. revert E I. induction m as [|[k' v'] m IH]; cbn; [tauto|].
    destruct (keqb k k') eqn:Q; [discriminate|]. intros E [<-|I]; [|auto].
    assert (keqb k' k' = true) by (apply keqb_eq; reflexivity). congruence.
Qed.
Lemma map_keys_in : forall (m : list (K * V)) k, In k (map_keys keqb m) <-> In k (map fst m).
Proof.
  induction m as [|[k' v'] m IH]; intros k; cbn; [tauto|].
  destruct (map_has keqb k' m) eqn:E.
  - rewrite IH. apply map_has_iff in E. split; [auto | intros [<-|I]; auto].
  - cbn. rewrite IH. tauto.
Qed.
End Maps.
Lemma name_eqb_eq : forall a b, name_eqb a b = true <-> a = b.
Proof.
  intros [a|] [b|]; cbn; try (split; congruence). rewrite str_eqb_eq. split; congruence.
Qed.

(** ** What the comparison saw *)
Section Clean.
Variable F : Type.
Notation schema := (schema F).
Notation schema_file := (schema_file F).
Notation wider := (wider F).
Notation wider_file := (wider_file F).

Fixpoint read_fields (es : list entry) : option (list (obj_key * schema)) :=
  match es with
  | [] => Some []
  | Ent k x _ :: r => opt_map2 cons (opt_map2 pair (read_key k) (read_schema F x)) (read_fields r)
  end.
Fixpoint read_variants (es : list entry) : option (list (str * schema)) :=
  match es with
  | [] => Some []
  | Ent k x _ :: r => opt_map2 cons (opt_map2 pair (read_name k) (read_schema F x)) (read_variants r)
  end.
Fixpoint read_list (l : list value) : option (list schema) :=
  match l with [] => Some [] | x :: r => opt_map2 cons (read_schema F x) (read_list r) end.
Lemma read_object : forall tag q es a b, str_eqb tag (lit "object") = true ->
  read_schema F (Val (Some (tag, q)) (PObj es a) b) = option_map (SObject _) (read_fields es).
Proof.
  intros tag q es a b E. cbn [read_schema]. rewrite E. f_equal.
Qed.
Lemma read_enum : forall tag q es a b, str_eqb tag (lit "enum") = true ->
  read_schema F (Val (Some (tag, q)) (PObj es a) b) = option_map (SEnum _) (read_variants es).
Proof.
  intros tag q es a b E. cbn [read_schema]. rewrite E.
  assert (str_eqb tag (lit "object") = false) by (apply str_eqb_eq in E; subst; reflexivity). rewrite H. f_equal.
Qed.
Lemma read_seq : forall tag q l a b,
  read_schema F (Val (Some (tag, q)) (PSeq l a) b) = match read_list l with Some ss => list_type F tag ss | None => None end.
Proof.
  intros tag q l a b. cbn [read_schema].
  assert (E : (fix go l := match l with [] => Some [] | x :: r => opt_map2 cons (read_schema F x) (go r) end) l = read_list l).
  { induction l as [|x l IH]; [reflexivity|]. cbn [read_list]. rewrite <- IH. reflexivity. }
  rewrite E. reflexivity.
Qed.

Ltac tag_cases :=
  repeat match goal with
  | H : (if str_eqb ?t ?x then _ else _) = Some _ |- _ =>
      let E := fresh "E" in destruct (str_eqb t x) eqn:E; [apply str_eqb_eq in E; subst t|]
  | H : Some _ = Some _ |- _ => injection H as <-
  | H : None = Some _ |- _ => discriminate
  end.
Lemma list_type_cases : forall tag ss s, list_type F tag ss = Some s ->
  tag = lit "tuple" /\ s = STuple _ ss \/ tag = lit "map" /\ s = SMap _ ss \/ tag = lit "union" /\ s = SUnion _ ss \/
  (exists x, tag = lit "seq" /\ s = SSeq _ x \/ tag = lit "optional" /\ s = SOptional _ x \/ tag = lit "flatten" /\ s = SFlatten _ x) \/
  (exists t x, tag = lit "default" /\ s = SDefault _ t x \/ tag = lit "deprecated" /\ s = SDeprecated _ t x).
Proof.
  intros tag ss s H. unfold list_type in H. tag_cases; [tauto | tauto | tauto|]. do 3 right.
  destruct ss as [|s1 [|s2 ss]]; [discriminate| |].
  - left. exists s1. destruct s1; tag_cases; tauto.
  - right. destruct s1; try discriminate. destruct ss; [|discriminate]. eexists _, _. tag_cases; [left | right]; split; reflexivity.
Qed.
Lemma read_tag : forall v s, read_schema F v = Some s -> tag_name v = written_tag F s.
Proof.
  intros [[[tag q]|] p b] s H; unfold tag_name; cbn [v_tag option_map fst].
  - destruct p as [|t k a|l a|es a].
    + cbn [read_schema] in H. unfold plain_type in H. tag_cases; try reflexivity.
      destruct (existsb _ _); [discriminate|]. injection H as <-. reflexivity.
    + discriminate.
    + rewrite read_seq in H. destruct (read_list l) as [ss|]; [|discriminate]. apply list_type_cases in H.
      decompose [or and ex] H; subst; reflexivity.
    + destruct (str_eqb tag (lit "object")) eqn:E1; [|destruct (str_eqb tag (lit "enum")) eqn:E2].
      * rewrite read_object in H by exact E1. destruct (read_fields es); [|discriminate]. injection H as <-.
        apply str_eqb_eq in E1. subst. reflexivity.
      * rewrite read_enum in H by exact E2. destruct (read_variants es); [|discriminate]. injection H as <-.
        apply str_eqb_eq in E2. subst. reflexivity.
      * cbn [read_schema] in H. rewrite E1, E2 in H. tag_cases; reflexivity.
  - destruct p; try discriminate; injection H as <-; reflexivity.
Qed.
Lemma reference_name : forall v m, read_schema F v = Some (SType F (Some m)) -> m <> lit "optional" /\ m <> lit "default".
Proof.
  intros v m H. pose proof (read_tag _ _ H) as T. destruct v as [[[tag q]|] p b]; [|discriminate].
  injection T as ->. destruct p as [|t k a|l a|es a].
  - split; intros ->; discriminate.
  - discriminate.
  - rewrite read_seq in H. destruct (read_list l) as [ss|]; [|discriminate]. apply list_type_cases in H.
    decompose [or and ex] H; discriminate.
  - destruct (str_eqb m (lit "object")) eqn:E1; [|destruct (str_eqb m (lit "enum")) eqn:E2].
    + rewrite read_object in H by exact E1. destruct (read_fields es); discriminate.
    + rewrite read_enum in H by exact E2. destruct (read_variants es); discriminate.
    + cbn [read_schema] in H. rewrite E1, E2 in H. tag_cases; discriminate.
Qed.
Lemma read_object_inv : forall v fs, read_schema F v = Some (SObject _ fs) ->
  exists q es a b, v = Val (Some (lit "object", q)) (PObj es a) b /\ read_fields es = Some fs.
Proof.
  intros v fs H. pose proof (read_tag _ _ H) as T. destruct v as [[[tag q]|] p b]; [|discriminate].
  injection T as ->. destruct p as [|t k a|l a|es a]; try discriminate.
  - rewrite read_seq in H. destruct (read_list l) as [ss|]; [|discriminate]. apply list_type_cases in H.
    decompose [or and ex] H; discriminate.
  - rewrite read_object in H by reflexivity. destruct (read_fields es) as [fs'|] eqn:E; [|discriminate]. injection H as <-.
    exists q, es, a, b. auto.
Qed.
Lemma read_enum_inv : forall v vs, read_schema F v = Some (SEnum _ vs) ->
  exists q es a b, v = Val (Some (lit "enum", q)) (PObj es a) b /\ read_variants es = Some vs.
Proof.
  intros v vs H. pose proof (read_tag _ _ H) as T. destruct v as [[[tag q]|] p b]; [|discriminate].
  injection T as ->. destruct p as [|t k a|l a|es a]; try discriminate.
  - rewrite read_seq in H. destruct (read_list l) as [ss|]; [|discriminate]. apply list_type_cases in H.
    decompose [or and ex] H; discriminate.
  - rewrite read_enum in H by reflexivity. destruct (read_variants es) as [fs'|] eqn:E; [|discriminate]. injection H as <-.
    exists q, es, a, b. auto.
Qed.

Lemma opt_map2_some : forall A B C (f : A -> B -> C) a b c, opt_map2 f a b = Some c ->
  exists x y, a = Some x /\ b = Some y /\ c = f x y.
Proof. intros A B C f [a|] [b|] c H; try discriminate. injection H as <-. eauto. Qed.

Definition fields_of (es : list entry) : list (str * value) :=
  flat_map (fun e => match as_str (e_key e) with Some n => [(n, e_val e)] | None => [] end) es.
Lemma fields_in : forall es fs, read_fields es = Some fs -> forall n s,
  In (mkkey (Some n) None, s) fs <-> exists x, In (n, x) (fields_of es) /\ read_schema F x = Some s.
Proof.
  induction es as [|[k x d] es IH]; intros fs H n s; cbn [read_fields] in H.
  - injection H as <-. cbn. split; [tauto | intros (x & [] & _)].
  - apply opt_map2_some in H as (kx & fs' & H1 & H2 & ->). apply opt_map2_some in H1 as (kk & s1 & K & S & ->).
    specialize (IH _ H2 n s). cbn [In fields_of flat_map e_key e_val].
    assert (X : (kk, s1) = (mkkey (Some n) None, s) <-> as_str k = Some n /\ s1 = s).
    { destruct k as [[[t q]|] [|t' q' a| |] b]; cbn in *; try discriminate; injection K as <-; split;
        try (intros [= <- <-]; auto); try (intros [= ]); try (intros [[=] <-]; subst; reflexivity). }
    rewrite X, IH. fold (fields_of es). split.
    + intros [[E <-]|(y & I & R)].
      * rewrite E. exists x. split; [left; reflexivity | exact S].
      * exists y. split; [apply in_or_app; auto | exact R].
    + intros (y & I & R). apply in_app_or in I as [I|I].
      * destruct (as_str k) as [m|]; [|destruct I]. destruct I as [I|[]]. injection I as -> ->. left. split; [reflexivity | congruence].
      * right. eauto.
Qed.
Lemma fields_nodup : forall es fs, read_fields es = Some fs -> NoDup (map fst fs) -> NoDup (map fst (fields_of es)).
Proof.
  induction es as [|[k x d] es IH]; intros fs H ND; cbn [read_fields] in H; [constructor|].
  apply opt_map2_some in H as (kx & fs' & H1 & H2 & ->). apply opt_map2_some in H1 as (kk & s1 & K & S & ->).
  cbn in ND. apply NoDup_cons_iff in ND as [NI ND]. specialize (IH _ H2 ND).
  cbn [fields_of flat_map e_key e_val]. fold (fields_of es). destruct (as_str k) as [n|] eqn:E; [|exact IH].
  cbn. constructor; [|exact IH]. intros I. apply NI.
  assert (kk = mkkey (Some n) None).
  { destruct k as [[[t q]|] [|t' q' a| |] b]; cbn in *; try discriminate. injection E as ->. injection K as <-. reflexivity. }
  subst kk. apply in_map_iff in I as ([n' y] & Q & I). cbn in Q. subst n'.
  assert (R : exists s, read_schema F y = Some s).
  { clear - H2 I. revert fs' H2. induction es as [|[k x d] es IH]; intros fs' H2; [destruct I|].
    cbn [read_fields] in H2. apply opt_map2_some in H2 as (kx & fs'' & H1 & H2 & ->). apply opt_map2_some in H1 as (kk & s1 & K & S & ->).
    cbn [fields_of flat_map e_key e_val] in I. apply in_app_or in I as [I|I]; [|eapply IH; eassumption].
    destruct (as_str k); [|destruct I]. destruct I as [I|[]]. injection I as _ ->. eauto. }
  destruct R as [s R]. apply in_map_iff. exists (mkkey (Some n) None, s). split; [reflexivity|].
  apply (fields_in _ _ H2). eauto.
Qed.
Lemma variants_in : forall es vs, read_variants es = Some vs -> forall n s,
  In (n, s) vs <-> exists x, In (n, x) (fields_of es) /\ read_schema F x = Some s.
Proof.
  induction es as [|[k x d] es IH]; intros vs H n s; cbn [read_variants] in H.
  - injection H as <-. cbn. split; [tauto | intros (x & [] & _)].
  - apply opt_map2_some in H as (kx & vs' & H1 & H2 & ->). apply opt_map2_some in H1 as (kk & s1 & K & S & ->).
    specialize (IH _ H2 n s). cbn [In fields_of flat_map e_key e_val].
    assert (A : as_str k = Some kk) by (destruct k as [[[t q]|] [|t' q' a| |] b]; cbn in *; try discriminate; exact K).
    rewrite A, IH. fold (fields_of es). cbn. split.
    + intros [[= <- <-]|(y & I & R)]; [exists x; auto | exists y; auto].
    + intros (y & [I|I] & R); [injection I as -> ->; left; congruence | right; eauto].
Qed.

(** What the fields of an object, the variants of an enum and the definitions of a file say about a clean
    comparison. *)
Lemma app_nil : forall A (a b : list A), a ++ b = [] -> a = [] /\ b = [].
Proof. intros A a b. apply app_eq_nil. Qed.
Lemma map_nil : forall A B (f : A -> B) l, map f l = [] -> l = [].
Proof. intros A B f [|]; [reflexivity | discriminate]. Qed.

Lemma object_wider : forall v v' n fs fs', read_schema F v = Some (SObject _ fs) -> read_schema F v' = Some (SObject _ fs') ->
  NoDup (map fst fs) -> NoDup (map fst fs') -> careful_definition F (SObject _ fs) (SObject _ fs') ->
  breaking (compare_object_fields n v v') = [] -> wider (SObject _ fs) (SObject _ fs').
Proof.
  intros v v' n fs fs' R R' ND ND' C B.
  destruct C as [C|(NM & NM' & C)]; [rewrite C; constructor|].
  apply read_object_inv in R as (q & es & a & b & -> & R). apply read_object_inv in R' as (q' & es' & a' & b' & -> & R').
  unfold compare_object_fields in B. cbn [breaking] in B. apply app_nil in B as [B1 B2].
  apply map_nil in B1, B2. unfold extract_object_fields, named_entries in *. cbn [v_payload] in *.
  fold (fields_of es) in *. fold (fields_of es') in *.
  pose proof (fields_nodup _ _ R ND) as NF. pose proof (fields_nodup _ _ R' ND') as NF'.
  rewrite filter_nil in B1. rewrite filter_nil in B2.
  assert (KEEP : forall k s, In (k, s) fs -> In (k, s) fs').
  { intros k s I. assert (KN : exists m, k = mkkey (Some m) None).
    { clear - R I NM. unfold named in NM. rewrite Forall_forall in NM. specialize (NM _ I). cbn in NM.
      destruct k as [[m|] [t|]]; cbn in NM; try discriminate; [eauto|]. exfalso.
      revert fs R I. induction es as [|[k x d] es IH]; intros fs R I; cbn [read_fields] in R.
      - injection R as <-. destruct I.
      - apply opt_map2_some in R as (kx & fs' & H1 & H2 & ->). apply opt_map2_some in H1 as (kk & s1 & K & S & ->).
        destruct I as [I|I]; [|eapply IH; eassumption]. injection I as -> ->.
        destruct k as [[[t q]|] [|t' q' a| |] b]; cbn in K; discriminate. }
    destruct KN as [m ->]. pose proof I as I0. apply (fields_in _ _ R) in I as (x & I & _).
    assert (HK : In m (map_keys str_eqb (rev (fields_of es)))).
    { apply map_keys_in; [apply str_eqb_eq|]. rewrite map_rev. apply -> in_rev. apply in_map_iff. exists (m, x). auto. }
    apply B1 in HK. apply negb_false_iff in HK. apply map_has_iff in HK; [|apply str_eqb_eq].
    rewrite map_rev in HK. apply in_rev in HK. apply in_map_iff in HK as ([m' y] & Q & HK). cbn in Q. subst m'.
    assert (RY : exists t, read_schema F y = Some t).
    { clear - R' HK. revert fs' R'. induction es' as [|[k x d] es IH]; intros fs' H2; [destruct HK|].
      cbn [read_fields] in H2. apply opt_map2_some in H2 as (kx & fs'' & H1 & H2 & ->). apply opt_map2_some in H1 as (kk & s1 & K & S & ->).
      cbn [fields_of flat_map e_key e_val] in HK. apply in_app_or in HK as [I|I]; [|eapply IH; eassumption].
      destruct (as_str k); [|destruct I]. destruct I as [I|[]]. injection I as _ ->. eauto. }
    destruct RY as [t RY]. assert (I2 : In (mkkey (Some m) None, t) fs') by (apply (fields_in _ _ R'); eauto).
    rewrite (C _ _ _ I0 I2). exact I2. }
  apply wider_object; [exact NM | exact KEEP | exact ND'|].
  intros m s I. apply (fields_in _ _ R') in I as (x & I & RX).
  destruct (map_has str_eqb m (rev (fields_of es))) eqn:HAS.
  - left. apply map_has_iff in HAS; [|apply str_eqb_eq]. rewrite map_rev in HAS. apply in_rev in HAS.
    apply in_map_iff in HAS as ([m' y] & Q & HAS). cbn in Q. subst m'.
    assert (RY : exists t, read_schema F y = Some t).
    { clear - R HAS. revert fs R. induction es as [|[k x d] es IH]; intros fs' H2; [destruct HAS|].
      cbn [read_fields] in H2. apply opt_map2_some in H2 as (kx & fs'' & H1 & H2 & ->). apply opt_map2_some in H1 as (kk & s1 & K & S & ->).
      cbn [fields_of flat_map e_key e_val] in HAS. apply in_app_or in HAS as [I|I]; [|eapply IH; eassumption].
      destruct (as_str k); [|destruct I]. destruct I as [I|[]]. injection I as _ ->. eauto. }
    destruct RY as [t RY]. assert (I2 : In (mkkey (Some m) None, t) fs) by (apply (fields_in _ _ R); eauto).
    assert (I3 : In (mkkey (Some m) None, s) fs') by (apply (fields_in _ _ R'); eauto).
    rewrite <- (C _ _ _ I2 I3). exact I2.
  - right. set (opt := fun f => match map_get str_eqb f (rev (fields_of es')) with Some t => is_optional_field t | None => false end) in B2.
    assert (HK : In m (filter (fun f => negb (map_has str_eqb f (rev (fields_of es)))) (map_keys str_eqb (rev (fields_of es'))))).
    { apply filter_In. split; [|rewrite HAS; reflexivity].
      apply map_keys_in; [apply str_eqb_eq|]. rewrite map_rev. apply -> in_rev. apply in_map_iff. exists (m, x). auto. }
    apply B2 in HK. apply negb_false_iff in HK. unfold opt in HK.
    rewrite (map_get_nodup _ _ str_eqb str_eqb_eq _ m x) in HK; [|rewrite map_rev; apply NoDup_rev; exact NF' | apply -> in_rev; exact I].
    unfold is_optional_field in HK. rewrite (read_tag _ _ RX) in HK.
    destruct s; cbn in HK; try discriminate; try constructor.
    destruct name as [nm|]; [|discriminate].
    exfalso. apply orb_true_iff in HK. rewrite !str_eqb_eq in HK.
    (* no reference is called optional or default *)
    destruct (reference_name _ _ RX) as [N1 N2]. tauto.
Qed.
Lemma enum_wider : forall v v' n vs vs', read_schema F v = Some (SEnum _ vs) -> read_schema F v' = Some (SEnum _ vs') ->
  careful_definition F (SEnum _ vs) (SEnum _ vs') ->
  breaking (compare_enum_variants n v v') = [] -> wider (SEnum _ vs) (SEnum _ vs').
Proof.
  intros v v' n vs vs' R R' C B.
  destruct C as [C|(NS & C)]; [rewrite C; constructor|].
  apply read_enum_inv in R as (q & es & a & b & -> & R). apply read_enum_inv in R' as (q' & es' & a' & b' & -> & R').
  unfold compare_enum_variants in B. cbn [breaking] in B. apply map_nil in B. rewrite filter_nil in B.
  unfold extract_enum_variants, named_entries in *. cbn [v_payload] in *. fold (fields_of es) in *. fold (fields_of es') in *.
  apply wider_enum; [exact NS|]. intros m s I. pose proof I as I0.
  apply (variants_in _ _ R) in I as (x & I & _).
  assert (HK := B m (in_map fst _ _ I)). apply negb_false_iff in HK. unfold str_in in HK.
  apply existsb_exists in HK as (m' & HK & Q). apply str_eqb_eq in Q. subst m'.
  apply in_map_iff in HK as ([m' y] & Q & HK). cbn in Q. subst m'.
  assert (RY : exists t, read_schema F y = Some t).
  { clear - R' HK. revert vs' R'. induction es' as [|[k x d] es IH]; intros vs' H2; [destruct HK|].
    cbn [read_variants] in H2. apply opt_map2_some in H2 as (kx & fs'' & H1 & H2 & ->). apply opt_map2_some in H1 as (kk & s1 & K & S & ->).
    cbn [fields_of flat_map e_key e_val] in HK. apply in_app_or in HK as [I|I]; [|eapply IH; eassumption].
    destruct (as_str k); [|destruct I]. destruct I as [I|[]]. injection I as _ ->. eauto. }
  destruct RY as [t RY]. assert (I2 : In (m, t) vs') by (apply (variants_in _ _ R'); eauto).
  rewrite (C _ _ _ I0 I2). exact I2.
Qed.

Lemma block_map : forall doc es, has_block doc es -> extract_schema_map doc = schema_entries (PObj es None).
Proof.
  intros doc es (t & a & k & x & d & b & s0 & -> & K & N & sp & P). unfold extract_schema_map. cbn [v_payload].
  apply Forall_app in N as [Na Nb].
  assert (SK : forall l m, Forall (fun e => key_is (lit "schema") e = false) l ->
    fold_left (fun m e => if key_is (lit "schema") e then schema_entries (v_payload (e_val e)) ++ m else m) l m = m).
  { induction l as [|e l IH]; intros m H; [reflexivity|]. apply Forall_cons_iff in H as [H1 H2]. cbn [fold_left]. rewrite H1. apply IH. exact H2. }
  rewrite fold_left_app, (SK a) by assumption. cbn [fold_left]. rewrite K. rewrite (SK b) by assumption. cbn [e_val]. rewrite P.
  rewrite app_nil_r. reflexivity.
Qed.
Lemma block_in : forall es file, read_block F es = Some file -> forall n s,
  In (n, s) file <-> exists x, In (n, x) (schema_entries (PObj es None)) /\ read_schema F x = Some s.
Proof.
  intros es file H n s. cbn [schema_entries].
  assert (G : In (n, s) file <-> exists x, In (n, x) (map (fun e => (if is_unit (e_key e) then None else as_str (e_key e), e_val e)) es) /\ read_schema F x = Some s).
  { revert file H. induction es as [|[k x d] es IH]; intros file H; cbn [read_block] in H.
    - injection H as <-. cbn. split; [tauto | intros (x & [] & _)].
    - apply opt_map2_some in H as (kx & fs' & H1 & H2 & ->). apply opt_map2_some in H1 as (kk & s1 & K & S & ->).
      specialize (IH _ H2). cbn [In map e_key e_val].
      assert (A : (if is_unit k then None else as_str k) = kk) by (destruct k as [[[t q]|] [|t' q' a| |] b]; cbn in *; try discriminate; injection K as <-; reflexivity).
      rewrite A, IH. split.
      + intros [[= <- <-]|(y & I & R)]; [exists x; auto | exists y; auto].
      + intros (y & [I|I] & R); [injection I as -> ->; left; congruence | right; eauto]. }
  rewrite G. split; intros (x & I & R); exists x; (split; [|exact R]).
  - apply -> in_rev. exact I.
  - apply in_rev in I. exact I.
Qed.
Lemma block_names : forall es file, read_block F es = Some file -> map fst (schema_entries (PObj es None)) = rev (map fst file).
Proof.
  intros es file H. cbn [schema_entries]. rewrite map_rev. f_equal. revert file H.
  induction es as [|[k x d] es IH]; intros file H; cbn [read_block] in H.
  - injection H as <-. reflexivity.
  - apply opt_map2_some in H as (kx & fs' & H1 & H2 & ->). apply opt_map2_some in H1 as (kk & s1 & K & S & ->).
    cbn [map fst e_key e_val]. f_equal; [|exact (IH _ H2)].
    destruct k as [[[t q]|] [|t' q' a| |] b]; cbn in *; try discriminate; injection K as <-; reflexivity.
Qed.
Lemma fold_breaking : forall b l names n x y,
  breaking (fold_right (fun n acc =>
       match map_get name_eqb n b, map_get name_eqb n l with
       | Some x, Some y => join_changes (compare_type_definitions n x y) acc
       | _, _ => acc
       end) no_changes names) = [] ->
  In n names -> map_get name_eqb n b = Some x -> map_get name_eqb n l = Some y ->
  breaking (compare_type_definitions n x y) = [].
Proof.
  intros b l. induction names as [|m names IH]; intros n x y H I0 Hx Hy; [destruct I0|]. destruct I0 as [E|I]; cbn [fold_right] in H.
  - subst m. rewrite Hx, Hy in H. cbn in H. apply app_nil in H. apply H.
  - destruct (map_get name_eqb m b), (map_get name_eqb m l); try (eapply IH; eassumption).
    cbn in H. apply app_nil in H as [_ H]. eapply IH; eassumption.
Qed.

Theorem clean_wider : forall old new es es' file file',
  has_block old es -> has_block new es' -> read_block F es = Some file -> read_block F es' = Some file' ->
  NoDup (map fst file) -> NoDup (map fst file') ->
  (forall n s, In (n, s) file -> distinct_keys F s) -> (forall n s, In (n, s) file' -> distinct_keys F s) ->
  careful F file file' -> breaking (compare_schemas old new) = [] -> wider_file file file'.
Proof.
  intros old new es es' file file' HB HB' R R' ND ND' DK DK' C B n s I.
  unfold compare_schemas in B. rewrite (block_map _ _ HB), (block_map _ _ HB') in B. cbv zeta in B.
  unfold join_changes at 1 in B. cbn [breaking] in B. apply app_nil in B as [B1 B2]. apply map_nil in B1. rewrite filter_nil in B1.
  set (m := schema_entries (PObj es None)) in *. set (m' := schema_entries (PObj es' None)) in *.
  assert (NM : NoDup (map fst m)) by (unfold m; rewrite (block_names _ _ R); apply NoDup_rev; exact ND).
  assert (NM' : NoDup (map fst m')) by (unfold m'; rewrite (block_names _ _ R'); apply NoDup_rev; exact ND').
  pose proof I as I0. apply (block_in _ _ R) in I as (x & I & RX). fold m in I.
  assert (HK : In n (map_keys name_eqb m)) by (apply map_keys_in; [apply name_eqb_eq|]; apply in_map_iff; exists (n, x); auto).
  pose proof (B1 _ HK) as HH. apply negb_false_iff in HH. apply map_has_iff in HH; [|apply name_eqb_eq].
  apply in_map_iff in HH as ([n' y] & Q & I'). cbn in Q. subst n'.
  assert (IS : exists s', In (n, s') file').
  { assert (In n (map fst file')) by (apply in_rev; rewrite <- (block_names _ _ R'); apply in_map_iff; exists (n, y); auto).
    apply in_map_iff in H as ([n' s'] & Q & H). cbn in Q. subst. eauto. }
  destruct IS as [s' IS]. pose proof IS as IS0. apply (block_in _ _ R') in IS as (y' & IY & RY). fold m' in IY.
  assert (y' = y).
  { apply (map_get_nodup _ _ name_eqb name_eqb_eq) in IY; [|exact NM']. apply (map_get_nodup _ _ name_eqb name_eqb_eq) in I'; [|exact NM']. congruence. }
  subst y'. exists s'. split; [exact IS0|].
  pose proof (map_get_nodup _ _ name_eqb name_eqb_eq _ _ _ NM I) as GX.
  pose proof (map_get_nodup _ _ name_eqb name_eqb_eq _ _ _ NM' I') as GY.
  pose proof (fold_breaking _ _ _ _ _ _ B2 HK GX GY) as BT.
  unfold compare_type_definitions in BT. cbv zeta in BT.
  destruct (name_eqb (tag_name x) (tag_name y)) eqn:TE; [|discriminate]. cbn [negb] in BT.
  apply name_eqb_eq in TE. rewrite (read_tag _ _ RX), (read_tag _ _ RY) in *.
  pose proof (C _ _ _ I0 IS0 TE) as CD.
  unfold join_changes in BT. cbn [breaking] in BT. apply app_nil in BT as [BO BE].
  destruct s; try (rewrite <- CD; constructor; fail);
    try (cbn in CD; destruct s'; try discriminate; rewrite <- CD; constructor; fail).
  - destruct s'; try discriminate; try (cbn in CD; discriminate).
    cbn in BO. apply object_wider with (v := x) (v' := y) (n := n); try assumption.
    + apply (DK _ _ I0). + apply (DK' _ _ IS0).
  - destruct s'; try discriminate; try (cbn in CD; discriminate).
    cbn in BE. apply enum_wider with (v := x) (v' := y) (n := n); assumption.
Qed.
End Clean.
