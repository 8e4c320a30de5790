(** C27, C28, C34: schema validation and schema changes. *)
From Coq Require Import String ZArith Lia.
From Verif Require Import BaseProofs TreeModel TreeProofs CliModel CliSpec SchemaModel SchemaSpec SchemaProofs CompatSpec CompatProofs.
Local Open Scope nat_scope.

(** Short forms for examples. *)
Local Definition sc (s : str) : value := Val None (PScalar s Bare None) None.
Local Definition ob (l : list (str * value)) : value := Val None (PObj (map (fun p => Ent (sc (fst p)) (snd p) None) l) None) None.
Local Definition unitv : value := Val None PNone None.
Local Definition nm (s : str) : obj_key := mkkey (Some s) None.

(** ** C27: validation decides conformance *)

(** For every reading of schema.md at the thirteen disputed points: a document on which that reading and the
    validator's cannot differ is accepted exactly if it conforms. *)
Theorem C27_dialect_partial : forall F parse_f64 f_ltb matches D (file : schema_file F) doc fuel r,
  (forall root, In (None, root) file ->
     well_formed F file root /\ undisputed F parse_f64 f_ltb matches D file root doc) ->
  NoDup (map fst file) ->
  validate_document F parse_f64 f_ltb file fuel doc = Ok r ->
  (v_errors r = [] <-> document_conforms F parse_f64 f_ltb matches D file doc).
Proof.
  intros F parse_f64 f_ltb matches D file doc fuel r H ND R. unfold validate_document in R. unfold document_conforms.
  destruct (lookup_type F None file) as [root|] eqn:E.
  - apply lookup_type_spec in E; [|assumption]. destruct (H _ E) as [W U].
    rewrite (validate_exact F parse_f64 f_ltb matches D file root doc W U fuel doc root [] r (in_self _) (oc_root _ _ _) R).
    split; [intros C; exists root; auto|]. intros (root' & I & C).
    apply lookup_type_spec in I; [|assumption]. apply lookup_type_spec in E; [|assumption].
    assert (root' = root) by congruence. subst. exact C.
  - injection R as <-. rewrite verr_errors. split; [tauto|]. intros (root & I & _).
    apply lookup_type_spec in I; [|assumption]. congruence.
Qed.
Print Assumptions C27_dialect_partial.

(** In the validator's own reading there is nothing to dispute: it decides that reading for all documents
    and schemas. *)
Theorem C27_validator_partial : forall F parse_f64 f_ltb matches (file : schema_file F) doc fuel r,
  NoDup (map fst file) -> (forall n s, In (n, s) file -> well_formed F file s) ->
  validate_document F parse_f64 f_ltb file fuel doc = Ok r ->
  (v_errors r = [] <-> document_conforms F parse_f64 f_ltb matches validator file doc).
Proof.
  intros F parse_f64 f_ltb matches file doc fuel r ND W R.
  apply C27_dialect_partial with (3 := R); [|assumption].
  intros root I. split; [eapply W; exact I|]. unfold undisputed. splits; [|intros s _|left; reflexivity].
  - intros w _. split; [discriminate|]. intros t _. splits; discriminate.
  - destruct s as [[c|]|c|c| | | |fs|s|l|[|k1 [|k2 [|]]]|l|s|vs|s allowed|s|d s|re s|x|name]; cbn; auto.
Qed.
Print Assumptions C27_validator_partial.

(** schema.md as written, for documents without tags and units and plain schemas (no pattern, no flatten, …). *)
Theorem C27_schema_md_partial : forall F parse_f64 f_ltb matches (file : schema_file F) doc fuel r,
  NoDup (map fst file) ->
  (forall root, In (None, root) file ->
     well_formed F file root /\ undisputed F parse_f64 f_ltb matches schema_md file root doc) ->
  validate_document F parse_f64 f_ltb file fuel doc = Ok r ->
  (v_errors r = [] <-> document_conforms F parse_f64 f_ltb matches schema_md file doc).
Proof. intros. eapply C27_dialect_partial; eassumption. Qed.
Print Assumptions C27_schema_md_partial.

Section Examples.
Variable F : Type.
Variable parse_f64 : str -> option F.
Variable f_ltb : F -> F -> bool.
Variable matches : str -> str -> Prop.

(** An object with a required, a bounded and an optional field, and a recursive list of such objects. *)
Local Definition ex_file : schema_file F :=
  [(None, SType _ (Some (lit "Node")));
   (Some (lit "Node"), SObject _ [(nm (lit "name"), SString _ (Some (mksc (Some 1) (Some 5) None)));
                                  (nm (lit "port"), SOptional _ (SInt _ (Some (mkic (Some 1%Z) None))));
                                  (nm (lit "sub"), SSeq _ (SType _ (Some (lit "Node"))))])].
Local Definition ex_doc (port : str) : value :=
  ob [(lit "name", sc (lit "a"));
      (lit "sub", Val None (PSeq [ob [(lit "name", sc (lit "b")); (lit "port", sc port);
                                      (lit "sub", Val None (PSeq [] None) None)]] None) None)].
Example C27_example_valid : exists r,
  validate_document F parse_f64 f_ltb ex_file 9 (ex_doc (lit "80")) = Ok r /\ v_errors r = [].
Proof. eexists. split; vm_compute; reflexivity. Qed.
Example C27_example_invalid : exists r,
  validate_document F parse_f64 f_ltb ex_file 9 (ex_doc (lit "0")) = Ok r /\
  map ve_path (v_errors r) = [lit "sub[0].port"].
Proof. eexists. split; vm_compute; reflexivity. Qed.
Example C27_example_distinct : NoDup (map fst ex_file).
Proof. repeat constructor; cbn; intuition discriminate. Qed.
Lemma ex_occurs : forall root s, In (None, root) ex_file -> occurs F ex_file root s ->
  In s (SType _ (Some (lit "Node")) :: SString _ (Some (mksc (Some 1) (Some 5) None)) ::
        SOptional _ (SInt _ (Some (mkic (Some 1%Z) None))) :: SInt _ (Some (mkic (Some 1%Z) None)) ::
        SSeq _ (SType _ (Some (lit "Node"))) :: map snd ex_file).
Proof.
  intros root s IR H. destruct IR as [[= <-]|[[=]|[]]]. induction H as [|n s I|a s _ IH C].
  - left. reflexivity.
  - do 5 right. apply in_map_iff. exists (n, s). auto.
  - cbn in IH. repeat (destruct IH as [IH|IH]; [subst s|]); try contradiction; inversion C; subst; cbn;
      repeat match goal with I : In _ _ |- _ => cbn in I end; intuition congruence.
Qed.
Example C27_example_hypotheses : forall root, In (None, root) ex_file ->
  well_formed F ex_file root /\ undisputed F (fun t => match parse_i64 t with Some _ => parse_f64 (lit "0") | None => None end) f_ltb matches
    schema_md ex_file root (ex_doc (lit "80")).
Proof.
  intros root IR. assert (OC := ex_occurs root). split.
  - split; [apply C27_example_distinct|]. intros s H. apply OC in H; [|exact IR].
    cbn in H. repeat (destruct H as [H|H]; [subst s|]); try contradiction; cbn; auto.
    split; [repeat constructor; cbn; intuition discriminate | repeat (apply Forall_cons; [right; reflexivity|]); constructor].
  - assert (IN : forall w, inside w (ex_doc (lit "80")) ->
       (v_tag w = None /\ ~ is_nothing w) /\
       (forall t, scalar_text w = Some t -> In t [lit "a"; lit "b"; lit "80"; lit "name"; lit "port"; lit "sub"])).
    { intros w H. apply inside_insides in H. vm_compute in H.
      repeat (destruct H as [<-|H]; [split; [split; [reflexivity | intros X; inversion X] | cbn; intros t E; inversion E; subst; auto 10]|]).
      contradiction. }
    unfold undisputed. splits.
    + intros w H. destruct (IN w H) as [[T _] S]. split; [auto|]. intros t Ht.
      specialize (S t Ht). splits.
      * intros _. cbn in S. repeat (destruct S as [<-|S]; [repeat constructor; lia|]). contradiction.
      * intros _ n I.
        assert (P : parse_signed (Z.abs n + 1) t = Some n) by (apply parse_signed_spec; split; [exact I | lia]).
        clear - S P. cbn in S. repeat (destruct S as [<-|S]; [cbn in P; try discriminate|]); try contradiction.
        change (Z.of_N 80) with 80%Z in P. match type of P with (if ?b then _ else _) = _ => destruct b end; [injection P as <-; lia | discriminate].
      * intros _. clear - S. cbn in S. repeat (destruct S as [<-|S]; [intros P; try (exfalso; apply P; reflexivity)|]); try contradiction.
        apply (json_num [] (lit "80") [] []); auto; [split; [discriminate | repeat constructor] | cbn; discriminate].
    + intros s H. apply OC in H; [|exact IR]. cbn in H.
      repeat (destruct H as [H|H]; [subst s|]); try contradiction; cbn; auto.
      assert (FI : forall n s, field F schema_md ex_file
           [(nm (lit "name"), SString F (Some (mksc (Some 1) (Some 5) None)));
            (nm (lit "port"), SOptional F (SInt F (Some (mkic (Some 1%Z) None))));
            (nm (lit "sub"), SSeq F (SType F (Some (lit "Node"))))] n s ->
           n <> [] /\ s <> SType F (Some (lit "Node")) /\ (forall r s', s <> SDeprecated _ r s') /\ (forall l, s <> SUnion _ l) /\ (forall n, s <> SType _ n)).
      { intros n s H. inversion H as [? ? ? I _|? ? ? ? ? ? _ I _ _]; subst; cbn in I; unfold nm in I;
          repeat (destruct I as [I|I]; [injection I as <- <- || (exfalso; discriminate) || idtac; splits; discriminate|]); contradiction. }
      split; right.
      * intros n s H A. apply FI in H as (_ & _ & H1 & H2 & H3). inversion A; subst; eauto.
        -- exfalso. eapply H1; reflexivity.
        -- exfalso. eapply H2; reflexivity.
        -- exfalso. eapply H3; reflexivity.
      * intros s H. apply FI in H as (H & _). apply H. reflexivity.
    + right. left. intros w H. apply IN in H. apply H.
Qed.
End Examples.

(** *** Where the validator departs from schema.md

    Each for every reading of floats and patterns. *)
Local Definition root1 {F} (s : schema F) : schema_file F := [(None, s)].
Local Definition accepts {F} parse_f64 f_ltb (file : schema_file F) doc : Prop :=
  exists r, validate_document F parse_f64 f_ltb file 9 doc = Ok r /\ v_errors r = [].
Local Definition rejects {F} parse_f64 f_ltb (file : schema_file F) doc : Prop :=
  exists r, validate_document F parse_f64 f_ltb file 9 doc = Ok r /\ v_errors r <> [].
Ltac verdict := eexists; split; [vm_compute; reflexivity | first [reflexivity | discriminate]].
Ltac at_root H := destruct H as (?root & [[= <-]|[]] & H).

(** A tagged scalar is accepted as [@string]: [@foo"x"]. *)
Theorem C27_tag_refuted : forall F parse_f64 f_ltb matches, exists (file : schema_file F) doc,
  accepts parse_f64 f_ltb file doc /\ ~ document_conforms F parse_f64 f_ltb matches schema_md file doc.
Proof.
  intros. exists (root1 (SString _ None)), (Val (Some (lit "foo", None)) (PScalar (lit "x") Quoted None) None).
  split; [verdict|]. intros C. at_root C. inversion C as [? ? ? T| | | | | | | | | | | | | | | | | | | | | | | | | |]; subst.
  inversion T as [? ? ? ? ? K]; subst. destruct K; discriminate.
Qed.
Print Assumptions C27_tag_refuted.

(** Patterns are not checked: any text is accepted for any pattern. *)
Theorem C27_pattern_refuted : forall F parse_f64 f_ltb (matches : str -> str -> Prop) p t, ~ matches p t ->
  exists (file : schema_file F) doc,
  accepts parse_f64 f_ltb file doc /\ ~ document_conforms F parse_f64 f_ltb matches schema_md file doc.
Proof.
  intros F parse_f64 f_ltb matches p t N.
  exists (root1 (SString _ (Some (mksc None None (Some p))))), (sc t).
  split; [verdict|]. intros C. at_root C. inversion C as [? ? ? T S| | | | | | | | | | | | | | | | | | | | | | | | | |]; subst.
  inversion T; subst. destruct (S _ eq_refl) as (_ & _ & M). apply N. apply M; reflexivity.
Qed.
Print Assumptions C27_pattern_refuted.

(** Lengths are counted in bytes: one character, é, is too long for [@string{maxLen 1}]. *)
Theorem C27_length_refuted : forall F parse_f64 f_ltb matches, exists (file : schema_file F) doc,
  rejects parse_f64 f_ltb file doc /\ document_conforms F parse_f64 f_ltb matches schema_md file doc.
Proof.
  intros. exists (root1 (SString _ (Some (mksc None (Some 1) None)))), (sc [233%N]).
  split; [verdict|]. eexists. split; [left; reflexivity|]. apply c_string with [233%N]; [constructor; right; reflexivity|].
  intros c0 [= <-]. cbn. splits; try discriminate. intros m [= <-]. lia.
Qed.
Print Assumptions C27_length_refuted.

(** Integers are limited to 128 bits. *)
Theorem C27_int_refuted : forall F parse_f64 f_ltb matches, exists (file : schema_file F) doc,
  rejects parse_f64 f_ltb file doc /\ document_conforms F parse_f64 f_ltb matches schema_md file doc.
Proof.
  intros. set (t := lit "170141183460469231731687303715884105728").
  exists (root1 (SInt _ None)), (sc t).
  split; [verdict|]. eexists. split; [left; reflexivity|]. apply c_int with t (2 ^ 127)%Z.
  - constructor; right; reflexivity.
  - assert (P : parse_signed (2 ^ 128) t = Some (2 ^ 127)%Z) by (vm_compute; reflexivity).
    apply parse_signed_spec in P. apply P.
  - split; [discriminate | intros c0 [=]].
Qed.
Print Assumptions C27_int_refuted.

(** [inf], which Rust reads as a float, is accepted as [@float]. *)
Theorem C27_float_refuted : forall F (parse_f64 : str -> option F) f_ltb matches, parse_f64 (lit "inf") <> None ->
  exists (file : schema_file F) doc,
  accepts parse_f64 f_ltb file doc /\ ~ document_conforms F parse_f64 f_ltb matches schema_md file doc.
Proof.
  intros F parse_f64 f_ltb matches P. exists (root1 (SFloat _ None)), (sc (lit "inf")). split.
  - destruct (parse_f64 (lit "inf")) as [x|] eqn:E; [|congruence].
    exists vok. split; [|reflexivity]. cbn. unfold validate_float. cbn. cbn in E. rewrite E. reflexivity.
  - intros C. at_root C. inversion C as [| |? ? ? T S| | | | | | | | | | | | | | | | | | | | | | | |]; subst.
    inversion T; subst. destruct S as [S _]. specialize (S eq_refl).
    inversion S as [sign int frac exp Hs Hi _ _ _ E]. destruct Hs as [->| ->]; [|discriminate].
    destruct Hi as [N H]. destruct int as [|c int]; [congruence|]. cbn in E. injection E as -> E.
    apply Forall_cons_iff in H as [H _]. discriminate.
Qed.
Print Assumptions C27_float_refuted.

(** The unit value is accepted for an optional field. *)
Theorem C27_optional_refuted : forall F parse_f64 f_ltb matches, exists (file : schema_file F) doc,
  accepts parse_f64 f_ltb file doc /\ ~ document_conforms F parse_f64 f_ltb matches schema_md file doc.
Proof.
  intros. exists (root1 (SObject _ [(nm (lit "a"), SOptional _ (SString _ None))])), (ob [(lit "a", unitv)]).
  split; [verdict|]. intros C. at_root C. inversion C; subst.
  match goal with T : is_object _ _ _ |- _ => inversion T; subst end.
  match goal with T : forall k x d, In _ _ -> _ |- _ => destruct (T _ _ _ (or_introl eq_refl)) as (s & ES & CS) end.
  destruct ES as (name & K & [(n & -> & Hf)|[_ (a & k & b & E & G & _)]]).
  - inversion Hf as [? ? ? I _|? ? ? ? ? ? _ I _ _]; subst.
    + destruct I as [I|[]]. injection I as _ <-. inversion CS; subst; [|discriminate].
      match goal with T : conforms _ _ _ _ _ _ _ _ |- _ => inversion T; subst end.
      match goal with T : is_text _ _ _ |- _ => inversion T end.
    + destruct I as [[=]|[]].
  - destruct a as [|p a]; [|destruct a; discriminate]. injection E as <- <- <-. apply G. reflexivity.
Qed.
Print Assumptions C27_optional_refuted.

(** A deprecated optional field is required. *)
Theorem C27_absent_refuted : forall F parse_f64 f_ltb matches, exists (file : schema_file F) doc,
  rejects parse_f64 f_ltb file doc /\ document_conforms F parse_f64 f_ltb matches schema_md file doc.
Proof.
  intros. exists (root1 (SObject _ [(nm (lit "a"), SDeprecated _ (lit "old") (SOptional _ (SString _ None)))])), (ob []).
  split; [verdict|]. eexists. split; [left; reflexivity|]. apply c_object with []; [constructor; right; reflexivity | intros k x d []|].
  intros n s H. left. inversion H as [? ? ? I _|? ? ? ? ? ? _ I _ _]; subst.
  - destruct I as [I|[]]. injection I as _ <-. apply ab_deprecated; [reflexivity | constructor].
  - destruct I as [[=]|[]].
Qed.
Print Assumptions C27_absent_refuted.

(** The example of schema.md for [@flatten] is rejected. *)
Theorem C27_flatten_refuted : forall F parse_f64 f_ltb matches, exists (file : schema_file F) doc,
  rejects parse_f64 f_ltb file doc /\ document_conforms F parse_f64 f_ltb matches schema_md file doc.
Proof.
  intros.
  set (user := [(nm (lit "name"), SString _ None); (nm (lit "email"), SString F None)]).
  set (admin := [(nm (lit "user"), SFlatten _ (SType _ (Some (lit "User")))); (nm (lit "permissions"), SSeq _ (SString F None))]).
  set (file := [(None, SObject _ admin); (Some (lit "User"), SObject _ user)] : schema_file F).
  set (es := [(lit "name", sc (lit "Alice")); (lit "email", sc (lit "alice@example.com"));
        (lit "permissions", Val None (PSeq [sc (lit "read"); sc (lit "write")] None) None)]).
  exists file, (ob es).
  split; [verdict|]. eexists. split; [left; reflexivity|].
  assert (ST : forall t, conforms F parse_f64 f_ltb matches schema_md file (sc t) (SString _ None)).
  { intros t. apply c_string with t; [constructor; right; reflexivity | intros c0 [=]]. }
  assert (OT : object_type F file (SType _ (Some (lit "User"))) user).
  { eapply ot_alias; [right; left; reflexivity | constructor]. }
  assert (UF : forall n s, In (nm n, s) user -> field F schema_md file admin n s).
  { intros n s I. eapply field_inlined; [reflexivity | left; reflexivity | exact OT|].
    apply field_own; [exact I|]. intros _ [t ->]. repeat (destruct I as [[=]|I]). exact I. }
  assert (FI : forall n s, field F schema_md file admin n s ->
     (n = lit "name" /\ s = SString _ None) \/ (n = lit "email" /\ s = SString _ None) \/ (n = lit "permissions" /\ s = SSeq _ (SString _ None))).
  { intros n s H. inversion H as [? ? ? I NF|? k t fs' ? ? _ I O FF]; subst.
    - destruct I as [I|[I|[]]]; [injection I as <- <-; exfalso; apply NF; [reflexivity | eexists; reflexivity]|].
      injection I as <- <-. auto.
    - destruct I as [I|[[=]|[]]]. injection I as <- <-. inversion O as [|? t2 ? I2 O2]; subst.
      destruct I2 as [[=]|[I2|[]]]. injection I2 as <-. inversion O2; subst.
      inversion FF as [? ? ? I _|? k2 t3 fs3 ? ? _ I _ _]; subst.
      + destruct I as [I|[I|[]]]; injection I as <- <-; auto.
      + destruct I as [[=]|[[=]|[]]]. }
  apply c_object with (map (fun p => Ent (sc (fst p)) (snd p) None) es); [constructor; right; reflexivity| |].
  - intros k x d [I|[I|[I|[]]]]; injection I as <- <- <-.
    + exists (SString _ None). split; [|apply ST]. eexists. split; [constructor|]. left. eexists. split; [reflexivity|].
      apply UF. left. reflexivity.
    + exists (SString _ None). split; [|apply ST]. eexists. split; [constructor|]. left. eexists. split; [reflexivity|].
      apply UF. right. left. reflexivity.
    + exists (SSeq _ (SString _ None)). split.
      * eexists. split; [constructor|]. left. eexists. split; [reflexivity|].
        apply field_own; [right; left; reflexivity | intros _ [t [=]]].
      * eapply c_seq; [constructor; right; reflexivity|]. intros x [<-|[<-|[]]]; apply ST.
  - intros n s H. right. apply FI in H as [[-> _]|[[-> _]|[-> _]]].
    + do 6 eexists. split; [reflexivity | left; reflexivity].
    + do 6 eexists. split; [reflexivity | right; left; reflexivity].
    + do 6 eexists. split; [reflexivity | right; right; left; reflexivity].
Qed.
Print Assumptions C27_flatten_refuted.

(** The unit key is taken for a field with the empty name. *)
Theorem C27_unit_key_refuted : forall F parse_f64 f_ltb matches, exists (file : schema_file F) doc,
  accepts parse_f64 f_ltb file doc /\ ~ document_conforms F parse_f64 f_ltb matches schema_md file doc.
Proof.
  intros. exists (root1 (SObject _ [(nm [], SOptional _ (SString _ None))])),
    (Val None (PObj [Ent unitv (sc (lit "x")) None] None) None).
  split; [verdict|]. intros C. at_root C. inversion C; subst.
  match goal with T : is_object _ _ _ |- _ => inversion T; subst end.
  match goal with T : forall k x d, In _ _ -> _ |- _ => destruct (T _ _ _ (or_introl eq_refl)) as (s & ES & CS) end.
  destruct ES as (name & K & [(n & -> & Hf)|[_ (a & k & b & E & G & _)]]).
  - inversion K.
  - destruct a as [|p a]; [|destruct a; discriminate]. injection E as <- <- <-. apply G. reflexivity.
Qed.
Print Assumptions C27_unit_key_refuted.

(** A map whose key type allows the unit, as in the schema of schemas itself, rejects the unit key. *)
Theorem C27_map_key_refuted : forall F parse_f64 f_ltb matches, exists (file : schema_file F) doc,
  rejects parse_f64 f_ltb file doc /\ document_conforms F parse_f64 f_ltb matches schema_md file doc.
Proof.
  intros. exists (root1 (SMap _ [SUnion _ [SString _ None; SUnit _]; SAny _])),
    (Val None (PObj [Ent unitv (sc (lit "x")) None] None) None).
  split; [verdict|]. eexists. split; [left; reflexivity|].
  eapply c_map2; [constructor; right; reflexivity|]. intros k x d [[= <- <- <-]|[]]. splits; [discriminate| |constructor].
  eapply c_union; [right; left; reflexivity|]. constructor. constructor.
Qed.
Print Assumptions C27_map_key_refuted.

(** A scalar without a tag is accepted as an enum value. *)
Theorem C27_fallback_refuted : forall F parse_f64 f_ltb matches, exists (file : schema_file F) doc,
  accepts parse_f64 f_ltb file doc /\ ~ document_conforms F parse_f64 f_ltb matches schema_md file doc.
Proof.
  intros. exists (root1 (SEnum _ [(lit "ok", SString _ None)])), (sc (lit "x")).
  split; [verdict|]. intros C. at_root C.
  inversion C as [| | | | | | | | | | | | | | | | | |? ? ? ? ? ? ? ? FB| | | | | | | |]. discriminate.
Qed.
Print Assumptions C27_fallback_refuted.

(** Which scalars depends on the order in which the hash map of variants is walked. *)
Theorem C27_order_refuted : forall F parse_f64 f_ltb, exists (vs vs' : list (str * schema F)) doc,
  Permutation.Permutation vs vs' /\ NoDup (map fst vs) /\
  accepts parse_f64 f_ltb (root1 (SEnum _ vs)) doc /\ rejects parse_f64 f_ltb (root1 (SEnum _ vs')) doc.
Proof.
  intros. set (a := (lit "word", SString F (Some (mksc None (Some 1) None)))). set (b := (lit "num", SInt F None)).
  exists [b; a], [a; b], (sc (lit "80")). splits; [apply Permutation.perm_swap | | verdict | verdict].
  repeat constructor; cbn; intuition discriminate.
Qed.
Print Assumptions C27_order_refuted.

(** A variant whose payload is optional, such as [string @optional(@StringConstraints)] in the schema of
    schemas, rejects the tag alone. *)
Theorem C27_payload_refuted : forall F parse_f64 f_ltb matches, exists (file : schema_file F) doc,
  rejects parse_f64 f_ltb file doc /\ document_conforms F parse_f64 f_ltb matches schema_md file doc.
Proof.
  intros. exists (root1 (SEnum _ [(lit "string", SOptional _ (SType _ (Some (lit "StringConstraints"))))])),
    (Val (Some (lit "string", None)) PNone None).
  split; [verdict|]. eexists. split; [left; reflexivity|].
  eapply c_variant_absent; [reflexivity | left; reflexivity | constructor].
Qed.
Print Assumptions C27_payload_refuted.

(** An empty list of allowed values allows everything. *)
Theorem C27_one_of_refuted : forall F parse_f64 f_ltb matches, exists (file : schema_file F) doc,
  accepts parse_f64 f_ltb file doc /\ ~ document_conforms F parse_f64 f_ltb matches schema_md file doc.
Proof.
  intros. exists (root1 (SOneOf _ (SString _ None) [])), (sc (lit "x")).
  split; [verdict|]. intros C. at_root C. inversion C; subst; [contradiction | discriminate].
Qed.
Print Assumptions C27_one_of_refuted.

(** ** C28: validation terminates *)

(** A type that is only a name for itself: the validator calls itself for ever on every document. *)
Theorem C28_refuted : forall F parse_f64 f_ltb, exists file : schema_file F,
  NoDup (map fst file) /\
  forall doc fuel, validate_document F parse_f64 f_ltb file fuel doc = OutOfFuel.
Proof.
  intros. set (a := SType F (Some (lit "A"))). exists [(None, a); (Some (lit "A"), a)]. split.
  - repeat constructor; cbn; intuition discriminate.
  - intros doc fuel. cbn [validate_document lookup_type]. generalize (@nil N) as path. induction fuel as [|fuel IH]; intros path; [reflexivity|].
    cbn [validate_value]. unfold a at 2. cbn [validate_type_ref lookup_type str_eqb]. cbn in *. apply IH.
Qed.
Print Assumptions C28_refuted.

(** If no schema leads back to itself without entering a value, validation ends on every document, and
    more fuel does not change the result. *)
Theorem C28_acyclic_partial : forall F parse_f64 f_ltb (file : schema_file F) root doc path,
  (forall s, occurs F file root s -> Acc (same_value F file) s) ->
  exists fuel r, forall fuel', fuel <= fuel' -> validate_value F parse_f64 f_ltb file fuel' doc root path = Ok r.
Proof.
  intros F parse_f64 f_ltb file root doc path H.
  destruct (validate_terminates F parse_f64 f_ltb file root H doc root (oc_root _ _ _)) as [f E].
  destruct (E path) as [r R]. exists f, r. intros f' L. eapply validate_mono; eassumption.
Qed.
Print Assumptions C28_acyclic_partial.

(** The recursive type above is such a schema. *)
Example C28_example : forall F s, occurs F (ex_file F) (SType _ (Some (lit "Node"))) s -> Acc (same_value F (ex_file F)) s.
Proof.
  intros F s H. apply (ex_occurs F) in H; [|left; reflexivity].
  assert (L : forall s, In s (map snd (tl (ex_file F))) \/ s = SSeq _ (SType _ (Some (lit "Node"))) \/
     (exists c, s = SInt _ c) \/ (exists c, s = SString _ c) -> Acc (same_value F (ex_file F)) s).
  { intros t [[<-|[]]|[->|[[c ->]|[c ->]]]]; constructor; intros u U; inversion U. }
  cbn in H. destruct H as [<-|[<-|[<-|[<-|[<-|[<-|[<-|[]]]]]]]].
  - constructor. intros t T. inversion T as [| | | | | |n s I]; subst. destruct I as [[=]|[I|[]]]. injection I as <-. apply L. left. left. reflexivity.
  - apply L. eauto.
  - constructor. intros t T. inversion T; subst. apply L. eauto.
  - apply L. eauto.
  - apply L. auto.
  - constructor. intros t T. inversion T as [| | | | | |n s I]; subst. destruct I as [[=]|[I|[]]]. injection I as <-. apply L. left. left. reflexivity.
  - apply L. left. left. reflexivity.
Qed.

(** ** C34: changes reported as compatible *)

(** The definitions of a schema document. *)
Definition defines {F} (doc : value) (file : schema_file F) : Prop :=
  exists es, has_block doc es /\ read_block F es = Some file.

Local Definition tg (n : str) (p : payload) : value := Val (Some (n, None)) p None.
Local Definition fields (l : list (str * value)) : payload := PObj (map (fun p => Ent (sc (fst p)) (snd p) None) l) None.
Local Definition schema_doc (l : list (value * value)) : value :=
  ob [(lit "schema", Val None (PObj (map (fun p => Ent (fst p) (snd p) None) l) None) None)].
Lemma schema_doc_block : forall l, has_block (schema_doc l) (map (fun p => Ent (fst p) (snd p) None) l).
Proof.
  intros l. exists None, [], (sc (lit "schema")), (Val None (PObj (map (fun p => Ent (fst p) (snd p) None) l) None) None), None, [], None.
  splits; [reflexivity | reflexivity | constructor | eexists; reflexivity].
Qed.
Local Definition breaks {F} parse_f64 f_ltb (old new doc : value) : Prop :=
  breaking (compare_schemas old new) = [] /\
  exists file file' : schema_file F, defines old file /\ defines new file' /\
    accepts parse_f64 f_ltb file doc /\ rejects parse_f64 f_ltb file' doc.
Ltac defined := eexists; split; [apply schema_doc_block | vm_compute; reflexivity].

(** The type of a field changes from [@string] to [@int]. *)
Theorem C34_refuted : forall F parse_f64 f_ltb, exists old new doc,
  breaks (F := F) parse_f64 f_ltb old new doc.
Proof.
  intros. exists (schema_doc [(unitv, tg (lit "object") (fields [(lit "a", tg (lit "string") PNone)]))]),
    (schema_doc [(unitv, tg (lit "object") (fields [(lit "a", tg (lit "int") PNone)]))]), (ob [(lit "a", sc (lit "x"))]).
  split; [vm_compute; reflexivity|]. do 2 eexists. splits; [defined | defined | verdict | verdict].
Qed.
Print Assumptions C34_refuted.
(** The bounds of a string are tightened. *)
Theorem C34_bounds_refuted : forall F parse_f64 f_ltb, exists old new doc,
  breaks (F := F) parse_f64 f_ltb old new doc.
Proof.
  intros. exists (schema_doc [(unitv, tg (lit "string") PNone)]),
    (schema_doc [(unitv, tg (lit "string") (fields [(lit "maxLen", sc (lit "1"))]))]), (sc (lit "xy")).
  split; [vm_compute; reflexivity|]. do 2 eexists. splits; [defined | defined | verdict | verdict].
Qed.
Print Assumptions C34_bounds_refuted.
(** An optional field is added to an object with a catch-all, whose documents may already use the name. *)
Theorem C34_catch_all_refuted : forall F parse_f64 f_ltb, exists old new doc,
  breaks (F := F) parse_f64 f_ltb old new doc.
Proof.
  intros. set (rest := Ent (tg (lit "string") PNone) (tg (lit "string") PNone) None).
  exists (schema_doc [(unitv, tg (lit "object") (PObj [rest] None))]),
    (schema_doc [(unitv, tg (lit "object") (PObj [Ent (sc (lit "port")) (tg (lit "optional") (PSeq [tg (lit "int") PNone] None)) None; rest] None))]),
    (ob [(lit "port", sc (lit "http"))]).
  split; [vm_compute; reflexivity|]. do 2 eexists. splits; [defined | defined | verdict | verdict].
Qed.
Print Assumptions C34_catch_all_refuted.
(** A variant is added to an enum whose plain values were taken by another variant. *)
Theorem C34_variant_refuted : forall F parse_f64 f_ltb, exists old new doc,
  breaks (F := F) parse_f64 f_ltb old new doc.
Proof.
  intros. set (name := (lit "name", tg (lit "string") PNone)).
  exists (schema_doc [(unitv, tg (lit "enum") (fields [name]))]),
    (schema_doc [(unitv, tg (lit "enum") (fields [(lit "short", tg (lit "string") (fields [(lit "maxLen", sc (lit "1"))])); name]))]),
    (sc (lit "xy")).
  split; [vm_compute; reflexivity|]. do 2 eexists. splits; [defined | defined | verdict | verdict].
Qed.
Print Assumptions C34_variant_refuted.
(** Two definitions without a tag are not compared: a literal may become another one. *)
Theorem C34_literal_refuted : forall F parse_f64 f_ltb, exists old new doc,
  breaks (F := F) parse_f64 f_ltb old new doc.
Proof.
  intros. exists (schema_doc [(unitv, sc (lit "v1"))]), (schema_doc [(unitv, sc (lit "v2"))]), (sc (lit "v1")).
  split; [vm_compute; reflexivity|]. do 2 eexists. splits; [defined | defined | verdict | verdict].
Qed.
Print Assumptions C34_literal_refuted.

(** If what is kept is kept unchanged, and no breaking change is reported, then every document accepted
    under the old schema is accepted under the new one (if the validator comes to an end on it).
    Missing: changes of the fields and payloads themselves, which the comparison does not look at, and objects
    with a catch-all and enums with scalar variants. *)
Theorem C34_partial : forall F parse_f64 f_ltb old new (file file' : schema_file F) doc fuel fuel' r r',
  defines old file -> defines new file' ->
  NoDup (map fst file) -> NoDup (map fst file') ->
  (forall n s, In (n, s) file -> well_formed F file s) -> (forall n s, In (n, s) file' -> well_formed F file' s) ->
  careful F file file' ->
  breaking (compare_schemas old new) = [] ->
  validate_document F parse_f64 f_ltb file fuel doc = Ok r -> v_errors r = [] ->
  validate_document F parse_f64 f_ltb file' fuel' doc = Ok r' -> v_errors r' = [].
Proof.
  intros F parse_f64 f_ltb old new file file' doc fuel fuel' r r' (es & HB & RB) (es' & HB' & RB') ND ND' W W' C B V E V'.
  assert (WF : wider_file F file file').
  { apply (clean_wider F old new es es'); try assumption.
    - intros n s I. destruct (W _ _ I) as [_ H]. apply H. constructor.
    - intros n s I. destruct (W' _ _ I) as [_ H]. apply H. constructor. }
  apply (C27_validator_partial F parse_f64 f_ltb (fun _ _ => True) file' doc fuel' r' ND' W' V').
  apply (C27_validator_partial F parse_f64 f_ltb (fun _ _ => True) file doc fuel r ND W V) in E.
  destruct E as (root & I & CF). destruct (WF _ _ I) as (root' & I' & WD). exists root'. split; [exact I'|].
  eapply wider_conforms; [exact WD|]. eapply wider_file_conforms; eassumption.
Qed.
Print Assumptions C34_partial.

(** A definition, an optional field and a variant are added. *)
Section Example34.
Variable F : Type.
Local Definition old34 : value :=
  schema_doc [(unitv, tg (lit "object") (fields [(lit "a", tg (lit "string") PNone); (lit "k", tg (lit "Kind") PNone)]));
              (sc (lit "Kind"), tg (lit "enum") (fields [(lit "on", tg (lit "unit") PNone)]))].
Local Definition new34 : value :=
  schema_doc [(unitv, tg (lit "object") (fields [(lit "a", tg (lit "string") PNone); (lit "k", tg (lit "Kind") PNone);
                                                 (lit "b", tg (lit "optional") (PSeq [tg (lit "int") PNone] None))]));
              (sc (lit "Kind"), tg (lit "enum") (fields [(lit "off", tg (lit "unit") PNone); (lit "on", tg (lit "unit") PNone)]));
              (sc (lit "More"), tg (lit "any") PNone)].
Local Definition old34_file : schema_file F :=
  [(None, SObject _ [(nm (lit "a"), SString _ None); (nm (lit "k"), SType _ (Some (lit "Kind")))]);
   (Some (lit "Kind"), SEnum _ [(lit "on", SUnit _)])].
Local Definition new34_file : schema_file F :=
  [(None, SObject _ [(nm (lit "a"), SString _ None); (nm (lit "k"), SType _ (Some (lit "Kind"))); (nm (lit "b"), SOptional _ (SInt _ None))]);
   (Some (lit "Kind"), SEnum _ [(lit "off", SUnit _); (lit "on", SUnit _)]);
   (Some (lit "More"), SAny _)].
Example C34_example :
  defines old34 old34_file /\ defines new34 new34_file /\ careful F old34_file new34_file /\
  breaking (compare_schemas old34 new34) = [] /\
  (forall parse_f64 f_ltb, accepts parse_f64 f_ltb old34_file (ob [(lit "a", sc (lit "x")); (lit "k", tg (lit "on") PNone)])).
Proof.
  splits.
  - defined.
  - defined.
  - intros n s s' [I|[I|[]]] [J|[J|[J|[]]]]; injection I as <- <-; try (exfalso; discriminate); injection J as <-; intros _.
    + right. splits; try (repeat constructor).
      intros k s s' [I|[I|[]]] [J|[J|[J|[]]]]; injection I as <- <-; try (exfalso; discriminate); injection J as <-; reflexivity.
    + right. split.
      * intros n s [I|[]]. injection I as <- <-. cbn. tauto.
      * intros n s s' [I|[]] [J|[J|[]]]; injection I as <- <-; try (exfalso; discriminate); injection J as <-; reflexivity.
  - vm_compute. reflexivity.
  - intros. verdict.
Qed.
Lemma C34_example_well_formed : forall file : schema_file F, file = old34_file \/ file = new34_file ->
  NoDup (map fst file) /\ forall n s, In (n, s) file -> well_formed F file s.
Proof.
  intros file HF. assert (ND : NoDup (map fst file)).
  { destruct HF as [->| ->]; repeat constructor; cbn; intuition discriminate. }
  split; [exact ND|]. intros n s I. split; [exact ND|]. intros t O.
  assert (SUB : In t (SString _ None :: SType _ (Some (lit "Kind")) :: SUnit _ :: SOptional _ (SInt _ None) :: SInt _ None :: map snd file)).
  { induction O as [|m x J|a x _ IH CH].
    - do 5 right. apply in_map_iff. exists (n, s). auto.
    - do 5 right. apply in_map_iff. exists (m, x). auto.
    - destruct HF as [->| ->]; cbn in IH;
        repeat (destruct IH as [IH|IH]; [subst x|]); try contradiction; inversion CH; subst; cbn;
        repeat match goal with I : In _ _ |- _ => cbn in I end; intuition congruence. }
  destruct HF as [->| ->]; cbn in SUB;
    repeat (destruct SUB as [SUB|SUB]; [subst t; cbn; repeat constructor; cbn; intuition discriminate|]); contradiction.
Qed.
End Example34.
