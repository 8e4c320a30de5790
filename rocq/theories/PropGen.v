(** C74, C75: schemas generated from Rust types. *)
From Coq Require Import String ZArith Lia.
From Verif Require Import BaseProofs TreeModel TreeProofs CliSpec SchemaModel SchemaSpec SchemaProofs GenModel GenSpec GenProofs GenProofs2.
Local Open Scope nat_scope.

Local Definition sc (s : str) : value := Val None (PScalar s Bare None) None.
Local Definition ob (l : list (str * value)) : value := Val None (PObj (map (fun p => Ent (sc (fst p)) (snd p) None) l) None) None.
Local Definition sq (l : list value) : value := Val None (PSeq l None) None.
Local Definition tagged (t : str) (v : value) : value := Val (Some (t, None)) (v_payload v) None.
Local Definition fld (n : str) (s : shape) : ufield := mkuf n s false None.
Local Definition flat (n : str) (s : shape) : ufield := mkuf n s true None.
Local Definition struct (n : str) (fs : list ufield) : utype := mkut n (UStruct (KStruct fs)).
Local Definition u16 : shape := HInt 0 65535.

Local Ltac cases := repeat match goal with H : _ \/ _ |- _ => destruct H as [H|H] | H : False |- _ => destruct H end.
Local Ltac nodups := repeat constructor; cbn [In]; intros H; cases; discriminate H.

Lemma sc_scalar : forall t, scalar (sc t) t.
Proof. intros t. exists Bare, None, None. reflexivity. Qed.

(** ** C74: the generator ends, and names what it defines *)

(** It takes at most one round for each type of the program, recursive or not. *)
Theorem C74_terminates : forall F env root t fuel, is_type env root t -> List.length env <= fuel ->
  exists file, generate_schema_file F env fuel root = Ok file.
Proof. intros F env root t fuel T L. exact (gen_ends F env root t T fuel L). Qed.
Print Assumptions C74_terminates.

(** Every type is defined once. *)
Theorem C74_once : forall F env root t fuel file, is_type env root t -> generate_schema_file F env fuel root = Ok file ->
  NoDup (map fst file).
Proof. intros F env root t fuel file T. exact (gen_names_once F env root t T fuel file). Qed.
Print Assumptions C74_once.

(** What is defined is a type that the root uses; and every such type is defined, if no two types of the program
    have the same identifier. *)
Theorem C74_used_partial : forall F env root t fuel file n, is_type env root t -> NoDup (map ut_name env) ->
  generate_schema_file F env fuel root = Ok file ->
  (file_defines file n <-> exists id u, used env root id /\ is_type env id u /\ ut_name u = n).
Proof.
  intros F env root t fuel file n T U G. split.
  - exact (gen_defined_used F env root t T fuel file n G).
  - intros (id & u & X & Y & <-). exact (gen_used_defined F env root t T fuel file id u U G X Y).
Qed.
Print Assumptions C74_used_partial.

(** Without that condition, what is defined is still used. *)
Theorem C74_only_used : forall F env root t fuel file n, is_type env root t ->
  generate_schema_file F env fuel root = Ok file -> file_defines file n ->
  exists id u, used env root id /\ is_type env id u /\ ut_name u = n.
Proof. intros F env root t fuel file n T. exact (gen_defined_used F env root t T fuel file n). Qed.
Print Assumptions C74_only_used.

(** A name in the file is defined there, unless it is [Schema] or that of an opaque type which is not taken for a
    text. *)
Theorem C74_closed_partial : forall F env root t fuel file n, is_type env root t ->
  generate_schema_file F env fuel root = Ok file -> file_names file n ->
  file_defines file n \/ n = lit "Schema" \/
  exists id u s b, (id = root \/ used env root id) /\ is_type env id u /\ def_has (ut_def u) s /\ opaque_in s b n /\
    ~ In n (if b then text_scalars else text_opaques).
Proof. intros F env root t fuel file n T. exact (gen_closed F env root t T fuel file n). Qed.
Print Assumptions C74_closed_partial.

(** A tree of named nodes, with a setting that is one of several, and other keys. *)
Local Definition ex_env : types :=
  [struct (lit "Node") [fld (lit "name") (HOpaque true (lit "String")); fld (lit "port") (HOption u16);
     mkuf (lit "kids") (HList (HPointer (HUser 0))) false (Some (lit "()")); fld (lit "mode") (HUser 1); flat (lit "rest") (HMap HText (HUser 2))];
   mkut (lit "Mode") (UEnum [mkuv (lit "off") false KUnit; mkuv (lit "size") false (KTuple [u16]);
     mkuv (lit "at") false (KStruct [fld (lit "x") HBool])]);
   mkut (lit "Pair") (UStruct (KTuple [HText; HFloat]));
   struct (lit "Alone") []].
Local Definition ex_file (F : Type) : schema_file F :=
  [(None, SObject _ [(named (lit "name"), SString _ None); (named (lit "port"), SOptional _ (SInt _ None));
      (named (lit "kids"), SDefault _ (lit "()") (SSeq _ (SType _ (Some (lit "Node"))))); (named (lit "mode"), SType _ (Some (lit "Mode")));
      (typed (lit "string"), SType _ (Some (lit "Pair")))]);
   (Some (lit "Pair"), STuple _ [SString _ None; SFloat _ None]);
   (Some (lit "Mode"), SEnum _ [(lit "off", SUnit _); (lit "size", SInt _ None); (lit "at", SObject _ [(named (lit "x"), SBool _)])]);
   (Some (lit "Node"), SObject _ [(named (lit "name"), SString _ None); (named (lit "port"), SOptional _ (SInt _ None));
      (named (lit "kids"), SDefault _ (lit "()") (SSeq _ (SType _ (Some (lit "Node"))))); (named (lit "mode"), SType _ (Some (lit "Mode")));
      (typed (lit "string"), SType _ (Some (lit "Pair")))])].
Example C74_example : forall F, generate_schema_file F ex_env 4 0 = Ok (ex_file F) /\ NoDup (map ut_name ex_env) /\
  used ex_env 0 0 /\ ~ file_defines (ex_file F) (lit "Alone").
Proof.
  intros F. splits.
  - vm_compute. reflexivity.
  - cbn [map ut_name ex_env struct]. nodups.
  - eapply u_root; [reflexivity | cbn [ut_def struct ex_env]; constructor; apply kh_field; right; right; left; reflexivity|].
    cbn [uf_shape]. apply m_list, m_pointer, m_user.
  - intros H. unfold file_defines, ex_file in H. cbn [map fst In] in H. cases; discriminate H.
Qed.

(** A file may name types that it does not define: those with a field of type [Schema], or of an opaque type with
    an identifier that is not on the list. *)
Theorem C74_closed_refuted : forall F, exists env root t fuel file n m, is_type env root t /\
  generate_schema_file F env fuel root = Ok file /\
  (file_names file n /\ ~ file_defines file n) /\ (file_names file m /\ ~ file_defines file m) /\ n = lit "Schema" /\ m = lit "DateTime<Utc>".
Proof.
  intros F. exists [struct (lit "Job") [fld (lit "shape") HSchema; fld (lit "at") (HOpaque true (lit "DateTime<Utc>"))]], 0.
  eexists. exists 1. eexists. exists (lit "Schema"), (lit "DateTime<Utc>"). split; [reflexivity|]. split; [vm_compute; reflexivity|].
  splits; try reflexivity.
  - eexists. eexists. split; [left; reflexivity|]. eapply part_child; [constructor|]. econstructor. left. vm_compute. reflexivity.
  - intros [H|[]]; discriminate H.
  - eexists. eexists. split; [left; reflexivity|]. eapply part_child; [constructor|]. econstructor. right. left. vm_compute. reflexivity.
  - intros [H|[]]; discriminate H.
Qed.
Print Assumptions C74_closed_refuted.

(** The generator ends, but the validator need not with what it generates: [struct Link(Option<Box<Link>>)] is
    unwrapped to a definition that refers to itself. *)
Theorem C74_usable_refuted : forall F parse_f64 f_ltb, exists env root t fuel file doc, is_type env root t /\
  generate_schema_file F env fuel root = Ok file /\
  forall f, validate_document F parse_f64 f_ltb file f doc = OutOfFuel.
Proof.
  intros F parse_f64 f_ltb. exists [mkut (lit "Link") (UStruct (KTuple [HOption (HPointer (HUser 0))]))], 0. eexists. exists 1. eexists. exists (sc (lit "x")).
  split; [reflexivity|]. split; [vm_compute; reflexivity|]. intros f. unfold validate_document. cbn [lookup_type].
  set (file := [_; _]).
  assert (G : forall f path, validate_value F parse_f64 f_ltb file f (sc (lit "x")) (SOptional _ (SType _ (Some (lit "Link")))) path = OutOfFuel /\
    validate_value F parse_f64 f_ltb file f (sc (lit "x")) (SType _ (Some (lit "Link"))) path = OutOfFuel).
  { clear f. induction f as [|f IH]; intros path; [split; reflexivity|]. split.
    - cbn [validate_value]. unfold validate_optional. cbn [is_unit sc]. apply IH.
    - cbn [validate_value]. unfold validate_type_ref. change (lookup_type F (Some (lit "Link")) file) with (Some (SOptional F (SType F (Some (lit "Link"))))).
      apply IH. }
  apply (G f []).
Qed.
Print Assumptions C74_usable_refuted.

(** ** C75: the documents of a type are accepted *)

(** Under the schema generated from a type, the validator ends on every document of that type and reports no
    error; if in the whole program
    - identifiers tell types apart,
    - opaque types have the identifiers of text types, and integers are at most 128 bits with sign,
    - fields of a struct have different names, none empty, and at most one is flattened, which is a map,
    - variants of an enum have different names, and none wraps a value that is written as the unit value. *)
Theorem C75_accepted_partial : forall F parse_f64 f_ltb env root t fuel file v,
  let reads := fun t => exists x : F, parse_f64 t = Some x in
  types_ok env reads -> is_type env root t ->
  generate_schema_file F env fuel root = Ok file ->
  doc_of env reads (HUser root) v ->
  exists f r, validate_document F parse_f64 f_ltb file f v = Ok r /\ v_errors r = [].
Proof. exact generated_accepts. Qed.
Print Assumptions C75_accepted_partial.

Local Definition ex_doc : value :=
  ob [(lit "name", sc (lit "a"));
      (lit "kids", sq [ob [(lit "name", sc (lit "b")); (lit "port", sc (lit "80")); (lit "mode", tagged (lit "size") (sc (lit "7")))]]);
      (lit "mode", tagged (lit "at") (ob [(lit "x", sc (lit "true"))]));
      (lit "extra", sq [sc (lit "k"); sc (lit "1.5")])].
Local Definition mode_fields : list ufield := [fld (lit "x") HBool].
Local Definition node_fields : list ufield :=
  [fld (lit "name") (HOpaque true (lit "String")); fld (lit "port") (HOption u16);
   mkuf (lit "kids") (HList (HPointer (HUser 0))) false (Some (lit "()")); fld (lit "mode") (HUser 1); flat (lit "rest") (HMap HText (HUser 2))].
Local Ltac fields := unfold fields_ok; splits;
  [ cbn [filter map uf_flat uf_name negb fld flat]; nodups
  | intros f I E; cbn [In] in I; cases; subst f; discriminate
  | cbn; lia
  | intros f I E; cbn [In] in I; cases; subst f; try discriminate E; do 2 eexists; reflexivity ].
Local Ltac plains := intros s H; inversion H as [? ? I|? f I]; subst; cbn [In] in I; cases; subst; cbn [uf_shape];
  repeat (constructor; try lia); try (cbn [In text_scalars]; tauto).
Lemma ex_ok : forall reads, types_ok ex_env reads.
Proof.
  intros reads. split; [cbn [map ut_name ex_env struct]; nodups|].
  intros t I. cbn [In ex_env] in I. cases; subst t; cbn [ut_def struct def_ok].
  - split; [plains | fields].
  - split; [cbn [map uv_name]; nodups|]. intros u I. cbn [In] in I. cases; subst u; cbn [uv_kind]; (split; [split|]).
    + intros s H. inversion H.
    + exact Logic.I.
    + discriminate.
    + plains.
    + exact Logic.I.
    + intros s [= <-] H. inversion H as [|? ? ? ? ? S| | | | | | | | | | |]; subst. destruct S as (k & a & b & [=]).
    + plains.
    + fields.
    + discriminate.
  - split; [plains | exact Logic.I].
  - split; [plains | fields].
Qed.
Local Ltac entries := intros k v d I; cbn [In map fst snd] in I; cases; injection I as <- <- <-.
Local Ltac field n := eapply ED_field with (f := nth n node_fields (fld [] HAny)); [cbn [In nth node_fields]; tauto | reflexivity | apply sc_scalar | cbn [uf_shape nth node_fields fld]].
Local Ltac gives n := exists (sc n); do 2 eexists; split; [cbn [In map]; tauto | apply sc_scalar].
Lemma int_of : forall t n, t <> [] -> forallb is_digit t = true -> digits_value t = n -> integer t (Z.of_N n).
Proof. intros t n A B C. apply int_plain. unfold decimal. splits; [exact A | apply Forall_forall, forallb_forall; exact B | exact C]. Qed.
Example C75_example : forall reads : str -> Prop, reads (lit "1.5") ->
  types_ok ex_env reads /\ doc_of ex_env reads (HUser 0) ex_doc.
Proof.
  intros reads R. split; [apply ex_ok|].
  assert (MODE : forall t p, kind_doc ex_env reads (uv_kind t) (Val None p None) -> In t [mkuv (lit "off") false KUnit; mkuv (lit "size") false (KTuple [u16]);
     mkuv (lit "at") false (KStruct [fld (lit "x") HBool])] -> doc_of ex_env reads (HUser 1) (Val (Some (uv_name t, None)) p None)).
  { intros t p K I. eapply D_user; [reflexivity|]. cbn [ut_def]. apply DD_variant; [exact I | | exact K].
    cbn [In] in I. cases; subst t; reflexivity. }
  assert (RQ : forall n, required ex_env node_fields n -> n = lit "name" \/ n = lit "mode").
  { intros n H. inversion H as [? f I FL D O|? f id t fs' m I FL SH]; subst; cbn [In node_fields] in I; cases; subst f; auto; try discriminate.
    exfalso. apply (O u16). reflexivity. }
  unfold ex_doc, ob. eapply D_user; [reflexivity|]. apply DD_struct. change [fld (lit "name") _; _; _; _; _] with node_fields. apply KD_struct.
  - entries.
    + field 0. eapply D_opaque, sc_scalar.
    + field 2. apply D_list. intros x [<-|[]]. apply D_pointer. eapply D_user; [reflexivity|]. apply DD_struct.
      change [fld (lit "name") _; _; _; _; _] with node_fields. apply KD_struct.
      * entries.
        -- field 0. eapply D_opaque, sc_scalar.
        -- field 1. apply D_some. eapply D_int; [apply sc_scalar | apply (int_of (lit "80") 80); [discriminate | reflexivity | reflexivity] | lia].
        -- field 3. apply (MODE (mkuv (lit "size") false (KTuple [u16]))); [|cbn [In]; tauto]. apply KD_newtype.
           eapply D_int; [apply sc_scalar | apply (int_of (lit "7") 7); [discriminate | reflexivity | reflexivity] | lia].
      * intros n H. destruct (RQ n H) as [-> | ->]; [gives (lit "name") | gives (lit "mode")].
    + field 3. apply (MODE (mkuv (lit "at") false (KStruct [fld (lit "x") HBool]))); [|cbn [In]; tauto]. apply KD_struct.
      * entries. eapply ED_field with (f := fld (lit "x") HBool); [cbn [In]; tauto | reflexivity | apply sc_scalar|].
        eapply D_bool; [apply sc_scalar | auto].
      * intros n H. inversion H as [? f I FL D O|? f id t fs' m I FL SH]; subst; cbn [In] in I; cases; subst f; [gives (lit "x") | discriminate].
    + eapply ED_map with (f := flat (lit "rest") (HMap HText (HUser 2))); [cbn [In node_fields]; tauto | reflexivity | reflexivity | apply sc_scalar | | |].
      * intros g I FL. cbn [In node_fields] in I. cases; subst g; discriminate.
      * eapply D_text, sc_scalar.
      * eapply D_user; [reflexivity|]. apply DD_struct. apply KD_tuple; [discriminate | reflexivity|].
        intros [|[|[|i]]] s x E1 E2; try discriminate; injection E1 as <-; injection E2 as <-; [eapply D_text | eapply D_float; [|exact R]]; apply sc_scalar.
  - intros n H. destruct (RQ n H) as [-> | ->]; [gives (lit "name") | gives (lit "mode")].
Qed.

(** *** Where documents of a type are rejected *)

(** A document of the type that the validator rejects. *)
Definition rejects F parse_f64 f_ltb (env : types) (root : nat) (v : value) (k : error_kind) : Prop :=
  exists t file r e,
    is_type env root t /\ generate_schema_file F env (List.length env) root = Ok file /\
    doc_of env (fun t => exists x : F, parse_f64 t = Some x) (HUser root) v /\
    validate_document F parse_f64 f_ltb file 9 v = Ok r /\ v_errors r = [e] /\ ve_kind e = k.
Local Ltac rejected := do 4 eexists; split; [reflexivity|]; split; [vm_compute; reflexivity|]; split;
  [|split; [vm_compute; reflexivity|]; split; reflexivity].
Local Ltac struct_doc := eapply D_user; [reflexivity|]; apply DD_struct, KD_struct.

(** The fields of a flattened struct: the generator means to copy them into the parent, but gets a reference, and
    emits it for all other keys; so each of those fields is expected to be the whole struct. *)
Theorem C75_flattened_refuted : forall F parse_f64 f_ltb, rejects F parse_f64 f_ltb
  [struct (lit "Extended") [flat (lit "common") (HUser 1); fld (lit "extra") HText]; struct (lit "Common") [fld (lit "name") HText]] 0
  (ob [(lit "name", sc (lit "a")); (lit "extra", sc (lit "b"))]) EExpectedObject.
Proof.
  intros F parse_f64 f_ltb. rejected. struct_doc.
  - entries.
    + eapply ED_inner with (f := flat (lit "common") (HUser 1)); [cbn [In]; tauto | reflexivity..|].
      eapply ED_field with (f := fld (lit "name") HText); [cbn [In]; tauto | reflexivity | apply sc_scalar | eapply D_text, sc_scalar].
    + eapply ED_field with (f := fld (lit "extra") HText); [cbn [In]; tauto | reflexivity | apply sc_scalar | eapply D_text, sc_scalar].
  - intros n H. inversion H as [? f I FL D O|? f id t fs' m I FL SH T TD RQ]; subst; cbn [In] in I; cases; subst f; try discriminate.
    + gives (lit "extra").
    + injection SH as <-. injection T as <-. injection TD as <-.
      inversion RQ as [? f I FL' D O|? f id t fs' m I FL' SH]; subst; cbn [In] in I; cases; subst f; try discriminate. gives (lit "name").
Qed.
Print Assumptions C75_flattened_refuted.

(** Two types with the same identifier (in different modules) get one definition. *)
Theorem C75_identifiers_refuted : forall F parse_f64 f_ltb, rejects F parse_f64 f_ltb
  [struct (lit "Pair") [fld (lit "a") (HUser 1); fld (lit "b") (HUser 2)];
   struct (lit "Config") [fld (lit "x") HText]; struct (lit "Config") []] 0
  (ob [(lit "a", ob [(lit "x", sc (lit "1"))]); (lit "b", ob [])]) (EMissingField (lit "x")).
Proof.
  intros F parse_f64 f_ltb. rejected. struct_doc.
  - entries.
    + eapply ED_field with (f := fld (lit "a") (HUser 1)); [cbn [In]; tauto | reflexivity | apply sc_scalar | cbn [uf_shape fld]]. struct_doc.
      * entries. eapply ED_field with (f := fld (lit "x") HText); [cbn [In]; tauto | reflexivity | apply sc_scalar | eapply D_text, sc_scalar].
      * intros n H. inversion H as [? f I FL D O|? f id t fs' m I FL SH]; subst; cbn [In] in I; cases; subst f; [gives (lit "x") | discriminate].
    + eapply ED_field with (f := fld (lit "b") (HUser 2)); [cbn [In]; tauto | reflexivity | apply sc_scalar | cbn [uf_shape fld]]. struct_doc.
      * intros k v d [].
      * intros n H. inversion H as [? f I FL D O|? f id t fs' m I FL SH]; subst; destruct I.
  - intros n H. inversion H as [? f I FL D O|? f id t fs' m I FL SH]; subst; cbn [In] in I; cases; subst f; try discriminate; [gives (lit "a") | gives (lit "b")].
Qed.
Print Assumptions C75_identifiers_refuted.

(** An opaque type whose identifier is not on the list: nothing at all is accepted for it. *)
Theorem C75_opaque_refuted : forall F parse_f64 f_ltb, rejects F parse_f64 f_ltb
  [struct (lit "Job") [fld (lit "at") (HOpaque true (lit "DateTime<Utc>"))]] 0
  (ob [(lit "at", sc (lit "2024-01-01"))]) (EUnknownType (lit "DateTime<Utc>")).
Proof.
  intros F parse_f64 f_ltb. rejected. struct_doc.
  - entries. eapply ED_field with (f := fld (lit "at") (HOpaque true (lit "DateTime<Utc>"))); [cbn [In]; tauto | reflexivity | apply sc_scalar | eapply D_opaque, sc_scalar].
  - intros n H. inversion H as [? f I FL D O|? f id t fs' m I FL SH]; subst; cbn [In] in I; cases; subst f; [gives (lit "at") | discriminate].
Qed.
Print Assumptions C75_opaque_refuted.

(** The larger half of [u128]. *)
Theorem C75_u128_refuted : forall F parse_f64 f_ltb, rejects F parse_f64 f_ltb
  [struct (lit "Hash") [fld (lit "sum") (HInt 0 (2 ^ 128 - 1))]] 0
  (ob [(lit "sum", sc (lit "170141183460469231731687303715884105728"))]) EInvalidValue.
Proof.
  intros F parse_f64 f_ltb. rejected. struct_doc.
  - entries. eapply ED_field with (f := fld (lit "sum") (HInt 0 (2 ^ 128 - 1))); [cbn [In]; tauto | reflexivity | apply sc_scalar |].
    eapply D_int; [apply sc_scalar | apply int_of with (n := (2 ^ 127)%N); [discriminate | reflexivity | vm_compute; reflexivity] | lia].
  - intros n H. inversion H as [? f I FL D O|? f id t fs' m I FL SH]; subst; cbn [In] in I; cases; subst f; [gives (lit "sum") | discriminate].
Qed.
Print Assumptions C75_u128_refuted.

(** A variant around [None], which is written as the tag alone. *)
Theorem C75_variant_refuted : forall F parse_f64 f_ltb, rejects F parse_f64 f_ltb
  [mkut (lit "Limit") (UEnum [mkuv (lit "max") false (KTuple [HOption u16])])] 0
  (Val (Some (lit "max", None)) PNone None) (ETypeMismatch (lit "optional") (lit "unit")).
Proof.
  intros F parse_f64 f_ltb. rejected. eapply D_user; [reflexivity|].
  eapply (DD_variant _ _ _ (mkuv (lit "max") false (KTuple [HOption u16]))); [left; reflexivity | reflexivity|]. apply KD_newtype, D_none.
Qed.
Print Assumptions C75_variant_refuted.

(** Two flattened maps with the same kind of key: the schema of the second replaces that of the first. *)
Theorem C75_two_maps_refuted : forall F parse_f64 f_ltb, rejects F parse_f64 f_ltb
  [struct (lit "Env") [flat (lit "flags") (HMap HText HBool); flat (lit "sizes") (HMap HText u16)]] 0
  (ob [(lit "debug", sc (lit "true"))]) EInvalidValue.
Proof.
  intros F parse_f64 f_ltb. rejected. struct_doc.
  - entries. eapply ED_map with (f := flat (lit "flags") (HMap HText HBool)); [cbn [In]; tauto | reflexivity | reflexivity | apply sc_scalar | | |].
    + intros g I FL. cbn [In] in I. cases; subst g; discriminate.
    + eapply D_text, sc_scalar.
    + eapply D_bool; [apply sc_scalar | auto].
  - intros n H. inversion H as [? f I FL D O|? f id t fs' m I FL SH]; subst; cbn [In] in I; cases; subst f; discriminate.
Qed.
Print Assumptions C75_two_maps_refuted.

(** *** Where other documents are accepted *)

(** The range of an integer type is not in the schema: a [u8] may be 300. *)
Theorem C75_only_refuted : forall F parse_f64 f_ltb, exists env root t file v r, 
  types_ok env (fun t => exists x : F, parse_f64 t = Some x) /\ is_type env root t /\
  generate_schema_file F env 1 root = Ok file /\
  validate_document F parse_f64 f_ltb file 9 v = Ok r /\ v_errors r = [] /\
  ~ doc_of env (fun t => exists x : F, parse_f64 t = Some x) (HUser root) v.
Proof.
  intros F parse_f64 f_ltb.
  exists [struct (lit "Pixel") [fld (lit "red") (HInt 0 255)]], 0. eexists. eexists. exists (ob [(lit "red", sc (lit "300"))]). eexists.
  split.
  { split; [cbn [map ut_name struct]; nodups|]. intros t [<-|[]]. cbn [ut_def struct def_ok]. split; [plains | fields]. }
  split; [reflexivity|]. split; [vm_compute; reflexivity|]. split; [vm_compute; reflexivity|]. split; [reflexivity|].
  intros D. inversion D as [| | | | | | | | | | | |? u ? U DD]; subst. injection U as <-. cbn [ut_def struct] in DD.
  inversion DD as [? ? K| |]; subst. inversion K as [| | |? ? ? ? E _]; subst.
  specialize (E _ _ _ (or_introl eq_refl)).
  inversion E as [? f ? ? I FL S DO|? f ? ? ? ? ? I FL SH|? f ? ? ? ? ? I FL SH]; subst; destruct I as [<-|[]]; try discriminate.
  cbn [uf_shape fld] in DO. inversion DO as [|? ? ? t n S2 IT R| | | | | | | | | | |]; subst.
  destruct S2 as (k & a & b & [= <- <- <- <-]).
  assert (n = 300%Z); [|subst; lia].
  pose proof (proj2 (parse_signed_spec (2 ^ 127)%Z (lit "300") n)) as P.
  assert (Q : parse_signed (2 ^ 127)%Z (lit "300") = Some n) by (apply P; split; [exact IT | lia]).
  vm_compute in Q. congruence.
Qed.
Print Assumptions C75_only_refuted.

(** A variant around a unit struct. *)
Theorem C75_unit_variant_refuted : forall F parse_f64 f_ltb, rejects F parse_f64 f_ltb
  [mkut (lit "Limit") (UEnum [mkuv (lit "none") false (KTuple [HUser 1])]); mkut (lit "Nothing") (UStruct KUnit)] 0
  (Val (Some (lit "none", None)) PNone None) (ETypeMismatch (lit "Nothing") (lit "unit")).
Proof.
  intros F parse_f64 f_ltb. rejected. eapply D_user; [reflexivity|].
  eapply (DD_variant _ _ _ (mkuv (lit "none") false (KTuple [HUser 1]))); [left; reflexivity | reflexivity|].
  apply KD_newtype. eapply D_user; [reflexivity|]. apply DD_struct, KD_unit.
Qed.
Print Assumptions C75_unit_variant_refuted.
