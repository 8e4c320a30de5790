(** Model of the schema generator (/repo/crates/facet-styx/src/schema_gen.rs 227-709).

    - A Rust type is described as facet describes it, by its shape; the shapes of the program's structs and
      enums are a table, and a shape refers to them by their place in it, so types may be recursive.
    - Hash maps are lists in the order of insertion. Doc comments and the meta block are left out.
    - The root is a struct or an enum (238-240; other roots go through [shape_to_schema] straight away).
    - [generating] is left out: for structs and enums both branches of 507-525 queue the type and emit the
      reference. (A type that is neither, under the identifier of a struct being generated, would be queued.)
    - The default value of a field is given as its text ([field_default_value] runs the default and
      serializes it). *)
From Coq Require Import String ZArith.
From Verif Require Import TreeModel SchemaModel.
Local Open Scope nat_scope.

(** ** Shapes (facet's [Shape], as far as 375-535 tell them apart) *)
Inductive shape :=
| HBool
| HInt (lo hi : Z)               (* an integer type with its range *)
| HFloat
| HText                          (* str, char *)
| HNever
| HOpaque (scalar : bool) (name : str) (* [UserType::Opaque], with [Def::Scalar] or without *)
| HOption (s : shape)
| HList (s : shape)              (* lists, arrays, sets, slices *)
| HMap (k v : shape)
| HResult (t e : shape)
| HPointer (s : shape)           (* a pointer whose pointee is known *)
| HMeta (s : shape)              (* a metadata container, by its value *)
| HUser (id : nat)               (* a struct or an enum *)
| HSchema                        (* [Schema] itself *)
| HAny.                          (* unions, pointers without pointee, what cannot be described *)

(** A field: its effective name, its shape, [is_flattened], the text of its default value. *)
Record ufield := mkuf { uf_name : str; uf_shape : shape; uf_flat : bool; uf_default : option str }.
(** [StructKind] with the fields. *)
Inductive ukind := KUnit | KTuple (l : list shape) | KStruct (l : list ufield).
(** A variant: its effective name, [is_other], its data. *)
Record uvariant := mkuv { uv_name : str; uv_other : bool; uv_kind : ukind }.
Inductive udef := UStruct (k : ukind) | UEnum (vs : list uvariant).
(** [type_identifier] and the type. *)
Record utype := mkut { ut_name : str; ut_def : udef }.
Definition types := list utype.

(** [HashMap::insert]: an equal key keeps its place and gets the new value. *)
Fixpoint put {K V} (eqb : K -> K -> bool) (k : K) (v : V) (l : list (K * V)) : list (K * V) :=
  match l with
  | [] => [(k, v)]
  | (k', v') :: r => if eqb k k' then (k', v) :: r else (k', v') :: put eqb k v r
  end.
Definition opt_str_eqb (a b : option str) : bool :=
  match a, b with Some x, Some y => str_eqb x y | None, None => true | _, _ => false end.
(** schema_types.rs 256-260. *)
Definition key_eqb (a b : obj_key) : bool := opt_str_eqb (k_value a) (k_value b) && opt_str_eqb (k_tag a) (k_tag b).
Definition has (n : str) (l : list str) : bool := existsb (str_eqb n) l.

(** [queued_types] and [pending_types] (317-325; the last pending type first). *)
Record gstate := mkg { queued : list str; pending : list nat }.

(** The names of scalars that are texts (463-468), and of others (524). *)
Definition text_scalars : list str :=
  [lit "String"; lit "str"; lit "Cow"; lit "PathBuf"; lit "Path"; lit "OsString"; lit "OsStr"; lit "Url"; lit "Uri"; lit "Uuid";
   lit "Duration"; lit "SystemTime"; lit "Instant"; lit "IpAddr"; lit "Ipv4Addr"; lit "Ipv6Addr"; lit "SocketAddr";
   lit "SocketAddrV4"; lit "SocketAddrV6"].
Definition text_opaques : list str := [lit "String"; lit "str"; lit "&str"; lit "Cow"; lit "PathBuf"; lit "Path"].
Definition text_names (scalar : bool) : list str := if scalar then text_scalars else text_opaques.

Section Gen.
Variable F : Type.
Notation schema := (schema F).
Variable env : types.

(** [queue_type] (336-348). *)
Definition queue_type (id : nat) (name : str) (st : gstate) : gstate :=
  if has name (queued st) then st else mkg (name :: queued st) (id :: pending st).

(** [schema_to_tag_name] (302-315). *)
Definition schema_to_tag_name (s : schema) : str :=
  match s with
  | SString _ _ => lit "string" | SInt _ _ => lit "int" | SFloat _ _ => lit "float" | SBool _ => lit "bool"
  | SUnit _ => lit "unit" | SAny _ => lit "any"
  | SType _ n => match n with Some n => n | None => [] end
  | _ => lit "any"
  end.

(** [shape_to_schema] (375-429) with [type_to_schema] (431-456), [scalar_to_schema] (458-476),
    [primitive_to_schema] (478-492) and [user_type_to_schema] (494-535). *)
Fixpoint shape_to_schema (s : shape) (st : gstate) : schema * gstate :=
  match s with
  | HBool => (SBool _, st)
  | HInt _ _ => (SInt _ None, st)
  | HFloat => (SFloat _ None, st)
  | HText => (SString _ None, st)
  | HNever => (SUnit _, st)
  | HOpaque scalar n => (if has n (text_names scalar) then SString _ None else SType _ (Some n), st)
  | HOption s => let (i, st) := shape_to_schema s st in (SOptional _ i, st)
  | HList s => let (i, st) := shape_to_schema s st in (SSeq _ i, st)
  | HMap k v =>
      let (a, st) := shape_to_schema k st in
      let (b, st) := shape_to_schema v st in
      (SMap _ [a; b], st)
  | HResult t e =>
      let (a, st) := shape_to_schema t st in
      let (b, st) := shape_to_schema e st in
      (SEnum _ [(lit "ok", a); (lit "err", b)], st)
  | HPointer s => shape_to_schema s st
  | HMeta s => shape_to_schema s st
  | HUser id =>
      match nth_error env id with
      | Some t => (SType _ (Some (ut_name t)), queue_type id (ut_name t) st)
      | None => (SAny _, st) (* no such type in the program *)
      end
  | HSchema => (SType _ (Some (lit "Schema")), st)
  | HAny => (SAny _, st)
  end.

(** The elements of a tuple (549-553, 676-681). *)
Fixpoint shapes_to_schemas (l : list shape) (st : gstate) : list schema * gstate :=
  match l with
  | [] => ([], st)
  | s :: r =>
      let (a, st) := shape_to_schema s st in
      let (b, st) := shapes_to_schemas r st in
      (a :: b, st)
  end.

(** [ObjectKey::named], [typed], [unit] (schema_types.rs 200-223). *)
Definition named (n : str) : obj_key := mkkey (Some n) None.
Definition typed (t : str) : obj_key := mkkey None (Some t).
Definition unit_key : obj_key := mkkey None (Some []).

(** What a field adds to the object (577-647). *)
Definition add_field (f : ufield) (s : schema) (fields : list (obj_key * schema)) : list (obj_key * schema) :=
  if uf_flat f then
    match s with
    | SMap _ [v] => put key_eqb (typed (lit "string")) v fields
    | SMap _ (k :: v :: _) => put key_eqb (typed (schema_to_tag_name k)) v fields
    | SObject _ inner => fold_left (fun acc p => put key_eqb (fst p) (snd p) acc) inner fields
    | other => put key_eqb unit_key other fields
    end
  else
    let s := match uf_default f with Some d => SDefault _ d s | None => s end in
    put key_eqb (match uf_name f with [] => unit_key | n => named n end) s fields.

(** The loop over the fields (557-648). *)
Fixpoint fields_to_object (l : list ufield) (acc : list (obj_key * schema)) (st : gstate) : list (obj_key * schema) * gstate :=
  match l with
  | [] => (acc, st)
  | f :: r =>
      let (s, st) := shape_to_schema (uf_shape f) st in
      fields_to_object r (add_field f s acc) st
  end.

(** [struct_to_schema] (537-652); the kinds of a variant are treated alike (670-682). *)
Definition struct_to_schema (k : ukind) (st : gstate) : schema * gstate :=
  match k with
  | KUnit => (SUnit _, st)
  | KTuple [s] => shape_to_schema s st
  | KTuple l => let (ss, st) := shapes_to_schemas l st in (STuple _ ss, st)
  | KStruct l => let (fs, st) := fields_to_object l [] st in (SObject _ fs, st)
  end.

(** [enum_to_schema] (654-709). *)
Fixpoint variants_to_enum (vs : list uvariant) (acc : list (str * schema)) (st : gstate) : list (str * schema) * gstate :=
  match vs with
  | [] => (acc, st)
  | v :: r =>
      let (s, st) := struct_to_schema (uv_kind v) st in
      variants_to_enum r (put str_eqb (uv_name v) s acc) st
  end.
Definition enum_to_schema (vs : list uvariant) (st : gstate) : schema * gstate :=
  if existsb uv_other vs then (SAny _, st)
  else let (l, st) := variants_to_enum vs [] st in (SEnum _ l, st).

(** [generate_type_definition] (357-372). *)
Definition type_definition (d : udef) (st : gstate) : schema * gstate :=
  match d with
  | UStruct k => struct_to_schema k st
  | UEnum vs => enum_to_schema vs st
  end.

(** [generate_schema_file_inner] (230-263): the root, then what is pending, the last one first. *)
Fixpoint generate_pending (fuel : nat) (file : schema_file F) (st : gstate) : res (schema_file F) :=
  match pending st with
  | [] => Ok file
  | id :: p =>
      match fuel with
      | O => OutOfFuel
      | S fuel =>
          let st := mkg (queued st) p in
          match nth_error env id with
          | None => generate_pending fuel file st
          | Some t =>
              match lookup_type F (Some (ut_name t)) file with
              | Some _ => generate_pending fuel file st
              | None =>
                  let (s, st) := type_definition (ut_def t) st in
                  generate_pending fuel (file ++ [(Some (ut_name t), s)]) st
              end
          end
      end
  end.
Definition generate_schema_file (fuel : nat) (root : nat) : res (schema_file F) :=
  match nth_error env root with
  | None => Ok []
  | Some t =>
      let (s, st) := type_definition (ut_def t) (mkg [] []) in
      generate_pending fuel [(None, s)] st
  end.
End Gen.
