(** What it means for a document to conform to a schema, after
    /repo/docs/content/reference/spec/schema.md, and the points at which the validator reads that text
    differently. *)
From Coq Require Import String ZArith.
From Verif Require Import TreeModel CliSpec SchemaModel.
Local Open Scope nat_scope.

(** ** Parts of schemas *)
Section Schemas.
Variable F : Type.
Notation schema := (schema F).
Notation schema_file := (schema_file F).

(** The schemas that a schema is directly made of. *)
Inductive child : schema -> schema -> Prop :=
| ch_field : forall fs k s, In (k, s) fs -> child s (SObject _ fs)
| ch_seq : forall s, child s (SSeq _ s)
| ch_tuple : forall l s, In s l -> child s (STuple _ l)
| ch_map : forall l s, In s l -> child s (SMap _ l)
| ch_union : forall l s, In s l -> child s (SUnion _ l)
| ch_optional : forall s, child s (SOptional _ s)
| ch_enum : forall vs n s, In (n, s) vs -> child s (SEnum _ vs)
| ch_one_of : forall s a, child s (SOneOf _ s a)
| ch_flatten : forall s, child s (SFlatten _ s)
| ch_default : forall d s, child s (SDefault _ d s)
| ch_deprecated : forall r s, child s (SDeprecated _ r s).

(** The schemas met when working through [root]: its parts and the file's definitions. *)
Inductive occurs (file : schema_file) (root : schema) : schema -> Prop :=
| oc_root : occurs file root root
| oc_def : forall n s, In (n, s) file -> occurs file root s
| oc_child : forall a s, occurs file root s -> child a s -> occurs file root a.

(** Hash maps have each key once; a key of an object schema is a name or a tag. *)
Definition distinct_keys (s : schema) : Prop :=
  match s with
  | SObject _ fs => NoDup (map fst fs) /\ Forall (fun p => k_value (fst p) = None \/ k_tag (fst p) = None) fs
  | SEnum _ vs => NoDup (map fst vs)
  | _ => True
  end.
Definition well_formed (file : schema_file) (root : schema) : Prop :=
  NoDup (map fst file) /\ forall s, occurs file root s -> distinct_keys s.

(** Checking a value against the second may need checking the very same value against the first. *)
Inductive same_value (file : schema_file) : schema -> schema -> Prop :=
| sv_union : forall l s, In s l -> same_value file s (SUnion _ l)
| sv_optional : forall s, same_value file s (SOptional _ s)
| sv_one_of : forall s a, same_value file s (SOneOf _ s a)
| sv_flatten : forall s, same_value file s (SFlatten _ s)
| sv_default : forall d s, same_value file s (SDefault _ d s)
| sv_deprecated : forall r s, same_value file s (SDeprecated _ r s)
| sv_type : forall n s, In (Some n, s) file -> same_value file s (SType _ (Some n)).

(** ** Texts *)

(** Integers: an optional sign and digits. *)
Inductive integer : str -> Z -> Prop :=
| int_plain : forall s n, decimal s n -> integer s (Z.of_N n)
| int_plus : forall s n, decimal s n -> integer (43%N :: s) (Z.of_N n)
| int_minus : forall s n, decimal s n -> integer (45%N :: s) (- Z.of_N n)%Z.

(** JSON's numbers. *)
Definition digits (s : str) : Prop := s <> [] /\ Forall (fun c => is_digit c = true) s.
Inductive json_number : str -> Prop :=
| json_num : forall sign int frac exp,
    (sign = [] \/ sign = lit "-") -> digits int -> canonical int ->
    (frac = [] \/ exists d, frac = cDOT :: d /\ digits d) ->
    (exp = [] \/ exists e g d, exp = e :: g ++ d /\ (e = 69 \/ e = 101)%N /\
       (g = [] \/ g = lit "+" \/ g = lit "-") /\ digits d) ->
    json_number (sign ++ int ++ frac ++ exp).

(** ** Conformance *)

(** Where the validator departs from schema.md; all [false] is schema.md. *)
Record dialect := mkdialect {
  any_tag : bool;        (* a tag on a scalar, an object or a sequence is no part of its type *)
  byte_length : bool;    (* lengths count UTF-8 bytes, not characters *)
  no_pattern : bool;     (* patterns are not looked at *)
  small_int : bool;      (* integers have 128 bits *)
  rust_float : bool;     (* floats are what Rust reads as f64 *)
  unit_absent : bool;    (* the unit value is fine where an @optional value is *)
  direct_absent : bool;  (* only fields whose schema is itself @optional or @default may be absent *)
  nested_flatten : bool; (* a flattened field is an ordinary field *)
  unit_is_empty : bool;  (* the unit key is the key with the empty name *)
  text_map_keys : bool;  (* keys of maps are untagged scalars *)
  fallback : bool;       (* a scalar without a tag may be a variant of scalar type *)
  direct_unit : bool;    (* a tag without payload only fits variants written @unit or @ *)
  empty_one_of : bool    (* an empty list of allowed values allows all *)
}.
Definition schema_md : dialect := mkdialect false false false false false false false false false false false false false.
Definition validator : dialect := mkdialect true true true true true true true true true true true true true.

Variable parse_f64 : str -> option F.
Variable f_ltb : F -> F -> bool.
(** ECMAScript patterns: [matches p t], [p] matches all of [t]. *)
Variable matches : str -> str -> Prop.
Variable D : dialect.
Variable file : schema_file.

(** The value is a scalar, object or sequence. *)
Definition tag_ok (t : option (str * option span)) : Prop := any_tag D = true \/ t = None.
Inductive is_text : value -> str -> Prop :=
| is_text_intro : forall t x k a b, tag_ok t -> is_text (Val t (PScalar x k a) b) x.
Inductive is_object : value -> list entry -> Prop :=
| is_object_intro : forall t es a b, tag_ok t -> is_object (Val t (PObj es a) b) es.
Inductive is_sequence : value -> list value -> Prop :=
| is_sequence_intro : forall t l a b, tag_ok t -> is_sequence (Val t (PSeq l a) b) l.
Inductive is_nothing : value -> Prop :=
| is_nothing_intro : forall b, is_nothing (Val None PNone b).

Definition str_len (t : str) : nat := if byte_length D then blen t else List.length t.
Definition string_ok (c : option string_c) (t : str) : Prop :=
  forall c0, c = Some c0 ->
    (forall m, min_len c0 = Some m -> m <= str_len t) /\
    (forall m, max_len c0 = Some m -> str_len t <= m) /\
    (no_pattern D = false -> forall p, pattern c0 = Some p -> matches p t).
Definition int_ok (c : option int_c) (n : Z) : Prop :=
  (small_int D = true -> (- 2 ^ 127 <= n < 2 ^ 127)%Z) /\
  forall c0, c = Some c0 ->
    (forall m, i_min c0 = Some m -> (m <= n)%Z) /\ (forall m, i_max c0 = Some m -> (n <= m)%Z).
Definition float_ok (c : option (float_c F)) (t : str) : Prop :=
  (rust_float D = false -> json_number t) /\
  exists x, parse_f64 t = Some x /\
  forall c0, c = Some c0 ->
    (forall m, f_min _ c0 = Some m -> f_ltb x m = false) /\ (forall m, f_max _ c0 = Some m -> f_ltb m x = false).

(** The fields of an object: its own and those of the types it flattens. *)
Inductive object_type : schema -> list (obj_key * schema) -> Prop :=
| ot_object : forall fs, object_type (SObject _ fs) fs
| ot_alias : forall n s fs, In (Some n, s) file -> object_type s fs -> object_type (SType _ (Some n)) fs.
Definition flattens (s : schema) : Prop := exists t, s = SFlatten _ t.
Inductive field : list (obj_key * schema) -> str -> schema -> Prop :=
| field_own : forall fs n s,
    In (mkkey (Some n) None, s) fs -> (nested_flatten D = false -> ~ flattens s) -> field fs n s
| field_inlined : forall fs k t fs' n s, nested_flatten D = false ->
    In (k, SFlatten _ t) fs -> object_type t fs' -> field fs' n s -> field fs n s.

(** The entry for all other keys: the first one, should there be several. *)
Definition catch_all (fs : list (obj_key * schema)) (s : schema) : Prop :=
  exists a k b, fs = a ++ (k, s) :: b /\ k_tag k <> None /\ Forall (fun p => k_tag (fst p) = None) a.

(** The name of a key; the unit key has none. *)
Inductive key_name : value -> option str -> Prop :=
| kn_text : forall x k a b, key_name (Val None (PScalar x k a) b) (Some x)
| kn_unit : forall b, key_name (Val None PNone b) (if unit_is_empty D then Some [] else None).
(** The schema for the value at a key. *)
Definition entry_schema (fs : list (obj_key * schema)) (key : value) (s : schema) : Prop :=
  exists name, key_name key name /\
    ((exists n, name = Some n /\ field fs n s) \/
     (forall n s', name = Some n -> ~ field fs n s') /\ catch_all fs s).

(** The schemas that absence matches. *)
Inductive absent_ok : schema -> Prop :=
| ab_optional : forall s, absent_ok (SOptional _ s)
| ab_default : forall d s, absent_ok (SDefault _ d s)
| ab_deprecated : forall r s, direct_absent D = false -> absent_ok s -> absent_ok (SDeprecated _ r s)
| ab_union : forall l s, direct_absent D = false -> In s l -> absent_ok s -> absent_ok (SUnion _ l)
| ab_type : forall n s, direct_absent D = false -> In (Some n, s) file -> absent_ok s -> absent_ok (SType _ (Some n)).
Definition present (n : str) (es : list entry) : Prop :=
  exists x k a b v d, x = n /\ In (Ent (Val None (PScalar x k a) b) v d) es.

(** Scalars that fit a variant of scalar type. *)
Definition scalar_variant (t : str) (s : schema) : Prop :=
  match s with
  | SString _ _ => True
  | SInt _ _ => exists n, integer t n /\ (- 2 ^ 63 <= n < 2 ^ 63)%Z
  | SFloat _ _ => parse_f64 t <> None
  | SBool _ => t = lit "true" \/ t = lit "false"
  | _ => False
  end.

Inductive conforms : value -> schema -> Prop :=
| c_string : forall v t c, is_text v t -> string_ok c t -> conforms v (SString _ c)
| c_int : forall v t n c, is_text v t -> integer t n -> int_ok c n -> conforms v (SInt _ c)
| c_float : forall v t c, is_text v t -> float_ok c t -> conforms v (SFloat _ c)
| c_bool : forall v t, is_text v t -> t = lit "true" \/ t = lit "false" -> conforms v (SBool _)
| c_unit : forall v, is_nothing v -> conforms v (SUnit _)
| c_any : forall v, conforms v (SAny _)
| c_object : forall v es fs, is_object v es ->
    (forall k x d, In (Ent k x d) es -> exists s, entry_schema fs k s /\ conforms x s) ->
    (forall n s, field fs n s -> absent_ok s \/ present n es) ->
    conforms v (SObject _ fs)
| c_seq : forall v l s, is_sequence v l -> (forall x, In x l -> conforms x s) -> conforms v (SSeq _ s)
| c_tuple : forall v l ss, is_sequence v l -> List.length l = List.length ss ->
    (forall i x s, nth_error l i = Some x -> nth_error ss i = Some s -> conforms x s) -> conforms v (STuple _ ss)
| c_map1 : forall v es s, is_object v es ->
    (forall k x d, In (Ent k x d) es -> (exists t, as_str k = Some t) /\ conforms x s) -> conforms v (SMap _ [s])
| c_map2 : forall v es ks s, is_object v es ->
    (forall k x d, In (Ent k x d) es ->
       (text_map_keys D = true -> exists t, as_str k = Some t) /\ conforms k ks /\ conforms x s) ->
    conforms v (SMap _ [ks; s])
| c_union : forall v l s, In s l -> conforms v s -> conforms v (SUnion _ l)
| c_optional : forall v s, conforms v s -> conforms v (SOptional _ s)
| c_optional_unit : forall v s, unit_absent D = true -> is_nothing v -> conforms v (SOptional _ s)
| c_variant : forall tag ts p sp s vs, In (tag, s) vs -> p <> PNone -> conforms (Val None p None) s ->
    conforms (Val (Some (tag, ts)) p sp) (SEnum _ vs)
| c_variant_unit : forall tag ts sp s vs, direct_unit D = false -> In (tag, s) vs ->
    conforms (Val None PNone None) s -> conforms (Val (Some (tag, ts)) PNone sp) (SEnum _ vs)
| c_variant_absent : forall tag ts sp s vs, direct_unit D = false -> In (tag, s) vs ->
    absent_ok s -> conforms (Val (Some (tag, ts)) PNone sp) (SEnum _ vs)
| c_variant_direct : forall tag ts sp s vs, direct_unit D = true -> In (tag, s) vs ->
    s = SUnit _ \/ s = SType _ None \/ s = SType _ (Some (lit "unit")) ->
    conforms (Val (Some (tag, ts)) PNone sp) (SEnum _ vs)
| c_fallback : forall t k a b before n s after, fallback D = true ->
    scalar_variant t s -> Forall (fun p => ~ scalar_variant t (snd p)) before ->
    conforms (Val None (PScalar t k a) b) s ->
    conforms (Val None (PScalar t k a) b) (SEnum _ (before ++ (n, s) :: after))
| c_one_of : forall v s t allowed, conforms v s -> is_text v t -> In t allowed -> conforms v (SOneOf _ s allowed)
| c_one_of_all : forall v s, empty_one_of D = true -> conforms v s -> conforms v (SOneOf _ s [])
| c_flatten : forall v s, nested_flatten D = true -> conforms v s -> conforms v (SFlatten _ s)
| c_default : forall v d s, conforms v s -> conforms v (SDefault _ d s)
| c_deprecated : forall v r s, conforms v s -> conforms v (SDeprecated _ r s)
| c_literal : forall v t, is_text v t -> conforms v (SLiteral _ t)
| c_nothing : forall v, is_nothing v -> conforms v (SType _ None)
| c_type : forall v n s, In (Some n, s) file -> conforms v s -> conforms v (SType _ (Some n)).

(** ** Documents and schemas on which [D] and the validator do not disagree *)

(** The values inside a value: items, keys, values, and what is left without the tag. *)
Inductive inside : value -> value -> Prop :=
| in_self : forall v, inside v v
| in_item : forall w x t l a b, In x l -> inside w x -> inside w (Val t (PSeq l a) b)
| in_key : forall w k x d t es a b, In (Ent k x d) es -> inside w k -> inside w (Val t (PObj es a) b)
| in_value : forall w k x d t es a b, In (Ent k x d) es -> inside w x -> inside w (Val t (PObj es a) b)
| in_untagged : forall w t p b, inside w (Val None p None) -> inside w (Val (Some t) p b).

Definition value_ok (w : value) : Prop :=
  (any_tag D = false -> v_tag w = None \/ v_payload w = PNone) /\
  (forall t, scalar_text w = Some t ->
     (byte_length D = false -> Forall (fun c => (c < 128)%N) t) /\
     (small_int D = false -> forall n, integer t n -> (- 2 ^ 127 <= n < 2 ^ 127)%Z) /\
     (rust_float D = false -> parse_f64 t <> None -> json_number t)).

Definition no_payload_variant (s : schema) : Prop :=
  s = SUnit _ \/ s = SType _ None \/ s = SType _ (Some (lit "unit")).
Definition node_ok (s : schema) : Prop :=
  match s with
  | SString _ (Some c) => no_pattern D = true \/ pattern c = None
  | SObject _ fs =>
      (direct_absent D = true \/ forall n s, field fs n s -> absent_ok s ->
        (exists s', s = SOptional _ s') \/ (exists d s', s = SDefault _ d s')) /\
      (unit_is_empty D = true \/ forall s, ~ field fs [] s)
  | SMap _ [ks; _] =>
      text_map_keys D = true \/
      any_tag D = false /\ ((exists c, ks = SString _ c) \/ (exists c, ks = SInt _ c) \/ ks = SBool _)
  | SEnum _ vs =>
      (fallback D = true \/ forall n s t, In (n, s) vs -> ~ scalar_variant t s) /\
      (direct_unit D = true \/ forall n s, In (n, s) vs ->
         (conforms (Val None PNone None) s \/ absent_ok s <-> no_payload_variant s))
  | SOneOf _ _ allowed => empty_one_of D = true \/ allowed <> []
  | SFlatten _ _ => nested_flatten D = true
  | _ => True
  end.
Definition undisputed (root : schema) (v : value) : Prop :=
  (forall w, inside w v -> value_ok w) /\
  (forall s, occurs file root s -> node_ok s) /\
  (unit_absent D = true \/ (forall w, inside w v -> ~ is_nothing w) \/
   (forall s, ~ occurs file root (SOptional _ s))).

Definition document_conforms (doc : value) : Prop := exists root, In (None, root) file /\ conforms doc root.
End Schemas.
