(** Specification of the Go generator: what the generated names, types and tests should be. *)
From Coq Require Import String ZArith.
From Verif Require Import TreeModel SchemaModel CliSpec GoModel.
Local Open Scope nat_scope.

(** ** Names *)

Definition sep (c : char) : Prop := c = 95%N \/ c = 45%N.

(** [pascal_of up s t]: [t] is [s] with the separators left out and the first character after each of them,
    and at the start, in upper case. *)
Inductive pascal_of (up : char -> str) : str -> str -> Prop :=
| PO_end : pascal_of up [] []
| PO_sep : forall c s t, sep c -> pascal_of up s t -> pascal_of up (c :: s) t
| PO_word : forall c w s t, Forall (fun x => ~ sep x) (c :: w) -> (forall x r, s = x :: r -> sep x) ->
    pascal_of up s t -> pascal_of up (c :: w ++ s) (up c ++ w ++ t).

Definition lower_letter (c : char) : Prop := (97 <= c <= 122)%N.
Definition upper_letter (c : char) : Prop := (65 <= c <= 90)%N.
Definition digit (c : char) : Prop := (48 <= c <= 57)%N.
Definition letter_digit (c : char) : Prop := lower_letter c \/ upper_letter c \/ digit c.

(** The mapping to upper case, on ASCII letters and digits. *)
Definition upper_ascii (up : char -> str) : Prop :=
  (forall c, lower_letter c -> up c = [(c - 32)%N]) /\ (forall c, upper_letter c \/ digit c -> up c = [c]).

(** A name that starts with a letter and goes on with letters, digits and separators. *)
Definition field_name (s : str) : Prop :=
  exists c r, s = c :: r /\ (lower_letter c \/ upper_letter c) /\ Forall (fun x => letter_digit x \/ sep x) r.
(** A Go identifier seen outside its package. *)
Definition exported (s : str) : Prop := exists c r, s = c :: r /\ upper_letter c /\ Forall letter_digit r.

Section Spec.
Variable F : Type.
Variable up : char -> str.

Notation schema := (schema F).

(** ** Schemas *)

(** [s] is [c] inside any number of [@default] and [@optional]; [o]: there is an [@optional]. *)
Inductive peel : schema -> bool -> schema -> Prop :=
| PL_default : forall d s o c, peel s o c -> peel (SDefault _ d s) o c
| PL_optional : forall s o c, peel s o c -> peel (SOptional _ s) true c
| PL_core : forall s, (forall d i, s <> SDefault _ d i) -> (forall i, s <> SOptional _ i) -> peel s false s.

(** [s] is [c] inside any number of [@default], [@flatten] and [@deprecated]. *)
Inductive strip : schema -> schema -> Prop :=
| ST_default : forall d s c, strip s c -> strip (SDefault _ d s) c
| ST_flatten : forall s c, strip s c -> strip (SFlatten _ s) c
| ST_deprecated : forall d s c, strip s c -> strip (SDeprecated _ d s) c
| ST_object : forall fs, strip (SObject _ fs) (SObject _ fs)
| ST_enum : forall vs, strip (SEnum _ vs) (SEnum _ vs).

(** ** Go types *)

(** The text of a pointer, slice or map type. *)
Definition has_nil (t : str) : Prop := exists u, t = lit "*" ++ u \/ t = lit "[" ++ u \/ t = lit "map[" ++ u.
(** [t'] is [t] with room for a missing value, if that is wanted. *)
Inductive opt_type : bool -> str -> str -> Prop :=
| OT_no : forall t, opt_type false t t
| OT_nil : forall t, has_nil t -> opt_type true t t
| OT_star : forall t, ~ has_nil t -> opt_type true t (lit "*" ++ t).

(** The Go type for values of a schema. *)
Inductive type_for : schema -> str -> Prop :=
| TF_string : forall c, type_for (SString _ c) (lit "string")
| TF_int : forall c, type_for (SInt _ c) (lit "int64")
| TF_float : forall c, type_for (SFloat _ c) (lit "float64")
| TF_bool : type_for (SBool _) (lit "bool")
| TF_unit : type_for (SUnit _) (lit "struct{}")
| TF_any : type_for (SAny _) (lit "interface{}")
| TF_object : forall fs, type_for (SObject _ fs) (lit "map[string]interface{}")
| TF_seq : forall s t, type_for s t -> type_for (SSeq _ s) (lit "[]" ++ t)
| TF_tuple0 : type_for (STuple _ []) (lit "[]interface{}")
| TF_tuple : forall s l t, type_for s t -> type_for (STuple _ (s :: l)) (lit "[]" ++ t)
| TF_map0 : type_for (SMap _ []) (lit "map[string]interface{}")
| TF_map1 : forall k t, type_for k t -> type_for (SMap _ [k]) (lit "map[" ++ t ++ lit "]interface{}")
| TF_map : forall k v l t u, type_for k t -> type_for v u -> type_for (SMap _ (k :: v :: l)) (lit "map[" ++ t ++ lit "]" ++ u)
| TF_union : forall l, type_for (SUnion _ l) (lit "interface{}")
| TF_optional : forall s t t', type_for s t -> opt_type true t t' -> type_for (SOptional _ s) t'
| TF_enum : forall vs, type_for (SEnum _ vs) (lit "string")
| TF_oneof : forall s l, type_for (SOneOf _ s l) (lit "interface{}")
| TF_flatten : forall s t, type_for s t -> type_for (SFlatten _ s) t
| TF_default : forall d s t, type_for s t -> type_for (SDefault _ d s) t
| TF_deprecated : forall d s t, type_for s t -> type_for (SDeprecated _ d s) t
| TF_literal : forall x, type_for (SLiteral _ x) (lit "string")
| TF_named : forall n t, pascal_of up n t -> type_for (SType _ (Some n)) t
| TF_unnamed : type_for (SType _ None) (lit "interface{}").

(** ** Type declarations *)

(** A struct called [p] for an object with the fields [fs], in a program with the declarations [D]: a field for
    each named one, in the order of the schema; inner objects have structs of their own, called by the path. *)
Inductive struct_for (D : str -> option (gotype F)) : str -> list (obj_key * schema) -> list (gofield F) -> Prop :=
| SF_nil : forall p, struct_for D p [] []
| SF_skip : forall p k s r l, k_value k = None -> struct_for D p r l -> struct_for D p ((k, s) :: r) l
| SF_field : forall p k n s r f l, k_value k = Some n -> field_for D p n s f -> struct_for D p r l ->
    struct_for D p ((k, s) :: r) (f :: l)
with field_for (D : str -> option (gotype F)) : str -> str -> schema -> gofield F -> Prop :=
| FF_object : forall p n s o fs q gl t, peel s o (SObject _ fs) -> pascal_of up n q ->
    D (p ++ q) = Some (GStruct gl) -> struct_for D (p ++ q) fs gl -> opt_type o (p ++ q) t ->
    field_for D p n s (mkgf q n t o None)
| FF_other : forall p n s o c q t t' k, peel s o c -> (forall fs, c <> SObject _ fs) -> pascal_of up n q ->
    type_for c t -> opt_type o t t' -> field_for D p n s (mkgf q n t' o k).

(** The names of the types that a schema file calls for: its own and those of inner objects. *)
Definition struct_path (p n : str) : str := p ++ pascal up n.
Fixpoint nested_names (p n : str) (s : schema) {struct s} : list str :=
  match s with
  | SDefault _ _ i | SOptional _ i => nested_names p n i
  | SObject _ fs =>
    struct_path p n ::
    (fix go (fs : list (obj_key * schema)) : list str :=
       match fs with
       | [] => []
       | (k, x) :: r => match k_value k with Some m => nested_names (struct_path p n) m x | None => [] end ++ go r
       end) fs
  | _ => []
  end.
Fixpoint fields_names (p : str) (fs : list (obj_key * schema)) : list str :=
  match fs with
  | [] => []
  | (k, x) :: r => match k_value k with Some m => nested_names p m x | None => [] end ++ fields_names p r
  end.
Fixpoint inner_names (p : str) (s : schema) : list str :=
  match s with
  | SObject _ fs => fields_names p fs
  | SDefault _ _ i | SFlatten _ i | SDeprecated _ _ i => inner_names p i
  | _ => []
  end.
Definition type_names (e : option str * schema) : list str :=
  reg_name (fst e) :: inner_names (reg_name (fst e)) (snd e).
Definition all_names (sf : schema_file F) : list str := flat_map type_names sf.

(** ** Go type expressions over the declared names [D]; the keys of maps are of a basic type. *)
Definition basic (t : str) : Prop := In t [lit "string"; lit "int64"; lit "float64"; lit "bool"].
Inductive go_type_text (D : str -> Prop) : str -> Prop :=
| GT_basic : forall t, basic t -> go_type_text D t
| GT_unit : go_type_text D (lit "struct{}")
| GT_any : go_type_text D (lit "interface{}")
| GT_name : forall n, D n -> go_type_text D n
| GT_slice : forall t, go_type_text D t -> go_type_text D (lit "[]" ++ t)
| GT_star : forall t, go_type_text D t -> go_type_text D (lit "*" ++ t)
| GT_map : forall k v, basic k -> go_type_text D v -> go_type_text D (lit "map[" ++ k ++ lit "]" ++ v).

(** The types that types.go declares: structs and enums. *)
Definition declared (tm : tmap F) (n : str) : Prop :=
  exists t, tget F n tm = Some t /\ forall x, t <> GPrim x.

(** Schemas for which the names work out: references are to types of the file ([D]) whose names are as in Go, and
    keys of maps are scalars. *)
Definition key_schema (s : schema) : Prop :=
  (exists c, s = SString _ c) \/ (exists c, s = SInt _ c) \/ (exists c, s = SFloat _ c) \/ s = SBool _ \/
  (exists vs, s = SEnum _ vs) \/ (exists x, s = SLiteral _ x).
Inductive ready (D : str -> Prop) : schema -> Prop :=
| RD_string : forall c, ready D (SString _ c)
| RD_int : forall c, ready D (SInt _ c)
| RD_float : forall c, ready D (SFloat _ c)
| RD_bool : ready D (SBool _)
| RD_unit : ready D (SUnit _)
| RD_any : ready D (SAny _)
| RD_object : forall fs, (forall k x, In (k, x) fs -> ready D x) -> ready D (SObject _ fs)
| RD_seq : forall s, ready D s -> ready D (SSeq _ s)
| RD_tuple : forall l, (forall x, In x l -> ready D x) -> ready D (STuple _ l)
| RD_map : forall l, (forall x, In x l -> ready D x) -> (forall k r, l = k :: r -> key_schema k) -> ready D (SMap _ l)
| RD_union : forall l, ready D (SUnion _ l)
| RD_optional : forall s, ready D s -> ready D (SOptional _ s)
| RD_enum : forall vs, ready D (SEnum _ vs)
| RD_oneof : forall s l, ready D (SOneOf _ s l)
| RD_flatten : forall s, ready D s -> ready D (SFlatten _ s)
| RD_default : forall d s, ready D s -> ready D (SDefault _ d s)
| RD_deprecated : forall d s, ready D s -> ready D (SDeprecated _ d s)
| RD_literal : forall x, ready D (SLiteral _ x)
| RD_named : forall n, D n -> pascal_of up n n -> ready D (SType _ (Some n))
| RD_unnamed : ready D (SType _ None).
Definition ready_file (sf : schema_file F) : Prop :=
  forall n s, In (n, s) sf ->
    ready (fun m => In (Some m) (map fst sf)) s /\ exists c, strip s c.

(** ** Tests in the generated code *)

(** Decimal numbers. *)
Definition int_text (d : str) (z : Z) : Prop :=
  (exists n, decimal d n /\ z = Z.of_N n) \/ (exists e n, d = lit "-" ++ e /\ decimal e n /\ z = (- Z.of_N n)%Z).

(** The condition [c] holds, when the expression [x] has the given value. *)
Inductive str_holds (x : str) (v : str) : str -> Prop :=
| SH_short : forall d n, decimal d n -> (N.of_nat (blen v) < n)%N -> str_holds x v (lit "len(" ++ x ++ lit ") < " ++ d)
| SH_long : forall d n, decimal d n -> (n < N.of_nat (blen v))%N -> str_holds x v (lit "len(" ++ x ++ lit ") > " ++ d).
Inductive int_holds (x : str) (v : Z) : str -> Prop :=
| IH_small : forall d z, int_text d z -> (v < z)%Z -> int_holds x v (x ++ lit " < " ++ d)
| IH_big : forall d z, int_text d z -> (z < v)%Z -> int_holds x v (x ++ lit " > " ++ d).

(** The same for floats, given how the texts are read and compared. *)
Inductive float_holds (reads : str -> F -> Prop) (ltb : F -> F -> bool) (x : str) (v : F) : str -> Prop :=
| FH_small : forall d z, reads d z -> ltb v z = true -> float_holds reads ltb x v (x ++ lit " < " ++ d)
| FH_big : forall d z, reads d z -> ltb z v = true -> float_holds reads ltb x v (x ++ lit " > " ++ d).

(** An [@optional], or a reference to a type, inside [@default], [@flatten] and [@deprecated]. *)
Inductive wraps_optional : schema -> Prop :=
| WO_here : forall s, wraps_optional (SOptional _ s)
| WO_default : forall d s, wraps_optional s -> wraps_optional (SDefault _ d s)
| WO_flatten : forall s, wraps_optional s -> wraps_optional (SFlatten _ s)
| WO_deprecated : forall d s, wraps_optional s -> wraps_optional (SDeprecated _ d s).
Inductive names_type : schema -> str -> Prop :=
| NT_here : forall n, names_type (SType _ (Some n)) n
| NT_default : forall d s n, names_type s n -> names_type (SDefault _ d s) n
| NT_flatten : forall s n, names_type s n -> names_type (SFlatten _ s) n
| NT_deprecated : forall d s n, names_type s n -> names_type (SDeprecated _ d s) n.

(** The expression for the value of a field: through the pointer if the field is optional. *)
Definition field_expr (o : bool) (q : str) : str := (if o then lit "*v." else lit "v.") ++ q.

Definition i64 (z : Z) : Prop := (- 2 ^ 63 <= z < 2 ^ 63)%Z.
Definition usize (n : nat) : Prop := (N.of_nat n < 2 ^ 64)%N.
Definition opt_all {A} (P : A -> Prop) (o : option A) : Prop := forall a, o = Some a -> P a.

(** What [fmt.Sprintf] makes of a format without verbs and one integer argument. *)
Definition sprintf_extra (fmt arg : str) : str := fmt ++ lit "%!(EXTRA int=" ++ arg ++ lit ")".

End Spec.
