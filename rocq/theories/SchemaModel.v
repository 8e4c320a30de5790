(** Model of the schema validator (/repo/crates/facet-styx/src/schema_validate.rs 66-1130, the types of
    schema_types.rs and ValidationResult of schema_error.rs).

    - Hash maps are lists of pairs in the order in which the map is iterated; the order is unspecified
      in the code, so theorems are about every order.
    - Floating point numbers are a parameter: their type, [str::parse::<f64>] and [<].
    - Errors and warnings carry path, kind and span; the texts of messages, the lists of expected
      names and the suggestions (see [LspModel.suggest_similar]) are left out.
    - Reading a schema file (facet reflection) is not modelled; schemas are given as data. *)
From Coq Require Import String ZArith.
From Verif Require Import TreeModel.
Local Open Scope nat_scope.

(** ** Values (value.rs 211-241) *)
Definition scalar_text (v : value) : option str :=
  match v_payload v with PScalar t _ _ => Some t | _ => None end.
Definition as_object (v : value) : option (list entry) :=
  match v_payload v with PObj es _ => Some es | _ => None end.
Definition as_sequence (v : value) : option (list value) :=
  match v_payload v with PSeq l _ => Some l | _ => None end.

(** ** Schemas (schema_types.rs) *)

(** [StringConstraints], [IntConstraints] (147-164). *)
Record string_c := mksc { min_len : option nat; max_len : option nat; pattern : option str }.
Record int_c := mkic { i_min : option Z; i_max : option Z }.
(** [ObjectKey] (188-197). *)
Record obj_key := mkkey { k_value : option str; k_tag : option str }.

Section Validate.
Variable F : Type.
Variable parse_f64 : str -> option F.
Variable f_ltb : F -> F -> bool.

(** [FloatConstraints] (167-173). *)
Record float_c := mkfc { f_min : option F; f_max : option F }.

(** [Schema] (59-140); [Documented] (385-393) is left out. *)
Inductive schema :=
| SString (c : option string_c)
| SInt (c : option int_c)
| SFloat (c : option float_c)
| SBool
| SUnit
| SAny
| SObject (fields : list (obj_key * schema))
| SSeq (s : schema)
| STuple (l : list schema)
| SMap (l : list schema)
| SUnion (l : list schema)
| SOptional (s : schema)
| SEnum (vs : list (str * schema))
| SOneOf (s : schema) (allowed : list str)
| SFlatten (s : schema)
| SDefault (d : str) (s : schema)
| SDeprecated (reason : str) (s : schema)
| SLiteral (t : str)
| SType (name : option str).

(** [SchemaFile::schema] (12-21). *)
Definition schema_file := list (option str * schema).
Fixpoint lookup_type (n : option str) (f : schema_file) : option schema :=
  match f with
  | [] => None
  | (k, s) :: r =>
      match k, n with
      | None, None => Some s
      | Some a, Some b => if str_eqb a b then Some s else lookup_type n r
      | _, _ => lookup_type n r
      end
  end.

(** ** Results (schema_error.rs) *)
Inductive error_kind :=
| EMissingField (f : str) | EUnknownField (f : str) | ETypeMismatch (expected got : str) | EInvalidValue
| EUnknownType (n : str) | EInvalidVariant (n : str) | EUnionMismatch | EExpectedObject | EExpectedSequence
| EExpectedScalar | EExpectedTagged | ESchemaError.
Record verror := mkverr { ve_path : str; ve_kind : error_kind; ve_span : option span }.
Record vwarning := mkvwarn { vw_path : str; vw_reason : str; vw_span : option span }.
Record vresult := mkvr { v_errors : list verror; v_warnings : list vwarning }.

Definition vok : vresult := mkvr [] [].
Definition verr (path : str) (k : error_kind) (sp : option span) : vresult := mkvr [mkverr path k sp] [].
Definition vmerge (a b : vresult) : vresult :=
  mkvr (v_errors a ++ v_errors b) (v_warnings a ++ v_warnings b).
Definition is_valid (r : vresult) : bool := match v_errors r with [] => true | _ => false end.

(** ** Numbers *)

(** [str::parse::<iN>]: optional sign, at least one digit, and the range. *)
Fixpoint dec_all (acc : N) (s : str) : option N :=
  match s with
  | [] => Some acc
  | c :: r => if is_digit c then dec_all (10 * acc + (c - 48))%N r else None
  end.
Definition parse_signed (limit : Z) (s : str) : option Z :=
  let of_digits neg r :=
    match r with
    | [] => None
    | _ =>
        match dec_all 0 r with
        | Some n =>
            let z := if (neg : bool) then (- Z.of_N n)%Z else Z.of_N n in
            if ((- limit <=? z) && (z <? limit))%Z then Some z else None
        | None => None
        end
    end in
  match s with
  | c :: r => if (c =? 45)%N then of_digits true r else if (c =? 43)%N then of_digits false r else of_digits false s
  | [] => None
  end.
Definition parse_i128 : str -> option Z := parse_signed (2 ^ 127)%Z.
Definition parse_i64 : str -> option Z := parse_signed (2 ^ 63)%Z.

(** ** Scalars (163-404) *)
Definition opt_test {A} (o : option A) (f : A -> bool) : bool := match o with Some a => f a | None => false end.
Definition if_err (b : bool) (path : str) (k : error_kind) (sp : option span) : vresult :=
  if b then verr path k sp else vok.

(** [validate_string] (163-218); the length is in bytes, the pattern is not looked at. *)
Definition validate_string (v : value) (c : option string_c) (path : str) : vresult :=
  match scalar_text v with
  | None => verr path EExpectedScalar (v_span v)
  | Some text =>
      match c with
      | None => vok
      | Some c =>
          vmerge (if_err (opt_test (min_len c) (fun m => blen text <? m)) path EInvalidValue (v_span v))
                 (if_err (opt_test (max_len c) (fun m => m <? blen text)) path EInvalidValue (v_span v))
      end
  end.

(** [validate_int] (220-292). *)
Definition validate_int (v : value) (c : option int_c) (path : str) : vresult :=
  match scalar_text v with
  | None => verr path EExpectedScalar (v_span v)
  | Some text =>
      match parse_i128 text with
      | None => verr path EInvalidValue (v_span v)
      | Some n =>
          match c with
          | None => vok
          | Some c =>
              vmerge (if_err (opt_test (i_min c) (fun m => (n <? m)%Z)) path EInvalidValue (v_span v))
                     (if_err (opt_test (i_max c) (fun m => (m <? n)%Z)) path EInvalidValue (v_span v))
          end
      end
  end.

(** [validate_float] (294-366). *)
Definition validate_float (v : value) (c : option float_c) (path : str) : vresult :=
  match scalar_text v with
  | None => verr path EExpectedScalar (v_span v)
  | Some text =>
      match parse_f64 text with
      | None => verr path EInvalidValue (v_span v)
      | Some n =>
          match c with
          | None => vok
          | Some c =>
              vmerge (if_err (opt_test (f_min c) (fun m => f_ltb n m)) path EInvalidValue (v_span v))
                     (if_err (opt_test (f_max c) (fun m => f_ltb m n)) path EInvalidValue (v_span v))
          end
      end
  end.

(** [validate_bool] (368-399), [validate_unit] (401-418). *)
Definition is_bool_text (t : str) : bool := str_eqb t (lit "true") || str_eqb t (lit "false").
Definition validate_bool (v : value) (path : str) : vresult :=
  match scalar_text v with
  | Some t => if is_bool_text t then vok else verr path EInvalidValue (v_span v)
  | None => verr path EExpectedScalar (v_span v)
  end.
(** [value_type_name] (1067-1080). *)
Definition value_type_name (v : value) : str :=
  match v with
  | Val None PNone _ => lit "unit"
  | Val (Some _) _ _ => lit "tagged"
  | Val None (PScalar _ _ _) _ => lit "scalar"
  | Val None (PSeq _ _) _ => lit "sequence"
  | Val None (PObj _ _) _ => lit "object"
  end.
Definition validate_unit (v : value) (path : str) : vresult :=
  if is_unit v then vok else verr path (ETypeMismatch (lit "unit") (value_type_name v)) (v_span v).

(** [validate_literal] (987-1017). *)
Definition validate_literal (v : value) (expected path : str) : vresult :=
  match scalar_text v with
  | Some t => if str_eqb t expected then vok else verr path EInvalidValue (v_span v)
  | None => verr path EExpectedScalar (v_span v)
  end.

(** ** Objects, sequences, maps (424-698) *)

(** [format!("{path}.{key}")], or the key at the root. *)
Definition sub_path (path key : str) : str := match path with [] => key | _ => path ++ [cDOT] ++ key end.
(** [format!("{path}[{i}]")]. *)
Fixpoint dec_nat (fuel n : nat) (acc : str) : str :=
  match fuel with
  | O => acc
  | S f => let d := N.of_nat (48 + n mod 10) in
           if n <? 10 then d :: acc else dec_nat f (n / 10) (d :: acc)
  end.
Definition item_path (path : str) (i : nat) : str := path ++ [cLSQ] ++ dec_nat (S i) i [] ++ [cRSQ].

(** [schema.0.get(&named(..))] and the catch-all (450-456). *)
Fixpoint field_schema (name : str) (fs : list (obj_key * schema)) : option schema :=
  match fs with
  | [] => None
  | (k, s) :: r =>
      match k_value k, k_tag k with
      | Some n, None => if str_eqb n name then Some s else field_schema name r
      | _, _ => field_schema name r
      end
  end.
Fixpoint additional_schema (fs : list (obj_key * schema)) : option schema :=
  match fs with
  | [] => None
  | (k, s) :: r => match k_tag k with Some _ => Some s | None => additional_schema r end
  end.

Definition entry_key (k : value) : option (option str) :=
  if is_unit k then Some None else option_map Some (as_str k).

Section Loops.
(** [validate_value], one level down. *)
Variable vv : value -> schema -> str -> res vresult.

(** The loop over the entries (458-518). *)
Fixpoint object_entries (fs : list (obj_key * schema)) (es : list entry) (path : str) : res vresult :=
  match es with
  | [] => Ok vok
  | Ent k v _ :: r =>
      do here <- (match entry_key k with
                  | None => Ok (verr path EInvalidValue (v_span k))
                  | Some key =>
                      let display := match key with Some s => s | None => [cAT] end in
                      let field_path := sub_path path display in
                      let name := match key with Some s => s | None => [] end in
                      match field_schema name fs with
                      | Some s => vv v s field_path
                      | None =>
                          match additional_schema fs with
                          | Some s => vv v s field_path
                          | None => Ok (verr field_path (EUnknownField display) (v_span k))
                          end
                      end
                  end);
      do rest <- object_entries fs r path;
      Ok (vmerge here rest)
  end.

(** The loop over the fields (521-552). *)
Definition seen (name : str) (es : list entry) : bool :=
  existsb (fun e => match entry_key (e_key e) with Some (Some s) => str_eqb s name | _ => false end) es.
Definition not_required (s : schema) : bool := match s with SOptional _ | SDefault _ _ => true | _ => false end.
Fixpoint missing_fields (fs : list (obj_key * schema)) (es : list entry) (path : str) (sp : option span) : vresult :=
  match fs with
  | [] => vok
  | (k, s) :: r =>
      vmerge (match k_value k with
              | Some name =>
                  if negb (seen name es) && negb (not_required s)
                  then verr (sub_path path name) (EMissingField name) sp else vok
              | None => vok
              end) (missing_fields r es path sp)
  end.

(** [validate_object] (424-555). *)
Definition validate_object (v : value) (fs : list (obj_key * schema)) (path : str) : res vresult :=
  match as_object v with
  | None => Ok (verr path EExpectedObject (v_span v))
  | Some es =>
      do a <- object_entries fs es path;
      Ok (vmerge a (missing_fields fs es path (v_span v)))
  end.

(** [validate_seq] (557-583). *)
Fixpoint seq_items (s : schema) (items : list value) (i : nat) (path : str) : res vresult :=
  match items with
  | [] => Ok vok
  | v :: r =>
      do a <- vv v s (item_path path i);
      do b <- seq_items s r (S i) path;
      Ok (vmerge a b)
  end.
Definition validate_seq (v : value) (s : schema) (path : str) : res vresult :=
  match as_sequence v with
  | None => Ok (verr path EExpectedSequence (v_span v))
  | Some items => seq_items s items 0 path
  end.

(** [validate_tuple] (585-627). *)
Fixpoint tuple_items (l : list schema) (items : list value) (i : nat) (path : str) : res vresult :=
  match items, l with
  | v :: r, s :: l' =>
      do a <- vv v s (item_path path i);
      do b <- tuple_items l' r (S i) path;
      Ok (vmerge a b)
  | _, _ => Ok vok
  end.
Definition validate_tuple (v : value) (l : list schema) (path : str) : res vresult :=
  match as_sequence v with
  | None => Ok (verr path EExpectedSequence (v_span v))
  | Some items =>
      do a <- tuple_items l items 0 path;
      Ok (vmerge (if_err (negb (List.length items =? List.length l)) path EInvalidValue (v_span v)) a)
  end.

(** [validate_map] (629-696). *)
Fixpoint map_entries (ks : option schema) (vs : schema) (es : list entry) (path : str) : res vresult :=
  match es with
  | [] => Ok vok
  | Ent k v _ :: r =>
      do here <- (match as_str k with
                  | None => Ok (verr path EInvalidValue (v_span k))
                  | Some key =>
                      do a <- (match ks with Some s => vv k s path | None => Ok vok end);
                      do b <- vv v vs (sub_path path key);
                      Ok (vmerge a b)
                  end);
      do rest <- map_entries ks vs r path;
      Ok (vmerge here rest)
  end.
Definition validate_map (v : value) (l : list schema) (path : str) : res vresult :=
  match as_object v with
  | None => Ok (verr path EExpectedObject (v_span v))
  | Some es =>
      match l with
      | [vs] => map_entries None vs es path
      | [ks; vs] => map_entries (Some ks) vs es path
      | _ => Ok (verr path ESchemaError (v_span v))
      end
  end.

(** ** Combinators (702-935) *)

(** [validate_union] (702-746). *)
Fixpoint union_variants (v : value) (l : list schema) (path : str) : res vresult :=
  match l with
  | [] => Ok (verr path EUnionMismatch (v_span v))
  | s :: r =>
      do a <- vv v s path;
      if is_valid a then Ok vok else union_variants v r path
  end.
Definition validate_union (v : value) (l : list schema) (path : str) : res vresult :=
  match l with
  | [] => Ok (verr path ESchemaError (v_span v))
  | _ => union_variants v l path
  end.

(** [find_enum_fallback] (847-870). *)
Definition accepts_untagged (text : str) (s : schema) : bool :=
  match s with
  | SString _ => true
  | SInt _ => match parse_i64 text with Some _ => true | None => false end
  | SFloat _ => match parse_f64 text with Some _ => true | None => false end
  | SBool => is_bool_text text
  | _ => false
  end.
Definition find_enum_fallback (v : value) (vs : list (str * schema)) : option schema :=
  match scalar_text v with
  | Some text => find (accepts_untagged text) (map snd vs)
  | None => None
  end.

(** [schema_type_name] (1083-1107). *)
Definition schema_type_name (s : schema) : str :=
  match s with
  | SString _ => lit "string" | SInt _ => lit "int" | SFloat _ => lit "float" | SBool => lit "bool"
  | SUnit => lit "unit" | SAny => lit "any" | SObject _ => lit "object" | SSeq _ => lit "seq"
  | STuple _ => lit "tuple" | SMap _ => lit "map" | SUnion _ => lit "union" | SOptional _ => lit "optional"
  | SEnum _ => lit "enum" | SOneOf _ _ => lit "one-of" | SFlatten _ => lit "flatten"
  | SDefault _ _ => lit "default" | SDeprecated _ _ => lit "deprecated"
  | SLiteral t => lit "literal(" ++ t ++ lit ")"
  | SType None => lit "unit"
  | SType (Some n) => n
  end.

(** [validate_enum] (762-842). *)
Fixpoint variant_schema (name : str) (vs : list (str * schema)) : option schema :=
  match vs with
  | [] => None
  | (n, s) :: r => if str_eqb n name then Some s else variant_schema name r
  end.
Definition takes_no_payload (s : schema) : bool :=
  match s with
  | SUnit => true
  | SType (Some n) => str_eqb n (lit "unit")
  | SType None => true
  | _ => false
  end.
Definition validate_enum (v : value) (vs : list (str * schema)) (path : str) : res vresult :=
  match v_tag v with
  | None =>
      match find_enum_fallback v vs with
      | Some s => vv v s path
      | None => Ok (verr path EExpectedTagged (v_span v))
      end
  | Some (tag, _) =>
      match variant_schema tag vs with
      | None => Ok (verr path (EInvalidVariant tag) (v_span v))
      | Some s =>
          match v_payload v with
          | PNone =>
              Ok (if takes_no_payload s then vok
                  else verr path (ETypeMismatch (schema_type_name s) (lit "unit")) (v_span v))
          | p => vv (Val None p None) s (sub_path path tag)
          end
      end
  end.

(** [validate_one_of] (872-935). *)
Definition validate_one_of (v : value) (base : schema) (allowed : list str) (path : str) : res vresult :=
  do a <- vv v base path;
  if negb (is_valid a) then Ok a
  else match allowed with
       | [] => Ok vok
       | _ =>
           match scalar_text v with
           | None => Ok (verr path EExpectedScalar (v_span v))
           | Some t => Ok (if_err (negb (existsb (str_eqb t) allowed)) path EInvalidValue (v_span v))
           end
       end.

(** [validate_optional] (748-760), [validate_deprecated] (961-981). *)
Definition validate_optional (v : value) (s : schema) (path : str) : res vresult :=
  if is_unit v then Ok vok else vv v s path.
Definition validate_deprecated (v : value) (reason : str) (s : schema) (path : str) : res vresult :=
  do a <- vv v s path;
  Ok (mkvr (v_errors a) (v_warnings a ++ [mkvwarn path reason (v_span v)])).

(** [validate_type_ref] (1019-1064). *)
Definition validate_type_ref (file : schema_file) (v : value) (name : option str) (path : str) : res vresult :=
  match name with
  | None => Ok (validate_unit v path)
  | Some n =>
      match lookup_type (Some n) file with
      | Some s => vv v s path
      | None => Ok (verr path (EUnknownType n) (v_span v))
      end
  end.
End Loops.

(** [validate_value] (120-157). *)
Fixpoint validate_value (file : schema_file) (fuel : nat) (v : value) (s : schema) (path : str) : res vresult :=
  match fuel with
  | O => OutOfFuel
  | S f =>
      let vv := validate_value file f in
      match s with
      | SString c => Ok (validate_string v c path)
      | SInt c => Ok (validate_int v c path)
      | SFloat c => Ok (validate_float v c path)
      | SBool => Ok (validate_bool v path)
      | SUnit => Ok (validate_unit v path)
      | SAny => Ok vok
      | SObject fs => validate_object vv v fs path
      | SSeq s => validate_seq vv v s path
      | STuple l => validate_tuple vv v l path
      | SMap l => validate_map vv v l path
      | SUnion l => validate_union vv v l path
      | SOptional s => validate_optional vv v s path
      | SEnum vs => validate_enum vv v vs path
      | SOneOf s allowed => validate_one_of vv v s allowed path
      | SFlatten s => vv v s path
      | SDefault _ s => vv v s path
      | SDeprecated reason s => validate_deprecated vv v reason s path
      | SLiteral t => Ok (validate_literal v t path)
      | SType name => validate_type_ref vv file v name path
      end
  end.

(** [validate_document] (78-98). *)
Definition validate_document (file : schema_file) (fuel : nat) (doc : value) : res vresult :=
  match lookup_type None file with
  | Some root => validate_value file fuel doc root []
  | None => Ok (verr [] ESchemaError (v_span doc))
  end.

(** [validate_as_type] (101-118). *)
Definition validate_as_type (file : schema_file) (fuel : nat) (v : value) (name : str) : res vresult :=
  match lookup_type (Some name) file with
  | Some s => validate_value file fuel v s []
  | None => Ok (verr [] (EUnknownType name) (v_span v))
  end.
End Validate.
