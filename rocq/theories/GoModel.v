(** Model of the Go generator (/repo/crates/styx-gen-go/src/types.rs and lib.rs).

    - Schemas are those of SchemaModel.v, without doc comments; so the comment lines of the generated files
      that come from doc comments are left out.
    - Hash maps: the types of a schema file are registered in the order of the list; the generated types are
      written in any order ([order]), since the code iterates over a [HashMap].
    - [char::to_uppercase] and the printing of [f64] are parameters.
    - Reading the schema file, writing the three files and errors of writing are not modelled; neither is the
      file parse.go beyond the question for which type it is written ([root_type]). *)
From Coq Require Import String ZArith.
From Verif Require Import TreeModel SchemaModel CliModel.
Local Open Scope nat_scope.

(** types.rs 44-53 [FieldConstraints], 25-42 [StructField] (the JSON name is the styx name), 7-23 [GoType]. *)
Record gocons (F : Type) := mkgc {
  g_min_len : option nat; g_max_len : option nat; g_min_int : option Z; g_max_int : option Z; g_min_float : option F; g_max_float : option F }.
Record gofield (F : Type) := mkgf { f_go : str; f_styx : str; f_type : str; f_opt : bool; f_cons : option (gocons F) }.
Inductive gotype (F : Type) := GStruct (fields : list (gofield F)) | GEnum (variants : list str) | GPrim (text : str).
Arguments mkgc {F}. Arguments g_min_len {F}. Arguments g_max_len {F}. Arguments g_min_int {F}. Arguments g_max_int {F}.
Arguments g_min_float {F}. Arguments g_max_float {F}.
Arguments mkgf {F}. Arguments f_go {F}. Arguments f_styx {F}. Arguments f_type {F}. Arguments f_opt {F}. Arguments f_cons {F}.
Arguments GStruct {F}. Arguments GEnum {F}. Arguments GPrim {F}.

(** [str::split] with a set of characters: the pieces between them, one at least. *)
Fixpoint split_where (f : char -> bool) (s : str) : list str :=
  match s with
  | [] => [[]]
  | c :: r =>
    if f c then [] :: split_where f r
    else match split_where f r with
         | w :: ws => (c :: w) :: ws
         | [] => [[c]]
         end
  end.
(** The separators of names: underscore and hyphen. *)
Definition name_sep (c : char) : bool := ((c =? 95) || (c =? 45))%N.

(** [v as i64] for an [i128]. *)
Definition as_i64 (z : Z) : Z := ((z + 2 ^ 63) mod 2 ^ 64 - 2 ^ 63)%Z.

(** [{}] for an [i64] and a [usize]. *)
Definition show_i64 (z : Z) : str := if (z <? 0)%Z then 45%N :: show_u64 (Z.to_N (- z)) else show_u64 (Z.to_N z).
Definition show_usize (n : nat) : str := show_u64 (N.of_nat n).

(** A test in the generated [Validate]. *)
Record check := mkck { ck_cond : str; ck_format : str; ck_arg : str }.

Section Go.
Variable F : Type.
Variable show_f64 : F -> str.
Variable upper : char -> str.

Notation schema := (schema F).

(** types.rs 364-375, lib.rs 444-455, [to_pascal_case]. *)
Definition cap (w : str) : str := match w with [] => [] | c :: r => upper c ++ r end.
Definition nonempty (w : str) : bool := match w with [] => false | _ => true end.
Definition pascal (s : str) : str := concat (map cap (filter nonempty (split_where name_sep s))).

Definition starts (p t : str) : bool := starts_with p t.
(** types.rs 250-252, 333-335: the type has a nil already. *)
Definition nilable (t : str) : bool := starts (lit "*") t || starts (lit "[") t || starts (lit "map[") t.

(** types.rs 295-361, [type_name]. *)
Fixpoint type_name (s : schema) : str :=
  match s with
  | SString _ _ => lit "string"
  | SInt _ _ => lit "int64"
  | SFloat _ _ => lit "float64"
  | SBool _ => lit "bool"
  | SUnit _ => lit "struct{}"
  | SAny _ => lit "interface{}"
  | SObject _ _ => lit "map[string]interface{}"
  | SSeq _ i => lit "[]" ++ type_name i
  | STuple _ [] => lit "[]interface{}"
  | STuple _ (i :: _) => lit "[]" ++ type_name i
  | SMap _ l =>
    lit "map[" ++ match l with k :: _ => type_name k | [] => lit "string" end ++ lit "]" ++
    match l with _ :: v :: _ => type_name v | _ => lit "interface{}" end
  | SEnum _ _ => lit "string"
  | SOptional _ i => let t := type_name i in if nilable t then t else lit "*" ++ t
  | SDefault _ _ i => type_name i
  | SUnion _ _ | SOneOf _ _ _ => lit "interface{}"
  | SFlatten _ i => type_name i
  | SDeprecated _ _ i => type_name i
  | SLiteral _ _ => lit "string"
  | SType _ (Some n) => pascal n
  | SType _ None => lit "interface{}"
  end.

(** types.rs 273-292, [extract_constraints]. *)
Definition constraints (s : schema) : option (gocons F) :=
  match s with
  | SString _ (Some c) => Some (mkgc (min_len c) (max_len c) None None None None)
  | SInt _ (Some c) => Some (mkgc None None (option_map as_i64 (i_min c)) (option_map as_i64 (i_max c)) None None)
  | SFloat _ (Some c) => Some (mkgc None None None None (f_min _ c) (f_max _ c))
  | _ => None
  end.

(** The registered types, a [HashMap]: the entry for a name is the first of the list. *)
Definition tmap := list (str * gotype F).
Fixpoint tget (n : str) (tm : tmap) : option (gotype F) :=
  match tm with [] => None | (k, t) :: r => if str_eqb k n then Some t else tget n r end.
Fixpoint tdel (n : str) (tm : tmap) : tmap :=
  match tm with [] => [] | (k, t) :: r => if str_eqb k n then tdel n r else (k, t) :: tdel n r end.
Definition tput (n : str) (t : gotype F) (tm : tmap) : tmap := (n, t) :: tdel n tm.

(** types.rs 249-269, the end of [map_field]. *)
Definition mk_field (name t : str) (opt : bool) (c : option (gocons F)) : gofield F :=
  mkgf (pascal name) name (if opt && negb (nilable t) then lit "*" ++ t else t) opt c.

(** types.rs 203-270, [map_field]: the loop over wrappers (214-225), nested objects (230-247). The parent is
    always given. The inner loop is the one of 102-117, run by [map_schema_type] over the fields of the nested object. *)
Fixpoint map_field (parent name : str) (opt : bool) (s : schema) (tm : tmap) {struct s} : gofield F * tmap :=
  match s with
  | SDefault _ _ i => map_field parent name opt i tm
  | SOptional _ i => map_field parent name true i tm
  | SObject _ fs =>
    let nested := parent ++ pascal name in
    match tget nested tm with
    | Some _ => (mk_field name nested opt None, tm)
    | None =>
      let '(l, tm1) :=
        (fix go (fs : list (obj_key * schema)) (tm : tmap) : list (gofield F) * tmap :=
           match fs with
           | [] => ([], tm)
           | (k, x) :: r =>
             match k_value k with
             | Some n => let '(f, tm1) := map_field nested n false x tm in let '(l, tm2) := go r tm1 in (f :: l, tm2)
             | None => go r tm
             end
           end) fs tm in
      (mk_field name nested opt None, tput nested (GStruct l) tm1)
    end
  | _ => (mk_field name (type_name s) opt (constraints s), tm)
  end.

(** types.rs 102-117 *)
Fixpoint map_fields (parent : str) (fs : list (obj_key * schema)) (tm : tmap) : list (gofield F) * tmap :=
  match fs with
  | [] => ([], tm)
  | (k, x) :: r =>
    match k_value k with
    | Some n => let '(f, tm1) := map_field parent n false x tm in let '(l, tm2) := map_fields parent r tm1 in (f :: l, tm2)
    | None => map_fields parent r tm
    end
  end.

(** types.rs 89-200, [map_schema_type]. *)
Fixpoint map_schema (parent : str) (s : schema) (tm : tmap) : gotype F * tmap :=
  match s with
  | SObject _ fs => let '(l, tm1) := map_fields parent fs tm in (GStruct l, tm1)
  | SEnum _ vs => (GEnum (map fst vs), tm)
  | SOptional _ i => (GPrim (lit "*" ++ type_name i), tm)
  | SDefault _ _ i | SFlatten _ i | SDeprecated _ _ i => map_schema parent i tm
  | _ => (GPrim (type_name s), tm)
  end.

(** types.rs 77-81 [register_type], lib.rs 16-25. *)
Definition reg_name (n : option str) : str := match n with Some n => n | None => lit "Root" end.
Fixpoint register (sf : schema_file F) (tm : tmap) : tmap :=
  match sf with
  | [] => tm
  | (n, s) :: r => let '(t, tm1) := map_schema (reg_name n) s tm in register r (tput (reg_name n) t tm1)
  end.
Definition go_types (sf : schema_file F) : tmap := register sf [].

(** ** The texts *)

Definition tab : str := [9%N].
Definition dq : str := [cDQ].
Definition tick : str := [96%N].

(** lib.rs 90-97, one field of a struct *)
Definition field_line (f : gofield F) : str :=
  tab ++ f_go f ++ [cSP] ++ f_type f ++ [cSP] ++ tick ++ lit "json:" ++ dq ++ f_styx f ++ (if f_opt f then lit ",omitempty" else []) ++ dq ++
  lit " styx:" ++ dq ++ f_styx f ++ (if f_opt f then lit ",optional" else []) ++ dq ++ tick.
(** lib.rs 110-118, one variant *)
Definition variant_line (name v : str) : str := tab ++ name ++ pascal v ++ [cSP] ++ name ++ lit " = " ++ dq ++ v ++ dq.
(** lib.rs 71-124, [generate_type_definition], as lines. *)
Definition type_lines (name : str) (t : gotype F) : list str :=
  match t with
  | GStruct fs => (lit "type " ++ name ++ lit " struct {") :: map field_line fs ++ [lit "}"]
  | GEnum vs => (lit "type " ++ name ++ lit " string") :: [] :: lit "const (" :: map (variant_line name) vs ++ [lit ")"]
  | GPrim _ => []
  end.
(** lib.rs 53-69, [generate_types_file]. *)
Definition types_file (pkg : str) (order : tmap) : list str :=
  lit "// Code generated by styx gen go. DO NOT EDIT." :: [] :: (lit "package " ++ pkg) :: [] ::
  flat_map (fun '(n, t) => type_lines n t ++ [[]]) order.

(** lib.rs 214-331: the tests on a field, each a condition, the format of the message and the argument of [Sprintf]. *)
Definition star (f : gofield F) : str := if starts (lit "*") (f_type f) then lit "*" else [].
Definition opt_list {A B} (o : option A) (g : A -> B) : list B := match o with Some a => [g a] | None => [] end.
Definition bound_checks (f : gofield F) (c : gocons F) : list check :=
  let lhs := star f ++ lit "v." ++ f_go f in
  opt_list (g_min_len c) (fun n => mkck (lit "len(" ++ lhs ++ lit ") < " ++ show_usize n) (lit "length must be at least " ++ show_usize n) (show_usize n)) ++
  opt_list (g_max_len c) (fun n => mkck (lit "len(" ++ lhs ++ lit ") > " ++ show_usize n) (lit "length must be at most " ++ show_usize n) (show_usize n)) ++
  opt_list (g_min_int c) (fun z => mkck (lhs ++ lit " < " ++ show_i64 z) (lit "must be at least " ++ show_i64 z) (show_i64 z)) ++
  opt_list (g_max_int c) (fun z => mkck (lhs ++ lit " > " ++ show_i64 z) (lit "must be at most " ++ show_i64 z) (show_i64 z)) ++
  opt_list (g_min_float c) (fun x => mkck (lhs ++ lit " < " ++ show_f64 x) (lit "must be at least " ++ show_f64 x) (show_f64 x)) ++
  opt_list (g_max_float c) (fun x => mkck (lhs ++ lit " > " ++ show_f64 x) (lit "must be at most " ++ show_f64 x) (show_f64 x)).
(** lib.rs 198-206: the test for a missing field; 210-212: the guard around the tests of an optional one. *)
Definition required_check (f : gofield F) : option str :=
  if negb (f_opt f) && starts (lit "*") (f_type f) then Some (lit "v." ++ f_go f ++ lit " == nil") else None.
Definition guard (f : gofield F) : option str := if f_opt f then Some (lit "v." ++ f_go f ++ lit " != nil") else None.

(** The printed form: lib.rs 199-206, 221-234 and likewise for the other five tests (the bound is also an argument
    of [Sprintf]), 187-347 [generate_validation_function]. *)
Definition required_lines (f : gofield F) : list str :=
  match required_check f with
  | Some c =>
    [tab ++ lit "if " ++ c ++ lit " {"; tab ++ tab ++ lit "errs = append(errs, &ValidationError{";
     tab ++ tab ++ tab ++ lit "Field:   " ++ dq ++ f_styx f ++ dq ++ lit ",";
     tab ++ tab ++ tab ++ lit "Message: " ++ dq ++ lit "required field is missing" ++ dq ++ lit ",";
     tab ++ tab ++ lit "})"; tab ++ lit "}"]
  | None => []
  end.
Definition check_lines (f : gofield F) (ck : check) : list str :=
  [tab ++ tab ++ lit "if " ++ ck_cond ck ++ lit " {"; tab ++ tab ++ tab ++ lit "errs = append(errs, &ValidationError{";
   tab ++ tab ++ tab ++ tab ++ lit "Field:   " ++ dq ++ f_styx f ++ dq ++ lit ",";
   tab ++ tab ++ tab ++ tab ++ lit "Message: fmt.Sprintf(" ++ dq ++ ck_format ck ++ dq ++ lit ", " ++ ck_arg ck ++ lit "),";
   tab ++ tab ++ tab ++ lit "})"; tab ++ tab ++ lit "}"].
Definition field_checks_lines (f : gofield F) : list str :=
  required_lines f ++
  match f_cons f with
  | None => []
  | Some c =>
    match guard f with
    | Some g => (tab ++ lit "if " ++ g ++ lit " {") :: flat_map (check_lines f) (bound_checks f c) ++ [tab ++ lit "}"]
    | None => flat_map (check_lines f) (bound_checks f c)
    end
  end.
Definition validate_lines (name : str) (fs : list (gofield F)) : list str :=
  (lit "// Validate validates the " ++ name ++ lit " instance.") :: (lit "func (v *" ++ name ++ lit ") Validate() error {") ::
  (tab ++ lit "var errs ValidationErrors") :: [] :: flat_map field_checks_lines fs ++
  [[]; tab ++ lit "if len(errs) > 0 {"; tab ++ tab ++ lit "return errs"; tab ++ lit "}"; tab ++ lit "return nil"; lit "}"].

(** lib.rs 370-390: the type for which parse.go has functions. *)
Definition is_struct (t : gotype F) : bool := match t with GStruct _ => true | _ => false end.
Definition root_type (order : tmap) : option str :=
  match tget (lit "Root") order with
  | Some (GStruct _) => Some (lit "Root")
  | _ => option_map fst (find (fun '(_, t) => is_struct t) order)
  end.

End Go.
