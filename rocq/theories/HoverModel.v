(** Model of hover and go-to-definition in the language server, which look up fields in the tree of the schema
    (/repo/crates/styx-lsp/src/server.rs 2192-2218, 2285-2370, 2412-2691 and 2721-2807 at the pinned commit).

    Simplifications. The schema's text is given by its tree. [fuel] bounds the depth of recursion, running out of it stands for a
    stack overflow. The link in a hover text is a parameter; what is shown on the schema declaration and by extensions
    (server.rs 792-901) is left out, and so are the other cases of go-to-definition (676-687, 700-765). *)
From Coq Require Import String.
From Verif Require Import Base TreeModel TreeSpec SchemaModel LspModel EditModel.
Local Open Scope nat_scope.

Definition tag_is (n : str) (v : value) : bool := match v_tag v with Some (t, _) => str_eqb t n | None => false end.

(** 2551-2570, resolve_type_reference *)
Definition resolve_reference (defs : list entry) (v : value) : value :=
  match v with
  | Val (Some (n, _)) p _ =>
    if match p with PNone => true | PScalar [] _ _ => true | _ => false end
    then match find_val (key_is n) defs with Some w => w | None => v end
    else v
  | _ => v
  end.

(** 2575-2596, extract_seq_element_type *)
Fixpoint seq_element (v : value) : option value :=
  match v with
  | Val (Some (n, _)) (PSeq items _) _ =>
    if str_eqb n (lit "seq") then hd_error items
    else if str_eqb n (lit "optional") || str_eqb n (lit "default") then
      (fix first (l : list value) : option value :=
         match l with [] => None | x :: r => match seq_element x with Some t => Some t | None => first r end end) items
    else None
  | _ => None
  end.

(** 2601-2614, extract_map_value_type *)
Definition map_value (v : value) : option value :=
  if tag_is (lit "map") v then
    match as_sequence v with Some [w] => Some w | Some [_; w] => Some w | _ => None end
  else None.

(** 2622-2628, extract_enum_object *)
Definition enum_object (v : value) : option (list entry) := if tag_is (lit "enum") v then as_object v else None.

(** 2638-2657, extract_object_catchall_value_type *)
Definition catchall_value (v : value) : option value :=
  if tag_is (lit "object") v then
    match as_object v with
    | Some [Ent (Val (Some _) PNone _) w _] => Some w
    | _ => None
    end
  else None.

(** 2661-2691, extract_object_from_value_with_defs *)
Fixpoint object_in (defs : list entry) (fuel : nat) (v : value) : res (option (list entry)) :=
  match fuel with
  | O => OutOfFuel
  | S f =>
    match resolve_reference defs v with
    | Val _ (PObj es _) _ => Ok (Some es)
    | Val (Some _) (PSeq items _) _ =>
      (fix first (l : list value) : res (option (list entry)) :=
         match l with
         | [] => Ok None
         | x :: r => do o <- object_in defs f x; match o with Some es => Ok (Some es) | None => first r end
         end) items
    | _ => Ok None
    end
  end.

(** 2722-2768, format_type_concise *)
Fixpoint format_type (v : value) : str :=
  let tag := match v_tag v with Some (n, _) => cAT :: n | None => [] end in
  let result := tag ++
    match v with
    | Val _ PNone _ => []
    | Val t (PScalar x _ _) _ => match t with Some _ => [cLP] ++ x ++ [cRP] | None => x end
    | Val t (PObj es _) _ => match t with Some _ => lit "{...}" | None => lit "{...} (" ++ decimal (List.length es) ++ lit " fields)" end
    | Val _ (PSeq items _) _ => [cLP] ++ join [cSP] (map format_type items) ++ [cRP]
    end in
  match result with [] => [cAT] | _ => result end.

(** 2414-2419, FieldInfo *)
Record field_info := mkfi { fi_type : str; fi_doc : option str }.

Section Search.
(** [get_field_info_in_type], one level down. *)
Variable look : value -> list str -> res (option field_info).
(** 2511-2518 *)
Fixpoint in_variants (defs : list entry) (es : list entry) (path : list str) : res (option field_info) :=
  match es with
  | [] => Ok None
  | e :: r => do o <- look (resolve_reference defs (e_val e)) path; match o with Some i => Ok (Some i) | None => in_variants defs r path end
  end.
(** 2524-2546 *)
Fixpoint in_entries (es : list entry) (name : str) (rest : list str) : res (option field_info) :=
  match es with
  | [] => Ok None
  | e :: r =>
    if key_is name e then
      match rest with
      | [] => Ok (Some (mkfi (format_type (e_val e)) (e_doc e)))
      | _ => look (e_val e) rest
      end
    else if is_unit (e_key e) then
      do o <- look (e_val e) (name :: rest); match o with Some i => Ok (Some i) | None => in_entries r name rest end
    else in_entries r name rest
  end.
End Search.

(** 2452-2547, get_field_info_in_type *)
Fixpoint info_in_type (defs : list entry) (fuel : nat) (v : value) (path : list str) : res (option field_info) :=
  match fuel with
  | O => OutOfFuel
  | S f =>
    match path with
    | [] => Ok None
    | name :: rest =>
      let inner w := match rest with
                     | [] => Ok (Some (mkfi (format_type w) None))
                     | _ => info_in_type defs f (resolve_reference defs w) rest
                     end in
      match seq_element v, parse_usize name with
      | Some w, Some _ => info_in_type defs f (resolve_reference defs w) rest
      | _, _ =>
        match map_value v with
        | Some w => inner w
        | None =>
          match catchall_value v with
          | Some w => inner w
          | None =>
            match enum_object v with
            | Some es => in_variants (info_in_type defs f) defs es path
            | None =>
              do o <- object_in defs f v;
              match o with Some es => in_entries (info_in_type defs f) es name rest | None => Ok None end
            end
          end
        end
      end
    end
  end.

(** 2421-2448, get_field_info_from_schema, get_field_info_in_schema *)
Definition field_info_from_schema (schema : value) (fuel : nat) (path : list str) : res (option field_info) :=
  match as_object schema with
  | None => Ok None
  | Some top =>
    match find_val (key_is (lit "schema")) top with
    | None => Ok None
    | Some block =>
      match as_object block with
      | None => Ok None
      | Some defs =>
        match obj_get_unit defs with
        | None => Ok None
        | Some root => info_in_type defs fuel root path
        end
      end
    end
  end.

(** 2205-2218: the path at the cursor as texts *)
Definition segment_text (s : step) : str := match s with SKey k => k | SIdx i => decimal i end.

(** 2772-2807, format_breadcrumb, format_field_hover; U+203A is the arrow between segments *)
Definition hover_text (path : list str) (i : field_info) (link : str) : str :=
  match fi_doc i with Some d => d ++ [cLF; cLF] | None => [] end
  ++ lit "[@](" ++ link ++ lit ")" ++ flat_map (fun s => [cSP; 8250; cSP]%N ++ s) path ++ lit ": `" ++ fi_type i ++ lit "`".

(** 903-937: hover on a field *)
Definition hover (schema doc : value) (fuel : nat) (o : nat) (link : str) : res (option str) :=
  match find_path_in_value o doc with
  | None => Ok None
  | Some steps =>
    let path := map segment_text steps in
    do i <- field_info_from_schema schema fuel path;
    Ok (option_map (fun i => hover_text path i link) i)
  end.

(** ** Going to the definition of a field *)

(** 2331-2368, find_field_in_object; a unit key's value is searched twice in a row there, to the same end *)
Fixpoint key_in_object (name : str) (v : value) : option span :=
  match v with
  | Val _ (PObj es _) _ =>
    (fix entries (l : list entry) : option span :=
       match l with
       | [] => None
       | Ent k w _ :: r =>
         match (if key_is name (Ent k w None) then v_span k else None) with
         | Some s => Some s
         | None => match key_in_object name w with Some s => Some s | None => entries r end
         end
       end) es
  | _ => None
  end.

(** 2286-2327, find_field_in_schema_source: the definition's key. *)
Fixpoint tagged_object (es : list entry) : option value :=
  match es with [] => None | e :: r => if tag_is (lit "object") (e_key e) then Some (e_val e) else tagged_object r end.
Definition field_in_schema (schema : value) (name : str) : option span :=
  match as_object schema with
  | None => None
  | Some top =>
    match find_val (key_is (lit "schema")) top with
    | None => None
    | Some block =>
      let fallback := key_in_object name block in
      match as_object block with
      | Some defs =>
        match obj_get_unit defs with
        | Some root =>
          match as_object root with
          | Some es => match tagged_object es with Some w => key_in_object name w | None => fallback end
          | None => if tag_is (lit "object") root then key_in_object name root else fallback
          end
        | None => fallback
        end
      | None => fallback
      end
    end
  end.

(** 2193-2196, find_field_key_at_offset; 689-698: where the cursor's field is defined, as a range of the schema's text *)
Definition goto_definition (schema doc : value) (schema_text : str) (o : nat) : option (position * position) :=
  match find_path_in_value o doc with
  | None => None
  | Some steps =>
    match rev steps with
    | [] => None
    | st :: _ =>
      match field_in_schema schema (segment_text st) with
      | Some s => Some (offset_to_position schema_text (sp_start s), offset_to_position schema_text (sp_end s))
      | None => None
      end
    end
  end.
