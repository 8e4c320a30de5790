(** Model of what the language server does with a parsed document: paths and objects at the cursor, values of error
    paths, document symbols, quick fixes, indentation while typing and the JSON of extension data
    (/repo/crates/styx-lsp/src/server.rs, schema_validation.rs and schema_hints.rs at the pinned commit).

    Simplifications. Requests are functions of the document's text and trees; the store of documents, the schema
    cache and the protocol are left out. Byte offsets and columns are unbounded (the code casts to [u32]).
    Where the code slices the text, slicing outside of the characters is [Panic]. *)
From Coq Require Import String.
From Verif Require Import Base TokModel TreeModel TreeSpec SchemaModel LspModel CstModel.

(** ** Paths (schema_validation.rs 310-348) *)

(** [segment.starts_with('[') && segment.ends_with(']')] *)
Definition bracketed (s : str) : bool :=
  match s with
  | c :: _ => (c =? cLSQ)%N && (last s 0 =? cRSQ)%N
  | [] => false
  end.

(** 310-341, find_value_by_path; [fuel]: the path gets shorter. *)
Fixpoint find_by_path (fuel : nat) (v : value) (path : str) : option value :=
  match path with
  | [] => Some v
  | _ =>
    match fuel with
    | O => None
    | S f =>
      match as_object v with
      | None => None
      | Some es =>
        let (segment, rest) := match cut_at cDOT path with Some x => x | None => (path, []) end in
        if bracketed segment then
          match seg_index segment, as_sequence v with
          | Some i, Some items => match nth_error items i with Some w => find_by_path f w rest | None => None end
          | _, _ => None
          end
        else match find_val (key_is segment) es with Some w => find_by_path f w rest | None => None end
      end
    end
  end.
Definition find_value_by_path (v : value) (path : str) : option value := find_by_path (length path) v path.

(** 344-348, get_error_span *)
Definition get_error_span (v : value) (path : str) : option span :=
  match find_value_by_path v path with Some w => v_span w | None => None end.

(** ** The path at the cursor (server.rs 2215-2283) *)

Definition holds (sp : option span) (o : nat) : bool :=
  match sp with Some s => (sp_start s <=? o) && (o <? sp_end s) | None => false end.

(** 2226-2283, find_path_in_value; [PathSegment] is [step] *)
Fixpoint find_path_in_value (o : nat) (v : value) {struct v} : option (list step) :=
  match v with
  | Val _ (PObj es _) _ =>
    (fix entries (es : list entry) : option (list step) :=
       match es with
       | [] => None
       | Ent k w _ :: r =>
         match holds (v_span k) o, as_str k with
         | true, Some key => Some [SKey key]
         | _, _ =>
           if holds (v_span w) o then
             match find_path_in_value o w with
             | Some p => Some (match as_str k with Some key => SKey key :: p | None => p end)
             | None => match as_str k with Some key => Some [SKey key] | None => entries r end
             end
           else entries r
         end
       end) es
  | Val _ (PSeq items _) _ =>
    (fix elements (i : nat) (l : list value) : option (list step) :=
       match l with
       | [] => None
       | w :: r =>
         if holds (v_span w) o then Some (SIdx i :: match find_path_in_value o w with Some p => p | None => [] end)
         else elements (S i) r
       end) 0 items
  | _ => None
  end.

(** ** The object at the cursor (schema_validation.rs 484-605) *)

(** 484-491, ObjectContext *)
Record object_context := mkoc { oc_path : list str; oc_object : list entry; oc_span : option span }.

(** [offset >= start && offset <= end] *)
Definition touches (sp : option span) (o : nat) : bool :=
  match sp with Some s => (sp_start s <=? o) && (o <=? sp_end s) | None => false end.

Definition sub_context (path : list str) (k w : value) : list str :=
  path ++ (match as_str k with Some key => [key] | None => [] end)
       ++ (match v_tag w with Some (t, _) => [cAT :: t] | None => [] end).

(** 559-605, find_object_at_offset_recursive; 494-496 calls it with the empty path *)
Fixpoint object_at (o : nat) (v : value) (path : list str) {struct v} : option object_context :=
  match v with
  | Val _ (PObj es osp) _ =>
    if match osp with Some _ => negb (touches osp o) | None => false end then None
    else
      let here := Some (mkoc path es osp) in
      (fix entries (l : list entry) : option object_context :=
         match l with
         | [] => here
         | Ent k w _ :: r =>
           match touches (v_span w) o, w with
           | true, Val _ (PObj es' _) _ =>
             match object_at o w (sub_context path k w) with
             | Some c => Some c
             | None => Some (mkoc (sub_context path k w) es' (v_span w))
             end
           | _, _ => entries r
           end
         end) es
  | _ => None
  end.
Definition find_object_at_offset (v : value) (o : nat) : option object_context := object_at o v [].

(** ** Document symbols (server.rs 2048-2129) *)

Inductive symbol_kind := KObject | KArray | KString | KNull | KVariable | KConstant.
Inductive symbol := Sym (name : str) (detail : option str) (kind : symbol_kind) (range selection : position * position) (children : list symbol).

Definition range_of (content : str) (a b : nat) : position * position := (offset_to_position content a, offset_to_position content b).

(** [children: if children.is_empty() { None } else { Some(children) }] is the list *)
Fixpoint symbols (content : str) (v : value) {struct v} : res (list symbol) :=
  match v with
  | Val _ (PObj es _) _ =>
    (fix entries (l : list entry) : res (list symbol) :=
       match l with
       | [] => Ok []
       | Ent k w _ :: r =>
         if is_unit k then entries r else
         match as_str k, v_span k, v_span w with
         | Some name, Some ks, Some vs =>
           do text <- of_opt (slice content (sp_start vs) (sp_end vs));
           do x <- (match w with
                    | Val _ (PObj _ _) _ => do c <- symbols content w; Ok (KObject, None, c)
                    | Val _ (PSeq _ _) _ => Ok (KArray, Some (lit "array"), [])
                    | _ => Ok (match as_str w with
                               | Some _ => (KString, Some text, [])
                               | None => if is_unit w then (KNull, Some [cAT], [])
                                         else match v_tag w with Some _ => (KVariable, Some text, []) | None => (KConstant, Some text, []) end
                               end)
                    end);
           let '(kind, detail, ch) := x in
           do rest <- entries r;
           Ok (Sym name detail kind (range_of content (sp_start ks) (sp_end vs)) (range_of content (sp_start ks) (sp_end ks)) ch :: rest)
         | _, _, _ => entries r
         end
       end) es
  | _ => Ok []
  end.

(** ** Filling in fields (server.rs 1420-1556, 3222-3281; schema_validation.rs 398-458) *)

(** [str::lines]: the pieces between line feeds without a final carriage return; no piece after a final line feed. *)
Fixpoint split_lf (s cur : str) : list str :=
  match s with
  | [] => match cur with [] => [] | _ => [rev cur] end
  | c :: r => if (c =? cLF)%N then rev (match cur with d :: t => if (d =? cCR)%N then t else cur | [] => [] end) :: split_lf r []
              else split_lf r (c :: cur)
  end.
Definition text_lines (s : str) : list str := split_lf s [].

Fixpoint trim_start (s : str) : str := match s with c :: r => if is_ws c then trim_start r else s | [] => [] end.
(** the blanks that [trim_start] removes: [line[..indent_len]] *)
Fixpoint blanks_of (s : str) : str := match s with c :: r => if is_ws c then c :: blanks_of r else [] | [] => [] end.

Record insert_position := mkins { ip_pos : position; ip_indent : str }.

(** 3232-3233: [trim] leaves something, which is not a comment *)
Definition content_line (line : str) : bool :=
  match trim_start line with
  | [] => false
  | c :: r => negb (starts_with [cSLASH; cSLASH] (c :: r)) && negb (c =? cHASH)%N
  end.

Fixpoint last_content_line (i : nat) (ls : list str) : option (nat * str) :=
  match ls with
  | [] => None
  | l :: r => match last_content_line (S i) r with Some x => Some x | None => if content_line l then Some (i, l) else None end
  end.

(** 3228-3257, find_field_insert_position; the column is a number of bytes *)
Definition find_field_insert_position (content : str) : insert_position :=
  let ls := text_lines content in
  match last_content_line 0 ls with
  | Some (i, line) => mkins (mkpos i (blen line)) (blanks_of line)
  | None => mkins (mkpos (length ls - 1) (match rev ls with l :: _ => blen l | [] => 0 end)) []
  end.

Section Fill.
Context {F : Type}.
Notation schema := (schema F).

(** schema_validation.rs 410-458, generate_placeholder; [e.0.keys().next()] is the first key of the map as it is iterated *)
Fixpoint generate_placeholder (s : schema) : str :=
  match s with
  | SString _ _ => [cDQ; cDQ]
  | SInt _ _ => lit "0"
  | SFloat _ _ => lit "0.0"
  | SBool _ => lit "false"
  | SUnit _ | SAny _ => [cAT]
  | SSeq _ _ => lit "[]"
  | SMap _ _ | SObject _ _ => lit "{}"
  | SOptional _ t => generate_placeholder t
  | SDefault _ d _ => d
  | SDeprecated _ _ t => generate_placeholder t
  | SUnion _ l => match l with t :: _ => generate_placeholder t | [] => [cAT] end
  | SEnum _ vs => match vs with (n, _) :: _ => cAT :: n | [] => [cAT] end
  | SOneOf _ t allowed => match allowed with a :: _ => a | [] => generate_placeholder t end
  | SFlatten _ t => generate_placeholder t
  | SLiteral _ t => t
  | SType _ n => match n with Some n => cAT :: n | None => [cAT] end
  | STuple _ l => [cLP] ++ join [cSP] (map generate_placeholder l) ++ [cRP]
  end.

(** schema_validation.rs 115-125, SchemaField *)
Record schema_field := mksf { sf_name : str; sf_optional : bool; sf_default : option str; sf_schema : schema }.

(** schema_validation.rs 398-412, unwrap_field_modifiers *)
Fixpoint unwrap_field_modifiers (s : schema) : bool * option str * schema :=
  match s with
  | SOptional _ t => let '(_, d, i) := unwrap_field_modifiers t in (true, d, i)
  | SDefault _ d t => let '(o, _, i) := unwrap_field_modifiers t in (o, Some d, i)
  | SDeprecated _ _ t => unwrap_field_modifiers t
  | _ => (false, None, s)
  end.

(** 3260-3281, generate_fields_text *)
Definition generate_fields_text (fields : list schema_field) (indent : str) : str :=
  flat_map (fun f => [cLF] ++ indent ++ sf_name f ++ [cSP]
                     ++ match sf_default f with Some d => d | None => generate_placeholder (sf_schema f) end) fields.

(** 1459-1484: where the fields go *)
Definition fill_position (content : str) (v : value) (cursor : nat) : res insert_position :=
  match find_object_at_offset v cursor with
  | Some (mkoc _ _ (Some sp)) =>
    do t <- of_opt (slice content (sp_start sp) (sp_end sp));
    let ins := find_field_insert_position t in
    let start := offset_to_position content (sp_start sp) in
    Ok (mkins (mkpos (p_line start + p_line (ip_pos ins))
                     (if p_line (ip_pos ins) =? 0 then p_char start + p_char (ip_pos ins) else p_char (ip_pos ins)))
              (ip_indent ins))
  | _ => Ok (find_field_insert_position content)
  end.

(** 1438-1443, 1489-1497: the edit that fills the required fields, as its position and text; [schema_fields] are the fields of
    the object's schema *)
Definition fill_required (content : str) (v : value) (cursor : nat) (schema_fields : list schema_field) : res (option (position * str)) :=
  let existing := match find_object_at_offset v cursor with
                  | Some c => oc_object c
                  | None => match as_object v with Some es => es | None => [] end
                  end in
  let missing := filter (fun f => negb (sf_optional f) && negb (existsb (TreeModel.key_is (sf_name f)) existing)) schema_fields in
  do ins <- fill_position content v cursor;
  Ok (match missing with [] => None | _ => Some (ip_pos ins, generate_fields_text missing (ip_indent ins)) end).

(** ** Reordering fields (server.rs 3284-3375) *)

(** The map of the field order: of two fields with one name the later one counts. *)
Fixpoint field_order (i : nat) (fields : list schema_field) (name : str) : option nat :=
  match fields with
  | [] => None
  | f :: r => match field_order (S i) r name with Some n => Some n | None => if str_eqb (sf_name f) name then Some i else None end
  end.

(** 3318-3323, 3341-3347: [Less] or [Equal] *)
Definition order_le (a b : option nat) : bool :=
  match a, b with Some x, Some y => x <=? y | None, Some _ => false | _, None => true end.
(** 3330-3348; a comparison that answers [Less] for a unit key whatever the other one is *)
Definition entry_le (a b : option nat * entry) : bool :=
  if is_unit (e_key (snd a)) then true else if is_unit (e_key (snd b)) then false else order_le (fst a) (fst b).

(** [sort_by] is stable; insertion sort stands for it (the comparison is an order if at most one key is a unit). *)
Fixpoint put_in {A} (le : A -> A -> bool) (x : A) (l : list A) : list A :=
  match l with [] => [x] | y :: r => if le x y then x :: l else y :: put_in le x r end.
Definition sort_by {A} (le : A -> A -> bool) (l : list A) : list A := fold_right (put_in le) [] l.

Definition opt_nat_eqb (a b : option nat) : bool :=
  match a, b with Some x, Some y => x =? y | None, None => true | _, _ => false end.
Fixpoint list_eqb {A} (eqb : A -> A -> bool) (a b : list A) : bool :=
  match a, b with [] , [] => true | x :: a', y :: b' => eqb x y && list_eqb eqb a' b' | _, _ => false end.

(** 3350-3366: the texts of the entries, each with what stands before it on its line *)
Fixpoint entry_texts (content : str) (first : bool) (es : list (option nat * entry)) : res str :=
  match es with
  | [] => Ok []
  | (_, e) :: r =>
    let sep := if first then [] else [cLF] in
    do t <- match v_span (e_key e), v_span (e_val e) with
            | Some ks, Some vs =>
              do before <- of_opt (slice content 0 (sp_start ks));
              do indent <- of_opt (slice content (after_last_lf before 0 0) (sp_start ks));
              do text <- of_opt (slice content (sp_start ks) (sp_end vs));
              Ok (indent ++ text)
            | _, _ => Ok []
            end;
    do rest <- entry_texts content false r;
    Ok (sep ++ t ++ rest)
  end.

(** 3284-3375, generate_reorder_edit *)
Definition generate_reorder_edit (v : value) (fields : list schema_field) (content : str) : res (option (position * position * str)) :=
  match v_payload v with
  | PObj es osp =>
    let doc_entries := map (fun e => (match as_str (e_key e) with Some n => field_order 0 fields n | None => None end, e)) es in
    let current := map fst doc_entries in
    if list_eqb opt_nat_eqb current (sort_by order_le current) then Ok None
    else
      do text <- entry_texts content true (sort_by entry_le doc_entries);
      Ok (match osp with
          | Some sp => Some (offset_to_position content (sp_start sp), offset_to_position content (sp_end sp), text)
          | None => None
          end)
  | _ => Ok None
  end.
End Fill.

(** ** Schema declarations (schema_validation.rs 134-165, schema_hints.rs 62-69) *)

Inductive schema_ref := RNone | RExternal (path : str) | REmbedded (id cli : str).

Definition embedded (w : value) : option schema_ref :=
  match as_object w with
  | Some es =>
    match obj_get (lit "id") es, obj_get (lit "cli") es with
    | Some i, Some c => match as_str i, as_str c with Some i, Some c => Some (REmbedded i c) | _, _ => None end
    | _, _ => None
    end
  | None => None
  end.
Definition declared (w : value) : option schema_ref :=
  if is_unit w then Some RNone else match as_str w with Some p => Some (RExternal p) | None => embedded w end.
Definition is_schema_tag (k : value) : bool := match v_tag k with Some (t, _) => str_eqb t (lit "schema") | None => false end.

(** schema_validation.rs 134-165, find_schema_declaration *)
Fixpoint first_declared (es : list entry) : option schema_ref :=
  match es with
  | [] => None
  | e :: r => if is_schema_tag (e_key e) then match declared (e_val e) with Some x => Some x | None => first_declared r end else first_declared r
  end.
Definition find_schema_declaration (v : value) : option schema_ref :=
  match as_object v with Some es => first_declared es | None => None end.

(** schema_hints.rs 62-69, schema_declaration; server.rs 1186 appends two line feeds *)
Definition schema_declaration (id : str) (cli : option str) : str :=
  match cli with
  | Some c => lit "@schema {id " ++ id ++ lit ", cli " ++ c ++ lit "}"
  | None => lit "@schema {id " ++ id ++ lit "}"
  end.
Definition add_schema (id : str) (cli : option str) (content : str) : str := schema_declaration id cli ++ [cLF; cLF] ++ content.

(** ** Indentation while typing (server.rs 1991-2045) *)

Definition is_container (k : nkind) : bool := match k with OBJECT | SEQUENCE => true | _ => false end.

(** The leaves of a tree, each with the number of objects and sequences around it. *)
Fixpoint deep_leaves (d : nat) (n : cst) : list (lkind * str * nat) :=
  match n with
  | Leaf k t => [(k, t, d)]
  | Node k cs => flat_map (deep_leaves (if is_container k then S d else d)) cs
  end.

(** rowan's [token_at_offset]: the leaves that are not empty and hold the offset or end or start there, at most two *)
Fixpoint leaves_at (o p : nat) (l : list (lkind * str * nat)) : list (lkind * nat * nat) :=
  match l with
  | [] => []
  | (k, t, d) :: r =>
    (if (0 <? blen t) && (p <=? o) && (o <=? p + blen t) then [(k, p + blen t, d)] else []) ++ leaves_at o (p + blen t) r
  end.

Definition is_closing (k : lkind) : bool := match k with LTok RBrace | LTok RParen => true | _ => false end.

(** 1991-2045, find_nesting_depth_cst *)
Definition find_nesting_depth_cst (n : cst) (o : nat) : nat :=
  match leaves_at o 0 (deep_leaves 0 n) with
  | [] => 0
  | [(k, e, d)] => if is_closing k && (e =? o) then d - 1 else d
  | (k, _, d) :: (_, _, d') :: _ => if is_closing k then d' else d
  end.

(** ** Extension data as JSON (server.rs 3045-3147) *)

(** [serde_json::Value]; a number is its text. *)
Inductive json :=
| JNull | JBool (b : bool) | JNumber (t : str) | JString (t : str) | JArray (l : list json) | JObject (m : list (str * json)).

(** [Map::insert] of a map that keeps the order of insertion. (Without the feature [preserve_order] the map is sorted.) *)
Fixpoint map_insert (k : str) (x : json) (m : list (str * json)) : list (str * json) :=
  match m with
  | [] => [(k, x)]
  | (k', y) :: r => if str_eqb k k' then (k', x) :: r else (k', y) :: map_insert k x r
  end.

(** 3046-3071, convert_styx_value_to_json *)
Fixpoint to_json (v : value) : json :=
  match as_str v with
  | Some s => JString s
  | None =>
    match v with
    | Val _ (PObj es _) _ =>
      JObject ((fix entries (es : list entry) (m : list (str * json)) : list (str * json) :=
                  match es with
                  | [] => m
                  | Ent k w _ :: r => entries r (match as_str k with Some key => map_insert key (to_json w) m | None => m end)
                  end) es [])
    | Val _ (PSeq items _) _ => JArray (map to_json items)
    | _ => JNull
    end
  end.

Definition bare (t : str) : value := Val None (PScalar t Bare None) None.

(** 3074-3147, json_to_styx_value *)
Fixpoint of_json (j : json) : value :=
  match j with
  | JNull => Val None PNone None
  | JBool b => bare (if b then lit "true" else lit "false")
  | JNumber t => bare t
  | JString t => bare t
  | JArray l => Val None (PSeq (map of_json l) None) None
  | JObject m => Val None (PObj (map (fun x => Ent (bare (fst x)) (of_json (snd x)) None) m) None) None
  end.
