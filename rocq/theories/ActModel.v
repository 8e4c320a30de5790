(** What the language server tells the editor to do (/repo/crates/styx-lsp/src/server.rs): text edits for formatting, for the line break key and for a misspelt
    field, the problems it shows, and the places of a field in other documents.

    Simplifications: documents and the problems shown for them are lists with one entry per name ([HashMap]); which schema a document has, and what the validator says
    about it, are given; problems have no message, code or data; extensions are left out; handlers run one after the other. *)
From Coq Require Import String.
From Verif Require Import Base TokModel LexModel LexSpec ParseModel ParseSpec TreeModel TreeSpec FmtModel CstModel CstFmtModel WarnModel SchemaModel LspModel EditModel HoverModel.
Local Open Scope nat_scope.

(** [TextEdit] *)
Record edit := mkedit { e_from : position; e_to : position; e_text : str }.

(** 1874-1878 and 1962-1966: the indentation that the editor wants *)
Definition indent_unit (spaces : bool) (size : nat) : str := if spaces then repeat cSP size else [9%N].

(** 1890-1909: the edit for a text and its formatted form *)
Definition whole_edit (content formatted : str) : option edit :=
  if str_eqb formatted content then None
  else
    let lines := str_lines content in
    let last_line := length lines - 1 in
    let last_char := match rev lines with l :: _ => blen l | [] => 0 end in
    Some (mkedit (mkpos 0 0) (mkpos last_line last_char) formatted).
(** 1859-1910, formatting *)
Definition formatting (content : str) (parsed spaces : bool) (size : nat) : res (option edit) :=
  if negb parsed then Ok None
  else do formatted <- format_source (indent_unit spaces size) content; Ok (whole_edit content formatted).

(** 1937-1984, on_type_formatting *)
Definition on_type (content : str) (n : cst) (ch : str) (pos : position) (spaces : bool) (size : nat) : option edit :=
  if negb (str_eqb ch [cLF]) then None
  else
    let depth := find_nesting_depth_cst n (position_to_offset content pos) in
    Some (mkedit (mkpos (p_line pos) 0) (mkpos (p_line pos) 0) (repeat_str depth (indent_unit spaces size))).

(** 301-306 and 1261-1273: the edit for an unknown field at [sp] for which [to] is proposed *)
Definition rename_edit (content : str) (sp : span) (to : str) : edit :=
  mkedit (offset_to_position content (sp_start sp)) (offset_to_position content (sp_end sp)) to.

(** ** Problems *)

Inductive severity := SevError | SevWarning | SevHint.
Record diag := mkdiag { g_from : position; g_to : position; g_sev : severity }.
Definition at_span (content : str) (sp : span) (s : severity) : diag :=
  mkdiag (offset_to_position content (sp_start sp)) (offset_to_position content (sp_end sp)) s.
Definition at_start (s : severity) : diag := mkdiag (mkpos 0 0) (mkpos 0 1) s.

(** 204-222, 224-247 *)
Definition cst_diag (content : str) (e : cst_error) : diag := at_span content (mkspan (fst e) (fst e + 1)) SevError.
Definition build_diag (content : str) (e : build_error) : diag :=
  match e with BParse _ sp => at_span content sp SevError | BUnclosed => at_start SevError end.
(** 250-275 *)
Definition warn_span (w : warning) : span := match w with WMixed a b | WDuplicate a b _ => mkspan a b end.
(** 292-340, 343-365 *)
Definition error_diag (content : str) (tree : value) (e : verror) : diag :=
  match ve_span e with
  | Some sp => at_span content sp SevError
  | None => match get_error_span tree (ve_path e) with Some sp => at_span content sp SevError | None => at_start SevError end
  end.
Definition warning_diag (content : str) (w : vwarning) : diag :=
  match vw_span w with Some sp => at_span content sp SevWarning | None => at_start SevWarning end.

(** An open document (DocumentState); [d_check] is what [validate_against_schema] gives for its tree, if there is a schema: a result or a failure to load it. *)
Record doc := mkdoc { d_text : str; d_cst : cst; d_errors : list cst_error; d_tree : option value; d_check : option (vresult + unit); d_hint : bool }.

(** 193-413, compute_diagnostics *)
Definition compute_diagnostics (d : doc) (tree_error : option build_error) : list diag :=
  map (cst_diag (d_text d)) (d_errors d) ++
  match tree_error with Some e => [build_diag (d_text d) e] | None => [] end ++
  map (fun w => at_span (d_text d) (warn_span w) SevWarning) (validate (d_cst d)) ++
  match d_tree d with
  | None => []
  | Some t =>
    match d_check d with
    | None => []
    | Some (inl r) => map (error_diag (d_text d) t) (v_errors r) ++ map (warning_diag (d_text d)) (v_warnings r)
    | Some (inr _) => [at_start SevError]
    end ++
    (if d_hint d then [mkdiag (mkpos 0 0) (mkpos 0 0) SevHint] else [])
  end.

(** 501-509 and 552-559: what reading a text gives *)
Definition reads_doc (src : str) (d : doc) (err : option build_error) : Prop :=
  d_text d = src /\ cst_parse src = Ok (d_cst d, d_errors d) /\
  exists t, tree src t /\ match t with inl v => d_tree d = Some v /\ err = None | inr e => d_tree d = None /\ err = Some e end.

(** The open documents and what is shown for each name. *)
Record server := mksv { s_docs : list (str * doc); s_shown : list (str * list diag) }.
Fixpoint put {A} (k : str) (x : A) (m : list (str * A)) : list (str * A) :=
  match m with [] => [(k, x)] | (k', y) :: r => if str_eqb k' k then (k, x) :: r else (k', y) :: put k x r end.
Fixpoint drop {A} (k : str) (m : list (str * A)) : list (str * A) :=
  match m with [] => [] | (k', y) :: r => if str_eqb k' k then drop k r else (k', y) :: drop k r end.
Fixpoint get {A} (k : str) (m : list (str * A)) : option A :=
  match m with [] => None | (k', y) :: r => if str_eqb k' k then Some y else get k r end.
(** 102-190, publish_diagnostics: replaces what is shown for the document *)
Definition publish (uri : str) (l : list diag) (s : server) : server := mksv (s_docs s) (put uri l (s_shown s)).
Definition store (uri : str) (d : doc) (s : server) : server := mksv (put uri d (s_docs s)) (s_shown s).

Inductive request := ROpen (uri src : str) | RClose (uri : str) | RAllow.
Inductive step_of : request -> server -> server -> Prop :=
(** 495-541, did_open; 543-593, did_change *)
| st_open s uri src d err : reads_doc src d err -> step_of (ROpen uri src) s (store uri d (publish uri (compute_diagnostics d err) s))
(** 595-606, did_close *)
| st_close s uri : step_of (RClose uri) s (publish uri [] (mksv (drop uri (s_docs s)) (s_shown s)))
(** 1585-1637, execute_command with styx.allowExtension: the problems of all documents are shown anew *)
| st_allow s : step_of RAllow s (fold_left (fun s ud => publish (fst ud) (compute_diagnostics (snd ud) None) s) (s_docs s) s).
(** The server after some requests. *)
Inductive reached : server -> Prop :=
| rc_start : reached (mksv [] [])
| rc_step s r s' : reached s -> step_of r s s' -> reached s'.

(** ** Other documents *)

(** 3183-3201, is_schema_file *)
Definition is_schema_file (v : value) : bool :=
  match as_object v with
  | None => false
  | Some es => existsb (key_is (lit "schema")) es && existsb (key_is (lit "meta")) es
  end.
(** 3204-3220, find_field_in_doc *)
Fixpoint field_in_entries (name content : str) (es : list entry) : option (position * position) :=
  match es with
  | [] => None
  | e :: r =>
    match key_is name e, v_span (e_key e) with
    | true, Some sp => Some (range_of content (sp_start sp) (sp_end sp))
    | _, _ => field_in_entries name content r
    end
  end.
Definition find_field_in_doc (v : value) (name content : str) : option (position * position) :=
  match as_object v with Some es => field_in_entries name content es | None => None end.

(** An open document as the search sees it: its name, text, tree and the name of its schema. *)
Record source := mksrc { c_uri : str; c_text : str; c_tree : option value; c_schema : option str }.
Definition location : Type := str * (position * position).
Definition uses (schema : str) (c : source) : bool := match c_schema c with Some u => str_eqb u schema | None => false end.
Definition use_of (name : str) (c : source) : list location :=
  match c_tree c with
  | Some v => match find_field_in_doc v name (c_text c) with Some r => [(c_uri c, r)] | None => [] end
  | None => []
  end.
(** The last segment of the path at the cursor (2193-2196). *)
Definition field_at (v : value) (o : nat) : option str :=
  match find_path_in_value o v with
  | Some steps => match rev steps with st :: _ => Some (segment_text st) | [] => None end
  | None => None
  end.
(** 1639-1723, references; [schema] is the tree and text of the document's schema *)
Definition references (docs : list source) (here : source) (schema : option (value * str)) (pos : position) : list location :=
  match c_tree here with
  | None => []
  | Some v =>
    match field_at v (position_to_offset (c_text here) pos) with
    | None => []
    | Some name =>
      if is_schema_file v then
        flat_map (use_of name) (filter (fun c => negb (str_eqb (c_uri c) (c_uri here)) && uses (c_uri here) c) docs)
      else
        match c_schema here, schema with
        | Some u, Some (sv, st) =>
          match field_in_schema sv name with
          | Some sp => (u, range_of st (sp_start sp) (sp_end sp)) :: flat_map (use_of name) (filter (uses u) docs)
          | None => []
          end
        | _, _ => []
        end
    end
  end.
