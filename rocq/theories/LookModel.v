(** Model of completion in the language server: the fields that the schema has at the cursor and which of them are proposed
    (/repo/crates/styx-lsp/src/schema_validation.rs 350-407 and 607-712, server.rs 941-1115 and 2809-2840 at the pinned commit).

    Simplifications. Schemas are those of SchemaModel.v, without documentation; a hash map is a list in the order of its
    iteration. [fuel] bounds the depth of recursion, running out of it stands for a stack overflow. Only the case that the schema
    was read is modelled, not the fallback to its text (server.rs 993-996), and not the proposals of extensions (1117-1154).
    [lower] stands for [str::to_lowercase]. *)
From Coq Require Import String.
From Verif Require Import Base TreeModel SchemaModel LspModel EditModel.
Local Open Scope nat_scope.

Section Lookups.
Variable F : Type.
Notation schema := (schema F).
Notation schema_file := (schema_file F).
Notation schema_field := (@schema_field F).

(** schema_validation.rs 638-643: the first key that has a tag and no value *)
Fixpoint catch_all_field (fs : list (obj_key * schema)) : option schema :=
  match fs with
  | [] => None
  | (k, s) :: r => match k_value k, k_tag k with None, Some _ => Some s | _, _ => catch_all_field r end
  end.

(** schema_validation.rs 613-682, get_schema_at_path_recursive; a map without types is indexed out of bounds (667) *)
Fixpoint schema_at (file : schema_file) (fuel : nat) (s : schema) (path : list str) : res (option schema) :=
  match fuel with
  | O => OutOfFuel
  | S f =>
    match path with
    | [] => Ok (Some s)
    | name :: rest =>
      match s with
      | SObject _ fs =>
        match field_schema F name fs with
        | Some t => schema_at file f t rest
        | None => match catch_all_field fs with Some t => schema_at file f t rest | None => Ok None end
        end
      | SEnum _ vs =>
        match name with
        | c :: variant =>
          if (c =? cAT)%N then match variant_schema F variant vs with Some t => schema_at file f t rest | None => Ok None end
          else Ok None
        | [] => Ok None
        end
      | SMap _ l =>
        match l with
        | [] => Panic
        | [t] => schema_at file f t rest
        | _ :: t :: _ => schema_at file f t rest
        end
      | SOptional _ t => schema_at file f t path
      | SDefault _ _ t => schema_at file f t path
      | SDeprecated _ _ t => schema_at file f t path
      | SType _ (Some n) => match lookup_type F (Some n) file with Some t => schema_at file f t path | None => Ok None end
      | _ => Ok None
      end
    end
  end.

(** schema_validation.rs 607-611, get_schema_at_path *)
Definition get_schema_at_path (file : schema_file) (fuel : nat) (path : list str) : res (option schema) :=
  match lookup_type F None file with Some root => schema_at file fuel root path | None => Ok None end.

(** schema_validation.rs 699-712, resolve_type_reference *)
Fixpoint resolve_type (file : schema_file) (fuel : nat) (s : schema) : res schema :=
  match fuel with
  | O => OutOfFuel
  | S f =>
    match s with
    | SType _ (Some n) => match lookup_type F (Some n) file with Some t => resolve_type file f t | None => Ok s end
    | _ => Ok s
    end
  end.

(** schema_validation.rs 368-381: the named fields of an object; [key.name()] (schema_types.rs) is the key's value *)
Definition object_fields (fs : list (obj_key * schema)) : list schema_field :=
  flat_map (fun p => match k_value (fst p) with
                     | Some n => let '(o, d, i) := unwrap_field_modifiers (snd p) in [mksf n o d i]
                     | None => []
                     end) fs.

(** schema_validation.rs 363-396, collect_object_fields *)
Fixpoint collect_fields (file : schema_file) (fuel : nat) (s : schema) : res (list schema_field) :=
  match fuel with
  | O => OutOfFuel
  | S f =>
    match s with
    | SObject _ fs => Ok (object_fields fs)
    | SFlatten _ t => collect_fields file f t
    | SType _ (Some n) =>
      match lookup_type F (Some n) file with
      | Some t => do r <- resolve_type file f t; collect_fields file f r
      | None => Ok []
      end
    | _ => Ok []
    end
  end.

(** schema_validation.rs 350-360, get_schema_fields *)
Definition get_schema_fields (file : schema_file) (fuel : nat) : res (list schema_field) :=
  match lookup_type F None file with Some root => collect_fields file fuel root | None => Ok [] end.

(** schema_validation.rs 685-697, get_schema_fields_at_path *)
Definition get_schema_fields_at_path (file : schema_file) (fuel : nat) (path : list str) : res (list schema_field) :=
  do found <- get_schema_at_path file fuel path;
  match found with
  | None => Ok []
  | Some s => do r <- resolve_type file fuel s; collect_fields file fuel r
  end.

(** server.rs 2810-2840, schema_to_type_str *)
Fixpoint type_text (s : schema) : str :=
  match s with
  | SString _ _ => lit "@string"
  | SInt _ _ => lit "@int"
  | SFloat _ _ => lit "@float"
  | SBool _ => lit "@bool"
  | SUnit _ => lit "@unit"
  | SAny _ => lit "@any"
  | SType _ (Some n) => cAT :: n
  | SType _ None => lit "@type"
  | SObject _ _ => lit "@object{...}"
  | SSeq _ _ => lit "@seq(...)"
  | SMap _ _ => lit "@map(...)"
  | SEnum _ _ => lit "@enum{...}"
  | SUnion _ _ => lit "@union(...)"
  | SOneOf _ _ _ => lit "@oneof(...)"
  | SFlatten _ _ => lit "@flatten(...)"
  | SLiteral _ t => [cDQ] ++ t ++ [cDQ]
  | SOptional _ t => lit "@optional(" ++ type_text t ++ [cRP]
  | SDefault _ _ t => lit "@default(..., " ++ type_text t ++ [cRP]
  | SDeprecated _ _ t => lit "@deprecated(" ++ type_text t ++ [cRP]
  | STuple _ l => lit "@tuple(" ++ join [cSP] (map type_text l) ++ [cRP]
  end.

(** server.rs 979-989: the type shown beside a proposed field *)
Definition field_text (f : schema_field) : str :=
  if sf_optional f then lit "@optional(" ++ type_text (sf_schema f) ++ [cRP]
  else match sf_default f with
       | Some d => lit "@default(" ++ d ++ [cSP] ++ type_text (sf_schema f) ++ [cRP]
       | None => type_text (sf_schema f)
       end.

(** ** Which fields are proposed (server.rs 998-1069) *)
Section Propose.
Variable lower : str -> str.

(** [str::starts_with] and [str::contains] *)
Fixpoint starts (p s : str) : bool :=
  match p, s with
  | [], _ => true
  | a :: p', b :: s' => (a =? b)%N && starts p' s'
  | _ :: _, [] => false
  end.
Fixpoint has_text (p s : str) : bool :=
  starts p s || match s with [] => false | _ :: r => has_text p r end.

(** 1031-1051: the score of a name for the word typed *)
Definition score (word name : str) : res (option nat) :=
  let n := lower name in
  let w := lower word in
  if starts w n then Ok (Some 0)
  else if has_text w n then Ok (Some 1)
  else do dist <- lsp_levenshtein w n;
       Ok (if (dist <=? 3) && (dist <? Nat.max (blen word) 2) then Some (2 + dist) else None).

(** [slice::sort_by_key], which is stable *)
Fixpoint insert_by {A} (key : A -> nat) (x : A) (l : list A) : list A :=
  match l with
  | [] => [x]
  | y :: r => if key x <=? key y then x :: l else y :: insert_by key x r
  end.
Definition sort_by {A} (key : A -> nat) (l : list A) : list A := fold_right (insert_by key) [] l.

Fixpoint scored (word : str) (l : list (str * str)) : res (list ((str * str) * nat)) :=
  match l with
  | [] => Ok []
  | f :: r =>
    do s <- score word (fst f);
    do rest <- scored word r;
    Ok (match s with Some n => (f, n) :: rest | None => rest end)
  end.

(** 1062-1064 *)
Definition marked_optional (type : str) : bool := starts (lit "@optional") type || starts (lit "@default") type.

(** 1023, 1024-1072: at most fifty *)
Definition max_completions : nat := 50.
Definition choose_fields (word : option str) (available : list (str * str)) : res (list (str * str)) :=
  if max_completions <? List.length available then
    match word with
    | Some w => do l <- scored w available; Ok (map fst (firstn max_completions (sort_by snd l)))
    | None => Ok (firstn max_completions (sort_by (fun f => if marked_optional (snd f) then 1 else 0) available))
    end
  else Ok available.

(** 961-1072, completion: the names proposed and their types *)
Definition existing_fields (v : value) (cursor : nat) : list str :=
  let names es := flat_map (fun e => match as_str (e_key e) with Some n => [n] | None => [] end) es in
  match find_object_at_offset v cursor with
  | Some c => names (oc_object c)
  | None => match as_object v with Some es => names es | None => [] end
  end.
Definition completion (file : schema_file) (fuel : nat) (content : str) (v : value) (pos : position) : res (list (str * str)) :=
  let cursor := position_to_offset content pos in
  let path := match find_object_at_offset v cursor with Some c => oc_path c | None => [] end in
  do fields <- get_schema_fields_at_path file fuel path;
  do word <- get_word_range_at_position content pos;
  let existing := existing_fields v cursor in
  let available := filter (fun f => negb (existsb (str_eqb (fst f)) existing)) (map (fun f => (sf_name f, field_text f)) fields) in
  choose_fields (option_map fst word) available.

(** 1004-1008, 1098-1101: the edit of a proposal: the range that is replaced, and the text for it *)
Definition completion_edit (content : str) (pos : position) (name : str) : res ((position * position) * str) :=
  do word <- get_word_range_at_position content pos;
  Ok (match word with Some (_, r) => r | None => (pos, pos) end, name ++ [cSP]).
End Propose.
End Lookups.
