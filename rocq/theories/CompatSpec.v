(** Reading schema documents, and careful schema changes. *)
From Coq Require Import String ZArith.
From Verif Require Import TreeModel CliModel SchemaModel SchemaSpec.
Local Open Scope nat_scope.

(** ** From documents to schemas

    The validator gets its schemas from facet's reflection, which is not modelled; this function reads schema
    documents as schema.md describes them.  Constraints other than those of strings and integers, and tags
    with payloads it does not know, are refused. *)
Section Read.
Variable F : Type.

Definition opt_map2 {A B C} (f : A -> B -> C) (a : option A) (b : option B) : option C :=
  match a, b with Some x, Some y => Some (f x y) | _, _ => None end.
Definition number_at (name : str) (es : list entry) : option Z :=
  match find (key_is name) es with
  | Some e => match scalar_text (e_val e) with Some t => parse_i128 t | None => None end
  | None => None
  end.
Definition text_at (name : str) (es : list entry) : option str :=
  match find (key_is name) es with Some e => scalar_text (e_val e) | None => None end.
Definition read_key (k : value) : option obj_key :=
  match k with
  | Val None (PScalar t _ _) _ => Some (mkkey (Some t) None)
  | Val None PNone _ => Some (mkkey None (Some []))
  | Val (Some (t, _)) PNone _ => Some (mkkey None (Some t))
  | _ => None
  end.
Definition read_name (k : value) : option str :=
  match k with Val None (PScalar t _ _) _ => Some t | _ => None end.

Definition literal (s : schema F) : option str := match s with SLiteral _ t => Some t | _ => None end.

(** Built-in types without a payload; other names refer to definitions. *)
Definition plain_type (tag : str) : option (schema F) :=
  if str_eqb tag (lit "string") then Some (SString _ None)
  else if str_eqb tag (lit "int") then Some (SInt _ None)
  else if str_eqb tag (lit "float") then Some (SFloat _ None)
  else if str_eqb tag (lit "bool") then Some (SBool _)
  else if str_eqb tag (lit "unit") then Some (SUnit _)
  else if str_eqb tag (lit "any") then Some (SAny _)
  else if existsb (str_eqb tag) (map (fun s => s) [lit "object"; lit "seq"; lit "tuple"; lit "map"; lit "union";
            lit "optional"; lit "enum"; lit "one-of"; lit "flatten"; lit "default"; lit "deprecated"]) then None
  else Some (SType _ (Some tag)).

(** Types with a sequence of types. *)
Definition list_type (tag : str) (l : list (schema F)) : option (schema F) :=
  if str_eqb tag (lit "tuple") then Some (STuple _ l)
  else if str_eqb tag (lit "map") then Some (SMap _ l)
  else if str_eqb tag (lit "union") then Some (SUnion _ l)
  else match l with
       | [s] =>
           if str_eqb tag (lit "seq") then Some (SSeq _ s)
           else if str_eqb tag (lit "optional") then Some (SOptional _ s)
           else if str_eqb tag (lit "flatten") then Some (SFlatten _ s)
           else None
       | [SLiteral _ t; s] =>
           if str_eqb tag (lit "default") then Some (SDefault _ t s)
           else if str_eqb tag (lit "deprecated") then Some (SDeprecated _ t s)
           else None
       | _ => None
       end.

Fixpoint read_schema (v : value) : option (schema F) :=
  match v with
  | Val None PNone _ => Some (SType _ None)
  | Val None (PScalar t _ _) _ => Some (SLiteral _ t)
  | Val None _ _ => None
  | Val (Some (tag, _)) PNone _ => plain_type tag
  | Val (Some (tag, _)) (PScalar _ _ _) _ => None
  | Val (Some (tag, _)) (PSeq l _) _ =>
      match (fix go l := match l with [] => Some [] | x :: r => opt_map2 cons (read_schema x) (go r) end) l with
      | Some ss => list_type tag ss
      | None => None
      end
  | Val (Some (tag, _)) (PObj es _) _ =>
      if str_eqb tag (lit "object") then
        option_map (SObject _)
          ((fix go es := match es with
            | [] => Some []
            | Ent k x _ :: r => opt_map2 cons (opt_map2 pair (read_key k) (read_schema x)) (go r)
            end) es)
      else if str_eqb tag (lit "enum") then
        option_map (SEnum _)
          ((fix go es := match es with
            | [] => Some []
            | Ent k x _ :: r => opt_map2 cons (opt_map2 pair (read_name k) (read_schema x)) (go r)
            end) es)
      else if str_eqb tag (lit "string") then
        Some (SString _ (Some (mksc (option_map Z.to_nat (number_at (lit "minLen") es))
                                    (option_map Z.to_nat (number_at (lit "maxLen") es)) (text_at (lit "pattern") es))))
      else if str_eqb tag (lit "int") then
        Some (SInt _ (Some (mkic (number_at (lit "min") es) (number_at (lit "max") es))))
      else None
  end.

(** The definitions of a schema block. *)
Definition block_name (k : value) : option (option str) :=
  match k with
  | Val None (PScalar t _ _) _ => Some (Some t)
  | Val None PNone _ => Some None
  | _ => None
  end.
Fixpoint read_block (es : list entry) : option (schema_file F) :=
  match es with
  | [] => Some []
  | Ent k x _ :: r => opt_map2 cons (opt_map2 pair (block_name k) (read_schema x)) (read_block r)
  end.

(** The document has one schema block, with these entries. *)
Definition has_block (doc : value) (es : list entry) : Prop :=
  exists t a k x d b s0, doc = Val t (PObj (a ++ Ent k x d :: b) s0) (v_span doc) /\
    key_is (lit "schema") (Ent k x d) = true /\
    Forall (fun e => key_is (lit "schema") e = false) (a ++ b) /\ exists sp, v_payload x = PObj es sp.

(** ** Careful changes: what is kept is kept unchanged. *)
Definition named (fs : list (obj_key * schema F)) : Prop := Forall (fun p => k_tag (fst p) = None) fs.
Definition scalar_type (s : schema F) : Prop :=
  match s with SString _ _ | SInt _ _ | SFloat _ _ | SBool _ => True | _ => False end.
Definition careful_definition (old new : schema F) : Prop :=
  match old, new with
  | SObject _ fs, SObject _ fs' =>
      old = new \/
      named fs /\ named fs' /\ forall k s s', In (k, s) fs -> In (k, s') fs' -> s = s'
  | SEnum _ vs, SEnum _ vs' =>
      old = new \/
      (forall n s, In (n, s) vs -> ~ scalar_type s) /\ forall n s s', In (n, s) vs -> In (n, s') vs' -> s = s'
  | _, _ => old = new
  end.
(** The tag that a schema is written with. *)
Definition written_tag (s : schema F) : option str :=
  match s with
  | SString _ _ => Some (lit "string") | SInt _ _ => Some (lit "int") | SFloat _ _ => Some (lit "float")
  | SBool _ => Some (lit "bool") | SUnit _ => Some (lit "unit") | SAny _ => Some (lit "any")
  | SObject _ _ => Some (lit "object") | SSeq _ _ => Some (lit "seq") | STuple _ _ => Some (lit "tuple")
  | SMap _ _ => Some (lit "map") | SUnion _ _ => Some (lit "union") | SOptional _ _ => Some (lit "optional")
  | SEnum _ _ => Some (lit "enum") | SOneOf _ _ _ => Some (lit "one-of") | SFlatten _ _ => Some (lit "flatten")
  | SDefault _ _ _ => Some (lit "default") | SDeprecated _ _ _ => Some (lit "deprecated")
  | SLiteral _ _ => None
  | SType _ n => n
  end.
(** Of two definitions of a name with the same tag, the new one keeps what it keeps unchanged. *)
Definition careful (old new : schema_file F) : Prop :=
  forall n s s', In (n, s) old -> In (n, s') new -> written_tag s = written_tag s' -> careful_definition s s'.
End Read.
