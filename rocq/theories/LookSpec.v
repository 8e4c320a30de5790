(** What completion should propose, apart from how the language server looks it up: the fields of the type that the object at
    the cursor has to be of, after /repo/docs/content/reference/spec/schema.md. *)
From Coq Require Import String.
From Verif Require Import Base TreeModel SchemaModel SchemaSpec LspModel LspSpec LookModel.
Local Open Scope nat_scope.

Section Spec.
Variable F : Type.
Notation schema := (schema F).
Notation schema_file := (schema_file F).
Variable file : schema_file.

(** A type expression stands for the one inside a modifier, and a name for its definition. *)
Inductive stands_for : schema -> schema -> Prop :=
| sf_same s : stands_for s s
| sf_in_optional s t : stands_for s t -> stands_for (SOptional _ s) t
| sf_in_default d s t : stands_for s t -> stands_for (SDefault _ d s) t
| sf_in_deprecated r s t : stands_for s t -> stands_for (SDeprecated _ r s) t
| sf_in_name n s t : In (Some n, s) file -> stands_for s t -> stands_for (SType _ (Some n)) t.
(** Without modifiers. *)
Inductive names : schema -> schema -> Prop :=
| na_same s : names s s
| na_name n s t : In (Some n, s) file -> names s t -> names (SType _ (Some n)) t.

(** [typed v s path w t]: if [v] has to be of type [s] then [w] has to be of type [t]; [path] leads from [v] to [w]: the text
    of each key, and a tag with its [@] after it. *)
Inductive typed : value -> schema -> list str -> value -> schema -> Prop :=
| ty_here v s : typed v s [] v s
| ty_field s fs es a b k x d n t path w u : stands_for s (SObject _ fs) -> In (Ent k x d) es -> as_str k = Some n ->
    entry_schema F schema_md file fs k t -> typed x t path w u -> typed (Val None (PObj es a) b) s (n :: path) w u
| ty_map1 s t es a b k x d n path w u : stands_for s (SMap _ [t]) -> In (Ent k x d) es -> as_str k = Some n ->
    typed x t path w u -> typed (Val None (PObj es a) b) s (n :: path) w u
| ty_map2 s ks t es a b k x d n path w u : stands_for s (SMap _ [ks; t]) -> In (Ent k x d) es -> as_str k = Some n ->
    typed x t path w u -> typed (Val None (PObj es a) b) s (n :: path) w u
| ty_variant s vs tag ts p b t path w u : stands_for s (SEnum _ vs) -> In (tag, t) vs -> p <> PNone ->
    typed (Val None p None) t path w u -> typed (Val (Some (tag, ts)) p b) s ((cAT :: tag) :: path) w u.

(** The same for every way to [w]: also through sequences, tuples, unions and keys without a text. *)
Inductive checked : value -> schema -> value -> schema -> Prop :=
| ck_here v s : checked v s v s
| ck_stands v s t w u : stands_for s t -> checked v t w u -> checked v s w u
| ck_union v l s w u : In s l -> conforms F (fun _ => None) (fun _ _ => false) (fun _ _ => True) schema_md file v s -> checked v s w u -> checked v (SUnion _ l) w u
| ck_entry fs es a b k x d t w u : In (Ent k x d) es -> entry_schema F schema_md file fs k t ->
    checked x t w u -> checked (Val None (PObj es a) b) (SObject _ fs) w u
| ck_map1 t es a b k x d w u : In (Ent k x d) es -> checked x t w u -> checked (Val None (PObj es a) b) (SMap _ [t]) w u
| ck_map2 ks t es a b k x d w u : In (Ent k x d) es -> checked x t w u -> checked (Val None (PObj es a) b) (SMap _ [ks; t]) w u
| ck_seq t l a b x w u : In x l -> checked x t w u -> checked (Val None (PSeq l a) b) (SSeq _ t) w u
| ck_tuple ts l a b i x t w u : nth_error l i = Some x -> nth_error ts i = Some t -> checked x t w u ->
    checked (Val None (PSeq l a) b) (STuple _ ts) w u
| ck_variant vs tag ts p b t w u : In (tag, t) vs -> p <> PNone -> checked (Val None p None) t w u ->
    checked (Val (Some (tag, ts)) p b) (SEnum _ vs) w u.

(** ** The type shown beside a field *)

(** The modifiers of a field's type from the outside in: [None] for @optional, [Some d] for @default(d ..). *)
Inductive wraps : schema -> list (option str) -> schema -> Prop :=
| wr_optional s ms t : wraps s ms t -> wraps (SOptional _ s) (None :: ms) t
| wr_default d s ms t : wraps s ms t -> wraps (SDefault _ d s) (Some d :: ms) t
| wr_deprecated r s ms t : wraps s ms t -> wraps (SDeprecated _ r s) ms t
| wr_none s : (match s with SOptional _ _ | SDefault _ _ _ | SDeprecated _ _ _ => False | _ => True end) -> wraps s [] s.

(** The tag that a type is written with. *)
Definition written_tag (s : schema) : option str :=
  match s with
  | SString _ _ => Some (lit "string") | SInt _ _ => Some (lit "int") | SFloat _ _ => Some (lit "float") | SBool _ => Some (lit "bool")
  | SUnit _ => Some (lit "unit") | SAny _ => Some (lit "any") | SObject _ _ => Some (lit "object") | SSeq _ _ => Some (lit "seq")
  | STuple _ _ => Some (lit "tuple") | SMap _ _ => Some (lit "map") | SUnion _ _ => Some (lit "union") | SOptional _ _ => Some (lit "optional")
  | SEnum _ _ => Some (lit "enum") | SOneOf _ _ _ => Some (lit "one-of") | SFlatten _ _ => Some (lit "flatten")
  | SDefault _ _ _ => Some (lit "default") | SDeprecated _ _ _ => Some (lit "deprecated")
  | SLiteral _ _ => None
  | SType _ n => match n with Some n => Some n | None => Some [] end
  end.
(** The text begins with a tag, and the tag ends there. *)
Definition begins_with_tag (text tag : str) : Prop :=
  exists rest, text = cAT :: tag ++ rest /\ (rest = [] \/ exists r, rest = cLP :: r \/ rest = cLB :: r).

(** @optional if there is such a modifier, or else the outermost default. *)
Definition shown (s : schema) (text : str) : Prop :=
  exists ms t, wraps s ms t /\
    (In None ms /\ text = lit "@optional(" ++ type_text F t ++ [cRP] \/
     ~ In None ms /\ (exists d ms', ms = Some d :: ms' /\ text = lit "@default(" ++ d ++ [cSP] ++ type_text F t ++ [cRP]) \/
     ms = [] /\ text = type_text F t).

(** ** What completion proposes *)

(** The names of an object's entries. *)
Definition has_entry (n : str) (es : list entry) : Prop := exists k x d, In (Ent k x d) es /\ as_str k = Some n.
(** Just the fields that are missing, each with its type. *)
Definition proposes (fs : list (obj_key * schema)) (es : list entry) (l : list (str * str)) : Prop :=
  forall n text, In (n, text) l <-> exists s, field F schema_md file fs n s /\ ~ has_entry n es /\ shown s text.


(** A type leads to an empty @map somewhere. *)
Definition empty_map (root : schema) : Prop := occurs F file root (SMap _ []).
End Spec.

(** ** The choice among many fields *)
Definition is_prefix (p s : str) : Prop := exists r, s = p ++ r.
Definition is_part (p s : str) : Prop := exists a r, s = a ++ p ++ r.
(** How well a name fits the word typed: it begins with it, has it inside, or is a few edits away. *)
Inductive rank (lower : str -> str) (word name : str) : nat -> Prop :=
| rk_prefix : is_prefix (lower word) (lower name) -> rank lower word name 0
| rk_part : ~ is_prefix (lower word) (lower name) -> is_part (lower word) (lower name) -> rank lower word name 1
| rk_close d : ~ is_part (lower word) (lower name) -> edit_distance (lower word) (lower name) d -> d <= 3 -> d < Nat.max (blen word) 2 ->
    rank lower word name (2 + d).
(** [chosen] is the best of [all], fifty if there are so many; [fit] says how well an element fits, the less the better. *)
Definition best_of {A} (fit : A -> nat -> Prop) (all chosen : list A) : Prop :=
  List.length chosen <= 50 /\
  (forall x, In x chosen -> In x all /\ exists k, fit x k) /\
  (forall x k, In x all -> fit x k -> ~ In x chosen -> List.length chosen = 50 /\ forall y j, In y chosen -> fit y j -> j <= k).
