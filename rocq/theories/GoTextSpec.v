(** Specification of types.go: how a reader of Go takes the lines of the file. *)
From Coq Require Import String ZArith.
From Verif Require Import Base TreeModel SchemaModel CliSpec GoModel GoSpec.
Local Open Scope nat_scope.

Notation length := List.length.
Notation cTICK := 96%N.
Notation cCOLON := 58%N.

(** Struct tags, as [reflect.StructTag] takes them: [name:"value"] pairs with a blank between them. The values here have no escapes. *)
Inductive tag_says : str -> str -> str -> Prop :=
| TS_here : forall k v r, ~ In cCOLON k -> ~ In cDQ v -> ~ In cBSL v -> tag_says (k ++ [cCOLON; cDQ] ++ v ++ cDQ :: r) k v
| TS_next : forall k v r k' v', ~ In cCOLON k -> ~ In cDQ v -> ~ In cBSL v -> k <> k' -> tag_says r k' v' ->
    tag_says (k ++ [cCOLON; cDQ] ++ v ++ cDQ :: cSP :: r) k' v'.
(** The value is a name and, behind commas, options. *)
Definition says_name (v name : str) (options : list str) : Prop := ~ In cCOMMA name /\ v = name ++ flat_map (fun o => cCOMMA :: o) options.

(** A line that declares the field [go] of type [ty]. *)
Definition field_decl (line go ty tags : str) : Prop :=
  line = [9%N] ++ go ++ [cSP] ++ ty ++ [cSP; cTICK] ++ tags ++ [cTICK] /\ exported go /\ ~ In cTICK tags.

(** The lines of the only declaration that starts with [header]: up to the first line [last]. *)
Definition block (lines : list str) (header : list str) (last : str) (body : list str) : Prop :=
  exists a b, lines = a ++ header ++ body ++ last :: b /\ ~ In last body /\ forall h, hd_error header = Some h -> ~ In h (a ++ body ++ b).

Section Spec.
Variable F : Type.
Variable up : char -> str.

(** The line for the field [m] of an object: its Go name and type, and tags that give its name and whether it can be left out. *)
Definition field_text (D : str -> Prop) (m : str) (s : schema F) (line : str) : Prop :=
  exists go ty tags vj vs o c, field_decl line go ty tags /\ pascal_of up m go /\ go_type_text D ty /\ peel F s o c /\
    tag_says tags (lit "json") vj /\ says_name vj m (if o then [lit "omitempty"] else []) /\
    tag_says tags (lit "styx") vs /\ says_name vs m (if o then [lit "optional"] else []).

(** The fields that have names. *)
Definition named (fs : list (obj_key * schema F)) : list (str * schema F) :=
  flat_map (fun '(k, x) => match k_value k with Some m => [(m, x)] | None => [] end) fs.

(** The line for a variant: a constant of the type with the name as value. *)
Definition variant_text (ty v line : str) : Prop :=
  exists q, pascal_of up v q /\ line = [9%N] ++ ty ++ q ++ [cSP] ++ ty ++ lit " = " ++ [cDQ] ++ v ++ [cDQ] /\ ~ In cDQ v /\ ~ In cBSL v /\ Forall letter_digit q.
End Spec.
