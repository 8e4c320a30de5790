(** Specification vocabulary for C66: the schemas whose placeholder is a value of the schema. *)
From Coq Require Import String.
From Verif Require Import Base TokModel LexModel LexSpec ParseModel ParseSpec TreeModel TreeSpec FmtModel GrammarSpec SchemaModel.
Local Open Scope nat_scope.

(** A text that is one scalar without quotes. *)
Definition word (t : str) : Prop := can_be_bare t = true /\ ~ In cGT t.

(** [w] is the value of [key], the only key of the document. *)
Definition value_of (key src : str) (w : value) : Prop :=
  exists k d, tree src (inl (Val None (PObj [Ent k w d] None) None)) /\ as_str k = Some key.

Section Placeholder.
Context {F : Type} (parse_f64 : str -> option F) (f_ltb : F -> F -> bool).
Notation schema := (schema F).

Definition satisfies (w : value) (s : schema) : Prop :=
  exists n, forall file fuel path, n < fuel -> exists r, validate_value F parse_f64 f_ltb file fuel w s path = Ok r /\ v_errors r = [].

(** A schema whose values include the text [t], however it is written. *)
Definition takes (t : str) (s : schema) : Prop := forall k a b, satisfies (Val None (PScalar t k a) b) s.

(** Schemas that can be filled in: scalar types without constraints, objects none of whose fields has to be there, maps; words, if the schema below takes them;
    enums whose first variant has no payload; tuples of such schemas, unions with such a schema in front and what stands around one of them. *)
Inductive plain : schema -> Prop :=
| pl_string : plain (SString F None)
| pl_int : plain (SInt F None)
| pl_float x : parse_f64 (lit "0.0") = Some x -> plain (SFloat F None)
| pl_bool : plain (SBool F)
| pl_unit : plain (SUnit F)
| pl_unit_ref : plain (SType F None)
| pl_any : plain (SAny F)
| pl_object fs : Forall (fun f => k_value (fst f) = None \/ (exists s, snd f = SOptional F s) \/ exists d s, snd f = SDefault F d s) fs -> plain (SObject F fs)
| pl_map k v : plain (SMap F [k; v])
| pl_map_values v : plain (SMap F [v])
| pl_optional s : plain s -> plain (SOptional F s)
| pl_deprecated r s : plain s -> plain (SDeprecated F r s)
| pl_flatten s : plain s -> plain (SFlatten F s)
| pl_literal t : word t -> plain (SLiteral F t)
| pl_default t s : word t -> takes t s -> plain (SDefault F t s)
| pl_one_of t r s : word t -> takes t s -> plain (SOneOf F s (t :: r))
| pl_one_of_none s : plain s -> plain (SOneOf F s [])
| pl_union s r : plain s -> plain (SUnion F (s :: r))
| pl_enum n s r : tag_name n -> s = SUnit F \/ s = SType F None \/ s = SType F (Some (lit "unit")) -> plain (SEnum F ((n, s) :: r))
| pl_tuple l : plain_all l -> plain (STuple F l)
with plain_all : list schema -> Prop :=
| pa_nil : plain_all []
| pa_cons s l : plain s -> plain_all l -> plain_all (s :: l).
End Placeholder.
Arguments plain_all {F}.
