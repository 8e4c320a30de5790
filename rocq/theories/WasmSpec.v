(** Specification for C85-C87: JSON values that survive the way through Styx. *)
From Coq Require Import String.
From Verif Require Import Base TokModel LexModel LexSpec ParseModel ParseSpec TreeModel TreeSpec FmtModel FmtSpec GrammarSpec WriteSpec SchemaSpec FacetSerSpec WasmModel.

(** The errors among the events, in their order. *)
Inductive errors_are : list event -> list (errkind * span) -> Prop :=
| ea_nil : errors_are [] []
| ea_error e k l d : ev_kind e = EvError k -> errors_are l d -> errors_are (e :: l) ((k, ev_span e) :: d)
| ea_other e l d : (forall k, ev_kind e <> EvError k) -> errors_are l d -> errors_are (e :: l) d.

Section Spec.
Variable F : Type.
Variable parse_f64 : str -> option F.
Variable finite : F -> bool.
Variable show_f64 : F -> str.
Notation json := (json F).

(** Texts that are no integers of 64 bits. *)
Definition no_int (s : str) : Prop := forall z, integer s z -> ~ (- 2 ^ 63 <= z < 2 ^ 63)%Z.
(** Texts that look like nothing else. *)
Definition word (s : str) : Prop := no_int s /\ parse_f64 s = None /\ s <> lit "true" /\ s <> lit "false" /\ s <> lit "null".
(** What is asked of [str::parse::<f64>]: these are no numbers. *)
Definition words_are_no_floats : Prop := parse_f64 (lit "true") = None /\ parse_f64 (lit "false") = None.

(** Objects that do not stand for a tag. *)
Definition untagged (m : list (str * json)) : Prop := forall n, ~ In (lit "$tag", JString n) m.
Definition tag_only (n : str) : json := JObject [(lit "$tag", JString n)].
Definition tagged (n : str) (x : json) : json := JObject [(lit "$tag", JString n); (lit "$value", x)].

(** Maps have every key once, in nested values too. *)
Inductive distinct_keys : json -> Prop :=
| dk_null : distinct_keys JNull
| dk_bool b : distinct_keys (JBool b)
| dk_int z : distinct_keys (JInt z)
| dk_float f : distinct_keys (JFloat f)
| dk_string s : distinct_keys (JString s)
| dk_array l : Forall distinct_keys l -> distinct_keys (JArray l)
| dk_object m : NoDup (map fst m) -> Forall (fun kx => distinct_keys (snd kx)) m -> distinct_keys (JObject m).

(** JSON values that are the same after a conversion to a Styx value and back. *)
Inductive plain : json -> Prop :=
| pl_null : plain JNull
| pl_bool b : plain (JBool b)
| pl_int z : (- 2 ^ 63 <= z < 2 ^ 63)%Z -> plain (JInt z)
| pl_float f : finite f = true -> parse_f64 (show_f64 f) = Some f -> no_int (show_f64 f) -> plain (JFloat f)
| pl_string s : word s -> plain (JString s)
| pl_array l : Forall plain l -> plain (JArray l)
| pl_tag n : plain (tag_only n)
| pl_tagged n x : plain x -> x <> JNull -> (forall m, x = JObject m -> untagged m) -> plain (tagged n x)
| pl_object m : NoDup (map fst m) -> untagged m -> Forall (fun kx => plain (snd kx)) m -> plain (JObject m).

(** JSON values whose Styx text is read as the same value. In arrays, [null] and tags without value may only be the last element, and [null]
    only the single one; a tagged value has to be an array or an object. *)
Definition short_text (s : str) : Prop := line_feeds s < 2 /\ no_gt_word s.
Definition stands_alone (x : json) : Prop := x = JNull \/ exists n, x = tag_only n.
Definition in_brackets (x : json) : Prop := (exists l, x = JArray l) \/ exists m, x = JObject m /\ untagged m.
Inductive printable : json -> Prop :=
| pr_null : printable JNull
| pr_bool b : printable (JBool b)
| pr_int z : printable (JInt z)
| pr_float f : number_text (show_f64 f) -> printable (JFloat f)
| pr_string s : short_text s -> printable (JString s)
| pr_array l : Forall printable l -> (forall a x b, l = a ++ x :: b -> b <> [] -> ~ stands_alone x) -> (forall x y l', l = x :: y :: l' -> ~ In JNull l) ->
    printable (JArray l)
| pr_tag n : tag_name n -> printable (tag_only n)
| pr_tagged n x : tag_name n -> in_brackets x -> printable x -> printable (tagged n x)
| pr_object m : untagged m -> Forall (fun kx => no_gt_word (fst kx) /\ printable (snd kx)) m -> printable (JObject m).
(** The whole document. Keys with dots have to need quotes. Long texts are written as heredocs, which have to end their last line. *)
Definition long_text (s : str) : Prop := no_gt_word s /\ (exists u, s = u ++ [cLF]) /\ exists d, In d delimiters /\ ~ FmtSpec.occurs d s.
Definition printable_root (m : list (str * json)) : Prop :=
  untagged m /\ Forall (fun kx => no_gt_word (fst kx) /\ (can_be_bare (fst kx) = true -> ~ In cDOT (fst kx)) /\
    (printable (snd kx) \/ exists s, snd kx = JString s /\ long_text s)) m.
End Spec.
