(** Specification vocabulary for hover and go-to-definition (C77, C78): what a schema, as a tree, declares for a place in a document. *)
From Coq Require Import String.
From Verif Require Import Base TreeModel TreeSpec CompatSpec.
Local Open Scope nat_scope.

(** ** What a schema declares *)

(** Places below a value: the value of a key, an item of a sequence, what follows a tag. *)
Inductive place := InKey (k : str) | InItem (n : nat) | InTag (t : str).

(** The value at a place of a document. *)
Inductive lies : value -> list place -> value -> Prop :=
| lies_here v : lies v [] v
| lies_key es osp sp k w l x : maps_to es k w -> lies w l x -> lies (Val None (PObj es osp) sp) (InKey k :: l) x
| lies_item items ssp sp n w l x : nth_error items n = Some w -> lies w l x -> lies (Val None (PSeq items ssp) sp) (InItem n :: l) x
| lies_tag t tsp p sp l x : lies (Val None p sp) l x -> lies (Val (Some (t, tsp)) p sp) (InTag t :: l) x.

(** The first entry whose key is the text [k]. *)
Definition entry_of (es : list entry) (k : str) (e : entry) : Prop :=
  exists a b, es = a ++ e :: b /\ as_str (e_key e) = Some k /\ ~ In (Some k) (text_keys a).

(** The schema language's own names cannot be defined. *)
Definition own_names : list str := map lit ["string"; "int"; "float"; "bool"; "unit"; "any"; "object"; "seq"; "tuple"; "map"; "union";
  "optional"; "enum"; "one-of"; "flatten"; "default"; "deprecated"]%string.

Definition tagged (t : string) (p : payload) (v : value) : Prop := exists tsp sp, v = Val (Some (lit t, tsp)) p sp.
Definition a_list (t : string) (l : list value) (v : value) : Prop := exists lsp, tagged t (PSeq l lsp) v.
Definition an_object (t : string) (es : list entry) (v : value) : Prop := exists osp, tagged t (PObj es osp) v.
(** A tag on its own. *)
Definition bare (v : value) : Prop := exists t sp, v = Val (Some t) PNone sp.
Definition reference (v : value) (n : str) : Prop := (exists tsp sp, v = Val (Some (n, tsp)) PNone sp) /\ ~ In n own_names.

Section Declared.
Variable defs : list entry.

(** [v] stands for the type [w]: the names are looked up, the types that say nothing about the shape are taken off. *)
Inductive stands_for : value -> value -> Prop :=
| sf_self v : stands_for v v
| sf_name v n u w : reference v n -> maps_to defs n u -> stands_for u w -> stands_for v w
| sf_optional v u w : a_list "optional" [u] v -> stands_for u w -> stands_for v w
| sf_default v d u w : a_list "default" [d; u] v -> stands_for u w -> stands_for v w
| sf_deprecated v r u w : a_list "deprecated" [r; u] v -> stands_for u w -> stands_for v w.

(** What is declared: the key of the field if it is one, the type, the documentation. *)
Record declaration := mkdecl { d_key : option value; d_type : value; d_doc : option str }.

(** The declaration of a place one step below a value of type [v]. *)
Inductive below : value -> place -> declaration -> Prop :=
| b_field v o es k e : stands_for v o -> an_object "object" es o -> entry_of es k e ->
    below v (InKey k) (mkdecl (Some (e_key e)) (e_val e) (e_doc e))
| b_other v o es k e : stands_for v o -> an_object "object" es o -> ~ In (Some k) (text_keys es) -> In e es -> (bare (e_key e) \/ is_unit (e_key e) = true) ->
    below v (InKey k) (mkdecl None (e_val e) None)
| b_map1 v o u k : stands_for v o -> a_list "map" [u] o -> below v (InKey k) (mkdecl None u None)
| b_map2 v o kt u k : stands_for v o -> a_list "map" [kt; u] o -> below v (InKey k) (mkdecl None u None)
| b_seq v o u n : stands_for v o -> a_list "seq" [u] o -> below v (InItem n) (mkdecl None u None)
| b_tuple v o l n u : stands_for v o -> a_list "tuple" l o -> nth_error l n = Some u -> below v (InItem n) (mkdecl None u None)
| b_variant v o es t u : stands_for v o -> an_object "enum" es o -> maps_to es t u -> below v (InTag t) (mkdecl None u None)
| b_flatten v o es k e u d : stands_for v o -> an_object "object" es o -> ~ In (Some k) (text_keys es) -> In e es -> a_list "flatten" [u] (e_val e) ->
    below u (InKey k) d -> below v (InKey k) d
| b_union v o l u p d : stands_for v o -> a_list "union" l o -> In u l -> below u p d -> below v p d.

Inductive declares : value -> list place -> declaration -> Prop :=
| dc_last v p d : below v p d -> declares v [p] d
| dc_step v p d l d' : below v p d -> declares (d_type d) l d' -> declares v (p :: l) d'.

(** ** The part of it that the lookup follows *)

(** An object type: written out, or by one name, also inside @optional, @default and @deprecated. *)
Inductive fields : value -> list entry -> Prop :=
| f_object v es : an_object "object" es v -> fields v es
| f_name v n u es : reference v n -> maps_to defs n u -> ~ bare u -> fields u es -> fields v es
| f_optional v u es : a_list "optional" [u] v -> fields u es -> fields v es
| f_default v d u es : a_list "default" [d; u] v -> (exists t k s sp, d = Val None (PScalar t k s) sp) -> fields u es -> fields v es
| f_deprecated v d u es : a_list "deprecated" [d; u] v -> (exists t k s sp, d = Val None (PScalar t k s) sp) -> fields u es -> fields v es.

(** A sequence type written out, also inside @optional and @default. *)
Inductive items : value -> value -> Prop :=
| i_seq v u : a_list "seq" [u] v -> items v u
| i_optional v w u : a_list "optional" [w] v -> items w u -> items v u
| i_default v d w u : a_list "default" [d; w] v -> (exists t k s sp, d = Val None (PScalar t k s) sp) -> items w u -> items v u.

(** A type whose keys are free, written out: @map, and @object with one entry for all keys. *)
Inductive free_keys : value -> value -> Prop :=
| fk_map1 v u : a_list "map" [u] v -> free_keys v u
| fk_map2 v k u : a_list "map" [k; u] v -> free_keys v u
| fk_object v e : an_object "object" [e] v -> bare (e_key e) -> free_keys v (e_val e).

(** [u] or what it names. *)
Inductive looked_up : value -> value -> Prop :=
| lu_same v : ~ bare v -> looked_up v v
| lu_name v n u : reference v n -> maps_to defs n u -> looked_up v u.

(** No field [k]: the unit type, or an object with other fields only. *)
Inductive without (k : str) : value -> Prop :=
| wo_unit sp : without k (Val None PNone sp)
| wo_object v es : an_object "object" es v -> Forall (fun e => exists k', as_str (e_key e) = Some k' /\ k' <> k) es -> without k v.

Inductive clear : value -> list place -> declaration -> Prop :=
| c_field v es k e a b : fields v es -> es = a ++ e :: b -> as_str (e_key e) = Some k -> ~ In (Some k) (text_keys a) -> Forall (fun e => is_unit (e_key e) = false) a ->
    clear v [InKey k] (mkdecl (Some (e_key e)) (e_val e) (e_doc e))
| c_in_field v es k e a b l d : fields v es -> es = a ++ e :: b -> as_str (e_key e) = Some k -> ~ In (Some k) (text_keys a) -> Forall (fun e => is_unit (e_key e) = false) a ->
    clear (e_val e) l d -> clear v (InKey k :: l) d
| c_free v u k : free_keys v u -> clear v [InKey k] (mkdecl None u None)
| c_in_free v u u' k l d : free_keys v u -> looked_up u u' -> clear u' l d -> clear v (InKey k :: l) d
| c_in_item v u u' n l d : items v u -> looked_up u u' -> clear u' l d -> clear v (InItem n :: l) d
| c_variant v a e b t u k l d : an_object "enum" (a ++ e :: b) v -> as_str (e_key e) = Some t -> ~ In (Some t) (text_keys a) -> looked_up (e_val e) u ->
    Forall (fun e' => exists u', looked_up (e_val e') u' /\ without k u') a ->
    clear u (InKey k :: l) d -> clear v (InTag t :: InKey k :: l) d.
End Declared.

(** The cursor's path does not say the tags. *)
Fixpoint untagged (l : list place) : list step :=
  match l with
  | [] => []
  | InKey k :: r => SKey k :: untagged r
  | InItem n :: r => SIdx n :: untagged r
  | InTag _ :: r => untagged r
  end.

(** The root type of a schema block. *)
Definition root_type (defs : list entry) (v : value) : Prop :=
  exists a e b, defs = a ++ e :: b /\ is_unit (e_key e) = true /\ Forall (fun e => is_unit (e_key e) = false) a /\ e_val e = v.

(** ** What hover shows *)

(** A type in short: objects are not written out. *)
Inductive short : value -> str -> Prop :=
| sh_unit sp : short (Val None PNone sp) (lit "@")
| sh_name t tsp sp : short (Val (Some (t, tsp)) PNone sp) (lit "@" ++ t)
| sh_text x k s sp : x <> [] -> short (Val None (PScalar x k s) sp) x
| sh_tag_text t tsp x k s sp : short (Val (Some (t, tsp)) (PScalar x k s) sp) (lit "@" ++ t ++ lit "(" ++ x ++ lit ")")
| sh_tag_object t tsp es osp sp : short (Val (Some (t, tsp)) (PObj es osp) sp) (lit "@" ++ t ++ lit "{...}")
| sh_object es osp sp : short (Val None (PObj es osp) sp) (lit "{...} (" ++ decimal (List.length es) ++ lit " fields)")
| sh_list l lsp sp ss : Forall2 short l ss ->
    short (Val None (PSeq l lsp) sp) (lit "(" ++ concat (match ss with [] => [] | s :: r => s :: map (fun x => lit " " ++ x) r end) ++ lit ")")
| sh_tag_list t tsp l lsp sp ss : Forall2 short l ss ->
    short (Val (Some (t, tsp)) (PSeq l lsp) sp) (lit "@" ++ t ++ lit "(" ++ concat (match ss with [] => [] | s :: r => s :: map (fun x => lit " " ++ x) r end) ++ lit ")").

Definition step_name (s : step) (x : str) : Prop := x = match s with SKey k => k | SIdx n => decimal n end.

(** The documentation, an empty line, the path from the root with arrows, and the type. *)
Definition shown_as (path : list step) (d : declaration) (link text : str) : Prop :=
  exists names type, Forall2 step_name path names /\ short (d_type d) type /\
    text = match d_doc d with Some x => x ++ [10; 10]%N | None => [] end
           ++ lit "[@](" ++ link ++ lit ")" ++ concat (map (fun n => [32; 8250; 32]%N ++ n) names) ++ lit ": `" ++ type ++ lit "`".

(** ** Keys of a schema block that are reached through objects only *)
Inductive key_inside : value -> value -> Prop :=
| ki_here t es osp sp e : In e es -> key_inside (Val t (PObj es osp) sp) (e_key e)
| ki_in t es osp sp e k : In e es -> key_inside (e_val e) k -> key_inside (Val t (PObj es osp) sp) k.

(** A key somewhere in a schema block, reached through objects only. *)
Definition key_of (defs : list entry) (k : value) : Prop := key_inside (Val None (PObj defs None) None) k.

(** The root type is not just [@object], and it has no entry for keys that are objects, [@object]. *)
Definition usual_root (defs : list entry) : Prop := forall root, root_type defs root ->
  (exists es osp, v_payload root = PObj es osp /\ forall e tsp, In e es -> v_tag (e_key e) <> Some (lit "object", tsp)) \/
  (forall es osp, v_payload root <> PObj es osp) /\ (forall tsp, v_tag root <> Some (lit "object", tsp)).
