(** What a generated schema is to be: which types are reached, which names a schema file mentions, and which
    documents write the values of a type. *)
From Coq Require Import String ZArith.
From Verif Require Import TreeModel SchemaModel SchemaSpec GenModel.
Local Open Scope nat_scope.

(** ** Which types a type is made of *)
Inductive mentions : shape -> nat -> Prop :=
| m_user : forall id, mentions (HUser id) id
| m_option : forall s id, mentions s id -> mentions (HOption s) id
| m_list : forall s id, mentions s id -> mentions (HList s) id
| m_key : forall k v id, mentions k id -> mentions (HMap k v) id
| m_val : forall k v id, mentions v id -> mentions (HMap k v) id
| m_ok : forall t e id, mentions t id -> mentions (HResult t e) id
| m_err : forall t e id, mentions e id -> mentions (HResult t e) id
| m_pointer : forall s id, mentions s id -> mentions (HPointer s) id
| m_meta : forall s id, mentions s id -> mentions (HMeta s) id.

(** The shapes of a type's fields. *)
Inductive kind_has : ukind -> shape -> Prop :=
| kh_tuple : forall l s, In s l -> kind_has (KTuple l) s
| kh_field : forall l f, In f l -> kind_has (KStruct l) (uf_shape f).
(** An enum with a variant for all other tags stands for any value; its variants are not looked at. *)
Inductive def_has : udef -> shape -> Prop :=
| dh_struct : forall k s, kind_has k s -> def_has (UStruct k) s
| dh_enum : forall vs v s, (forall w, In w vs -> uv_other w = false) -> In v vs -> kind_has (uv_kind v) s -> def_has (UEnum vs) s.

Definition is_type (env : types) (id : nat) (t : utype) : Prop := nth_error env id = Some t.
(** [id] is used, directly or through other types, by [root]. *)
Inductive used (env : types) (root : nat) : nat -> Prop :=
| u_root : forall t s id, is_type env root t -> def_has (ut_def t) s -> mentions s id -> used env root id
| u_step : forall j t s id, used env root j -> is_type env j t -> def_has (ut_def t) s -> mentions s id -> used env root id.

(** Opaque types, by their identifier. *)
Inductive opaque_in : shape -> bool -> str -> Prop :=
| o_here : forall b n, opaque_in (HOpaque b n) b n
| o_option : forall s b n, opaque_in s b n -> opaque_in (HOption s) b n
| o_list : forall s b n, opaque_in s b n -> opaque_in (HList s) b n
| o_key : forall k v b n, opaque_in k b n -> opaque_in (HMap k v) b n
| o_val : forall k v b n, opaque_in v b n -> opaque_in (HMap k v) b n
| o_ok : forall t e b n, opaque_in t b n -> opaque_in (HResult t e) b n
| o_err : forall t e b n, opaque_in e b n -> opaque_in (HResult t e) b n
| o_pointer : forall s b n, opaque_in s b n -> opaque_in (HPointer s) b n
| o_meta : forall s b n, opaque_in s b n -> opaque_in (HMeta s) b n.

(** ** Which types a schema file names *)
Inductive part {F} : schema F -> schema F -> Prop :=
| part_self : forall s, part s s
| part_child : forall a b s, part a b -> child F b s -> part a s.
Definition file_names {F} (file : schema_file F) (n : str) : Prop :=
  exists k s, In (k, s) file /\ part (SType F (Some n)) s.
Definition file_defines {F} (file : schema_file F) (n : str) : Prop := In (Some n) (map fst file).

(** ** Documents of a type *)

(** A scalar without a tag. *)
Definition scalar (v : value) (t : str) : Prop := exists k a b, v = Val None (PScalar t k a) b.
Definition nothing : value := Val None PNone None.
Definition given (n : str) (es : list entry) : Prop := exists k v d, In (Ent k v d) es /\ scalar k n.

(** The fields that a document has to give. *)
Inductive required (env : types) : list ufield -> str -> Prop :=
| rq_field : forall fs f, In f fs -> uf_flat f = false -> uf_default f = None -> (forall s, uf_shape f <> HOption s) ->
    required env fs (uf_name f)
| rq_inner : forall fs f id t fs' n, In f fs -> uf_flat f = true -> uf_shape f = HUser id -> is_type env id t ->
    ut_def t = UStruct (KStruct fs') -> required env fs' n -> required env fs n.

(** Values of Rust types as documents: numbers, truth values and texts are scalars; [None] is the unit value and a
    [Some] is its content; lists and tuples are sequences, maps and structs objects, where an optional field or one
    with a default may be left out; a struct with one unnamed field is that field; a variant is a tag on its
    content; the fields of a flattened struct and the entries of a flattened map are entries of the object itself.
    Texts of opaque types are not restricted. [reads] says which texts are floats. Of [Result] and [Schema] nothing
    is said; keys of maps are scalars; the content of a variant has no tag of its own. *)
Section Docs.
Variable env : types.
Variable reads : str -> Prop.
Inductive doc_of : shape -> value -> Prop :=
| D_bool : forall v t, scalar v t -> t = lit "true" \/ t = lit "false" -> doc_of HBool v
| D_int : forall lo hi v t n, scalar v t -> integer t n -> (lo <= n <= hi)%Z -> doc_of (HInt lo hi) v
| D_float : forall v t, scalar v t -> reads t -> doc_of HFloat v
| D_text : forall v t, scalar v t -> doc_of HText v
| D_opaque : forall b n v t, scalar v t -> doc_of (HOpaque b n) v
| D_none : forall s b, doc_of (HOption s) (Val None PNone b)
| D_some : forall s v, doc_of s v -> doc_of (HOption s) v
| D_list : forall s l a b, (forall x, In x l -> doc_of s x) -> doc_of (HList s) (Val None (PSeq l a) b)
| D_map : forall ks vs es a b,
    (forall k v d, In (Ent k v d) es -> exists t, scalar k t) ->
    (forall k v d, In (Ent k v d) es -> doc_of ks k) ->
    (forall k v d, In (Ent k v d) es -> doc_of vs v) ->
    doc_of (HMap ks vs) (Val None (PObj es a) b)
| D_pointer : forall s v, doc_of s v -> doc_of (HPointer s) v
| D_meta : forall s v, doc_of s v -> doc_of (HMeta s) v
| D_any : forall v, doc_of HAny v
| D_user : forall id t v, is_type env id t -> def_doc (ut_def t) v -> doc_of (HUser id) v
with def_doc : udef -> value -> Prop :=
| DD_struct : forall k v, kind_doc k v -> def_doc (UStruct k) v
| DD_variant : forall vs u ts p b, In u vs -> uv_other u = false -> kind_doc (uv_kind u) (Val None p None) ->
    def_doc (UEnum vs) (Val (Some (uv_name u, ts)) p b)
| DD_other : forall vs u n ts p b, In u vs -> uv_other u = true -> (forall w, In w vs -> uv_name w <> n) ->
    def_doc (UEnum vs) (Val (Some (n, ts)) p b)
with kind_doc : ukind -> value -> Prop :=
| KD_unit : forall b, kind_doc KUnit (Val None PNone b)
| KD_newtype : forall s v, doc_of s v -> kind_doc (KTuple [s]) v
| KD_tuple : forall ss l a b, List.length ss <> 1 -> List.length l = List.length ss ->
    (forall i s x, nth_error ss i = Some s -> nth_error l i = Some x -> doc_of s x) ->
    kind_doc (KTuple ss) (Val None (PSeq l a) b)
| KD_struct : forall fs es a b,
    (forall k v d, In (Ent k v d) es -> entry_doc fs k v) ->
    (forall n, required env fs n -> given n es) ->
    kind_doc (KStruct fs) (Val None (PObj es a) b)
with entry_doc : list ufield -> value -> value -> Prop :=
| ED_field : forall fs f k v, In f fs -> uf_flat f = false -> scalar k (uf_name f) -> doc_of (uf_shape f) v -> entry_doc fs k v
| ED_map : forall fs f ks vs k v t, In f fs -> uf_flat f = true -> uf_shape f = HMap ks vs ->
    scalar k t -> (forall g, In g fs -> uf_flat g = false -> uf_name g <> t) ->
    doc_of ks k -> doc_of vs v -> entry_doc fs k v
| ED_inner : forall fs f id t fs' k v, In f fs -> uf_flat f = true -> uf_shape f = HUser id ->
    is_type env id t -> ut_def t = UStruct (KStruct fs') -> entry_doc fs' k v -> entry_doc fs k v.
End Docs.

(** ** Types that the generator describes *)

(** Opaque types with the identifier of a text type; integers of at most 128 bits with sign. *)
Inductive plain : shape -> Prop :=
| p_bool : plain HBool
| p_int : forall lo hi : Z, (- 2 ^ 127 <= lo)%Z -> (hi < 2 ^ 127)%Z -> plain (HInt lo hi)
| p_float : plain HFloat
| p_text : plain HText
| p_never : plain HNever
| p_opaque : forall (b : bool) n, In n (if b then text_scalars else text_opaques) -> plain (HOpaque b n)
| p_option : forall s, plain s -> plain (HOption s)
| p_list : forall s, plain s -> plain (HList s)
| p_map : forall k v, plain k -> plain v -> plain (HMap k v)
| p_result : forall t e, plain t -> plain e -> plain (HResult t e)
| p_pointer : forall s, plain s -> plain (HPointer s)
| p_meta : forall s, plain s -> plain (HMeta s)
| p_user : forall id, plain (HUser id)
| p_any : plain HAny.
(** Fields have different names, none of them empty; at most one is flattened, and that is a map. *)
Definition fields_ok (fs : list ufield) : Prop :=
  NoDup (map uf_name (filter (fun f => negb (uf_flat f)) fs)) /\
  (forall f, In f fs -> uf_flat f = false -> uf_name f <> []) /\
  List.length (filter uf_flat fs) <= 1 /\
  (forall f, In f fs -> uf_flat f = true -> exists k v, uf_shape f = HMap k v).
Definition kind_ok (k : ukind) : Prop :=
  (forall s, kind_has k s -> plain s) /\ match k with KStruct fs => fields_ok fs | _ => True end.
(** Variants have different names; none wraps a value that is written as the unit value. *)
Definition def_ok (env : types) (reads : str -> Prop) (d : udef) : Prop :=
  match d with
  | UStruct k => kind_ok k
  | UEnum vs => NoDup (map uv_name vs) /\
      forall u, In u vs -> kind_ok (uv_kind u) /\ forall s, uv_kind u = KTuple [s] -> ~ doc_of env reads s nothing
  end.
Definition types_ok (env : types) (reads : str -> Prop) : Prop :=
  NoDup (map ut_name env) /\ forall t, In t env -> def_ok env reads (ut_def t).
