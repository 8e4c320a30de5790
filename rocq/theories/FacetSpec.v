(** Specification vocabulary for the stream of facet events: what a stream says, and what a document says.
    Written without looking at the adapter. *)
From Coq Require Import String.
From Verif Require Import Base TokModel LexModel ParseModel ParseSpec TreeModel TreeSpec SchemaSpec FacetModel.

(** ** What can be said to a deserializer *)

(** A key has an optional tag and an optional text; a field has its doc lines. *)
Inductive content :=
| CText (t : str)
| CUnit
| CSeq (l : list content)
| CObj (l : list field)
| CTag (name : str) (c : content)
with field := CField (tag name : option str) (docs : list str) (c : content).

(** ** What a stream says: a grammar of streams *)

Inductive says {F} : content -> list (fkind F) -> Prop :=
| says_text t : says (CText t) [FScalar (SStr t)]
| says_unit : says CUnit [FScalar SUnit]
| says_at : says CUnit [FTag None; FScalar SUnit]
| says_tag n c s : says c s -> says (CTag n c) (FTag (Some n) :: s)
| says_seq l s : says_items l s -> says (CSeq l) (FSeqStart :: s ++ [FSeqEnd])
| says_obj l s : says_fields l s -> says (CObj l) (FStructStart :: s ++ [FStructEnd])
with says_items {F} : list content -> list (fkind F) -> Prop :=
| si_nil : says_items [] []
| si_cons c l s r : says c s -> says_items l r -> says_items (c :: l) (s ++ r)
with says_fields {F} : list field -> list (fkind F) -> Prop :=
| sf_nil : says_fields [] []
| sf_cons tag name docs c l s r : says c s -> says_fields l r ->
    says_fields (CField tag name docs c :: l) (FKey tag name docs :: s ++ r).

(** ** What a document says: a tag alone is a tag on a unit, the doc comments of an entry are its lines *)

Fixpoint content_of (d : dval) : content :=
  match d with
  | DScalar _ t _ => CText t
  | DUnit _ => CUnit
  | DSeq _ items _ => CSeq (map content_of items)
  | DObj _ es _ => CObj (map field_of es)
  | DTag _ n p _ => CTag n (match p with Some w => content_of w | None => CUnit end)
  end
with field_of (e : dentry) : field :=
  match e with DEnt docs _ _ tag pl _ v _ => CField tag pl (flat_map snd docs) (content_of v) end.

(** Entries of the root object tagged [@schema] are for the validator and not part of the data. *)
Definition schema_entry (e : dentry) : bool :=
  match e with DEnt _ _ _ (Some t) _ _ _ _ => str_eqb t (lit "schema") | _ => false end.
Definition data_of (es : list dentry) : content := CObj (map field_of (filter (fun e => negb (schema_entry e)) es)).

(** ** Using the adapter *)
Section Use.
Context {F : Type}.
Variable parse_f64 : str -> option F.
Variable src : str.

(** Asking for events until the end. *)
Inductive yields : core F -> list (fevent F) -> Prop :=
| y_end c c' : next_event parse_f64 src c = Ok (c', ANone) -> yields c []
| y_more c c' e l : next_event parse_f64 src c = Ok (c', AEvent e) -> yields c' l -> yields c (e :: l).

(** What a deserializer can do between saving and restoring. *)
Inductive acts : facet F -> facet F -> Prop :=
| act_none p : acts p p
| act_next p c a q : next_event parse_f64 src (f_core p) = Ok (c, a) -> acts (mkfacet c (f_saved p)) q -> acts p q
| act_peek p c a q : peek_event parse_f64 src (f_core p) = Ok (c, a) -> acts (mkfacet c (f_saved p)) q -> acts p q
| act_skip p c a q : skip_value parse_f64 src (f_core p) = Ok (c, a) -> acts (mkfacet c (f_saved p)) q -> acts p q
| act_hint p h q : acts (hint_scalar_type h p) q -> acts p q.
End Use.

(** The stream of a source. *)
Definition stream {F} (parse_f64 : str -> option F) (src : str) (l : list (fevent F)) : Prop :=
  exists evs, parses src evs /\ yields parse_f64 src (facet_new evs) l.

(** ** What a scalar may be read as *)
Definition signed_hint (h : hint) : Prop := In h [HI8; HI16; HI32; HI64; HI128; HIsize].
Definition unsigned_hint (h : hint) : Prop := In h [HU8; HU16; HU32; HU64; HU128; HUsize].
Definition float_hint (h : hint) : Prop := In h [HF32; HF64].

(** [means p h t v]: under the hint [h] the text [t] means the value [v]. *)
Inductive means {F} (parse_f64 : str -> option F) : hint -> str -> fscalar F -> Prop :=
| m_true : means parse_f64 HBool (lit "true") (SBool true)
| m_false : means parse_f64 HBool (lit "false") (SBool false)
| m_signed h t z : signed_hint h -> integer t z -> (- 2 ^ 63 <= z < 2 ^ 63)%Z -> means parse_f64 h t (SI64 z)
| m_unsigned h t z : unsigned_hint h -> (integer t z /\ forall r, t <> 45%N :: r) -> (z < 2 ^ 64)%Z -> means parse_f64 h t (SU64 z)
| m_float h t f : float_hint h -> parse_f64 t = Some f -> means parse_f64 h t (SF64 f)
| m_char c : means parse_f64 HChar [c] (SChar c).
