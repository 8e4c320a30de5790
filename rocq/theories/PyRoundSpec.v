(** Specification for C93: when a tree of the Rust implementation and a value of the Python implementation are the same, and which trees,
    written by Rust, Python reads. *)
From Verif Require Import Base TokModel ParseModel TreeModel FmtModel WriteSpec PyModel PyParseModel.

(** The same tags, texts, elements, keys and values in the same order; how scalars are written may differ. *)
Inductive agrees : value -> pyval -> Prop :=
| agree t p sp q : agrees_payload p q -> agrees (Val t p sp) (PV (option_map fst t) q)
with agrees_payload : payload -> pypay -> Prop :=
| agree_none : agrees_payload PNone PPNone
| agree_scalar s k a k' : agrees_payload (PScalar s k a) (PPScalar k' s)
| agree_seq items a l : agrees_items items l -> agrees_payload (PSeq items a) (PPSeq l)
| agree_obj es a l : agrees_entries es l -> agrees_payload (PObj es a) (PPObj l)
with agrees_items : list value -> list pyval -> Prop :=
| agree_no_items : agrees_items [] []
| agree_item v w r l : agrees v w -> agrees_items r l -> agrees_items (v :: r) (w :: l)
with agrees_entries : list entry -> list (pyval * pyval) -> Prop :=
| agree_no_entries : agrees_entries [] []
| agree_entry k v d k' v' r l : agrees k k' -> agrees v v' -> agrees_entries r l -> agrees_entries (Ent k v d :: r) ((k', v') :: l).

(** The name under which Python remembers a key *)
Definition py_name (k : value) : list str :=
  match v_payload k, v_tag k with
  | PScalar s _ _, _ => [s]
  | PNone, Some (n, _) => [cAT :: n]
  | _, _ => []
  end.
Definition py_names (es : list entry) : list str := flat_map (fun e => py_name (e_key e)) es.
(** A key that is not written as a path *)
Definition no_path (k : value) : Prop := forall s kd a b, k = Val None (PScalar s kd a) b -> can_be_bare s = true -> ~ In cDOT s.

(** No paths as keys of nested objects, and no name twice in an object *)
Inductive py_fine : value -> Prop :=
| pf_leaf v : bracketed v = false -> py_fine v
| pf_seq t items a b : py_fine_items items -> py_fine (Val t (PSeq items a) b)
| pf_obj t es a b : py_fine_entries es -> NoDup (py_names es) -> py_fine (Val t (PObj es a) b)
with py_fine_items : list value -> Prop :=
| pf_no_items : py_fine_items []
| pf_item v r : py_fine v -> py_fine_items r -> py_fine_items (v :: r)
with py_fine_entries : list entry -> Prop :=
| pf_no_entries : py_fine_entries []
| pf_entry k v d r : no_path k -> py_fine v -> py_fine_entries r -> py_fine_entries (Ent k v d :: r).
