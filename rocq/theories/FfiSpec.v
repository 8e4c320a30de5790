(** Specification for C88 and C89: what a C program can tell apart. *)
From Verif Require Import Base TokModel LexModel ParseModel TreeModel FfiModel.

(** The same tree, up to places, styles of scalars and doc comments. *)
Inductive same_tree : value -> value -> Prop :=
| st_val t p sp t' p' sp' : option_map fst t = option_map fst t' -> same_payload p p' -> same_tree (Val t p sp) (Val t' p' sp')
with same_payload : payload -> payload -> Prop :=
| sp_none : same_payload PNone PNone
| sp_scalar s k a k' a' : same_payload (PScalar s k a) (PScalar s k' a')
| sp_seq l a l' a' : same_items l l' -> same_payload (PSeq l a) (PSeq l' a')
| sp_obj es a es' a' : same_entries es es' -> same_payload (PObj es a) (PObj es' a')
with same_items : list value -> list value -> Prop :=
| si_nil : same_items [] []
| si_cons v w l l' : same_tree v w -> same_items l l' -> same_items (v :: l) (w :: l')
with same_entries : list entry -> list entry -> Prop :=
| se_nil : same_entries [] []
| se_cons k v d k' v' d' es es' : same_tree k k' -> same_tree v v' -> same_entries es es' -> same_entries (Ent k v d :: es) (Ent k' v' d' :: es').

(** No text and no tag has a NUL. *)
Definition clear (s : str) : Prop := ~ In cNUL s.
Inductive nul_free : value -> Prop :=
| nf_val t p sp : (forall n a, t = Some (n, a) -> clear n) -> nul_free_payload p -> nul_free (Val t p sp)
with nul_free_payload : payload -> Prop :=
| np_none : nul_free_payload PNone
| np_scalar s k a : clear s -> nul_free_payload (PScalar s k a)
| np_seq l a : Forall nul_free l -> nul_free_payload (PSeq l a)
| np_obj es a : Forall (fun e => nul_free (e_key e) /\ nul_free (e_val e)) es -> nul_free_payload (PObj es a).

(** No program that takes at most [n] steps into the values gets different answers for [v] and [w]. *)
Fixpoint alike (n : nat) (v w : option value) : Prop :=
  match n with
  | O => True
  | S m =>
    (v = None <-> w = None) /\ value_payload_kind v = value_payload_kind w /\ value_is_unit v = value_is_unit w /\ value_tag v = value_tag w /\ value_scalar v = value_scalar w /\
    (value_as_sequence v = None <-> value_as_sequence w = None) /\ sequence_len (value_as_sequence v) = sequence_len (value_as_sequence w) /\
    (forall i, alike m (sequence_get (value_as_sequence v) i) (sequence_get (value_as_sequence w) i)) /\
    (value_as_object v = None <-> value_as_object w = None) /\ object_len (value_as_object v) = object_len (value_as_object w) /\
    (forall i, alike m (object_key_at (value_as_object v) i) (object_key_at (value_as_object w) i)) /\
    (forall i, alike m (object_value_at (value_as_object v) i) (object_value_at (value_as_object w) i)) /\
    (forall key, alike m (object_get (value_as_object v) key) (object_get (value_as_object w) key)) /\
    (forall path, alike m (styx_value_get v path) (styx_value_get w path))
  end.

(** The text [s] in memory, ended by a NUL. *)
Definition stored (s : str) (mem : str) : Prop := clear s /\ exists r, mem = s ++ cNUL :: r.
