(** Specification for C96: the trees for which Rust and Python print the same S-expression. *)
From Verif Require Import Base TokModel LexModel TreeModel SexpSpec.

Section alike.
Variable unprintable : char -> bool.
(** Names of tags are written without escapes. *)
Definition needs_no_escape (c : char) : Prop := ~ In c [cTAB; cCR; cLF; cDQ; cBSL] /\ c <> 0%N /\ unprintable c = false.
Definition place (p : payload) : option span := match p with PNone => None | PScalar _ _ s | PSeq _ s | PObj _ s => s end.

(** A value without tag stands where its payload stands; all texts are written alike; names of tags need no escapes. *)
Inductive printed_alike : value -> Prop :=
| pa_unit sp : printed_alike (Val None PNone sp)
| pa_tag n a sp : Forall needs_no_escape n -> printed_alike (Val (Some (n, a)) PNone sp)
| pa_tagged n a p sp : Forall needs_no_escape n -> payload_alike p -> printed_alike (Val (Some (n, a)) p sp)
| pa_plain p : payload_alike p -> printed_alike (Val None p (place p))
with payload_alike : payload -> Prop :=
| pa_scalar s k sp : Forall (written_alike unprintable) s -> payload_alike (PScalar s k sp)
| pa_seq items sp : items_alike items -> payload_alike (PSeq items sp)
| pa_obj es sp : entries_alike es -> payload_alike (PObj es sp)
with items_alike : list value -> Prop :=
| pa_no_items : items_alike []
| pa_item v r : printed_alike v -> items_alike r -> items_alike (v :: r)
with entries_alike : list entry -> Prop :=
| pa_no_entries : entries_alike []
| pa_entry k v d r : printed_alike k -> printed_alike v -> entries_alike r -> entries_alike (Ent k v d :: r).
End alike.

(** Values without tag stand where their payloads stand, everywhere in the tree. *)
Inductive settled : value -> Prop :=
| se_unit tag sp : settled (Val tag PNone sp)
| se_tagged t p sp : settled_payload p -> settled (Val (Some t) p sp)
| se_plain p : settled_payload p -> settled (Val None p (place p))
with settled_payload : payload -> Prop :=
| se_scalar s k sp : settled_payload (PScalar s k sp)
| se_seq items sp : (forall v, In v items -> settled v) -> settled_payload (PSeq items sp)
| se_obj es sp : (forall k v d, In (Ent k v d) es -> settled k /\ settled v) -> settled_payload (PObj es sp).

(** The values in a tree, with the keys *)
Inductive part_of : value -> value -> Prop :=
| part_self v : part_of v v
| part_item w v t l a b : In v l -> part_of w v -> part_of w (Val t (PSeq l a) b)
| part_key w k v d t es a b : In (Ent k v d) es -> part_of w k -> part_of w (Val t (PObj es a) b)
| part_value w k v d t es a b : In (Ent k v d) es -> part_of w v -> part_of w (Val t (PObj es a) b).
(** Nothing in the text and in the name of the tag of a value that Rust writes as a number, and nothing to be escaped in the name *)
Definition fine_texts (unprintable : char -> bool) (v : value) : Prop :=
  match v_payload v with PScalar s _ _ => Forall (written_alike unprintable) s | _ => True end /\
  match v_tag v with Some (n, _) => Forall (needs_no_escape unprintable) n | None => True end.
