(** Specification for C94: what the S-expression of a tree shows. *)
From Verif Require Import Base TokModel LexModel TreeModel.

Inductive shown :=
| ShUnit (sp : option span)
| ShScalar (sp : option span) (k : skind) (text : str)
| ShSeq (sp : option span) (items : list shown)
| ShObj (sp : option span) (es : list (shown * shown))
| ShTag (sp : option span) (name : str) (p : option shown).

(** Tags, keys, values, elements, texts and how they are written; the places of values and of what stands behind a tag. Not shown are
    doc comments, the places of the tags themselves, and the place of what a value without tag consists of. *)
Fixpoint show (v : value) : shown :=
  match v with
  | Val (Some (n, _)) p sp => ShTag sp n (match p with PNone => None | PScalar _ _ s | PSeq _ s | PObj _ s => Some (show_payload s p) end)
  | Val None p sp => show_payload sp p
  end
with show_payload (sp : option span) (p : payload) : shown :=
  match p with
  | PNone => ShUnit sp
  | PScalar s k _ => ShScalar sp k s
  | PSeq items _ => ShSeq sp (map show items)
  | PObj es _ => ShObj sp (map show_entry es)
  end
with show_entry (e : entry) : shown * shown := match e with Ent k v _ => (show k, show v) end.

(** What the whole output shows: the entries of a root that is an object, whatever its tag, or the root *)
Definition shown_root (v : value) : (option span * list (shown * shown)) + shown :=
  match v_payload v with PObj es _ => inl (v_span v, map show_entry es) | _ => inr (show v) end.

(** The characters that Rust and Python write in the same way: all but NUL and those that Rust writes as numbers *)
Definition written_alike (unprintable : char -> bool) (c : char) : Prop :=
  In c [cTAB; cCR; cLF; cDQ; cBSL] \/ c <> 0%N /\ unprintable c = false.
