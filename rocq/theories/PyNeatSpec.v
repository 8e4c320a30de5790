(** Specification for C95: the trees that the Python parser may return. *)
From Verif Require Import Base PyModel PyParseModel.

(** The name of a key: its text, or the name of its tag. Unit has none. *)
Definition names_of (k : pyval) : list str :=
  match k with PV _ (PPScalar _ s) => [s] | PV (Some n) PPNone => [cAT :: n] | _ => [] end.
Definition names (l : list (pyval * pyval)) : list str := flat_map (fun e => names_of (fst e)) l.
(** Keys are units, tags and scalars, but not heredocs. *)
Definition good_key (k : pyval) : Prop :=
  match k with PV _ PPNone => True | PV _ (PPScalar k _) => k <> KHeredoc | _ => False end.
Definition object (v : pyval) : Prop := exists t l, v = PV t (PPObj l).

(** No name twice in an object, only good keys, no bare scalar behind a tag; [gt] says whether there may be attributes, whose names are words and
    may be repeated. *)
Inductive neat (gt : Prop) : pyval -> Prop :=
| neat_unit t : neat gt (PV t PPNone)
| neat_scalar t k s : In k [KScalar; KQuoted; KRaw; KHeredoc] -> (t <> None -> k <> KScalar) -> neat gt (PV t (PPScalar k s))
| neat_seq t l : (forall v, In v l -> neat gt v) -> neat gt (PV t (PPSeq l))
| neat_obj t l : (forall k v, In (k, v) l -> good_key k /\ neat gt k /\ neat gt v) -> NoDup (names l) -> neat gt (PV t (PPObj l))
| neat_attrs l : gt -> (forall k v, In (k, v) l -> (exists s, k = PV None (PPScalar KScalar s)) /\ neat gt v) -> neat gt (PV None (PPObj l)).

(** The entries of a document: a name may be repeated if all its values are objects, as in [a.b 1] and [a.c 2]. *)
Definition neat_document (gt : Prop) (l : list (pyval * pyval)) : Prop :=
  (forall k v, In (k, v) l -> good_key k /\ neat gt k /\ neat gt v) /\
  ForallOrdPairs (fun e e' => forall n, In n (names_of (fst e)) -> In n (names_of (fst e')) -> object (snd e) /\ object (snd e')) l.
