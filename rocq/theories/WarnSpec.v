(** Specification vocabulary for C55: where warnings belong. *)
From Verif Require Import Base TokModel CstModel CstFmtModel FmtModel WarnModel.
Local Open Scope nat_scope.

Definition width (cs : list cst) : nat := blen (concat (map node_text cs)).

(** [sits t p n q]: in the tree [t], which begins at byte [p], the node [n] is somewhere and begins at byte [q]. *)
Inductive sits : cst -> nat -> cst -> nat -> Prop :=
| sits_here n p : sits n p n p
| sits_below k a c b p n q : sits c (p + width a) n q -> sits (Node k (a ++ c :: b)) p n q.

(** The texts of keys: a scalar token, or a SCALAR node with one; the first of these counts. *)
Inductive token_says : lkind -> str -> str -> Prop :=
| ts_bare t : token_says (LTok BareScalar) t t
| ts_raw t : token_says (LTok RawScalar) t t
| ts_quoted t : token_says (LTok QuotedScalar) t (unescape_cst t).
Definition scalar_leaf (c : cst) : Prop := exists k t s, c = Leaf k t /\ token_says k t s.
Definition says_nothing (c : cst) : Prop := ~ scalar_leaf c /\ forall cs, c <> Node SCALAR cs.
Inductive key_says : list cst -> str -> Prop :=
| ks_token a k t s b : Forall says_nothing a -> token_says k t s -> key_says (a ++ Leaf k t :: b) s
| ks_scalar a c k t s d b : Forall says_nothing a -> Forall (fun x => ~ scalar_leaf x) c -> token_says k t s ->
    key_says (a ++ Node SCALAR (c ++ Leaf k t :: d) :: b) s.

(** [entry_says e p from to s]: [e] is an entry beginning at [p], whose key has text [s] and range [from], [to]. *)
Definition entry_says (e : cst) (p from to : nat) (s : str) : Prop :=
  exists a ks b, e = Node ENTRY (a ++ Node KEY ks :: b) /\ Forall (fun c => forall cs, c <> Node KEY cs) a /\
    key_says ks s /\ from = p + width a /\ to = from + blen (node_text (Node KEY ks)).

(** A key that an earlier entry of the same document or object has as well; empty keys do not count. *)
Definition repeated (t : cst) (from to : nat) (s : str) : Prop :=
  s <> [] /\ exists k a e0 b e c q, (k = DOCUMENT \/ k = OBJECT) /\ sits t 0 (Node k (a ++ e0 :: b ++ e :: c)) q /\
    (exists p0 f0 t0, entry_says e0 p0 f0 t0 s) /\ entry_says e (q + width (a ++ e0 :: b)) from to s.

(** An object with a comma and a line end of its own. *)
Definition mixed (t : cst) (from to : nat) : Prop :=
  exists cs x y, sits t 0 (Node OBJECT cs) from /\ to = from + blen (node_text (Node OBJECT cs)) /\
    In (Leaf (LTok Comma) x) cs /\ In (Leaf (LTok Newline) y) cs.
