(** Specification vocabulary for C15: the value trees whose printed form reads back as the same tree. *)
From Verif Require Import Base TokModel LexModel LexSpec ParseModel TreeModel TreeSpec FmtModel FmtSpec GrammarSpec.

(** Values written with brackets, and values that may stand in the middle of a sequence. *)
Definition bracketed (v : value) : bool := match v_payload v with PSeq _ _ | PObj _ _ => true | _ => false end.
Definition solid (v : value) : Prop := bracketed v = true \/ exists s k a b, v = Val None (PScalar s k a) b.
Definition is_unit (v : value) : Prop := exists sp, v = Val None PNone sp.

(** A string that is not written as a bare word with [>] in it. *)
Definition no_gt_word (s : str) : Prop := can_be_bare s = true -> ~ In cGT s.

Definition line_feeds (s : str) : nat := count_occ N.eq_dec s cLF.

(** Keys: texts, the unit, tags without payload. A tag with text is read back only if the text is written in
    quotes (C15_tagged_word_refuted) and passes the check for escapes again (C15_tagged_escape_refuted).
    At the root a bare word with dots is a path. *)
Inductive key_fine (root : bool) : value -> Prop :=
| kf_text s k a b : no_gt_word s -> (root = true -> can_be_bare s = true -> ~ In cDOT s) -> key_fine root (Val None (PScalar s k a) b)
| kf_unit b : key_fine root (Val None PNone b)
| kf_tag n t b : tag_name n -> key_fine root (Val (Some (n, t)) PNone b)
| kf_tag_text n t s k a b : tag_name n -> can_be_bare s = false -> (forall m, n <> m ++ [cr]) -> (exists v, decodes s v) ->
    key_fine root (Val (Some (n, t)) (PScalar s k a) b).

(** What makes two keys of an object the same; the name of a root key. *)
Definition key_ident (k : value) : keyval :=
  let p := match v_payload k with PScalar s _ _ => Some (KScalar s) | _ => None end in
  match v_tag k, p with
  | Some (n, _), _ => KTagged n p
  | None, Some i => i
  | None, None => KUnit
  end.
Definition root_name (k : value) : str :=
  match v_tag k, v_payload k with
  | Some (n, _), _ => cAT :: n
  | None, PScalar s _ _ => s
  | None, _ => [cAT]
  end.

Definition tag_fine (t : option (str * option span)) : Prop := match t with Some (n, _) => tag_name n | None => True end.

(** Doc comments: lines joined by line feeds, the last one not empty. *)
Definition doc_fine (d : option str) : Prop :=
  match d with
  | None => True
  | Some t => exists ls l, t = join [cLF] (ls ++ [l]) /\ l <> [] /\ Forall (fun x => ~ In cLF x /\ ~ In cCR x) (ls ++ [l])
  end.

(** [fine dk h v]: nested values that are read back when strings of [h] lines or more are written as heredocs.
    [dk] says whether entries of nested objects may have doc comments. *)
Inductive fine (dk : bool) (h : nat) : value -> Prop :=
| fine_scalar s k a b : line_feeds s < h -> no_gt_word s -> fine dk h (Val None (PScalar s k a) b)
| fine_unit b : fine dk h (Val None PNone b)
| fine_tag n t b : tag_name n -> fine dk h (Val (Some (n, t)) PNone b)
| fine_seq t items a b : tag_fine t -> fine_items dk h items -> fine dk h (Val t (PSeq items a) b)
| fine_obj t es a b : tag_fine t -> fine_ents dk h es -> NoDup (map (fun e => key_ident (e_key e)) es) -> fine dk h (Val t (PObj es a) b)
(** All elements but the last are untagged scalars or bracketed; the unit is an element only alone. *)
with fine_items (dk : bool) (h : nat) : list value -> Prop :=
| fi_nil : fine_items dk h []
| fi_cons v r : fine dk h v -> (r <> [] -> solid v) -> Forall (fun w => ~ is_unit w) r -> fine_items dk h r -> fine_items dk h (v :: r)
with fine_ents (dk : bool) (h : nat) : list entry -> Prop :=
| fe_nil : fine_ents dk h []
| fe_cons k v d r : key_fine false k -> fine dk h v -> (d = None \/ dk = true) -> doc_fine d -> fine_ents dk h r -> fine_ents dk h (Ent k v d :: r).

Scheme fine_mind := Induction for fine Sort Prop
  with fine_items_mind := Induction for fine_items Sort Prop
  with fine_ents_mind := Induction for fine_ents Sort Prop.
Combined Scheme fine_all from fine_mind, fine_items_mind, fine_ents_mind.

(** Values of root entries: as well heredocs that end their last line and leave some delimiter unused. *)
Definition fine_root (dk : bool) (h : nat) (v : value) : Prop :=
  fine dk h v \/
  exists s k a b, v = Val None (PScalar s k a) b /\ no_gt_word s /\
    (exists u, s = u ++ [cLF]) /\ exists d, In d delimiters /\ ~ occurs d s.

Definition entry_fine (dk : bool) (h : nat) (e : entry) : Prop :=
  key_fine true (e_key e) /\ fine_root dk h (e_val e) /\ doc_fine (e_doc e).

(** No two neighbours have the same name. *)
Definition neighbours_differ (ns : list str) : Prop := forall a x b, ns <> a ++ x :: x :: b.
