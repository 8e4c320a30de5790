(** Specification vocabulary for C56 and C57: documents on which the two parsers agree, and what a syntax tree shows. *)
From Verif Require Import Base TokModel LexModel LexSpec CstModel ParseModel ParseSpec PathSpec TreeSpec GrammarSpec.
Local Open Scope nat_scope.

(** ** Where the parsers agree

    Doc comments stand at the start of a line (or after a comma or an opening brace) and outside sequences; attributes stand
    outside sequences and are no values of attributes; a heredoc is not glued to a single tag. [seqs] says for
    every open bracket whether it is a sequence, [prev] is the lexeme before. *)
Definition line_start (prev : option lexeme) : Prop :=
  match prev with None | Some (LxNewline _ | LxComma _ | LxObjStart _) => True | _ => False end.
Definition calm_one (seqs : list bool) (prev : option lexeme) (l : lexeme) : Prop :=
  match l with
  | LxDoc _ _ => hd false seqs = false /\ line_start prev
  | LxAttrKey _ _ _ => hd false seqs = false /\ forall a k t, prev <> Some (LxAttrKey a k t)
  | LxScalar sp _ Heredoc => forall tsp n, prev = Some (LxTag tsp n false) -> sp_end tsp <> sp_start sp
  | _ => True
  end.
Definition nesting (seqs : list bool) (l : lexeme) : list bool :=
  match l with
  | LxObjStart _ => false :: seqs
  | LxSeqStart _ => true :: seqs
  | LxObjEnd _ | LxSeqEnd _ => tl seqs
  | _ => seqs
  end.
Fixpoint calm (seqs : list bool) (prev : option lexeme) (ls : list lexeme) : Prop :=
  match ls with
  | [] => True
  | l :: r => calm_one seqs prev l /\ calm (nesting seqs l) (Some l) r
  end.

(** ** What a syntax tree shows, without positions *)

Definition is_gap (c : cst) : Prop := exists t, c = Leaf (LTok Whitespace) t.
Definition is_triv (c : cst) : Prop := exists k t, c = Leaf (LTok k) t /\ In k [Whitespace; Newline; LineComment].
Definition tok (k : tkind) (t : str) : cst := Leaf (LTok k) t.

Inductive shows_scalar : cst -> str -> skind -> Prop :=
| ss_bare t : shows_scalar (Node SCALAR [tok BareScalar t]) t Bare
| ss_quoted a v : decodes a v -> shows_scalar (Node SCALAR [tok QuotedScalar (cDQ :: a ++ [cDQ])]) v Quoted
(** The lexer counts the hashes in a byte. *)
| ss_raw n v : n < 256 -> shows_scalar (Node SCALAR [tok RawScalar (cr :: repeat cHASH n ++ cDQ :: v ++ cDQ :: repeat cHASH n)]) v Raw
| ss_empty s e : shows_scalar (Node HEREDOC [tok HeredocStart s; tok HeredocEnd e]) [] Heredoc
| ss_heredoc s b ind d v : Forall blank_char ind -> d <> [] -> forallb is_delim_char d = true -> heredoc_value (length ind) b v ->
    shows_scalar (Node HEREDOC [tok HeredocStart s; tok HeredocContent b; tok HeredocEnd (ind ++ d)]) v Heredoc.

(** The doc comments [us] in front of an entry: one for each line in the root, one in all elsewhere. *)
Definition docs_are (root : bool) (us : list str) (ds : list (span * list str)) : Prop :=
  map snd ds = if root then map (fun u => [u]) us else match us with [] => [] | _ => [us] end.
(** The entry [e] of key [k] and value [v]: keys of the root can be paths. *)
Definition entry_of (root : bool) (k v : dval) (ds : list (span * list str)) (e : dentry) : Prop :=
  if root then exists p, root_entry k v ds p e
  else match e with DEnt ds' _ _ tag pl kd v' _ => ds' = ds /\ v' = v /\ key_is k tag pl kd end.

Inductive shows : cst -> dval -> Prop :=
| sh_scalar c t k sp : shows_scalar c t k -> shows c (DScalar sp t k)
| sh_unit sp : shows (Node UNIT [tok At [cAT]]) (DUnit sp)
| sh_tag n sp s2 : tag_name n -> shows (Node TAG [tok Tag (cAT :: n)]) (DTag sp n None s2)
| sh_tag_payload n c d sp s2 : tag_name n -> shows c d -> shows (Node TAG [tok Tag (cAT :: n); Node TAG_PAYLOAD [c]]) (DTag sp n (Some d) s2)
| sh_tag_tag n c d sp s2 : tag_name n -> shows c d ->
    shows (Node TAG [tok Tag (cAT :: n); Node TAG_PAYLOAD [Leaf LSlash [cSLASH]; c]]) (DTag sp n (Some d) s2)
| sh_seq cs ds s1 s2 : shows_items cs ds -> shows (Node SEQUENCE (tok LParen [cLP] :: cs ++ [tok RParen [cRP]])) (DSeq s1 ds s2)
| sh_obj cs kvs es s1 s2 : shows_entries false [] cs kvs es -> NoDup (map (fun kv => key_id (fst kv)) kvs) -> shows (Node OBJECT (tok LBrace [cLB] :: cs ++ [tok RBrace [cRB]])) (DObj s1 es s2)
with shows_items : list cst -> list dval -> Prop :=
| si_end : shows_items [] []
| si_skip c cs ds : is_triv c -> shows_items cs ds -> shows_items (c :: cs) ds
| si_item c d cs ds : shows c d -> shows_items cs ds -> shows_items (Node ENTRY [Node KEY [c]] :: cs) (d :: ds)
(** The entries of an object: [docs] are the doc comments that wait for one, [kvs] the keys and values as written. *)
with shows_entries : bool -> list str -> list cst -> list (dval * dval) -> list dentry -> Prop :=
| se_end root : shows_entries root [] [] [] []
| se_skip root docs c cs kvs es : is_triv c \/ c = tok Comma [cCOMMA] \/ c = Node ENTRY [] -> shows_entries root docs cs kvs es -> shows_entries root docs (c :: cs) kvs es
| se_doc root docs t u cs kvs es : doc_text t u -> shows_entries root (docs ++ [u]) cs kvs es -> shows_entries root docs (tok DocComment t :: cs) kvs es
| se_entry root docs c k v ds e cs kvs es : shows_line c k v -> docs_are root docs ds -> entry_of root k v ds e ->
    shows_entries root [] cs kvs es -> shows_entries root docs (c :: cs) ((k, v) :: kvs) (e :: es)
with shows_line : cst -> dval -> dval -> Prop :=
| sl_key c k ws sp : shows c k -> Forall is_gap ws -> shows_line (Node ENTRY (Node KEY [c] :: ws)) k (DUnit sp)
| sl_pair c k ws cv v ws' : shows c k -> Forall is_gap ws -> shows_value cv v -> Forall is_gap ws' ->
    shows_line (Node ENTRY (Node KEY [c] :: ws ++ Node VALUE [cv] :: ws')) k v
with shows_value : cst -> dval -> Prop :=
| sv_atom c v : shows c v -> shows_value c v
| sv_attrs cs es s1 s2 : shows_attrs cs es -> es <> [] -> shows_value (Node ATTRIBUTES cs) (DObj s1 es s2)
with shows_attrs : list cst -> list dentry -> Prop :=
| sa_end : shows_attrs [] []
| sa_gap c cs es : is_gap c -> shows_attrs cs es -> shows_attrs (c :: cs) es
| sa_more key c v s1 ksp s2 cs es : shows c v -> shows_attrs cs es ->
    shows_attrs (Node ATTRIBUTE [tok BareScalar key; tok Gt [cGT]; c] :: cs) (DEnt [] s1 ksp None (Some key) Bare v s2 :: es).

(** The assignments of the root entries, and what the keys must satisfy. *)
Definition assigns (kv : dval * dval) (a : assign) : Prop :=
  exists docs e, root_entry (fst kv) (snd kv) docs (as_path a) e /\ as_kind a = value_shape (snd kv).
Inductive braced_keys : list (dval * dval) -> list keyval -> Prop :=
| bk_nil : braced_keys [] []
| bk_path k v kvs ks : dotted_key k -> braced_keys kvs ks -> braced_keys ((k, v) :: kvs) ks
| bk_plain k v kvs ks : ~ dotted_key k -> braced_keys kvs ks -> braced_keys ((k, v) :: kvs) (key_id k :: ks).

(** The document a whole tree shows. In the tree, root braces are the key of an entry. *)
Inductive shows_doc : cst -> list dentry -> Prop :=
| sd_plain cs kvs es h : shows_entries true [] cs kvs es -> Forall2 assigns kvs h -> paths_fine h -> shows_doc (Node DOCUMENT cs) es
| sd_braces pre cs ws post kvs ks es : Forall (fun c => is_triv c \/ c = tok Comma [cCOMMA] \/ c = Node ENTRY []) pre ->
    shows_entries true [] cs kvs es -> braced_keys kvs ks -> NoDup ks -> Forall is_gap ws -> Forall is_triv post ->
    shows_doc (Node DOCUMENT (pre ++ Node ENTRY (Node KEY [Node OBJECT (tok LBrace [cLB] :: cs ++ [tok RBrace [cRB]])] :: ws) :: post)) es.

(** A document without its places. *)
Definition nowhere : span := mkspan 0 0.
Fixpoint unplace (d : dval) : dval :=
  match d with
  | DScalar _ t k => DScalar nowhere t k
  | DUnit _ => DUnit nowhere
  | DSeq _ items _ => DSeq nowhere (map unplace items) nowhere
  | DObj _ es _ => DObj nowhere (map unplace_entry es) nowhere
  | DTag _ n p _ => DTag nowhere n (option_map unplace p) nowhere
  end
with unplace_entry (e : dentry) : dentry :=
  match e with
  | DEnt docs _ _ tag pl k v _ => DEnt (map (fun d => (nowhere, snd d)) docs) nowhere nowhere tag pl k (unplace v) nowhere
  end.
