(** Specification: the grammar of documents over lexemes, and the document that each derivation describes.
    Written from docs/content/reference/spec/parser.md; it does not mention the parser. A derivation
    [gval l d tr r] says: the lexemes [l] start with a value [d], and the lexemes [r] are left. [tr] are
    the comments found behind entries on the way; the parser reports them before the entry they stand in. *)
From Verif Require Import Base TokModel LexModel LexSpec ParseModel ParseSpec PathSpec TreeModel TreeSpec.

(** ** Small parts *)

Definition dspan (d : dval) : span :=
  match d with DScalar sp _ _ | DUnit sp => sp | DSeq sp _ _ | DObj sp _ _ | DTag sp _ _ _ => sp end.

(** The next lexeme starts at byte [n]. *)
Definition next_at (n : nat) (r : list lexeme) : Prop := exists l r', r = l :: r' /\ sp_start (lx_span l) = n.

(** The next lexeme is a bare scalar starting at byte [n]. *)
Definition bare_at (n : nat) (t : str) (r : list lexeme) : Prop := exists sp r', r = LxScalar sp t Bare :: r' /\ sp_start sp = n.

(** The next lexeme can start the payload of a tag. *)
Definition payload_start (r : list lexeme) : Prop :=
  match r with
  | (LxScalar _ _ _ | LxUnit _ | LxTag _ _ _ | LxObjStart _ | LxSeqStart _) :: _ => True
  | _ => False
  end.

(** The next lexeme is an opening bracket glued to the bare key [k]. *)
Definition glued (k : dval) (r : list lexeme) : Prop :=
  match k, r with
  | DScalar ksp _ Bare, (LxObjStart sp | LxSeqStart sp) :: _ => sp_end ksp = sp_start sp
  | _, _ => False
  end.

(** A tag name; a chain [a/@b] of them. *)
Definition tag_name (n : str) : Prop := exists c r, n = c :: r /\ is_tag_start c = true /\ forallb is_tag_char r = true.
Definition tag_chain (text : str) (ns : list str) : Prop :=
  ns <> [] /\ Forall tag_name ns /\ text = join [cSLASH; cAT] ns.

(** The tags [ns] around a payload, the first one starting at byte [start]. *)
Fixpoint stacked (start : nat) (ns : list str) (p : option dval) : option dval :=
  match ns with
  | [] => p
  | n :: r =>
    let q := stacked (start + blen n + 2) r p in
    let sp := mkspan start (match q with Some d => sp_end (dspan d) | None => start + 1 + blen n end) in
    Some (DTag sp n q sp)
  end.

(** The payload follows: for a single tag the lexer has seen it, for a chain it must be adjacent. *)
Definition has_payload (sp : span) (ns : list str) (hp : bool) (r : list lexeme) : Prop :=
  match ns with
  | [_] => hp = true
  | _ => next_at (sp_end sp) r /\ payload_start r
  end.

(** Doc comment text without its marker. *)
Inductive doc_text : str -> str -> Prop :=
| dt_space u : doc_text (cSLASH :: cSLASH :: cSLASH :: cSP :: u) u
| dt_plain u : (forall v, u <> cSP :: v) -> doc_text (cSLASH :: cSLASH :: cSLASH :: u) u.

Definition is_sep (l : lexeme) : Prop := match l with LxNewline _ | LxComma _ => True | _ => False end.
Definition is_remark (l : lexeme) : Prop := match l with LxNewline _ | LxComment _ _ => True | _ => False end.

(** What ends an entry: the end of the input, a separator or closing bracket (left for others), or a comment. *)
Inductive gstop : list lexeme -> list event -> list lexeme -> Prop :=
| gs_eof : gstop [] [] []
| gs_newline sp r : gstop (LxNewline sp :: r) [] (LxNewline sp :: r)
| gs_comma sp r : gstop (LxComma sp :: r) [] (LxComma sp :: r)
| gs_brace sp r : gstop (LxObjEnd sp :: r) [] (LxObjEnd sp :: r)
| gs_paren sp r : gstop (LxSeqEnd sp :: r) [] (LxSeqEnd sp :: r)
| gs_comment sp t r : gstop (LxComment sp t :: r) [mkev sp (EvComment t)] r
| gs_doc sp t u r : doc_text t u -> gstop (LxDoc sp t :: r) [mkev sp (EvDoc [u])] r.

(** ** Keys *)

(** A value that can be a key: its tag, text and kind. *)
Inductive key_is : dval -> option str -> option str -> skind -> Prop :=
| key_text sp t k : key_is (DScalar sp t k) None (Some t) k
| key_unit sp : key_is (DUnit sp) None None Bare
| key_tag sp n s2 : key_is (DTag sp n None s2) (Some n) None Bare
| key_tag_unit sp n usp s2 : key_is (DTag sp n (Some (DUnit usp)) s2) (Some n) None Bare
| key_tag_text sp n isp t k s2 : (k = Quoted -> exists v, decodes t v) ->
    key_is (DTag sp n (Some (DScalar isp t k)) s2) (Some n) (Some t) k.

(** What makes two keys of an object the same. *)
Fixpoint key_id (d : dval) : keyval :=
  match d with
  | DScalar _ t _ => KScalar t
  | DTag _ n p _ => KTagged n (match p with Some q => Some (key_id q) | None => None end)
  | _ => KUnit
  end.

(** ** Values, entries, objects *)

(** The doc comment lines in front of an entry of a nested object make one doc comment. *)
Definition doc_block (docs : list (span * str)) : list (span * list str) :=
  match docs with
  | [] => []
  | (s1, _) :: _ => [(cover s1 (fst (last docs (s1, []))), map snd docs)]
  end.

Definition attr_end (ksp : span) (attrs : list (str * span * dval)) : span :=
  mkspan (sp_start ksp) (sp_end (dspan (snd (last attrs ([], ksp, DUnit ksp))))).
Definition attr_entry (x : str * span * dval) : dentry :=
  let '(key, ksp, v) := x in DEnt [] ksp ksp None (Some key) Bare v (dspan v).

Inductive gval : list lexeme -> dval -> list event -> list lexeme -> Prop :=
| gv_scalar sp t k r : gval (LxScalar sp t k :: r) (DScalar sp t k) [] r
| gv_unit sp r : (forall t, ~ bare_at (sp_end sp) t r) -> gval (LxUnit sp :: r) (DUnit sp) [] r
| gv_tag sp text hp ns d r : tag_chain text ns -> ~ has_payload sp ns hp r ->
    (forall t, ~ bare_at (sp_end sp) (cDOT :: t) r) ->
    stacked (sp_start sp) ns None = Some d -> gval (LxTag sp text hp :: r) d [] r
| gv_tag_payload sp text hp ns p d r tr r' : tag_chain text ns -> has_payload sp ns hp r -> gval r p tr r' ->
    stacked (sp_start sp) ns (Some p) = Some d -> gval (LxTag sp text hp :: r) d tr r'
| gv_seq sp r items tr e r' : gitems r items tr e r' ->
    gval (LxSeqStart sp :: r) (DSeq (cover sp e) items (cover sp e)) tr r'
| gv_obj sp r ks es tr e r' : gents [] r ks es tr e r' -> NoDup ks ->
    gval (LxObjStart sp :: r) (DObj (cover sp e) es (cover sp e)) tr r'
| gv_attrs asp ksp key r v tr r1 attrs tr' r' : gval r v tr r1 -> gattrs r1 attrs tr' r' ->
    gval (LxAttrKey asp ksp key :: r)
         (DObj (attr_end ksp ((key, ksp, v) :: attrs)) (map attr_entry ((key, ksp, v) :: attrs))
               (attr_end ksp ((key, ksp, v) :: attrs))) (tr ++ tr') r'

(** The elements of a sequence up to its end [e]. *)
with gitems : list lexeme -> list dval -> list event -> span -> list lexeme -> Prop :=
| gi_end sp r : gitems (LxSeqEnd sp :: r) [] [] sp r
| gi_remark l r ds tr e r' : is_remark l -> gitems r ds tr e r' -> gitems (l :: r) ds tr e r'
| gi_doc sp t r ds tr e r' : gitems r ds tr e r' -> gitems (LxDoc sp t :: r) ds tr e r'
| gi_item l d tr r ds tr' e r' : gval l d tr r -> gitems r ds tr' e r' -> gitems l (d :: ds) (tr ++ tr') e r'

(** The entries of a nested object up to its end [e]; [docs] are the doc comments still waiting for an entry. *)
with gents : list (span * str) -> list lexeme -> list keyval -> list dentry -> list event -> span -> list lexeme -> Prop :=
| ge_end sp r : gents [] (LxObjEnd sp :: r) [] [] [] sp r
| ge_sep docs l r ks es tr e r' : is_sep l \/ is_remark l -> gents docs r ks es tr e r' -> gents docs (l :: r) ks es tr e r'
| ge_doc docs sp t u r ks es tr e r' : doc_text t u -> gents (docs ++ [(sp, u)]) r ks es tr e r' ->
    gents docs (LxDoc sp t :: r) ks es tr e r'
| ge_entry docs l k v tag pl kd tr r ks es tr' e r' : gline l k v tr r -> key_is k tag pl kd ->
    gents [] r ks es tr' e r' ->
    gents docs l (key_id k :: ks) (DEnt (doc_block docs) (dspan k) (dspan k) tag pl kd v (dspan v) :: es) (tr ++ tr') e r'

(** One entry: a key alone stands for a unit value. *)
with gline : list lexeme -> dval -> dval -> list event -> list lexeme -> Prop :=
| gl_key l k tr r tr' r' : gval l k tr r -> gstop r tr' r' -> gline l k (DUnit (dspan k)) (tr ++ tr') r'
| gl_pair l k tr r v tr1 r1 tr2 r2 : gval l k tr r -> ~ glued k r -> gval r v tr1 r1 -> gstop r1 tr2 r2 ->
    gline l k v (tr ++ tr1 ++ tr2) r2

(** Further attributes. *)
with gattrs : list lexeme -> list (str * span * dval) -> list event -> list lexeme -> Prop :=
| ga_end r : (forall asp ksp key r', r <> LxAttrKey asp ksp key :: r') -> gattrs r [] [] r
| ga_more asp ksp key r v tr r1 attrs tr' r' : gval r v tr r1 -> gattrs r1 attrs tr' r' ->
    gattrs (LxAttrKey asp ksp key :: r) ((key, ksp, v) :: attrs) (tr ++ tr') r'.

(** ** Entries of the root object: bare keys with dots are paths *)

Definition dotted_key (k : dval) : Prop := exists sp t, k = DScalar sp t Bare /\ In cDOT t.

Fixpoint path_entry (docs : list (span * list str)) (off : nat) (ksp : span) (segs : list str) (v : dval) : option dentry :=
  match segs with
  | [] => None
  | s :: r =>
    let sp := mkspan off (off + blen s) in
    match r with
    | [] => Some (DEnt docs sp sp None (Some s) Bare v ksp)
    | _ => match path_entry [] (off + blen s + 1) ksp r v with
           | Some e => Some (DEnt docs sp sp None (Some s) Bare (DObj sp [e] ksp) ksp)
           | None => None
           end
    end
  end.

(** [root_entry k v docs p e]: the entry [e] of key [k], value [v] and doc comments [docs]; [p] is its path. *)
Inductive root_entry : dval -> dval -> list (span * list str) -> list str -> dentry -> Prop :=
| re_plain k v docs tag pl kd : ~ dotted_key k -> (forall sp t, k <> DScalar sp t Heredoc) -> key_is k tag pl kd ->
    root_entry k v docs
      [match tag, pl with Some n, _ => cAT :: n | None, Some t => t | None, None => [cAT] end]
      (DEnt docs (dspan k) (dspan k) tag pl kd v (dspan v))
| re_path sp t segs v docs e : In cDOT t -> t = join [cDOT] segs -> Forall (fun s => s <> [] /\ ~ In cDOT s) segs ->
    path_entry docs (sp_start sp) sp segs v = Some e -> root_entry (DScalar sp t Bare) v docs segs e.

Definition value_shape (v : dval) : pvkind := match v with DObj _ _ _ => PVObject | _ => PVTerminal end.

(** The doc comments among the comments behind an entry. *)
Definition docs_in (tr : list event) : list (span * list str) :=
  flat_map (fun e => match ev_kind e with EvDoc u => [(ev_span e, u)] | _ => [] end) tr.

(** The events of an entry whose doc comments were already reported. *)
Definition undocumented (e : dentry) : dentry :=
  let 'DEnt _ s1 ksp tag pl k v s2 := e in DEnt [] s1 ksp tag pl k v s2.

Definition no_open_brace (l : list lexeme) : Prop := forall sp r, l <> LxObjStart sp :: r.
Definition empty_at (n : nat) : span := mkspan n n.
Definition open_root (opened : bool) : list event := if opened then [] else [mkev (empty_at 0) EvObjStart].

(** The entries of a document without root braces: the entries, the events, and the assignments for C09. *)
Inductive groot : bool -> list (span * list str) -> list lexeme -> list dentry -> list event -> list assign -> Prop :=
| gr_end opened : groot opened [] [] [] (if opened then [mkev (empty_at 0) EvObjEnd] else []) []
| gr_sep opened docs l r es evs h : is_sep l -> groot opened docs r es evs h -> groot opened docs (l :: r) es evs h
| gr_comment opened docs sp t r es evs h : groot opened docs r es evs h ->
    groot opened docs (LxComment sp t :: r) es (mkev sp (EvComment t) :: evs) h
| gr_doc opened docs sp t u r es evs h : doc_text t u -> groot true (docs ++ [(sp, [u])]) r es evs h ->
    groot opened docs (LxDoc sp t :: r) es (open_root opened ++ mkev sp (EvDoc [u]) :: evs) h
| gr_entry opened docs l k v tr r p e es evs h : no_open_brace l -> gline l k v tr r ->
    root_entry k v (docs ++ docs_in tr) p e -> groot true [] r es evs h ->
    groot opened docs l (e :: es) (open_root opened ++ tr ++ ent_events (undocumented e) ++ evs)
          ((p, dspan k, value_shape v) :: h).

(** The entries inside the root braces, up to the end of the source. Keys that are not paths differ. *)
Inductive gbody : list (span * list str) -> list lexeme -> list keyval -> list dentry -> list event -> span -> list lexeme -> Prop :=
| gb_end sp r : gbody [] (LxObjEnd sp :: r) [] [] [] sp r
| gb_sep docs l r ks es evs e r' : is_sep l -> gbody docs r ks es evs e r' -> gbody docs (l :: r) ks es evs e r'
| gb_comment docs sp t r ks es evs e r' : gbody docs r ks es evs e r' ->
    gbody docs (LxComment sp t :: r) ks es (mkev sp (EvComment t) :: evs) e r'
| gb_doc docs sp t u r ks es evs e r' : doc_text t u -> gbody (docs ++ [(sp, [u])]) r ks es evs e r' ->
    gbody docs (LxDoc sp t :: r) ks es (mkev sp (EvDoc [u]) :: evs) e r'
| gb_entry docs l k v tr r p x ks ks' es evs e r' : gline l k v tr r -> root_entry k v (docs ++ docs_in tr) p x ->
    gbody [] r ks es evs e r' ->
    (dotted_key k /\ ks' = ks \/ ~ dotted_key k /\ ks' = key_id k :: ks) ->
    gbody docs l ks' (x :: es) (tr ++ ent_events (undocumented x) ++ evs) e r'.

(** In front of the root braces: separators and comments. *)
Inductive glead : list lexeme -> list event -> list lexeme -> Prop :=
| gd_here l : glead l [] l
| gd_sep l r evs r' : is_sep l -> glead r evs r' -> glead (l :: r) evs r'
| gd_comment sp t r evs r' : glead r evs r' -> glead (LxComment sp t :: r) (mkev sp (EvComment t) :: evs) r'.

(** Documents of [n] bytes: their entries and all their events. *)
Inductive gdoc (n : nat) : list lexeme -> list dentry -> list event -> Prop :=
| gdoc_plain ls es evs h : groot false [] ls es evs h -> paths_fine h ->
    gdoc n ls es (mkev (empty_at 0) EvDocStart :: evs ++ [mkev (empty_at n) EvDocEnd])
| gdoc_braces ls lead sp r ks es evs e r' : glead ls lead (LxObjStart sp :: r) -> gbody [] r ks es evs e r' -> NoDup ks ->
    Forall is_remark r' ->
    gdoc n ls es (mkev (empty_at 0) EvDocStart :: lead ++ mkev sp EvObjStart :: evs
                  ++ [mkev e EvObjEnd; mkev (empty_at n) EvDocEnd]).
