(** Specification vocabulary for the editor (C62-C69). Only trees, texts and spans; nothing of EditModel.v but the
    JSON values and the records that requests return. *)
From Coq Require Import String.
From Verif Require Import Base TokModel TokSpec TreeModel TreeSpec LspModel LspSpec CstModel CstSpec EditModel.

(** ** Trees whose places nest: every value lies between [lo] and [hi], its parts lie in it, in order and apart.
    [B] says where characters start or end. *)
Section Laid.
Variable B : nat -> Prop.

Inductive laid (lo hi : nat) : value -> Prop :=
| laid_val t p a b : lo <= a -> a <= b -> b <= hi -> B a -> B b -> laid_in a b p -> laid lo hi (Val t p (Some (mkspan a b)))
with laid_in (lo hi : nat) : payload -> Prop :=
| li_none : laid_in lo hi PNone
| li_scalar t k : laid_in lo hi (PScalar t k (Some (mkspan lo hi)))
| li_seq items : laid_items lo hi items -> laid_in lo hi (PSeq items (Some (mkspan lo hi)))
| li_obj es : laid_entries lo hi es -> laid_in lo hi (PObj es (Some (mkspan lo hi)))
with laid_items (lo hi : nat) : list value -> Prop :=
| ls_nil : lo <= hi -> laid_items lo hi []
| ls_cons m v r : laid lo m v -> laid_items m hi r -> laid_items lo hi (v :: r)
with laid_entries (lo hi : nat) : list entry -> Prop :=
| le_nil : lo <= hi -> laid_entries lo hi []
| le_unit a b t p d r : lo <= a -> a < b -> B a -> B b -> laid_entries b hi r ->
    laid_entries lo hi (Ent (Val t p (Some (mkspan a b))) (Val None PNone (Some (mkspan a b))) d :: r)
| le_cons a b m t p w d r : lo <= a -> a < b -> B a -> B b -> laid b m w -> laid_entries m hi r ->
    laid_entries lo hi (Ent (Val t p (Some (mkspan a b))) w d :: r).
End Laid.

(** The tree of a document of [n] bytes: the root has no place of its own. *)
Definition laid_document (B : nat -> Prop) (n : nat) (v : value) : Prop :=
  exists es, v = Val None (PObj es None) None /\ laid_entries B 0 n es.

(** Trees whose keys and values are pieces of the text. *)
Definition piece (B : nat -> Prop) (sp : option span) : Prop :=
  forall s, sp = Some s -> sp_start s <= sp_end s /\ B (sp_start s) /\ B (sp_end s).
Definition forward (e : entry) : Prop := forall s s', v_span (e_key e) = Some s -> v_span (e_val e) = Some s' -> sp_start s <= sp_end s'.
Inductive sized (B : nat -> Prop) : value -> Prop :=
| sized_val t p sp : piece B sp ->
    (forall es osp, p = PObj es osp -> Forall (fun e => piece B (v_span (e_key e)) /\ sized B (e_val e) /\ forward e) es) ->
    (forall items ssp, p = PSeq items ssp -> Forall (sized B) items) -> sized B (Val t p sp).

(** The byte offset [p] lies between two characters of [src]. *)
Definition between (src : str) (p : nat) : Prop := exists a b, src = a ++ b /\ p = blen a.

(** An entry written as a path: its value is an object that starts where the key does. *)
Definition path_like (e : entry) : Prop :=
  exists es osp s ks, e_val e = Val None (PObj es osp) (Some s) /\ v_span (e_key e) = Some ks /\ sp_start s = sp_start ks.

(** ** C62 *)

(** The steps of a path as the validator writes it; this reader knows keys only. *)
Definition key_step (s : step) : Prop :=
  match s with SKey k => k <> [] /\ ~ In cDOT k /\ ~ (exists m, k = cLSQ :: m ++ [cRSQ]) | SIdx _ => False end.

(** ** C63: what is marked in a document: keys and values, each with its path and its place *)
Inductive mark : value -> list step -> span -> Prop :=
| mark_key t es osp sp k w d key s : In (Ent k w d) es -> as_str k = Some key -> v_span k = Some s -> mark (Val t (PObj es osp) sp) [SKey key] s
| mark_value t es osp sp k w d key s : In (Ent k w d) es -> as_str k = Some key -> v_span w = Some s -> mark (Val t (PObj es osp) sp) [SKey key] s
| mark_in_value t es osp sp k w d key p s : In (Ent k w d) es -> as_str k = Some key -> mark w p s -> mark (Val t (PObj es osp) sp) (SKey key :: p) s
| mark_item t items ssp sp i w s : nth_error items i = Some w -> v_span w = Some s -> mark (Val t (PSeq items ssp) sp) [SIdx i] s
| mark_in_item t items ssp sp i w p s : nth_error items i = Some w -> mark w p s -> mark (Val t (PSeq items ssp) sp) (SIdx i :: p) s.

Definition over (s : span) (o : nat) : Prop := sp_start s <= o < sp_end s.
Definition prefix_of {A} (a b : list A) : Prop := exists c, b = a ++ c.

(** All keys are texts without tags. *)
Inductive text_keyed : value -> Prop :=
| tk_val t p sp : (forall es osp, p = PObj es osp -> Forall (fun e => (exists k, as_str (e_key e) = Some k) /\ text_keyed (e_val e)) es) ->
    (forall items ssp, p = PSeq items ssp -> Forall text_keyed items) -> text_keyed (Val t p sp).

(** ** C64: the objects of a document, reached through objects only, with their paths: keys that are texts, and tags *)
Definition steps_to (k w : value) : list str :=
  match as_str k with Some key => [key] | None => [] end ++ match v_tag w with Some (t, _) => [cAT :: t] | None => [] end.
Inductive object_in : value -> list str -> list entry -> option span -> Prop :=
| oi_here t es osp sp : object_in (Val t (PObj es osp) sp) [] es osp
| oi_below t es osp sp k w d path es' osp' : In (Ent k w d) es -> object_in w path es' osp' ->
    object_in (Val t (PObj es osp) sp) (steps_to k w ++ path) es' osp'.
(** The same through sequences as well. *)
Inductive object_below : value -> list entry -> option span -> Prop :=
| ob_here t es osp sp : object_below (Val t (PObj es osp) sp) es osp
| ob_entry t es osp sp k w d es' osp' : In (Ent k w d) es -> object_below w es' osp' -> object_below (Val t (PObj es osp) sp) es' osp'
| ob_item t items ssp sp w es' osp' : In w items -> object_below w es' osp' -> object_below (Val t (PSeq items ssp) sp) es' osp'.

(** The cursor touches the object; the root has no place and is always touched. *)
Definition touched (osp : option span) (o : nat) : Prop := match osp with Some s => sp_start s <= o <= sp_end s | None => True end.
Definition inside (a b : option span) : Prop :=
  match a, b with Some x, Some y => sp_start y <= sp_start x /\ sp_end x <= sp_end y | _, None => True | None, Some _ => False end.

(** ** C65: symbols *)
Definition range_in (a b : position * position) : Prop := pos_le (fst b) (fst a) /\ pos_le (snd a) (snd b).
Definition range_ok (a : position * position) : Prop := pos_le (fst a) (snd a).
Definition sym_range (s : symbol) := let 'Sym _ _ _ r _ _ := s in r.
Definition sym_selection (s : symbol) := let 'Sym _ _ _ _ r _ := s in r.
Definition sym_name (s : symbol) := let 'Sym n _ _ _ _ _ := s in n.
Definition sym_children (s : symbol) := let 'Sym _ _ _ _ _ c := s in c.

(** What the protocol demands of a symbol, and what a reader of the outline expects of its children. *)
Inductive symbol_ok : symbol -> Prop :=
| sy_ok n d k r sel ch : range_ok r -> range_ok sel -> range_in sel r -> Forall symbol_ok ch -> Forall (fun c => range_in (sym_range c) r) ch ->
    apart ch -> symbol_ok (Sym n d k r sel ch)
(** Symbols in order that do not overlap. *)
with apart : list symbol -> Prop :=
| ap_nil : apart []
| ap_cons s l : Forall (fun x => pos_le (snd (sym_range s)) (fst (sym_range x))) l -> apart l -> apart (s :: l).

(** The symbols that belong to the entries of an object: one for each key that is a text, with the symbols of the value if that is an object. *)
Inductive outline : list entry -> list symbol -> Prop :=
| ou_nil : outline [] []
| ou_other e r l : as_str (e_key e) = None -> outline r l -> outline (e :: r) l
| ou_text e r key s l : as_str (e_key e) = Some key -> sym_name s = key -> outline_below (e_val e) (sym_children s) -> outline r l -> outline (e :: r) (s :: l)
with outline_below : value -> list symbol -> Prop :=
| ob_object t es osp sp l : outline es l -> outline_below (Val t (PObj es osp) sp) l
| ob_flat v : (forall t es osp sp, v <> Val t (PObj es osp) sp) -> outline_below v [].

(** ** C67: indentation *)

(** The number of objects and sequences of the tree [n], which starts at byte [p], that byte [o] lies inside of: behind
    the start and in front of the end. *)
Fixpoint around (o p : nat) (n : cst) : nat :=
  match n with
  | Leaf _ _ => 0
  | Node k cs =>
    (if match k with OBJECT | SEQUENCE => (p <? o) && (o <? p + blen (cst_text n)) | _ => false end then 1 else 0) +
    (fix children (p : nat) (cs : list cst) : nat :=
       match cs with [] => 0 | c :: r => around o p c + children (p + blen (cst_text c)) r end) p cs
  end.

Definition opening (k : lkind) : bool := match k with LTok LBrace | LTok LParen => true | _ => false end.
Definition closing (k : lkind) : bool := match k with LTok RBrace | LTok RParen => true | _ => false end.
Definition solid (l : list leaf_of) : list leaf_of := filter (fun x => negb (blen (snd x) =? 0)) l.
(** At byte [o] an opening bracket stands at the start of the text or right behind a closing one. *)
Definition seam (n : cst) (o : nat) : Prop :=
  exists a k t b, solid (leaves n) = a ++ (k, t) :: b /\ opening k = true /\ o = blen (text_of a) /\
    (a = [] \/ exists a' k' t', a = a' ++ [(k', t')] /\ closing k' = true).

(** ** C68: JSON without booleans and numbers, every map with distinct keys *)
Inductive texts_only : json -> Prop :=
| to_null : texts_only JNull
| to_string t : texts_only (JString t)
| to_array l : Forall texts_only l -> texts_only (JArray l)
| to_object m : NoDup (map fst m) -> Forall (fun x => texts_only (snd x)) m -> texts_only (JObject m).

(** ** C65: how entries are shown: the kind of a value and the text next to its name *)
Inductive shown (src : str) : value -> symbol_kind -> option str -> Prop :=
| sh_object t es osp sp : shown src (Val t (PObj es osp) sp) KObject None
| sh_array t l ssp sp : shown src (Val t (PSeq l ssp) sp) KArray (Some (lit "array"))
| sh_text x k ssp sp text : slice src (sp_start sp) (sp_end sp) = Some text -> shown src (Val None (PScalar x k ssp) (Some sp)) KString (Some text)
| sh_unit sp : shown src (Val None PNone sp) KNull (Some [cAT])
| sh_tag t p sp text : (p = PNone \/ exists x k s, p = PScalar x k s) -> slice src (sp_start sp) (sp_end sp) = Some text ->
    shown src (Val (Some t) p (Some sp)) KVariable (Some text).
(** The symbol of an entry goes from its key to the end of its value, and selects the key. *)
Definition from_to (src : str) (a b : nat) : position * position := (offset_to_position src a, offset_to_position src b).
Inductive drawn (src : str) : list entry -> list symbol -> Prop :=
| dr_nil : drawn src [] []
| dr_other e r l : as_str (e_key e) = None \/ v_span (e_key e) = None \/ v_span (e_val e) = None -> drawn src r l -> drawn src (e :: r) l
| dr_text e r name ks vs kind detail ch l : as_str (e_key e) = Some name -> v_span (e_key e) = Some ks -> v_span (e_val e) = Some vs ->
    shown src (e_val e) kind detail -> drawn_below src (e_val e) ch -> drawn src r l ->
    drawn src (e :: r) (Sym name detail kind (from_to src (sp_start ks) (sp_end vs)) (from_to src (sp_start ks) (sp_end ks)) ch :: l)
with drawn_below (src : str) : value -> list symbol -> Prop :=
| db_object t es osp sp l : drawn src es l -> drawn_below src (Val t (PObj es osp) sp) l
| db_flat v : (forall t es osp sp, v <> Val t (PObj es osp) sp) -> drawn_below src v [].

(** ** C66: lines, and the last one that is neither blank nor a comment *)
Inductive lines_of : str -> list str -> Prop :=
| lo_none : lines_of [] []
| lo_last l : l <> [] -> ~ In cLF l -> lines_of l [l]
| lo_line l r ls : ~ In cLF l -> (forall m, l <> m ++ [cCR]) -> lines_of r ls -> lines_of (l ++ cLF :: r) (l :: ls)
| lo_crlf l r ls : ~ In cLF l -> lines_of r ls -> lines_of (l ++ [cCR] ++ cLF :: r) (l :: ls).
Definition blank_text (s : str) : Prop := Forall (fun c => is_ws c = true) s.
Definition idle_line (l : str) : Prop :=
  exists b t, l = b ++ t /\ blank_text b /\ (t = [] \/ (exists u, t = cSLASH :: cSLASH :: u) \/ exists u, t = cHASH :: u).
(** The line [l] is indented by [b]. *)
Definition indented (b l : str) : Prop := exists c t, l = b ++ c :: t /\ blank_text b /\ is_ws c = false.

(** ** C66: schema declarations *)
Inductive names_schema : value -> schema_ref -> Prop :=
| ns_none sp : names_schema (Val None PNone sp) RNone
| ns_path p k s sp : names_schema (Val None (PScalar p k s) sp) (RExternal p)
| ns_embedded t es osp sp i c vi vc : find_val (TreeModel.key_is (lit "id")) es = Some vi -> find_val (TreeModel.key_is (lit "cli")) es = Some vc ->
    as_str vi = Some i -> as_str vc = Some c -> names_schema (Val t (PObj es osp) sp) (REmbedded i c).
Definition schema_key (k : value) : Prop := exists sp p s, k = Val (Some (lit "schema", sp)) p s.
