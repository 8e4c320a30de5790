(** Specification vocabulary for facet-styx's serializer: what a value says, and the values whose text is read
    back. Written without looking at the serializer. *)
From Coq Require Import String.
From Verif Require Import Base TokModel LexModel LexSpec ParseModel ParseSpec TreeModel TreeSpec FmtModel FmtSpec GrammarSpec WriteSpec FacetModel FacetSpec FacetSerModel.

(** ** What a value says to a deserializer *)

(** A byte is written as two hexadecimal digits. *)
Definition digit (n : N) : char := nth (N.to_nat n) (lit "0123456789abcdef") 0%N.
Definition byte_text (b : N) : str := [digit (b / 16); digit (b mod 16)]%N.

(** A key with an empty tag and no name is the unit key (serializer.rs 252-256). *)
Definition said_tag (tag name : option str) : option str :=
  match tag, name with Some [], None => None | _, _ => tag end.

Fixpoint said (d : data) : content :=
  match d with
  | VUnit => CUnit
  | VWord t | VText t => CText t
  | VBytes b => CText (flat_map byte_text b)
  | VSeq l => FacetSpec.CSeq (map said l)
  | VStruct l => CObj (map said_field l)
  | VVariant n x => CTag n (said x)
  end
with said_field (f : datafield) : field :=
  match f with VField tag name docs d => CField (said_tag tag name) name docs (said d) end.

(** ** Values that are read back *)

(** The texts of booleans and numbers: letters, digits, signs and dots. *)
Definition number_char (c : char) : Prop :=
  (48 <= c <= 57 \/ 65 <= c <= 90 \/ 97 <= c <= 122 \/ c = 43 \/ c = 45 \/ c = 46)%N.
Definition number_text (t : str) : Prop := t <> [] /\ Forall number_char t.

(** Keys. A text next to a tag is written between quotes as it is; at the root a bare word with dots is a
    path, and the tag [@schema] is not data. *)
Inductive key_sound (root : bool) : option str -> option str -> Prop :=
| ks_name n : no_gt_word n -> (root = true -> can_be_bare n = true -> ~ In cDOT n) -> key_sound root None (Some n)
| ks_none : key_sound root None None
| ks_unit : key_sound root (Some []) None
| ks_tag t : tag_name t -> (root = true -> t <> lit "schema") -> key_sound root (Some t) None
| ks_both t n : tag_name t -> (root = true -> t <> lit "schema") -> (forall m, t <> m ++ [cr]) ->
    Forall (fun c => (32 <= c /\ c <> 127 /\ c <> 34 /\ c <> 92)%N) n -> key_sound root (Some t) (Some n).

(** What makes two keys of an object the same; the name of a key of the root. *)
Definition field_ident (f : datafield) : keyval :=
  match f with
  | VField tag name _ _ =>
    match said_tag tag name, name with
    | Some t, Some n => KTagged t (Some (KScalar n))
    | Some t, None => KTagged t None
    | None, Some n => KScalar n
    | None, None => KUnit
    end
  end.
Definition field_name (f : datafield) : str :=
  match f with
  | VField tag name _ _ =>
    match said_tag tag name, name with Some t, _ => cAT :: t | None, Some n => n | None, None => [cAT] end
  end.

(** What may stand directly after the tag [n]: not a number or boolean; texts only if the name does not end
    in [r], which would be read as the start of a raw string. *)
Definition payload_sound (n : str) (d : data) : Prop :=
  match d with
  | VWord _ => False
  | VText _ | VBytes _ => forall m, n <> m ++ [cr]
  | _ => True
  end.

(** [sound h d]: values whose texts have fewer than [h] line feeds; no doc comments. *)
Inductive sound (h : nat) : data -> Prop :=
| so_unit : sound h VUnit
| so_word t : number_text t -> sound h (VWord t)
| so_text s : line_feeds s < h -> no_gt_word s -> sound h (VText s)
| so_bytes b : Forall (fun x => (x < 256)%N) b -> sound h (VBytes b)
| so_seq l : sound_items h l -> sound h (VSeq l)
| so_struct l : sound_fields h l -> NoDup (map field_ident l) -> sound h (VStruct l)
| so_variant n d : tag_name n -> payload_sound n d -> sound h d -> sound h (VVariant n d)
with sound_items (h : nat) : list data -> Prop :=
| soi_nil : sound_items h []
| soi_cons d l : sound h d -> sound_items h l -> sound_items h (d :: l)
with sound_fields (h : nat) : list datafield -> Prop :=
| sof_nil : sound_fields h []
| sof_cons tag name d l : key_sound false tag name -> sound h d -> sound_fields h l -> sound_fields h (VField tag name [] d :: l).

Scheme sound_mind := Induction for sound Sort Prop
  with sound_items_mind := Induction for sound_items Sort Prop
  with sound_fields_mind := Induction for sound_fields Sort Prop.
Combined Scheme sound_all from sound_mind, sound_items_mind, sound_fields_mind.

(** Fields of the root may have doc comments, lines of which the last is not empty, and values that are long
    texts ending their last line and leaving some delimiter unused. *)
Definition docs_sound (docs : list str) : Prop :=
  docs = [] \/ exists ls l, docs = ls ++ [l] /\ l <> [] /\ Forall (fun x => ~ In cLF x /\ ~ In cCR x) docs.
Definition root_value (h : nat) (d : data) : Prop :=
  sound h d \/
  exists s, d = VText s /\ no_gt_word s /\ (exists u, s = u ++ [cLF]) /\ exists m, In m delimiters /\ ~ occurs m s.
Definition root_sound (h : nat) (l : list datafield) : Prop :=
  Forall (fun f => match f with VField tag name docs d => key_sound true tag name /\ docs_sound docs /\ root_value h d end) l /\
  neighbours_differ (map field_name l).

(** ** Expressions *)

(** The events that the parser returns for a source in expression mode; the stream for it. *)
Definition parses_expr (src : str) (evs : list event) : Prop :=
  exists ls fuel, lexemes src = Ok ls /\ events_from fuel (parser_new_expr src ls) = Ok evs.
(** An expression: one value, after comments and line ends. Nothing is asked of what follows it. *)
Definition gexpr (ls : list lexeme) (d : dval) (evs : list event) (rest : list lexeme) : Prop :=
  exists rem l tr, ls = rem ++ l /\ Forall is_remark rem /\ gval l d tr rest /\ evs = tr ++ val_events d.
Definition stream_expr {F} (parse_f64 : str -> option F) (src : str) (l : list (fevent F)) : Prop :=
  exists evs, parses_expr src evs /\ yields parse_f64 src (facet_new_expr evs) l.
