(** Model of facet-styx's serializer: /repo/crates/facet-styx/src/serializer.rs at the pinned commit, on top
    of the writer of FmtModel.v.

    The serializer implements [facet_format::FormatSerializer]; which of its methods are called for a value is
    decided by [facet_format::serialize_root], which is not part of /repo. [drive] below states the calls that
    are assumed here; they are the ones that the tests 920-1080 and idempotency_test.rs expect:
    a struct or map is begin_struct, its keys and values, end_struct; a list or tuple is begin_seq, its items,
    end_seq; an enum variant is write_variant_tag, followed by finish_variant_tag_unit_payload for a unit
    variant, by the methods [.._after_tag] for a payload in brackets, and by the payload itself otherwise.

    Simplifications. Numbers and booleans are given by their text ([to_string] of Rust's library is not
    modelled). [Result]s are left out: keys are only written inside of structs here. [raw_scalar] (423-431),
    the extraction of keys and doc comments from metadata containers (20-164, 448-527) and the compact
    serializer's inherited [emit_field_key] are not modelled; a key is given by its tag, name and doc lines. *)
From Coq Require Import String.
From Verif Require Import Base TokModel LexModel TreeModel FmtModel.

(** The values to be written: unit or [None], numbers and booleans, strings and characters, bytes, lists,
    structs and maps, enum variants. *)
Inductive data :=
| VUnit
| VWord (t : str)
| VText (s : str)
| VBytes (b : list N)
| VSeq (l : list data)
| VStruct (l : list datafield)
| VVariant (n : str) (d : data)
with datafield := VField (tag name : option str) (docs : list str) (d : data).

(** 187-193 StyxSerializer and 637-640 CompactStyxSerializer; [s_root] is [at_root], always false for the
    compact one; [s_tag] is [just_wrote_tag]. *)
Record ser := mkser { s_w : writer; s_root : bool; s_tag : bool }.
Definition ser_new (o : opts) : ser := mkser (new_writer o) true false.
Definition compact_new (o : opts) : ser := mkser (new_writer o) false false.

(** 225-233, 660-666 begin_struct *)
Definition ser_begin_struct (s : ser) : ser :=
  mkser (begin_struct (s_root s) false (clear_skip_before_value (s_w s))) false false.
(** 319-322 end_struct *)
Definition ser_end_struct (s : ser) : ser := mkser (end_struct (s_w s)) (s_root s) (s_tag s).
(** 324-331, 333-336 begin_seq, end_seq *)
Definition ser_begin_seq (s : ser) : ser := mkser (begin_seq (clear_skip_before_value (s_w s))) false false.
Definition ser_end_seq (s : ser) : ser := mkser (end_seq (s_w s)) (s_root s) (s_tag s).

(** 242-317, emit_field_key: the key text, raw for keys with a tag *)
Definition key_raw (tag name : option str) : option str :=
  match tag, name with
  | Some t, Some n => Some (cAT :: t ++ cDQ :: n ++ [cDQ])
  | Some t, None => Some (cAT :: t)
  | None, Some _ => None
  | None, None => Some [cAT]
  end.
Definition ser_key (tag name : option str) (docs : list str) (s : ser) : ser :=
  let w := clear_skip_before_value (s_w s) in
  let w :=
    match key_raw tag name, name, docs with
    | Some k, _, [] => field_key_raw k w
    | Some k, _, _ => doc_and_key_raw (join [cLF] docs) k w
    | None, Some n, [] => field_key n w
    | None, Some n, _ => doc_and_key_raw (join [cLF] docs) (key_text n) w
    | None, None, _ => w
    end in
  mkser w (s_root s) false.

(** writer.rs 457-488: booleans and numbers are written as they are; 506-516 write_bytes *)
Definition write_word (t : str) (w : writer) : writer := put t (before_value w).
Definition hex_byte (b : N) : str := [hex_of (b / 16); hex_of (b mod 16)]%N.
Definition write_bytes (b : list N) (w : writer) : writer := put (cDQ :: flat_map hex_byte b ++ [cDQ]) (before_value w).

(** 338-368 scalar; 370-382 serialize_none does the same for the unit (except for [at_root] after a tag) *)
Definition ser_unit (s : ser) : ser :=
  if s_tag s then mkser (clear_skip_before_value (s_w s)) false false
  else mkser (write_null (s_w s)) false false.
Definition ser_word (t : str) (s : ser) : ser := mkser (write_word t (s_w s)) false false.
Definition ser_text (t : str) (s : ser) : ser := mkser (write_string t (s_w s)) false false.
Definition ser_bytes (b : list N) (s : ser) : ser := mkser (write_bytes b (s_w s)) false false.

(** 384-394 write_variant_tag *)
Definition ser_tag (n : str) (s : ser) : ser :=
  mkser (if s_tag s then write_tag_chain_segment n (s_w s) else write_tag n (s_w s)) false true.
(** 396-408 begin_struct_after_tag, begin_seq_after_tag; 410-417 finish_variant_tag_unit_payload *)
Definition ser_struct_after_tag (s : ser) : ser := mkser (begin_struct_after_tag false (s_w s)) (s_root s) false.
Definition ser_seq_after_tag (s : ser) : ser := mkser (begin_seq_after_tag (s_w s)) (s_root s) false.
Definition ser_finish_tag (s : ser) : ser := mkser (clear_skip_before_value (s_w s)) (s_root s) false.

(** The calls for a value (see above); [payload] says that a variant tag was just written. *)
Fixpoint drive (payload : bool) (d : data) (s : ser) : ser :=
  match d with
  | VUnit => if payload then ser_finish_tag s else ser_unit s
  | VWord t => ser_word t s
  | VText t => ser_text t s
  | VBytes b => ser_bytes b s
  | VSeq l =>
    ser_end_seq ((fix go (l : list data) (s : ser) : ser :=
                    match l with [] => s | x :: r => go r (drive false x s) end)
                   l (if payload then ser_seq_after_tag s else ser_begin_seq s))
  | VStruct l =>
    ser_end_struct ((fix go (l : list datafield) (s : ser) : ser :=
                       match l with [] => s | VField t n docs x :: r => go r (drive false x (ser_key t n docs s)) end)
                      l (if payload then ser_struct_after_tag s else ser_begin_struct s))
  | VVariant n x => drive true x (ser_tag n s)
  end.

(** 553-600 to_string_with_options, 210-213 finish; 575-586, 620-630 to_string_compact and
    peek_to_string_expr, 650-653 finish; options.rs 46-49 inline *)
Definition to_text (o : opts) (d : data) : str := finish_document (s_w (drive false d (ser_new o))).
Definition inline_opts (o : opts) : opts := mkopts (o_indent o) (o_max_width o) (o_min_inline o) (o_heredoc o) StInline.
Definition to_compact (d : data) : str := w_out (s_w (drive false d (compact_new (inline_opts default_opts)))).
