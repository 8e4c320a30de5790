(** Model of the position arithmetic, word lookup, edit distance and token encoding of the language
    server (/repo/crates/styx-lsp/src/server.rs, extensions.rs, semantic_tokens.rs) and of the
    suggestion code of the validator (/repo/crates/facet-styx/src/schema_validate.rs 1-56).

    Lines, columns and lengths are [u32] in the code and natural numbers here: documents are
    assumed shorter than 4 GiB. *)
From Verif Require Import Base.
Local Open Scope nat_scope.

(** [lsp_types::Position]. *)
Record position := mkpos { p_line : nat; p_char : nat }.

(** ** Positions (server.rs 2148-2190) *)

(** [offset_to_position] (server.rs 2149-2166) and [offset_to_line_col] (semantic_tokens.rs
    589-607), which is the same code: the loop over [char_indices], [i] being the index of the
    next character. *)
Fixpoint offset_to_position_loop (s : str) (i offset line col : nat) : position :=
  match s with
  | [] => mkpos line col
  | ch :: r =>
      if offset <=? i then mkpos line col
      else if (ch =? cLF)%N then offset_to_position_loop r (i + clen ch) offset (line + 1) 0
      else offset_to_position_loop r (i + clen ch) offset line (col + 1)
  end.
Definition offset_to_position (content : str) (offset : nat) : position :=
  offset_to_position_loop content 0 offset 0 0.

(** [position_to_offset] (server.rs 2169-2190). *)
Fixpoint position_to_offset_loop (s : str) (i : nat) (pos : position) (line col : nat)
  : option nat :=
  match s with
  | [] => None
  | ch :: r =>
      if (line =? p_line pos) && (col =? p_char pos) then Some i
      else if (ch =? cLF)%N then
        if line =? p_line pos then Some i
        else position_to_offset_loop r (i + clen ch) pos (line + 1) 0
      else position_to_offset_loop r (i + clen ch) pos line (col + 1)
  end.
Definition position_to_offset (content : str) (pos : position) : nat :=
  match position_to_offset_loop content 0 pos 0 0 with
  | Some i => i
  | None => blen content
  end.

(** ** The conversions offered to extensions (extensions.rs 374-425) *)

(** Byte index just after the last line feed, [s.rfind('\n').map(|i| i + 1).unwrap_or(0)]. *)
Fixpoint after_last_lf (s : str) (i acc : nat) : nat :=
  match s with
  | [] => acc
  | c :: r => after_last_lf r (i + clen c) (if (c =? cLF)%N then i + 1 else acc)
  end.

(** [offset_to_position] (extensions.rs 374-393); [None] inside is the missing answer. *)
Definition host_offset_to_position (content : str) (offset : nat) : res (option position) :=
  if blen content <? offset then Ok None else
  do before <- of_opt (slice content 0 offset);
  let line := List.length (filter (fun c => c =? cLF)%N before) in
  let last_newline := after_last_lf before 0 0 in
  Ok (Some (mkpos line (offset - last_newline))).

(** [position_to_offset] (extensions.rs 395-425): the inner loop over one line, then the outer. *)
Fixpoint host_line_loop (s : str) (char_offset offset character : nat) : nat :=
  match s with
  | [] => offset
  | c :: r =>
      if char_offset =? character then offset
      else if (c =? cLF)%N then offset
      else host_line_loop r (char_offset + 1) (offset + clen c) character
  end.
Fixpoint host_position_to_offset_loop (content s : str) (offset line : nat) (pos : position)
  : res (option nat) :=
  match s with
  | [] => Ok None
  | ch :: r =>
      if line =? p_line pos then
        do rest <- of_opt (slice content offset (blen content));
        Ok (Some (host_line_loop rest 0 offset (p_char pos)))
      else
        host_position_to_offset_loop content r (offset + clen ch)
          (if (ch =? cLF)%N then line + 1 else line) pos
  end.
Definition host_position_to_offset (content : str) (pos : position) : res (option nat) :=
  host_position_to_offset_loop content content 0 0 pos.

(** ** The word at the cursor (server.rs 2985-3010) *)

(** [c.is_whitespace() || c == '{' || c == '}']. *)
Definition word_break (c : char) : bool := (is_ws c || (c =? cLB) || (c =? cRB))%N.

(** [before.rfind(word_break)]: byte index of the last such character. *)
Fixpoint rfind_break (s : str) (i : nat) (acc : option nat) : option nat :=
  match s with
  | [] => acc
  | c :: r => rfind_break r (i + clen c) (if word_break c then Some i else acc)
  end.

(** [get_word_range_at_position]; the range is its start and the position itself. *)
Definition get_word_range_at_position (content : str) (pos : position)
  : res (option (str * (position * position))) :=
  let offset := position_to_offset content pos in
  if offset =? 0 then Ok None else
  do before <- of_opt (slice content 0 offset);
  let word_start := match rfind_break before 0 None with Some i => i + 1 | None => 0 end in
  do word <- of_opt (slice before word_start (blen before));
  match word with
  | [] => Ok None
  | _ => Ok (Some (word, (offset_to_position content word_start, pos)))
  end.

(** ** Edit distance *)

(** [row[j]] and [row[j] = v]; out of range panics. *)
Definition row_get (row : list nat) (j : nat) : res nat := of_opt (nth_error row j).
Fixpoint row_put (row : list nat) (j v : nat) : option (list nat) :=
  match row, j with
  | [], _ => None
  | _ :: r, O => Some (v :: r)
  | x :: r, S j' => option_map (cons x) (row_put r j' v)
  end.
Definition row_set (row : list nat) (j v : nat) : res (list nat) := of_opt (row_put row j v).

(** [levenshtein] of the validator (schema_validate.rs 10-36): the loop over [b], the loop over
    [a], the function. *)
Fixpoint lev_inner (a_char : char) (b : str) (j : nat) (prev curr : list nat) : res (list nat) :=
  match b with
  | [] => Ok curr
  | b_char :: b' =>
      let cost := if (a_char =? b_char)%N then 0 else 1 in
      do p1 <- row_get prev (j + 1);
      do c0 <- row_get curr j;
      do p0 <- row_get prev j;
      do curr <- row_set curr (j + 1) (Nat.min (Nat.min (p1 + 1) (c0 + 1)) (p0 + cost));
      lev_inner a_char b' (j + 1) prev curr
  end.
Fixpoint lev_outer (a b : str) (i : nat) (prev curr : list nat) : res (list nat) :=
  match a with
  | [] => Ok prev
  | a_char :: a' =>
      do curr <- row_set curr 0 (i + 1);
      do curr <- lev_inner a_char b 0 prev curr;
      lev_outer a' b (i + 1) curr prev
  end.
Definition levenshtein (a b : str) : res nat :=
  let a_len := List.length a in
  let b_len := List.length b in
  if a_len =? 0 then Ok b_len
  else if b_len =? 0 then Ok a_len
  else
    do prev <- lev_outer a b 0 (seq 0 (b_len + 1)) (repeat 0 (b_len + 1));
    row_get prev b_len.

(** [levenshtein] of the server (server.rs 3013-3043), which indexes the characters. *)
Fixpoint lsp_lev_inner (a b : str) (i : nat) (js : list nat) (prev curr : list nat)
  : res (list nat) :=
  match js with
  | [] => Ok curr
  | j :: js' =>
      do x <- of_opt (nth_error a (i - 1));
      do y <- of_opt (nth_error b (j - 1));
      let cost := if (x =? y)%N then 0 else 1 in
      do p1 <- row_get prev j;
      do c0 <- row_get curr (j - 1);
      do p0 <- row_get prev (j - 1);
      do curr <- row_set curr j (Nat.min (Nat.min (p1 + 1) (c0 + 1)) (p0 + cost));
      lsp_lev_inner a b i js' prev curr
  end.
Fixpoint lsp_lev_outer (a b : str) (is : list nat) (prev curr : list nat) : res (list nat) :=
  match is with
  | [] => Ok prev
  | i :: is' =>
      do curr <- row_set curr 0 i;
      do curr <- lsp_lev_inner a b i (seq 1 (List.length b)) prev curr;
      lsp_lev_outer a b is' curr prev
  end.
Definition lsp_levenshtein (a b : str) : res nat :=
  let m := List.length a in
  let n := List.length b in
  if m =? 0 then Ok n
  else if n =? 0 then Ok m
  else
    do prev <- lsp_lev_outer a b (seq 1 m) (seq 0 (n + 1)) (repeat 0 (n + 1));
    row_get prev n.

(** [suggest_similar] (schema_validate.rs 39-56); [lower] is [str::to_lowercase].  First the
    candidates with their distances, then [min_by_key], which keeps the first least element. *)
Section Suggest.
Variable lower : str -> str.

Fixpoint close_ones (unknown : str) (valid : list str) : res (list (str * nat)) :=
  match valid with
  | [] => Ok []
  | v :: r =>
      do dist <- levenshtein (lower unknown) (lower v);
      do rest <- close_ones unknown r;
      Ok (if (dist <=? 2) && (dist <? Nat.max (blen unknown) 1) then (v, dist) :: rest else rest)
  end.
Fixpoint min_by_key (best : str * nat) (l : list (str * nat)) : str * nat :=
  match l with
  | [] => best
  | x :: r => min_by_key (if snd x <? snd best then x else best) r
  end.
Definition suggest_similar (unknown : str) (valid : list str) : res (option str) :=
  do l <- close_ones unknown valid;
  match l with
  | [] => Ok None
  | x :: r => Ok (Some (fst (min_by_key x r)))
  end.
End Suggest.

(** ** Semantic tokens (semantic_tokens.rs) *)

(** [RawToken] (88-96) and [SemanticToken] of lsp_types; kinds and modifiers are numbers. *)
Record raw_token := mkraw
  { r_line : nat; r_start : nat; r_len : nat; r_type : nat; r_mods : nat }.
Record semantic_token := mksem
  { s_dline : nat; s_dstart : nat; s_len : nat; s_type : nat; s_mods : nat }.

(** [a - b] on [u32]; an underflow panics (in a release build it wraps). *)
Definition sub_u32 (a b : nat) : res nat := if b <=? a then Ok (a - b) else Panic.

(** [encode_tokens] (semantic_tokens.rs 610-635). *)
Fixpoint encode_tokens_from (prev_line prev_start : nat) (l : list raw_token)
  : res (list semantic_token) :=
  match l with
  | [] => Ok []
  | t :: r =>
      do delta_line <- sub_u32 (r_line t) prev_line;
      do delta_start <- (if delta_line =? 0 then sub_u32 (r_start t) prev_start
                         else Ok (r_start t));
      do rest <- encode_tokens_from (r_line t) (r_start t) r;
      Ok (mksem delta_line delta_start (r_len t) (r_type t) (r_mods t) :: rest)
  end.
Definition encode_tokens (l : list raw_token) : res (list semantic_token) :=
  encode_tokens_from 0 0 l.

(** The sort of [compute_semantic_tokens] (semantic_tokens.rs 132): stable, by line, then column.
    Insertion sort stands for the library's. *)
Definition raw_le (a b : raw_token) : bool :=
  (r_line a <? r_line b) || ((r_line a =? r_line b) && (r_start a <=? r_start b)).
Fixpoint insert_raw (x : raw_token) (l : list raw_token) : list raw_token :=
  match l with
  | [] => [x]
  | y :: r => if raw_le x y then x :: l else y :: insert_raw x r
  end.
Fixpoint sort_raw (l : list raw_token) : list raw_token :=
  match l with [] => [] | x :: r => insert_raw x (sort_raw r) end.

(** The end of [compute_semantic_tokens] (semantic_tokens.rs 131-136), from the collected tokens. *)
Definition finish_tokens (raw : list raw_token) : res (list semantic_token) :=
  encode_tokens (sort_raw raw).

(** [add_token_from_syntax] (semantic_tokens.rs 566-586), from the text and the token's range. *)
Definition raw_token_at (content : str) (start fin ty mods : nat) : raw_token :=
  let p := offset_to_position content start in
  mkraw (p_line p) (p_char p) (fin - start) ty mods.
