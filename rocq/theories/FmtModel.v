(** Model of crates/styx-format/src/{scalar,writer,value_format}.rs and of the quoted scalar decoders of
    serde_styx (de.rs 107-116) and styx-cst (ast.rs 461-492).

    Simplifications, valid for all definitions of this file:
    - the output buffer is a list of characters and buffer positions are character counts (the code uses
      bytes; positions are only ever taken from [out.len()] and used to edit [out] there);
    - writer methods returning [Result<(), &str>] return the writer; the [Err] cases (a key outside of
      a struct, an unmatched end) leave the writer unchanged, as the callers ignore them with [.ok()]
      ([end_struct]/[end_seq] pop the context even then, which is modelled). *)
From Coq Require Import String.
From Verif Require Export TreeModel.

(** ** scalar.rs *)

(** scalar.rs 23-25 *)
Definition bare_special (c : char) : bool :=
  ((c =? cLB) || (c =? cRB) || (c =? cLP) || (c =? cRP) || (c =? cCOMMA) || (c =? cDQ) || (c =? cEQ)
   || (c =? cAT))%N || is_ws c.

(** scalar.rs 14-26, can_be_bare *)
Definition can_be_bare (s : str) : bool :=
  match s with
  | [] => false
  | _ =>
    negb (starts_with [cSLASH; cSLASH] s || starts_with [cr; cHASH] s || starts_with [cLT; cLT] s)
    && negb (existsb bare_special s)
  end.

(** scalar.rs 29-33 and 36-38, count_escapes, count_newlines *)
Definition is_escaped (c : char) : bool :=
  ((c =? cDQ) || (c =? cBSL) || (c =? cLF) || (c =? cCR) || (c =? cTAB))%N.
Definition count_escapes (s : str) : nat := length (filter is_escaped s).
Definition count_newlines (s : str) : nat := length (filter (N.eqb cLF) s).

(** [char::is_ascii_control] *)
Definition is_control (c : char) : bool := ((c <? 32) || (c =? 127))%N.

(** [format!("{code:04x}")] for codes below 2^16 *)
Definition hex_of (d : N) : char := (if d <? 10 then 48 + d else 87 + d)%N.
Definition hex4 (n : N) : str :=
  [hex_of (n / 4096 mod 16); hex_of (n / 256 mod 16); hex_of (n / 16 mod 16); hex_of (n mod 16)]%N.

(** scalar.rs 52-67, one character *)
Definition escape_char (c : char) : str :=
  if (c =? cDQ)%N then [cBSL; cDQ]
  else if (c =? cBSL)%N then [cBSL; cBSL]
  else if (c =? cLF)%N then [cBSL; cn]
  else if (c =? cCR)%N then [cBSL; cr]
  else if (c =? cTAB)%N then [cBSL; ct]
  else if is_control c then [cBSL; cu; cLB] ++ hex4 c ++ [cRB]
  else [c].

(** scalar.rs 43-70, escape_quoted *)
Definition escape_quoted (s : str) : str :=
  if existsb (fun c => is_escaped c || is_control c) s then flat_map escape_char s else s.

(** scalar.rs 75-139, unescape_quoted; [Some hex] is the loop 96-102 *)
Fixpoint unescape_sc (br : option str) (s : str) : str :=
  match br with
  | Some hex =>
    match s with
    | [] => push_code hex []
    | c :: r => if (c =? cRB)%N then push_code hex (unescape_sc None r)
                else unescape_sc (Some (hex ++ [c])) r
    end
  | None =>
    match s with
    | [] => []
    | c :: r =>
      if negb (c =? cBSL)%N then c :: unescape_sc None r
      else
        match r with
        | [] => [cBSL]
        | d :: r1 =>
          if (d =? cn)%N then cLF :: unescape_sc None r1
          else if (d =? cr)%N then cCR :: unescape_sc None r1
          else if (d =? ct)%N then cTAB :: unescape_sc None r1
          else if (d =? cBSL)%N then cBSL :: unescape_sc None r1
          else if (d =? cDQ)%N then cDQ :: unescape_sc None r1
          else if (d =? cu)%N then
            (* 109-124: up to four hex digits, decoded whatever their number *)
            match r1 with
            | [] => []
            | h1 :: r2 =>
              if (h1 =? cLB)%N then unescape_sc (Some []) r2
              else if is_hex h1 then
                match r2 with
                | h2 :: r3 =>
                  if is_hex h2 then
                    match r3 with
                    | h3 :: r4 =>
                      if is_hex h3 then
                        match r4 with
                        | h4 :: r5 =>
                          if is_hex h4 then push_code [h1; h2; h3; h4] (unescape_sc None r5)
                          else push_code [h1; h2; h3] (unescape_sc None r4)
                        | [] => push_code [h1; h2; h3] (unescape_sc None r4)
                        end
                      else push_code [h1; h2] (unescape_sc None r3)
                    | [] => push_code [h1; h2] (unescape_sc None r3)
                    end
                  else push_code [h1] (unescape_sc None r2)
                | [] => push_code [h1] (unescape_sc None r2)
                end
              else unescape_sc None r1
            end
          else cBSL :: d :: unescape_sc None r1
        end
    end
  end.

Definition unescape_scalar (s : str) : str :=
  if contains_char cBSL s then unescape_sc None s else s.

(** Remove the surrounding quotes, if both are there and distinct. *)
Definition unquote (t : str) : option str :=
  match t with
  | c :: r =>
    match rev r with
    | d :: m => if ((c =? cDQ) && (d =? cDQ))%N then Some (rev m) else None
    | [] => None
    end
  | [] => None
  end.

(** serde_styx/src/de.rs 107-116 *)
Definition unescape_serde (t : str) : str :=
  unescape_scalar (match unquote t with Some i => i | None => t end).

(** styx-cst/src/ast.rs 461-492; [strip_prefix] then [strip_suffix] need two quotes as well *)
Fixpoint unescape_cst_in (s : str) : str :=
  match s with
  | [] => []
  | c :: r =>
    if (c =? cBSL)%N then
      match r with
      | [] => [cBSL]
      | d :: r1 =>
        if (d =? cn)%N then cLF :: unescape_cst_in r1
        else if (d =? cr)%N then cCR :: unescape_cst_in r1
        else if (d =? ct)%N then cTAB :: unescape_cst_in r1
        else if (d =? cBSL)%N then cBSL :: unescape_cst_in r1
        else if (d =? cDQ)%N then cDQ :: unescape_cst_in r1
        else cBSL :: d :: unescape_cst_in r1
      end
    else c :: unescape_cst_in r
  end.
Definition unescape_cst (t : str) : str :=
  unescape_cst_in (match unquote t with Some i => i | None => t end).

(** ** writer.rs: scalars *)

(** writer.rs 904-909, write_quoted_string *)
Definition quoted_text (s : str) : str := cDQ :: escape_quoted s ++ [cDQ].

(** writer.rs 914-919: the check string for [n] hashes is a quote followed by [n] hashes.
    The loop ends because [s] is finite; [fuel] is its length. *)
Fixpoint raw_hashes (fuel n : nat) (s : str) : nat :=
  match fuel with
  | O => n
  | S f => if contains_sub (cDQ :: repeat cHASH n) s then raw_hashes f (S n) s else n
  end.

(** writer.rs 912-934, write_raw_string *)
Definition raw_text (s : str) : str :=
  let h := raw_hashes (S (length s)) 0 s in
  cr :: repeat cHASH h ++ cDQ :: s ++ cDQ :: repeat cHASH h.

(** writer.rs 939-943 *)
Definition delimiters : list str :=
  [lit "TEXT"; lit "END"; lit "HEREDOC"; lit "DOC"; lit "STR"; lit "CONTENT"].
Definition pick_delim (s : str) : str :=
  match find (fun d => negb (contains_sub d s)) delimiters with Some d => d | None => lit "TEXT" end.

(** writer.rs 937-956, write_heredoc *)
Definition heredoc_text (s : str) : str :=
  let d := pick_delim s in
  [cLT; cLT] ++ d ++ [cLF] ++ s ++ (if ends_with_char cLF s then [] else [cLF]) ++ d.

(** options.rs 4-44, with the two unused thresholds left out *)
Inductive style := StNone | StInline | StMultiline.
Record opts := mkopts {
  o_indent : str; o_max_width : nat; o_min_inline : nat; o_heredoc : nat; o_style : style }.
Definition default_opts : opts := mkopts (lit "    ") 80 30 2 StNone.

(** writer.rs 877-901, write_scalar_string (without the reset of the flag) *)
Definition scalar_text (o : opts) (force_quote : bool) (s : str) : str :=
  if negb force_quote && can_be_bare s then s
  else if o_heredoc o <=? count_newlines s then heredoc_text s
  else if (3 <? count_escapes s) && negb (contains_sub [cDQ; cHASH] s) then raw_text s
  else quoted_text s.

(** ** writer.rs: the writer *)

(** writer.rs 11-31, Context *)
Inductive ctx :=
| CStruct (first is_root multi inln : bool) (commas : list nat) (brace : option nat)
| CSeq (first inln : bool).

(** writer.rs 38-48, StyxWriter; the stack has its top (the code's last element) first *)
Record writer := mkw {
  w_out : str; w_stack : list ctx; w_opts : opts; w_skip : bool; w_quote : bool }.
Definition new_writer (o : opts) : writer := mkw [] [] o false false.

Definition put (s : str) (w : writer) : writer :=
  mkw (w_out w ++ s) (w_stack w) (w_opts w) (w_skip w) (w_quote w).
Definition set_stack (st : list ctx) (w : writer) : writer :=
  mkw (w_out w) st (w_opts w) (w_skip w) (w_quote w).
Definition set_flags (skip quote : bool) (w : writer) : writer :=
  mkw (w_out w) (w_stack w) (w_opts w) skip quote.
Definition push_ctx (c : ctx) (w : writer) : writer := set_stack (c :: w_stack w) w.

(** writer.rs 72-77, finish_document *)
Definition finish_document (w : writer) : str :=
  match w_out w with
  | [] => []
  | o => if ends_with_char cLF o then o else o ++ [cLF]
  end.

(** writer.rs 93-119, indent_depth *)
Definition ctx_indents (c : ctx) : bool :=
  match c with
  | CStruct _ true _ _ _ _ => false
  | CStruct _ _ false true _ _ => false
  | CSeq _ true => false
  | _ => true
  end.
Definition indent_depth (w : writer) : nat := length (filter ctx_indents (w_stack w)).

Fixpoint repeat_str (n : nat) (s : str) : str :=
  match n with O => [] | S m => s ++ repeat_str m s end.
Definition newline_at (o : opts) (depth : nat) : str := cLF :: repeat_str depth (o_indent o).

(** writer.rs 157-167, write_indent, write_newline_indent *)
Definition indent_text (w : writer) : str := repeat_str (indent_depth w) (o_indent (w_opts w)).
Definition newline_indent (w : writer) : writer := put (cLF :: indent_text w) w.

(** writer.rs 122-154, available_width, should_inline. [stack.first()] with depth 1 is the only context. *)
Definition available_width (w : writer) : nat :=
  o_max_width (w_opts w) - length (w_stack w) * blen (o_indent (w_opts w)).
Definition should_inline (w : writer) : bool :=
  match o_style (w_opts w) with
  | StInline => true
  | StMultiline => false
  | StNone =>
    match w_stack w with
    | [] => false
    | [CStruct _ true _ _ _ _] => false
    | CStruct _ _ true _ _ _ :: _ => false
    | _ => o_min_inline (w_opts w) <=? available_width w
    end
  end.

(** writer.rs 840-874, before_value *)
Definition seq_not_first (st : list ctx) : list ctx :=
  match st with CSeq _ i :: r => CSeq false i :: r | _ => st end.
Definition before_value (w : writer) : writer :=
  if w_skip w then set_flags false (w_quote w) (set_stack (seq_not_first (w_stack w)) w)
  else
    let w1 :=
      match w_stack w with
      | CSeq false i :: _ => if i || should_inline w then put [cSP] w else newline_indent w
      | _ => w
      end in
    set_stack (seq_not_first (w_stack w1)) w1.

(** writer.rs 193-224, begin_struct_with_options *)
Definition begin_struct (is_root multi : bool) (w0 : writer) : writer :=
  let w := before_value w0 in
  if is_root then push_ctx (CStruct true true multi false [] None) w
  else let w1 := put [cLB] w in push_ctx (CStruct true false multi true [] (Some (length (w_out w1)))) w1.

(** writer.rs 227-242, begin_struct_after_tag *)
Definition begin_struct_after_tag (multi : bool) (w : writer) : writer :=
  let w1 := put [cLB] (set_flags (w_skip w) false w) in
  push_ctx (CStruct true false multi true [] (Some (length (w_out w1)))) w1.

(** writer.rs 247-303, field_key_raw *)
Definition field_key_raw (key : str) (w : writer) : writer :=
  match w_stack w with
  | CStruct first root multi inln commas brace :: r =>
    let inline := (inln && negb multi) || should_inline w in
    let w1 :=
      if negb first then
        if inline && negb root then
          set_stack (CStruct false root multi inln (commas ++ [length (w_out w)]) brace :: r)
                    (put [cCOMMA; cSP] w)
        else newline_indent (if root then put [cLF] w else w)
      else if negb root && negb inline then newline_indent w else w in
    let w2 := match w_stack w1 with
              | CStruct _ a b c d e :: r' => set_stack (CStruct false a b c d e :: r') w1
              | _ => w1 end in
    put (key ++ [cSP]) w2
  | _ => w
  end.

(** writer.rs 308-369, field_key: the same with the key quoted if needed *)
Definition key_text (key : str) : str := if can_be_bare key then key else quoted_text key.
Definition field_key (key : str) (w : writer) : writer := field_key_raw (key_text key) w.

(** writer.rs 374-411, end_struct *)
Definition end_struct (w : writer) : writer :=
  let inline := should_inline w in
  match w_stack w with
  | CStruct first root multi inln _ _ :: r =>
    let w1 := set_stack r w in
    if root then if negb first then put [cLF] w1 else w1
    else
      let w2 := if negb first && (multi || (negb inln && negb inline)) then put (cLF :: indent_text w1) w1
                else w1 in
      put [cRB] w2
  | _ :: r => set_stack r w
  | [] => w
  end.

(** writer.rs 414-422 and 427-448, begin_seq, end_seq *)
Definition begin_seq (w : writer) : writer := push_ctx (CSeq true true) (put [cLP] (before_value w)).
Definition end_seq (w : writer) : writer :=
  let inline := should_inline w in
  match w_stack w with
  | CSeq first inln :: r =>
    let w1 := set_stack r w in
    put [cRP] (if negb first && negb inln && negb inline then newline_indent w1 else w1)
  | _ :: r => set_stack r w
  | [] => w
  end.

(** writer.rs 451-454, write_null *)
Definition write_null (w : writer) : writer := put [cAT] (before_value w).

(** writer.rs 491-494 with 877-901, write_string *)
Definition write_string (s : str) (w0 : writer) : writer :=
  let w := before_value w0 in
  put (scalar_text (w_opts w) (w_quote w) s) (set_flags (w_skip w) false w).

(** writer.rs 519-527, write_variant_tag *)
Definition write_tag (name : str) (w : writer) : writer :=
  set_flags true true (put (cAT :: name) (before_value w)).

(** writer.rs 541-546, write_tag_chain_segment; 549-552, clear_skip_before_value *)
Definition write_tag_chain_segment (name : str) (w : writer) : writer :=
  set_flags true true (put (cSLASH :: cAT :: name) w).
Definition clear_skip_before_value (w : writer) : writer := set_flags false false w.

(** writer.rs 555-564, begin_seq_after_tag *)
Definition begin_seq_after_tag (w : writer) : writer :=
  push_ctx (CSeq true true) (put [cLP] (set_flags (w_skip w) false w)).

(** writer.rs 813-835: replace the separator at [pos] by [ins], if it is still there *)
Definition fix_comma (ins : str) (pos : nat) (out : str) : str :=
  match skipn pos out with
  | a :: b :: r => if ((a =? cCOMMA) && (b =? cSP))%N then firstn pos out ++ ins ++ r else out
  | _ => out
  end.

(** writer.rs 801-837, fix_comma_separators; positions are in increasing order, the code goes backwards *)
Definition fix_comma_separators (w : writer) : writer :=
  match w_stack w with
  | CStruct a b c d commas e :: r =>
    let w1 := set_stack (CStruct a b c d [] e :: r) w in
    let ins := newline_at (w_opts w) (indent_depth w1) in
    mkw (fold_right (fix_comma ins) (w_out w) commas) (w_stack w1) (w_opts w) (w_skip w) (w_quote w)
  | _ => w
  end.

(** [sort_unstable] on positions *)
Fixpoint insert_sorted (n : nat) (l : list nat) : list nat :=
  match l with [] => [n] | m :: r => if n <=? m then n :: l else m :: insert_sorted n r end.
Definition sort_nat (l : list nat) : list nat := fold_right insert_sorted [] l.

Definition to_fix (c : ctx) : bool :=
  match c with CStruct _ false false true _ _ => true | _ => false end.
Definition ctx_commas (c : ctx) : list nat := match c with CStruct _ _ _ _ l _ => l | CSeq _ _ => [] end.
Definition clear_commas (c : ctx) : ctx :=
  if to_fix c then match c with CStruct a b m i _ e => CStruct a b m i [] e | _ => c end else c.

(** writer.rs 743-767: [cs] is the stack from its bottom; returns the stack from the bottom and the
    positions with their depths *)
Fixpoint open_fixes (depth : nat) (cs : list ctx) : list ctx * list (nat * nat) :=
  match cs with
  | [] => ([], [])
  | CStruct a false m i l (Some pos) :: r =>
    let (r', fx) := open_fixes (S depth) r in
    if i && negb m then (CStruct a false true i l (Some pos) :: r', (pos, S depth) :: fx)
    else (CStruct a false m i l (Some pos) :: r', fx)
  | c :: r => let (r', fx) := open_fixes depth r in (c :: r', fx)
  end.

(** writer.rs 780-795 *)
Definition shift_ctx (pos n : nat) (c : ctx) : ctx :=
  match c with
  | CStruct a b m i l (Some p) =>
    CStruct a b m i (map (fun q => if pos <=? q then q + n else q) l) (Some (if pos <? p then p + n else p))
  | _ => c
  end.

(** writer.rs 770-796, one fix *)
Definition open_fix (o : opts) (fx : nat * nat) (a : str * list ctx) : str * list ctx :=
  let '(pos, depth) := fx in
  let (out, st) := a in
  let ins := newline_at o depth in
  (firstn pos out ++ ins ++ skipn pos out, map (shift_ctx pos (length ins)) st).

(** writer.rs 688-797, propagate_multiline_to_parents *)
Definition propagate (w : writer) : writer :=
  let o := w_opts w in
  let commas := sort_nat (flat_map ctx_commas (filter to_fix (w_stack w))) in
  let ins := newline_at o (indent_depth w) in
  let out1 := fold_right (fix_comma ins) (w_out w) commas in
  let st1 := map clear_commas (w_stack w) in
  let (st2, fx) := open_fixes 0 (rev st1) in
  let (out2, st3) := fold_right (open_fix o) (out1, rev st2) fx in
  mkw out2 st3 o (w_skip w) (w_quote w).

(** [str::lines]: split at line feeds, drop a final empty line, drop one carriage return per line *)
Definition chomp_cr (l : str) : str :=
  match rev l with c :: m => if (c =? cCR)%N then rev m else l | [] => l end.
Definition str_lines (s : str) : list str :=
  match rev (split_on cLF s) with
  | [] :: m => map chomp_cr (rev m)
  | l :: m => map chomp_cr (rev m) ++ [l]
  | [] => []
  end.

(** writer.rs 627-680, write_doc_comment_and_key_raw (566-624 is the same with [key_text]) *)
Fixpoint doc_lines (lead : bool) (ls : list str) (w : writer) : writer :=
  match ls with
  | [] => w
  | l :: r => doc_lines true r (put ([cSLASH; cSLASH; cSLASH; cSP] ++ l) (if lead then newline_indent w else w))
  end.
Definition doc_and_key_raw (doc key : str) (w : writer) : writer :=
  let '(first, root) := match w_stack w with CStruct f r _ _ _ _ :: _ => (f, r) | _ => (true, false) end in
  let w1 := match w_stack w with
            | CStruct _ b _ d e f :: r => set_stack (CStruct false b true d e f :: r) w
            | _ => w end in
  let w2 := propagate (fix_comma_separators w1) in
  let w3 := if negb first && root then put [cLF] w2 else w2 in
  let w4 := doc_lines (negb first || negb root) (str_lines doc) w3 in
  let w5 := if first && root then put [cLF] w4 else newline_indent w4 in
  put (key ++ [cSP]) w5.

(** ** value_format.rs *)

(** value_format.rs 167-200, format_key; [None] is the panic for a sequence or object *)
Definition format_key (k : value) : option str :=
  let t := match v_tag k with Some (n, _) => cAT :: n | None => [] end in
  match v_payload k with
  | PNone => Some (match v_tag k with Some _ => t | None => [cAT] end)
  | PScalar s _ _ => Some (t ++ key_text s)
  | PSeq _ _ | PObj _ _ => None
  end.

(** value_format.rs 120-131 *)
Definition is_nested (e : entry) : bool :=
  match v_payload (e_val e) with PObj _ _ | PSeq _ _ => true | _ => false end.
Definition wants_multiline (es : list entry) : bool := (2 <? length es) || existsb is_nested es.

(** value_format.rs 66-164, format_value, format_sequence_inner, format_object_inner, format_entry *)
Fixpoint format_val (v : value) (w0 : writer) : res writer :=
  match v with
  | Val tag p _ =>
    let w := match tag with Some (n, _) => write_tag n w0 | None => w0 end in
    let tagged := match tag with Some _ => true | None => false end in
    match p with
    | PNone => Ok (if tagged then w else put [cAT] w)
    | PScalar s _ _ =>
      Ok (if tagged then end_seq (write_string s (begin_seq_after_tag w)) else write_string s w)
    | PSeq items _ =>
      do w' <- (fix go (l : list value) (w : writer) : res writer :=
                  match l with
                  | [] => Ok w
                  | x :: r => do w1 <- format_val x w; go r w1
                  end) items (if tagged then begin_seq_after_tag w else begin_seq w);
      Ok (end_seq w')
    | PObj es _ =>
      do w' <- (fix go (l : list entry) (w : writer) : res writer :=
                  match l with
                  | [] => Ok w
                  | Ent k x d :: r =>
                    do key <- of_opt (format_key k);
                    let w1 := match d with Some doc => doc_and_key_raw doc key w | None => field_key_raw key w end in
                    do w2 <- format_val x w1; go r w2
                  end) es (if tagged then begin_struct_after_tag (wants_multiline es) w
                           else begin_struct false (wants_multiline es) w);
      Ok (end_struct w')
    end
  end.

Fixpoint format_entries (l : list entry) (w : writer) : res writer :=
  match l with
  | [] => Ok w
  | Ent k x d :: r =>
    do key <- of_opt (format_key k);
    let w1 := match d with Some doc => doc_and_key_raw doc key w | None => field_key_raw key w end in
    do w2 <- format_val x w1; format_entries r w2
  end.

(** value_format.rs 51-64, format_root; 11-15, format_value; 18-20, format_value_default *)
Definition format_root (v : value) (w : writer) : res writer :=
  match v with
  | Val None (PObj es _) _ => do w1 <- format_entries es (begin_struct true false w); Ok (end_struct w1)
  | _ => format_val v w
  end.
Definition format_value (v : value) (o : opts) : res str :=
  do w <- format_root v (new_writer o); Ok (finish_document w).
Definition format_value_default (v : value) : res str := format_value v default_opts.

(** value_format.rs 26-30, format_object_braced *)
Definition format_object_braced (es : list entry) (o : opts) : res str :=
  do w <- format_val (Val None (PObj es None) None) (new_writer o); Ok (w_out w).
