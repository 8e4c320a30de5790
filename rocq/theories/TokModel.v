(** Model of crates/styx-tokenizer/src/tokenizer.rs.

    Simplifications, valid for all definitions of this file:
    - [Tokenizer] keeps [source], [remaining] and [pos]; the model keeps [remaining] and [pos].
      Token text is the list of characters consumed by the token; the code slices
      [source[start..pos]]. That both agree is theorem [tokens_slice] (C01).
    - [pos] is an unbounded [nat], the code uses [u32] (sources below 4 GiB).
    - Loops calling [peek]/[advance] become structural scans returning
      (consumed, remaining). *)
From Verif Require Export Base.

(** token.rs 7-57, TokenKind *)
Inductive tkind :=
| LBrace | RBrace | LParen | RParen | Comma | Gt | At | Tag
| BareScalar | QuotedScalar | RawScalar | HeredocStart | HeredocContent | HeredocEnd
| LineComment | DocComment | Whitespace | Newline | Eof | TError.

(** token.rs 82-89, Token *)
Record token := mktok { tk_kind : tkind; tk_span : span; tk_text : str }.

(** tokenizer.rs 20-28, HeredocState *)
Record hstate := mkhs { hs_delim : str; hs_indent : option nat }.

(** tokenizer.rs 8-18, Tokenizer (without [source], see above) *)
Record tstate := mkts { ts_rem : str; ts_pos : nat; ts_hd : option hstate }.

(** tokenizer.rs 32-39, Tokenizer::new *)
Definition tok_new (src : str) : tstate := mkts src 0 None.

(** tokenizer.rs 606-610 *)
Definition is_bare_start (c : char) : bool :=
  negb ((c =? cLB) || (c =? cRB) || (c =? cLP) || (c =? cRP) || (c =? cCOMMA) || (c =? cDQ)
        || (c =? cEQ) || (c =? cAT) || (c =? cGT) || (c =? cSLASH))%N && negb (is_ws c).

(** tokenizer.rs 614-619 *)
Definition is_bare_char (c : char) : bool :=
  negb ((c =? cLB) || (c =? cRB) || (c =? cLP) || (c =? cRP) || (c =? cCOMMA) || (c =? cDQ)
        || (c =? cGT))%N && negb (is_ws c).

Definition is_blank (c : char) : bool := ((c =? cSP) || (c =? cTAB))%N.
Definition is_hash_or_dq (c : char) : bool := ((c =? cHASH) || (c =? cDQ))%N.
Definition is_tag_start (c : char) : bool := is_alpha c || (c =? cUS)%N.
Definition is_tag_char (c : char) : bool := is_alnum c || (c =? cUS)%N || (c =? cDASH)%N.
Definition not_eol (c : char) : bool := negb ((c =? cLF) || (c =? cCR))%N.
Definition is_delim_char (c : char) : bool := is_upper c || is_digit c || (c =? cUS)%N.
Definition is_lang_char (c : char) : bool :=
  is_lower c || is_digit c || (c =? cUS)%N || (c =? cDOT)%N || (c =? cDASH)%N.

(** tokenizer.rs 253-267 (consume_tag_segment, after its first [advance]) fused with the chain
    loop 235-242 of tokenize_at_or_tag: the inner loop stops on [/], the outer loop then
    looks for [/@x] and starts the next segment. *)
Fixpoint scan_tag (s : str) : str * str :=
  match s with
  | [] => ([], [])
  | c :: r =>
    if ((c =? cr)%N && opt_is is_hash_or_dq (peek r)) then ([], s)
    else if is_tag_char c then let (a, b) := scan_tag r in (c :: a, b)
    else if (c =? cSLASH)%N then
      match r with
      | d :: ((e :: r2) as r1) =>
        if ((d =? cAT)%N && is_tag_start e) then
          let (a, b) := scan_tag r2 in (c :: d :: e :: a, b)
        else ([], s)
      | _ => ([], s)
      end
    else ([], s)
  end.

(** tokenizer.rs 276-297, the loop of tokenize_quoted_scalar (after the opening quote);
    the boolean is true when a closing quote was found. *)
Fixpoint scan_quoted (s : str) : str * str * bool :=
  match s with
  | [] => ([], [], false)
  | c :: r =>
    if (c =? cDQ)%N then ([c], r, true)
    else if (c =? cBSL)%N then
      match r with
      | [] => ([c], [], false)
      | d :: r' => let '(a, b, k) := scan_quoted r' in (c :: d :: a, b, k)
      end
    else let '(a, b, k) := scan_quoted r in (c :: a, b, k)
  end.

(** tokenizer.rs 437-455, find_heredoc_delimiter. Blanks are one byte wide, so the character
    count used as byte offset at 446 is on a boundary. *)
Definition find_delim (delim rem : str) : option nat :=
  let (ind, after) := span_while is_blank rem in
  match strip_prefix delim after with
  | Some ad =>
    if (match ad with
        | [] => true
        | c :: r => ((c =? cLF) || ((c =? cCR) && opt_is (N.eqb cLF) (peek r)))%N
        end) then Some (length ind) else None
  | None => None
  end.

(** tokenizer.rs 474-498, the nested loops of tokenize_heredoc_content: consume lines until the
    delimiter stands at the start of a line. Third component: [closing_indent] if [found_end]. *)
Fixpoint scan_heredoc (delim s : str) : str * str * option nat :=
  match s with
  | [] => ([], [], find_delim delim [])
  | c :: r =>
    if (c =? cLF)%N then
      match find_delim delim r with
      | Some i => ([c], r, Some i)
      | None => let '(a, b, k) := scan_heredoc delim r in (c :: a, b, k)
      end
    else
      match r with
      | d :: r2 =>
        if ((c =? cCR) && (d =? cLF))%N then
          match find_delim delim r2 with
          | Some i => ([c; d], r2, Some i)
          | None => let '(a, b, k) := scan_heredoc delim r2 in (c :: d :: a, b, k)
          end
        else let '(a, b, k) := scan_heredoc delim r in (c :: a, b, k)
      | [] => let '(a, b, k) := scan_heredoc delim r in (c :: a, b, k)
      end
  end.

(** tokenizer.rs 551-587, the loop of tokenize_raw_string; [h] is the saturated hash count. *)
Fixpoint scan_raw (h : nat) (s : str) : str * str * bool :=
  match s with
  | [] => ([], [], false)
  | c :: r =>
    if (c =? cDQ)%N then
      match strip_prefix (repeat cHASH h) r with
      | Some r' => (c :: repeat cHASH h, r', true)
      | None => let '(a, b, k) := scan_raw h r in (c :: a, b, k)
      end
    else let '(a, b, k) := scan_raw h r in (c :: a, b, k)
  end.

(** tokenizer.rs 96-101 ([token]) together with the position update of [advance] (75-80) for
    each consumed character. *)
Definition emit (k : tkind) (used rest : str) (pos : nat) (hd : option hstate) : token * tstate :=
  (mktok k (mkspan pos (pos + blen used)) used, mkts rest (pos + blen used) hd).

(** tokenizer.rs 225-250 *)
Definition tok_at_or_tag (c : char) (r : str) (pos : nat) : token * tstate :=
  match r with
  | d :: r' =>
    if is_tag_start d then
      let (a, b) := scan_tag r' in emit Tag (c :: d :: a) b pos None
    else emit At [c] r pos None
  | [] => emit At [c] r pos None
  end.

(** tokenizer.rs 270-300 *)
Definition tok_quoted (c : char) (r : str) (pos : nat) : token * tstate :=
  let '(a, b, closed) := scan_quoted r in
  emit (if closed then QuotedScalar else TError) (c :: a) b pos None.

(** tokenizer.rs 529-588; [saturating_add] on [u8] at 538 is [min 255]. *)
Definition tok_raw (c : char) (r : str) (pos : nat) : token * tstate :=
  let (hs, r1) := span_while (N.eqb cHASH) r in
  match r1 with
  | q :: r2 =>
    if (q =? cDQ)%N then
      let '(a, b, closed) := scan_raw (Nat.min 255 (length hs)) r2 in
      emit (if closed then RawScalar else TError) (c :: hs ++ q :: a) b pos None
    else emit TError (c :: hs) r1 pos None
  | [] => emit TError (c :: hs) r1 pos None
  end.

(** tokenizer.rs 394-415: optional [,lang] *)
Definition scan_lang (s : str) : str * str :=
  match s with
  | c :: r =>
    if (c =? cCOMMA)%N then
      match r with
      | d :: _ => if is_lower d then let (a, b) := span_while is_lang_char r in (c :: a, b)
                  else ([c], r)
      | [] => ([c], r)
      end
    else ([], s)
  | [] => ([], s)
  end.

(** tokenizer.rs 418-423: optional carriage return, then optional line feed *)
Definition scan_eol (s : str) : str * str :=
  let (a, s1) := match s with
                 | c :: r => if (c =? cCR)%N then ([c], r) else ([], s)
                 | [] => ([], s) end in
  let (b, s2) := match s1 with
                 | c :: r => if (c =? cLF)%N then ([c], r) else ([], s1)
                 | [] => ([], s1) end in
  (a ++ b, s2).

(** tokenizer.rs 347-432, called with [rem = "<<" ++ r], [r] starting with an upper case letter;
    the branch 361-372 for other letters is dead because of the caller's guard (157-158). *)
Definition tok_heredoc_start (r : str) (pos : nat) : token * tstate :=
  let (delim, r1) := span_while is_delim_char r in
  if 16 <? length delim then emit TError (cLT :: cLT :: delim) r1 pos None
  else
    let (lang, r2) := scan_lang r1 in
    let (nl, r3) := scan_eol r2 in
    emit HeredocStart (cLT :: cLT :: delim ++ lang ++ nl) r3 pos (Some (mkhs delim None)).

(** tokenizer.rs 460-524. Delimiters are ASCII, so [delimiter.len()] is the character count. *)
Definition tok_heredoc_content (hs : hstate) (rem : str) (pos : nat) : token * tstate :=
  let delim := hs_delim hs in
  match find_delim delim rem with
  | Some i => emit HeredocEnd (firstn (i + length delim) rem) (skipn (i + length delim) rem) pos None
  | None =>
    let '(a, b, found) := scan_heredoc delim rem in
    match found with
    | Some i =>
      match a with
      | [] => (* 500-508, start == pos *)
        emit HeredocEnd (firstn (i + length delim) b) (skipn (i + length delim) b) pos None
      | _ => emit HeredocContent a b pos (Some (mkhs delim (Some i)))
      end
    | None => (* found_end is false, hence the loop ended at EOF: 513-516 *)
      emit TError a b pos None
    end
  end.

(** tokenizer.rs 104-196, next_token *)
Definition next_token (st : tstate) : token * tstate :=
  let rem := ts_rem st in
  let pos := ts_pos st in
  match ts_hd st with
  | Some hs => tok_heredoc_content hs rem pos
  | None =>
    match rem with
    | [] => emit Eof [] [] pos None
    | c :: r =>
      if (c =? cLB)%N then emit LBrace [c] r pos None
      else if (c =? cRB)%N then emit RBrace [c] r pos None
      else if (c =? cLP)%N then emit LParen [c] r pos None
      else if (c =? cRP)%N then emit RParen [c] r pos None
      else if (c =? cCOMMA)%N then emit Comma [c] r pos None
      else if (c =? cGT)%N then emit Gt [c] r pos None
      else if (c =? cAT)%N then tok_at_or_tag c r pos
      else if (c =? cDQ)%N then tok_quoted c r pos
      else if (c =? cSLASH)%N then
        if starts_with [cSLASH; cSLASH] r then
          let (a, b) := span_while not_eol rem in emit DocComment a b pos None
        else if starts_with [cSLASH] r then
          let (a, b) := span_while not_eol rem in emit LineComment a b pos None
        else
          let (a, b) := span_while is_bare_char rem in emit BareScalar a b pos None
      else if (c =? cLT)%N && starts_with [cLT] r then
        match r with
        | d :: r' =>
          if opt_is is_upper (peek r') then tok_heredoc_start r' pos
          else emit TError [c; d] r' pos None
        | [] => emit TError [c] r pos None (* unreachable: r starts with [<] *)
        end
      else if (c =? cr)%N && opt_is is_hash_or_dq (peek r) then tok_raw c r pos
      else if is_blank c then
        let (a, b) := span_while is_blank rem in emit Whitespace a b pos None
      else if (c =? cLF)%N then emit Newline [c] r pos None
      else if (c =? cCR)%N && opt_is (N.eqb cLF) (peek r) then
        emit Newline (c :: firstn 1 r) (skipn 1 r) pos None
      else if is_bare_start c then
        let (a, b) := span_while is_bare_char rem in emit BareScalar a b pos None
      else emit TError [c] r pos None
    end
  end.

Definition is_eof_kind (k : tkind) : bool := match k with Eof => true | _ => false end.

(** tokenizer.rs 591-602 (Iterator) driven to its end: all tokens before [Eof].
    [None] means the fuel did not suffice. *)
Fixpoint tokens_from (fuel : nat) (st : tstate) : option (list token) :=
  match fuel with
  | O => None
  | S f =>
    let (t, st') := next_token st in
    if is_eof_kind (tk_kind t) then Some []
    else option_map (cons t) (tokens_from f st')
  end.

Definition tokens (src : str) : option (list token) :=
  tokens_from (S (S (2 * length src))) (tok_new src).
