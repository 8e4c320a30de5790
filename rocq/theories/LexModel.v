(** Model of crates/styx-parse/src/lexer.rs (lexemes from tokens). *)
From Verif Require Export TokModel.

(** events.rs 99-108, ScalarKind *)
Inductive skind := Bare | Quoted | Raw | Heredoc.

(** The [message] strings of [Lexeme::Error] (lexer.rs) and [AtomContent::Error] (parser/mod.rs).
    The parser only looks for substrings in them, see [msg_has_escape] etc. in ParseModel.v. *)
Inductive msg :=
| MsgGt            (* "unexpected `>` (attribute syntax requires no spaces: key>value)" *)
| MsgInvalidTag    (* "invalid tag name" *)
| MsgExpectedValue (* "expected a value" *)
| MsgWsAfterGt     (* "whitespace after `>` in attribute (use key>value with no spaces)" *)
| MsgUnterminated  (* "unterminated heredoc" *)
| MsgInHeredoc     (* "unexpected token in heredoc" *)
| MsgHeredocTok    (* "unexpected heredoc token" *)
| MsgTokenizer     (* "tokenizer error" *)
| MsgUniEscape     (* "invalid unicode escape" *)
| MsgUniCode       (* "invalid unicode code point" *)
| MsgBadEscape     (* "invalid escape sequence" *)
| MsgTrailingBsl   (* "trailing backslash" *)
| MsgUnexpected    (* "unexpected token", parser/mod.rs 797, 803 *)
| MsgUnexpectedEof (* "unexpected end of input", parser/mod.rs 809 *).

(** lexer.rs 16-74, Lexeme *)
Inductive lexeme :=
| LxScalar (sp : span) (v : str) (k : skind)
| LxUnit (sp : span)
| LxTag (sp : span) (name : str) (has_payload : bool)
| LxObjStart (sp : span)
| LxObjEnd (sp : span)
| LxSeqStart (sp : span)
| LxSeqEnd (sp : span)
| LxAttrKey (sp ksp : span) (key : str)
| LxComma (sp : span)
| LxNewline (sp : span)
| LxComment (sp : span) (text : str)
| LxDoc (sp : span) (text : str)
| LxEof
| LxError (sp : span) (m : msg).

(** lexer.rs 79-96, Lexeme::span *)
Definition lx_span (l : lexeme) : span :=
  match l with
  | LxScalar sp _ _ | LxUnit sp | LxTag sp _ _ | LxObjStart sp | LxObjEnd sp | LxSeqStart sp
  | LxSeqEnd sp | LxAttrKey sp _ _ | LxComma sp | LxNewline sp | LxComment sp _ | LxDoc sp _
  | LxError sp _ => sp
  | LxEof => mkspan 0 0
  end.

(** lexer.rs 100-105, Lexer *)
Record lstate := mkls { ls_tok : tstate; ls_peek : option token }.

(** lexer.rs 109-114, Lexer::new *)
Definition lex_new (src : str) : lstate := mkls (tok_new src) None.

(** lexer.rs 117-122, peek_token *)
Definition peek_token (st : lstate) : token * lstate :=
  match ls_peek st with
  | Some t => (t, st)
  | None => let (t, ts) := next_token (ls_tok st) in (t, mkls ts (Some t))
  end.

(** lexer.rs 125-129, next_token *)
Definition lex_token (st : lstate) : token * lstate :=
  match ls_peek st with
  | Some t => (t, mkls (ls_tok st) None)
  | None => let (t, ts) := next_token (ls_tok st) in (t, mkls ts None)
  end.

Definition tkind_eqb (a b : tkind) : bool :=
  match a, b with
  | LBrace, LBrace | RBrace, RBrace | LParen, LParen | RParen, RParen | Comma, Comma | Gt, Gt
  | At, At | Tag, Tag | BareScalar, BareScalar | QuotedScalar, QuotedScalar
  | RawScalar, RawScalar | HeredocStart, HeredocStart | HeredocContent, HeredocContent
  | HeredocEnd, HeredocEnd | LineComment, LineComment | DocComment, DocComment
  | Whitespace, Whitespace | Newline, Newline | Eof, Eof | TError, TError => true
  | _, _ => false
  end.

(** [u32::from_str_radix(hex, 16)]: optional [+], at least one digit, no overflow. *)
Definition hex_digit (c : char) : option N :=
  if is_digit c then Some (c - 48)%N
  else if in_range 65 70 c then Some (c - 55)%N
  else if in_range 97 102 c then Some (c - 87)%N
  else None.

Fixpoint hex_value (acc : N) (s : str) : option N :=
  match s with
  | [] => Some acc
  | c :: r =>
    match hex_digit c with
    | Some d => let v := (acc * 16 + d)%N in
                if (v <? 4294967296)%N then hex_value v r else None
    | None => None
    end
  end.

Definition parse_hex (s : str) : option N :=
  match s with
  | [] => None
  | c :: r => if (c =? 43)%N then (match r with [] => None | _ => hex_value 0 r end)
              else hex_value 0 s
  end.

(** [char::from_u32] *)
Definition char_from (n : N) : option char := if valid_char n then Some n else None.

Definition cons_ok {E} (c : char) (r : str + E) : str + E :=
  match r with inl s => inl (c :: s) | inr e => inr e end.

(** lexer.rs 414-476, process_escapes. The loop over [\u{...}] (435-441) is the mode [Some hex];
    the fast path 416-418 is [process_escapes] below. *)
Fixpoint unescape_lex (br : option str) (s : str) : str + msg :=
  match br with
  | Some hex =>
    match s with
    | [] => inr MsgUniEscape
    | c :: r =>
      if (c =? cRB)%N then
        match parse_hex hex with
        | None => inr MsgUniEscape
        | Some code => match char_from code with
                       | None => inr MsgUniCode
                       | Some ch => cons_ok ch (unescape_lex None r)
                       end
        end
      else if is_hex c then unescape_lex (Some (hex ++ [c])) r
      else inr MsgUniEscape
    end
  | None =>
    match s with
    | [] => inl []
    | c :: r =>
      if negb (c =? cBSL)%N then cons_ok c (unescape_lex None r)
      else
        match r with
        | [] => inr MsgTrailingBsl
        | d :: r1 =>
          if (d =? cBSL)%N then cons_ok cBSL (unescape_lex None r1)
          else if (d =? cDQ)%N then cons_ok cDQ (unescape_lex None r1)
          else if (d =? cn)%N then cons_ok cLF (unescape_lex None r1)
          else if (d =? cr)%N then cons_ok cCR (unescape_lex None r1)
          else if (d =? ct)%N then cons_ok cTAB (unescape_lex None r1)
          else if (d =? cu)%N then
            match r1 with
            | [] => inr MsgUniEscape
            | e :: r2 =>
              if (e =? cLB)%N then unescape_lex (Some []) r2
              else
                match r1 with
                | h1 :: h2 :: h3 :: h4 :: r5 =>
                  if is_hex h1 && is_hex h2 && is_hex h3 && is_hex h4 then
                    match parse_hex [h1; h2; h3; h4] with
                    | None => inr MsgUniEscape
                    | Some code => match char_from code with
                                   | None => inr MsgUniCode
                                   | Some ch => cons_ok ch (unescape_lex None r5)
                                   end
                    end
                  else inr MsgUniEscape
                | _ => inr MsgUniEscape
                end
            end
          else inr MsgBadEscape
        end
    end
  end.

Definition contains_char (x : char) (s : str) : bool := existsb (N.eqb x) s.

Definition process_escapes (s : str) : str + msg :=
  if contains_char cBSL s then unescape_lex None s else inl s.

(** [str::split(c)]: never empty. *)
Fixpoint split_on (x : char) (s : str) : list str :=
  match s with
  | [] => [[]]
  | c :: r =>
    if (c =? x)%N then [] :: split_on x r
    else match split_on x r with
         | p :: ps => (c :: p) :: ps
         | [] => [[c]]
         end
  end.

(** lexer.rs 391-405: strip up to [n] blanks from the start of a line *)
Fixpoint strip_blanks (n : nat) (s : str) : str :=
  match n with
  | O => s
  | S m => match s with
           | c :: r => if is_blank c then strip_blanks m r else s
           | [] => []
           end
  end.

Fixpoint join (sep : str) (l : list str) : str :=
  match l with
  | [] => []
  | [x] => x
  | x :: r => x ++ sep ++ join sep r
  end.

(** lexer.rs 384-411, dedent_heredoc *)
Definition dedent (content : str) (n : nat) : str :=
  join [cLF] (map (strip_blanks n) (split_on cLF content)).

(** [s.contains("/@")] *)
Fixpoint contains_sub (p s : str) : bool :=
  starts_with p s || match s with [] => false | _ :: r => contains_sub p r end.

(** lexer.rs 135-142: skip whitespace tokens, then consume one token *)
Fixpoint skip_ws (fuel : nat) (st : lstate) : res (token * lstate) :=
  match fuel with
  | O => OutOfFuel
  | S f =>
    let (t, st1) := peek_token st in
    if tkind_eqb (tk_kind t) Whitespace then skip_ws f (snd (lex_token st1))
    else Ok (lex_token st1)
  end.

(** lexer.rs 288-338: the rest of a heredoc after its start token *)
Fixpoint heredoc_loop (fuel : nat) (start : span) (content : str) (indent : nat) (st : lstate)
  : res (lexeme * lstate) :=
  match fuel with
  | O => OutOfFuel
  | S f =>
    let indent' := match ts_hd (ls_tok st) with
                   | Some hs => match hs_indent hs with Some i => i | None => indent end
                   | None => indent
                   end in
    let (t, st') := lex_token st in
    match tk_kind t with
    | HeredocContent => heredoc_loop f start (content ++ tk_text t) indent' st'
    | HeredocEnd =>
      let c := if 0 <? indent' then dedent content indent' else content in
      Ok (LxScalar (mkspan (sp_start start) (sp_end (tk_span t))) c Heredoc, st')
    | Eof => Ok (LxError start MsgUnterminated, st')
    | _ => Ok (LxError (tk_span t) MsgInHeredoc, st')
    end
  end.

Definition lex_fuel (st : lstate) : nat := 4 + 2 * length (ts_rem (ls_tok st)).

(** lexer.rs 133-367, next_lexeme *)
Definition next_lexeme (st0 : lstate) : res (lexeme * lstate) :=
  do (tok, st) <- skip_ws (lex_fuel st0) st0;
  let sp := tk_span tok in
  match tk_kind tok with
  | Eof => Ok (LxEof, st)
  | LBrace => Ok (LxObjStart sp, st)
  | RBrace => Ok (LxObjEnd sp, st)
  | LParen => Ok (LxSeqStart sp, st)
  | RParen => Ok (LxSeqEnd sp, st)
  | Comma => Ok (LxComma sp, st)
  | Gt => Ok (LxError sp MsgGt, st)
  | Newline => Ok (LxNewline sp, st)
  | LineComment => Ok (LxComment sp (tk_text tok), st)
  | DocComment => Ok (LxDoc sp (tk_text tok), st)
  | At =>
    let (nx, st1) := peek_token st in
    if (sp_start (tk_span nx) =? sp_end sp) && tkind_eqb (tk_kind nx) BareScalar then
      let (bad, st2) := lex_token st1 in
      Ok (LxError (mkspan (sp_start sp) (sp_end (tk_span bad))) MsgInvalidTag, st2)
    else Ok (LxUnit sp, st1)
  | Tag =>
    do name <- of_opt (drop_bytes 1 (tk_text tok));
    let is_chained := contains_sub [cSLASH; cAT] name in
    let (pt, st1) := peek_token st in
    let adjacent := sp_start (tk_span pt) =? sp_end sp in
    let valid := match tk_kind pt with
                 | LBrace | LParen | QuotedScalar | RawScalar | At | Tag => true
                 | _ => false end in
    if adjacent && negb valid && tkind_eqb (tk_kind pt) BareScalar then
      let (bad, st2) := lex_token st1 in
      Ok (LxError (mkspan (sp_start sp) (sp_end (tk_span bad))) MsgInvalidTag, st2)
    else Ok (LxTag sp name (is_chained || (adjacent && valid)), st1)
  | BareScalar =>
    let (nx, st1) := peek_token st in
    let gt_end := sp_end (tk_span nx) in
    if tkind_eqb (tk_kind nx) Gt && (sp_start (tk_span nx) =? sp_end sp) then
      let (_, st2) := lex_token st1 in
      let (vt, st3) := peek_token st2 in
      let gt_span := mkspan (gt_end - 1) gt_end in
      if tkind_eqb (tk_kind vt) Newline || tkind_eqb (tk_kind vt) Eof then
        Ok (LxError gt_span MsgExpectedValue, st3)
      else if tkind_eqb (tk_kind vt) Whitespace then Ok (LxError gt_span MsgWsAfterGt, st3)
      else Ok (LxAttrKey (mkspan (sp_start sp) gt_end) sp (tk_text tok), st3)
    else Ok (LxScalar sp (tk_text tok) Bare, st1)
  | QuotedScalar =>
    do inner <- of_opt (slice (tk_text tok) 1 (blen (tk_text tok) - 1));
    match process_escapes inner with
    | inl v => Ok (LxScalar sp v Quoted, st)
    | inr m => Ok (LxError sp m, st)
    end
  | RawScalar =>
    do tl <- of_opt (drop_bytes 1 (tk_text tok));
    let h := length (fst (span_while (N.eqb cHASH) tl)) in
    do content <- of_opt (slice (tk_text tok) (1 + h + 1) (blen (tk_text tok) - h - 1));
    Ok (LxScalar sp content Raw, st)
  | HeredocStart => heredoc_loop (lex_fuel st) sp [] 0 st
  | HeredocContent | HeredocEnd => Ok (LxError sp MsgHeredocTok, st)
  | Whitespace => Panic (* unreachable! *)
  | TError => Ok (LxError sp MsgTokenizer, st)
  end.

(** lexer.rs 370-381 (Iterator) driven to its end: all lexemes before [Eof]. *)
Fixpoint lexemes_from (fuel : nat) (st : lstate) : res (list lexeme) :=
  match fuel with
  | O => OutOfFuel
  | S f =>
    do (l, st') <- next_lexeme st;
    match l with
    | LxEof => Ok []
    | _ => do ls <- lexemes_from f st'; Ok (l :: ls)
    end
  end.

Definition lexemes (src : str) : res (list lexeme) :=
  lexemes_from (3 + 2 * length src) (lex_new src).
