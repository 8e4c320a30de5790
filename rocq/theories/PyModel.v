(** Model of the lexer of the Python implementation: /repo/implementations/styx-py/styx/lexer.py at the pinned commit.

    Simplifications. The position of the lexer is the text that is left; the byte position is what this takes from the length of the
    source ([_advance], 67-74, adds the bytes of every character it passes, nothing else changes either position). A source has no
    lone surrogates. Messages of errors are left out; their spans are kept. [str.isupper] of one character and [int(_, 16)] are parameters;
    [PCrash] is the [ValueError] (or [OverflowError]) raised by [int] or [chr], which is no [ParseError]. *)
From Verif Require Import Base.

(** lexer.py 13-28 *)
Inductive pykind :=
| KScalar | KQuoted | KRaw | KHeredoc | KLBrace | KRBrace | KLParen | KRParen | KComma | KAt | KTag | KGt | KEof.
(** lexer.py 31-39 *)
Record pytok := mkpytok { pt_kind : pykind; pt_text : str; pt_start : nat; pt_end : nat; pt_ws : bool; pt_nl : bool }.

Inductive pyres (A : Type) : Type :=
| POk (a : A)
| PError (b e : nat)
| PCrash.
Arguments POk {A} a.
Arguments PError {A} b e.
Arguments PCrash {A}.

(** lexer.py 82: space, tab, carriage return *)
Definition py_blank (c : char) : bool := ((c =? cSP) || (c =? cTAB) || (c =? cCR))%N.
(** lexer.py 76-97, _skip_whitespace_and_comments; [com] while inside the loop 91-92 *)
Fixpoint skip (com : bool) (s : str) : bool * bool * str :=
  match s with
  | [] => (false, false, [])
  | c :: r =>
    if (c =? cLF)%N then let '(_, _, q) := skip false r in (true, true, q)
    else if com then skip true r
    else if py_blank c then let '(_, n, q) := skip false r in (true, n, q)
    else if (c =? cSLASH)%N && starts_with [cSLASH] r then let '(_, n, q) := skip true r in (true, n, q)
    else (false, false, s)
  end.

(** lexer.py 46-47 and 99-105 *)
Definition tag_start (c : char) : bool := is_alpha c || (c =? cUS)%N.
Definition tag_char (c : char) : bool := is_alnum c || (c =? cUS)%N || (c =? cDASH)%N.
(** lexer.py 42-44 *)
Definition py_special (c : char) : bool :=
  ((c =? cLB) || (c =? cRB) || (c =? cLP) || (c =? cRP) || (c =? cCOMMA) || (c =? cDQ) || (c =? cGT) || (c =? cSP) || (c =? cTAB)
   || (c =? cLF) || (c =? cCR))%N.

(** lexer.py 255-276, _read_raw_string, the loop 267-274; [close] is the closing pattern *)
Fixpoint raw_body (close acc s : str) : option (str * str) :=
  match s with
  | [] => None
  | c :: r => if starts_with close s then Some (acc, skipn (length close) s) else raw_body close (acc ++ [c]) r
  end.

(** lexer.py 328-342, _dedent_heredoc, without building the list of lines: [k] blanks may still be left out *)
Fixpoint dedent (n k : nat) (s : str) : str :=
  match s with
  | [] => []
  | c :: r =>
    if (c =? cLF)%N then c :: dedent n n r
    else match k with
         | S k' => if (c =? cSP)%N || (c =? cTAB)%N then dedent n k' r else c :: dedent n 0 r
         | O => c :: dedent n 0 r
         end
  end.
(** lexer.py 307, lstrip *)
Fixpoint lstrip (s : str) : str :=
  match s with
  | c :: r => if (c =? cSP)%N || (c =? cTAB)%N then lstrip r else s
  | [] => []
  end.
(** lexer.py 300-319: the text, if this line closes the heredoc *)
Definition closes (bare text line : str) : option str :=
  if str_eqb line bare then Some text
  else if str_eqb (lstrip line) bare then Some (let n := length line - length (lstrip line) in dedent n n text)
  else None.
(** lexer.py 295-326, the loop over the lines; [line] is the part of the line read so far. At the end of the source an empty line is not
    looked at (295). *)
Fixpoint heredoc_body (bare text line s : str) : option (str * str) :=
  match s with
  | [] => match line with [] => None | _ => match closes bare text line with Some t => Some (t, []) | None => None end end
  | c :: r =>
    if (c =? cLF)%N then
      match closes bare text line with Some t => Some (t, s) | None => heredoc_body bare (text ++ line ++ [cLF]) [] r end
    else heredoc_body bare text (line ++ [c]) r
  end.
Definition not_char (a c : char) : bool := negb (c =? a)%N.

Section lexer.
(** [ch.isupper()] of a string with one character *)
Variable isupper : char -> bool.
(** [int(_, 16)]; [None] is the ValueError *)
Variable int16 : str -> option Z.

(** [chr(int(hex, 16))]; [None] is the ValueError or OverflowError *)
Definition chr16 (hex : str) : option char :=
  match int16 hex with
  | Some z => if ((0 <=? z) && (z <? 1114112))%Z then Some (Z.to_N z) else None
  | None => None
  end.

(** Where [_read_quoted_string] (194-238) and [_read_unicode_escape] (240-253) are: in the loop, after the backslash, after [\u], in
    the loop 245-246, in the loop 251-252 with [n] characters to come. *)
Inductive qmode := QText | QEsc (start : nat) | QU | QBrace (hex : str) | QFour (n : nat) (hex : str).

Section source.
Variable total : str.
Definition at_ (s : str) : nat := blen total - blen s.

(** lexer.py 194-253; the result is the text and what is left *)
Fixpoint quoted (start : nat) (m : qmode) (acc : str) (s : str) : pyres (str * str) :=
  match s with
  | [] =>
    match m with
    | QText => PError start (at_ [])
    | QEsc b => PError b (at_ [])
    | QU => match chr16 [] with Some _ => PError start (at_ []) | None => PCrash end
    | QBrace hex | QFour _ hex => match chr16 hex with Some _ => PError start (at_ []) | None => PCrash end
    end
  | c :: r =>
    match m with
    | QText =>
      if (c =? cDQ)%N then POk (acc, r)
      else if (c =? cBSL)%N then quoted start (QEsc (at_ s)) acc r
      else if (c =? cLF)%N then PError start (at_ r)
      else if (c =? cCR)%N then PError start (at_ (if starts_with [cLF] r then tl r else r))
      else quoted start QText (acc ++ [c]) r
    | QEsc b =>
      if (c =? cn)%N then quoted start QText (acc ++ [cLF]) r
      else if (c =? cr)%N then quoted start QText (acc ++ [cCR]) r
      else if (c =? ct)%N then quoted start QText (acc ++ [cTAB]) r
      else if (c =? cBSL)%N then quoted start QText (acc ++ [cBSL]) r
      else if (c =? cDQ)%N then quoted start QText (acc ++ [cDQ]) r
      else if (c =? cu)%N then quoted start QU acc r
      else PError b (at_ r)
    | QU => if (c =? cLB)%N then quoted start (QBrace []) acc r else quoted start (QFour 3 [c]) acc r
    | QBrace hex =>
      if (c =? cRB)%N then match chr16 hex with Some d => quoted start QText (acc ++ [d]) r | None => PCrash end
      else quoted start (QBrace (hex ++ [c])) acc r
    | QFour n hex =>
      match n with
      | S (S n') => quoted start (QFour (S n') (hex ++ [c])) acc r
      | _ => match chr16 (hex ++ [c]) with Some d => quoted start QText (acc ++ [d]) r | None => PCrash end
      end
    end
  end.

(** lexer.py 126-150, single characters *)
Definition single (c : char) : option pykind :=
  if (c =? cLB)%N then Some KLBrace else if (c =? cRB)%N then Some KRBrace else if (c =? cLP)%N then Some KLParen
  else if (c =? cRP)%N then Some KRParen else if (c =? cCOMMA)%N then Some KComma else if (c =? cGT)%N then Some KGt else None.

(** lexer.py 107-192, next_token, with 255-265, 278-293 and 344-354 *)
Definition next_token (s0 : str) : pyres (pytok * str) :=
  let '(ws, nl, s) := skip false s0 in
  let tok (k : pykind) (t r : str) := POk (mkpytok k t (at_ s) (at_ r) ws nl, r) in
  match s with
  | [] => tok KEof [] []
  | c :: r =>
    match single c with
    | Some k => tok k [c] r
    | None =>
      if (c =? cAT)%N then
        (if opt_is tag_start (peek r) then let (name, q) := span_while tag_char r in tok KTag name q else tok KAt [cAT] r)
      else if (c =? cDQ)%N then
        match quoted (at_ s) QText [] r with POk (t, q) => tok KQuoted t q | PError b e => PError b e | PCrash => PCrash end
      else if (c =? cr)%N && opt_is (fun d => (d =? cDQ) || (d =? cHASH))%N (peek r) then
        let (hs, q) := span_while (N.eqb cHASH) r in
        match raw_body (cDQ :: hs) [] (tl q) with Some (t, q') => tok KRaw t q' | None => PError (at_ s) (at_ []) end
      else if (c =? cLT)%N && starts_with [cLT] r then
        if opt_is isupper (peek (tl r)) then
          let (d, q) := span_while (not_char cLF) (tl r) in
          let (bare, _) := span_while (not_char cCOMMA) d in
          match heredoc_body bare [] [] (tl q) with Some (t, q') => tok KHeredoc t q' | None => PError (at_ (tl q)) (at_ []) end
        else PError (at_ s) (at_ (tl r))
      else let (t, q) := span_while (fun d => negb (py_special d)) s in tok KScalar t q
    end
  end.

(** The tokens up to the end, as the parser asks for them (parser.py 87, 97, 103) *)
Fixpoint lex_from (fuel : nat) (s : str) : res (pyres (list pytok)) :=
  match fuel with
  | O => OutOfFuel
  | S f =>
    match next_token s with
    | PError b e => Ok (PError b e)
    | PCrash => Ok PCrash
    | POk (t, r) =>
      match pt_kind t with
      | KEof => Ok (POk [t])
      | _ => match lex_from f r with Ok (POk l) => Ok (POk (t :: l)) | x => x end
      end
    end
  end.
End source.
Definition py_lex (fuel : nat) (src : str) : res (pyres (list pytok)) := lex_from src fuel src.
End lexer.
