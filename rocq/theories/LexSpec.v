(** Specification vocabulary for lexeme streams. *)
From Verif Require Import Base TokModel LexModel.

(** What a quoted scalar's text between the quotes stands for. Written from the escape table of the
    language (docs, lexer.rs 412-413), without reference to any of the decoders. *)
Definition hex_char (c : char) : Prop := (48 <= c <= 57 \/ 65 <= c <= 70 \/ 97 <= c <= 102)%N.
Definition hex_val (c : char) : N := (if c <=? 57 then c - 48 else if c <=? 70 then c - 55 else c - 87)%N.
Definition hex_num (s : str) : N := fold_left (fun a c => a * 16 + hex_val c)%N s 0%N.

Inductive decodes : str -> str -> Prop :=
| dec_nil : decodes [] []
| dec_plain c s v : c <> cBSL -> decodes s v -> decodes (c :: s) (c :: v)
| dec_simple d c s v : In (d, c) [(cBSL, cBSL); (cDQ, cDQ); (cn, cLF); (cr, cCR); (ct, cTAB)] ->
    decodes s v -> decodes (cBSL :: d :: s) (c :: v)
| dec_u4 h s v : length h = 4 -> Forall hex_char h -> valid_char (hex_num h) = true ->
    decodes s v -> decodes (cBSL :: cu :: h ++ s) (hex_num h :: v)
| dec_brace h s v : h <> [] -> Forall hex_char h -> valid_char (hex_num h) = true ->
    decodes s v -> decodes (cBSL :: cu :: cLB :: h ++ cRB :: s) (hex_num h :: v).

(** What a heredoc's body stands for when its closing delimiter is indented by [n] blanks: every line
    loses its leading blanks, but never more than [n] of them. *)
Definition blank_char (c : char) : Prop := c = cSP \/ c = cTAB.

Definition dedented (n : nat) (l l' : str) : Prop :=
  exists p, l = p ++ l' /\ Forall blank_char p /\ length p <= n /\
    (length p = n \/ forall c r, l' = c :: r -> ~ blank_char c).

Fixpoint glue_lines (ls : list str) : str :=
  match ls with
  | [] => []
  | [l] => l
  | l :: r => l ++ cLF :: glue_lines r
  end.

Definition heredoc_value (n : nat) (body v : str) : Prop :=
  exists ls ls', ls <> [] /\ Forall (fun l => ~ In cLF l) ls /\ body = glue_lines ls /\
    Forall2 (dedented n) ls ls' /\ v = glue_lines ls'.

(** The source text of a lexeme, and what its decoded content has to do with it. *)
Definition lexeme_text (src : str) (l : lexeme) (t : str) : Prop :=
  slice src (sp_start (lx_span l)) (sp_end (lx_span l)) = Some t.

(** Raw scalars: up to 255 hashes the content [v] is the verbatim text and as many hashes close it. With [n]
    hashes, [n] above 255, 255 hashes close it and the last [n - 255] bytes ([w]) are missing in the content. *)
Definition lexeme_ok (src : str) (l : lexeme) : Prop :=
  exists t, lexeme_text src l t /\
  match l with
  | LxScalar _ v Bare => t = v /\ v <> [] /\ forallb is_bare_char v = true
  | LxScalar _ v Quoted => exists a, t = cDQ :: a ++ [cDQ] /\ decodes a v
  | LxScalar _ v Raw => exists n w, t = cr :: repeat cHASH n ++ cDQ :: v ++ w ++ cDQ :: repeat cHASH (Nat.min 255 n) /\ blen w = n - 255
  | LxScalar _ v Heredoc =>
    exists d lang eol body ind, t = [cLT; cLT] ++ d ++ lang ++ eol ++ body ++ ind ++ d /\
      d <> [] /\ forallb is_delim_char d = true /\
      (lang = [] \/ exists a, lang = cCOMMA :: a /\ forallb is_lang_char a = true) /\
      In eol [[]; [cLF]; [cCR]; [cCR; cLF]] /\
      (body = [] \/ exists b, body = b ++ [cLF]) /\
      Forall blank_char ind /\ heredoc_value (length ind) body v
  | LxUnit _ => t = [cAT]
  | LxTag _ name _ => t = cAT :: name /\ exists d a, name = d :: a /\ is_tag_start d = true
  | LxObjStart _ => t = [cLB] | LxObjEnd _ => t = [cRB]
  | LxSeqStart _ => t = [cLP] | LxSeqEnd _ => t = [cRP]
  | LxAttrKey sp ksp key => t = key ++ [cGT] /\ key <> [] /\ forallb is_bare_char key = true
                            /\ slice src (sp_start ksp) (sp_end ksp) = Some key
                            /\ sp_start ksp = sp_start sp /\ sp_end ksp <= sp_end sp
  | LxComma _ => t = [cCOMMA]
  | LxNewline _ => t = [cLF] \/ t = [cCR; cLF]
  | LxComment _ text => t = text /\ starts_with [cSLASH; cSLASH] t = true
  | LxDoc _ text => t = text /\ starts_with [cSLASH; cSLASH; cSLASH] t = true
  | LxEof => True
  | LxError _ m =>
    match m with
    | MsgUniEscape | MsgUniCode | MsgBadEscape | MsgTrailingBsl =>
      exists a, t = cDQ :: a ++ [cDQ] /\ forall v, ~ decodes a v
    | _ => True
    end
  end.

(** Lexemes follow one another in the source without overlap, starting at or after [p]. *)
Fixpoint lex_ordered (p : nat) (ls : list lexeme) (e : nat) : Prop :=
  match ls with
  | [] => p <= e
  | l :: r => p <= sp_start (lx_span l) /\ sp_start (lx_span l) <= sp_end (lx_span l)
              /\ lex_ordered (sp_end (lx_span l)) r e
  end.

(** [src] contains a run of [n] hash signs. *)
Definition has_hash_run (n : nat) (src : str) : Prop := exists a b, src = a ++ repeat cHASH n ++ b.

(** A raw scalar opened with more than 255 hashes whose text has no end of the length that would be cut off. *)
Definition torn_raw (t : str) : Prop :=
  exists n a, t = cr :: repeat cHASH n ++ cDQ :: a ++ cDQ :: repeat cHASH 255 /\ 255 < n /\ forall v w, a = v ++ w -> blen w <> n - 255.

(** No text is lost: between two lexemes (before the first, after the last) there are only blanks,
    unless one of the two is an error lexeme. *)
Definition blank_gap (src : str) (a b : nat) : Prop :=
  exists g, slice src a b = Some g /\ forall c, In c g -> blank_char c.

Definition is_err (l : lexeme) : bool := match l with LxError _ _ => true | _ => false end.

Fixpoint lex_covers (src : str) (p : nat) (prev_err : bool) (ls : list lexeme) : Prop :=
  match ls with
  | [] => prev_err = true \/ blank_gap src p (blen src)
  | l :: r => (prev_err = true \/ is_err l = true \/ blank_gap src p (sp_start (lx_span l)))
              /\ lex_covers src (sp_end (lx_span l)) (is_err l) r
  end.

(** Calling the lexer again and again: the lexemes returned, none of them the end, and the lexer afterwards. *)
Inductive lex_calls : lstate -> list lexeme -> lstate -> Prop :=
| lc_nil st : lex_calls st [] st
| lc_cons st l st1 r st2 : next_lexeme st = Ok (l, st1) -> l <> LxEof -> lex_calls st1 r st2 -> lex_calls st (l :: r) st2.
