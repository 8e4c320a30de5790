(** Specification vocabulary for written text: what it means that a piece of text is read back. *)
From Verif Require Import Base TokModel LexModel.

(** The lexer stands before [rem], at byte [pos], outside of a heredoc: either nothing is buffered, or the
    one buffered token is the first token of [rem]. *)
Definition at_text (st : lstate) (rem : str) (pos : nat) : Prop :=
  (ls_peek st = None /\ ls_tok st = mkts rem pos None) \/
  (exists t, ls_peek st = Some t /\ next_token (mkts rem pos None) = (t, ls_tok st)).

(** Wherever the lexer meets [text] (possibly after blanks) with [rest] behind it, it consumes exactly
    [text] and makes one scalar of it, with value [v] and kind [k]. *)
Definition reads (text rest v : str) (k : skind) : Prop :=
  forall st pre pos, at_text st (pre ++ text ++ rest) pos -> (forall c, In c pre -> c = cSP \/ c = cTAB) ->
    exists st', next_lexeme st
                = Ok (LxScalar (mkspan (pos + blen pre) (pos + blen pre + blen text)) v k, st')
                /\ at_text st' rest (pos + blen pre + blen text).

(** [rest] is a place where a bare scalar ends: the end, a bracket, a comma, a quote, a [>] or whitespace. *)
Definition bare_ends (rest : str) : Prop :=
  match rest with
  | [] => True
  | c :: _ => In c [cLB; cRB; cLP; cRP; cCOMMA; cDQ; cGT] \/ is_ws c = true
  end.
(** ... and, for a scalar not to become an attribute name, not a [>]. *)
Definition scalar_ends (rest : str) : Prop := bare_ends rest /\ forall r, rest <> cGT :: r.

(** [rest] is the end of a line. *)
Definition line_ends (rest : str) : Prop :=
  rest = [] \/ (exists r, rest = cLF :: r) \/ (exists r, rest = cCR :: cLF :: r).

(** [sub] occurs in [s]. *)
Definition occurs (sub s : str) : Prop := exists a b, s = a ++ sub ++ b.

(** Some line of [s] reads as the closing delimiter [d] of a heredoc. *)
Definition delim_line (d s : str) : Prop :=
  exists a ind b, s = a ++ ind ++ d ++ b /\ (a = [] \/ exists a', a = a' ++ [cLF]) /\
    (forall c, In c ind -> c = cSP \/ c = cTAB) /\
    ((exists r, b = cLF :: r) \/ (exists r, b = cCR :: cLF :: r)).

(** The text between the quotes uses a unicode escape. *)
Inductive uses_u : str -> Prop :=
| uu_here s : uses_u (cBSL :: cu :: s)
| uu_plain c s : c <> cBSL -> uses_u s -> uses_u (c :: s)
| uu_simple d s : d <> cu -> uses_u s -> uses_u (cBSL :: d :: s).
