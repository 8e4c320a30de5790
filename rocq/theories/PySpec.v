(** Specification of the tokens of the Python implementation (lexer.py): which parts of the source are gaps, which are tokens, and what
    the text of a token is. Nothing here uses the functions of the lexer. *)
From Verif Require Import Base PyModel.

Definition blank (c : char) : Prop := c = cSP \/ c = cTAB.
Definition no_lf (s : str) : Prop := ~ In cLF s.

(** Blanks, line ends and comments. [fin] says that the source ends here: the last comment may be without a line end. *)
Inductive gap (fin : bool) : str -> Prop :=
| gap_nil : gap fin []
| gap_blank c g : blank c \/ c = cCR \/ c = cLF -> gap fin g -> gap fin (c :: g)
| gap_comment body g : no_lf body -> gap fin (cLF :: g) -> gap fin (cSLASH :: cSLASH :: body ++ cLF :: g)
| gap_last body : fin = true -> no_lf body -> gap fin (cSLASH :: cSLASH :: body).

(** Something other than a gap begins here. *)
Definition begins (s : str) : Prop :=
  exists c r, s = c :: r /\ ~ blank c /\ c <> cCR /\ c <> cLF /\ ~ (c = cSLASH /\ exists q, r = cSLASH :: q).

Definition delimits (c : char) : Prop :=
  c = cLB \/ c = cRB \/ c = cLP \/ c = cRP \/ c = cCOMMA \/ c = cDQ \/ c = cGT \/ blank c \/ c = cLF \/ c = cCR.
Definition ends_at (p : char -> Prop) (s : str) : Prop := s = [] \/ exists c r, s = c :: r /\ p c.

Definition letter (c : char) : Prop := (65 <= c <= 90)%N \/ (97 <= c <= 122)%N.
Definition name_char (c : char) : Prop := letter c \/ (48 <= c <= 57)%N \/ c = cUS \/ c = cDASH.

Section spec.
Variable isupper : char -> bool.
Variable int16 : str -> option Z.

(** The number behind [\u] is the code of a character. *)
Definition code (hex : str) (c : char) : Prop := exists z, int16 hex = Some z /\ (0 <= z < 1114112)%Z /\ c = Z.to_N z.
Definition simple_escape (e c : char) : Prop :=
  (e = cn /\ c = cLF) \/ (e = cr /\ c = cCR) \/ (e = ct /\ c = cTAB) \/ (e = cBSL /\ c = cBSL) \/ (e = cDQ /\ c = cDQ).
(** What stands behind [\u] *)
Inductive hex_form : str -> str -> Prop :=
| hf_brace hex : ~ In cRB hex -> hex_form (cLB :: hex ++ [cRB]) hex
| hf_four a b c d : a <> cLB -> hex_form [a; b; c; d] [a; b; c; d].
(** The inside of a quoted string and the text it stands for *)
Inductive decodes : str -> str -> Prop :=
| dec_nil : decodes [] []
| dec_plain c s t : c <> cDQ -> c <> cBSL -> c <> cLF -> c <> cCR -> decodes s t -> decodes (c :: s) (c :: t)
| dec_simple e c s t : simple_escape e c -> decodes s t -> decodes (cBSL :: e :: s) (c :: t)
| dec_code h hex c s t : hex_form h hex -> code hex c -> decodes s t -> decodes (cBSL :: cu :: h ++ s) (c :: t).

(** [l] is a line of [body], all of whose lines end with a line end. *)
Definition line_of (l body : str) : Prop :=
  exists a b, body = a ++ l ++ cLF :: b /\ no_lf l /\ (a = [] \/ exists a', a = a' ++ [cLF]).
Definition full_lines (body : str) : Prop := body = [] \/ exists b, body = b ++ [cLF].
Definition closing (bare l : str) : Prop := exists b, Forall blank b /\ l = b ++ bare.
(** At most [n] blanks are taken from the front of a line, and as many as there are. *)
Definition dedents_line (n : nat) (l l' : str) : Prop :=
  exists b, l = b ++ l' /\ Forall blank b /\ length b <= n /\ (length b = n \/ ends_at (fun c => ~ blank c) l').
Inductive dedents (n : nat) : str -> str -> Prop :=
| ded_last l l' : no_lf l -> dedents_line n l l' -> dedents n l l'
| ded_line l l' s s' : no_lf l -> dedents_line n l l' -> dedents n s s' -> dedents n (l ++ cLF :: s) (l' ++ cLF :: s').
(** The name of a heredoc stops at the first comma. *)
Definition bare_name (d bare : str) : Prop := ~ In cCOMMA bare /\ (d = bare \/ exists lang, d = bare ++ cCOMMA :: lang).
Definition delimiter (d : str) : Prop := no_lf d /\ exists c r, d = c :: r /\ isupper c = true.

Definition punctuation (k : pykind) (c : char) : Prop :=
  match k with
  | KLBrace => c = cLB | KRBrace => c = cRB | KLParen => c = cLP | KRParen => c = cRP | KComma => c = cCOMMA | KGt => c = cGT
  | _ => False
  end.

(** The token of kind [k] with text [t] is written [lex], and [suf] follows. *)
Inductive written : pykind -> str -> str -> str -> Prop :=
| wr_punct k c suf : punctuation k c -> written k [c] [c] suf
| wr_at suf : ends_at (fun c => ~ letter c /\ c <> cUS) suf -> written KAt [cAT] [cAT] suf
| wr_tag c name suf :
    letter c \/ c = cUS -> Forall name_char name -> ends_at (fun c => ~ name_char c) suf ->
    written KTag (c :: name) (cAT :: c :: name) suf
| wr_scalar t suf :
    t <> [] -> Forall (fun c => ~ delimits c) t -> ends_at delimits suf ->
    (forall r, t <> cAT :: r) -> (forall r, t <> cr :: cHASH :: r) -> (forall r, t <> cLT :: cLT :: r) ->
    (t = [cr] -> forall r, suf <> cDQ :: r) ->
    written KScalar t t suf
| wr_quoted body t suf : decodes body t -> written KQuoted t (cDQ :: body ++ [cDQ]) suf
| wr_raw hs q t suf :
    Forall (eq cHASH) hs -> q <> cHASH -> (hs = [] -> q = cDQ) ->
    (forall a b, t ++ (cDQ :: hs) ++ suf = a ++ (cDQ :: hs) ++ b -> length t <= length a) ->
    written KRaw t (cr :: hs ++ q :: t ++ cDQ :: hs) suf
| wr_heredoc d bare body ind t suf :
    delimiter d -> bare_name d bare -> full_lines body -> Forall blank ind -> (forall l, line_of l body -> ~ closing bare l) ->
    (ind = [] /\ t = body \/ ind <> [] /\ dedents (length ind) body t) -> ends_at (eq cLF) suf ->
    written KHeredoc t (cLT :: cLT :: d ++ cLF :: body ++ ind ++ bare) suf.

(** The tokens [toks] stand between the ends of [p] and [q] in the source; spans are in bytes. *)
Inductive reads (src : str) : str -> list pytok -> str -> Prop :=
| reads_nil p : reads src p [] p
| reads_cons p g lex suf k t toks q :
    src = p ++ g ++ lex ++ suf -> gap false g -> begins (lex ++ suf) -> written k t lex suf ->
    reads src (p ++ g ++ lex) toks q ->
    forall ws nl, (ws = true <-> g <> []) -> (nl = true <-> In cLF g) ->
    reads src p (mkpytok k t (blen (p ++ g)) (blen (p ++ g ++ lex)) ws nl :: toks) q.
Definition reads_end (src p : str) (t : pytok) : Prop :=
  exists g, src = p ++ g /\ gap true g /\ pt_kind t = KEof /\ pt_text t = [] /\ pt_start t = blen src /\ pt_end t = blen src
            /\ (pt_ws t = true <-> g <> []) /\ (pt_nl t = true <-> In cLF g).

(** Where a quoted text cannot go on, whether the error begins there ([true]) or at the opening quote, and what stands behind the error *)
Inductive stuck : str -> bool -> str -> Prop :=
| st_end : stuck [] false []
| st_lf r : stuck (cLF :: r) false r
| st_crlf r : stuck (cCR :: cLF :: r) false r
| st_cr r : (forall q, r <> cLF :: q) -> stuck (cCR :: r) false r
| st_backslash : stuck [cBSL] true []
| st_escape e r : e <> cu -> (forall c, ~ simple_escape e c) -> stuck (cBSL :: e :: r) true r
| st_code h : (forall x hex r, hex_form x hex -> h <> x ++ r) -> stuck (cBSL :: cu :: h) false [].
(** Where no token can be read, with what is left at the beginning and behind the end of the error *)
Inductive fault : str -> str -> str -> Prop :=
| fl_lt r : ends_at (fun c => isupper c = false) r -> fault (cLT :: cLT :: r) (cLT :: cLT :: r) r
| fl_quoted body t rest own y :
    decodes body t -> stuck rest own y -> fault (cDQ :: body ++ rest) (if own then rest else cDQ :: body ++ rest) y
| fl_raw hs r :
    Forall (eq cHASH) hs -> hs <> [] \/ (exists q, r = cDQ :: q) -> ends_at (fun c => c <> cHASH) r ->
    (forall a b, tl r <> a ++ (cDQ :: hs) ++ b) -> fault (cr :: hs ++ r) (cr :: hs ++ r) []
| fl_heredoc d bare body :
    delimiter d -> bare_name d bare -> (forall l, line_of l (body ++ [cLF]) -> ~ closing bare l) ->
    fault (cLT :: cLT :: d ++ cLF :: body) body []
| fl_heredoc_end d : delimiter d -> fault (cLT :: cLT :: d) [] [].
(** Where Python raises an error that is no ParseError: the number behind [\u] is no code of a character *)
Inductive crashes : str -> Prop :=
| cr_escape body t h hex r :
    decodes body t -> (hex_form h hex \/ r = [] /\ (forall x y q, hex_form x y -> h <> x ++ q) /\ (h = hex \/ h = cLB :: hex)) ->
    (forall c, ~ code hex c) -> crashes (cDQ :: body ++ cBSL :: cu :: h ++ r).
(** What the lexer may say about the source from the end of [p] on *)
Definition lexes (src p : str) (x : pyres (list pytok)) : Prop :=
  match x with
  | POk l => exists toks e q, l = toks ++ [e] /\ reads src p toks q /\ reads_end src q e
  | PError b e => exists toks q g rest x y, reads src p toks q /\ src = q ++ g ++ rest /\ gap false g /\ begins rest /\ fault rest x y /\
      b + blen x = blen src /\ e + blen y = blen src /\ blen (q ++ g) <= b <= e
  | PCrash => exists toks q g rest, reads src p toks q /\ src = q ++ g ++ rest /\ gap false g /\ begins rest /\ crashes rest
  end.
End spec.
