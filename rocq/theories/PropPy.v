(** C90-C92: the Python implementation (styx-py). *)
From Coq Require Import String.
From Verif Require LexModel.
From Verif Require Import Base BaseProofs FmtModel FmtSpec PyModel PySpec PyProofs PyWriteProofs PyParseModel PyParseSpec PyParseProofs.
Notation length := List.length.

(** Functions for the examples that agree with Python's [isupper] and [int(_, 16)] on ASCII letters and hexadecimal digits *)
Definition int16_ascii (s : str) : option Z := match s with [] => None | _ => option_map Z.of_N (LexModel.hex_value 0 s) end.
Definition py_toks (src : str) : res (pyres (list pytok)) := py_lex is_upper int16_ascii (S (length src)) src.
Lemma ascii_letters c : is_upper c = true -> (65 <= c)%N.
Proof. unfold is_upper, in_range. lia. Qed.

(** * C90: the lexer stops, and its tokens cover the source *)

(** Whatever the source: the lexer stops, and either the tokens, with blanks, line ends and comments between them, are the whole source,
    every token is written as its kind demands, has the text that this stands for, the bytes it takes as its span, and knows whether
    blanks or a line end stand before it; or tokens are read like this up to a place where none can be read, and the error has the span that
    belongs to this kind of fault; or up to an escape whose number is no code of a character. *)
Theorem C90_partial : forall isupper int16, (forall c, isupper c = true -> (65 <= c)%N) -> forall src fuel, length src < fuel ->
  exists x, py_lex isupper int16 fuel src = Ok x /\ lexes isupper int16 src [] x.
Proof. intros isupper int16 U src fuel F. exact (lex_from_spec isupper int16 U src fuel [] src eq_refl F). Qed.
Print Assumptions C90_partial.
Example C90_example : py_toks (lit "a.b @tag{x ""q\u{41}\n""} // c
 r#""raw""#") = Ok (POk [mkpytok KScalar (lit "a.b") 0 3 false false; mkpytok KTag (lit "tag") 4 8 true false;
    mkpytok KLBrace (lit "{") 8 9 false false; mkpytok KScalar (lit "x") 9 10 false false; mkpytok KQuoted (lit "qA
") 11 22 true false; mkpytok KRBrace (lit "}") 22 23 false false; mkpytok KRaw (lit "raw") 30 38 true true; mkpytok KEof [] 38 38 false false]).
Proof. vm_compute. reflexivity. Qed.
Example C90_error_example : py_toks (lit "a <<b") = Ok (PError 2 4) /\ py_toks (lit "a ""b\qc""") = Ok (PError 4 6) /\ py_toks (lit "a ""b
c""") = Ok (PError 2 5).
Proof. vm_compute. auto. Qed.
Example C90_heredoc_example : py_toks (lit "<<EOF,rust
  x
    y
  EOF") = Ok (POk [mkpytok KHeredoc (lit "x
  y
") 0 26 false false; mkpytok KEof [] 26 26 false false]).
Proof. vm_compute. reflexivity. Qed.

(** An escape without a number makes Python raise a ValueError, not a ParseError, if [int("", 16)] does. *)
Theorem C90_refuted : exists src, forall isupper int16, int16 [] = None -> forall fuel, 0 < fuel -> py_lex isupper int16 fuel src = Ok PCrash.
Proof.
  exists (lit """\u{}"""). intros isupper int16 H [|f] F; [lia|]. unfold py_lex. cbn [lex_from].
  replace (next_token isupper int16 (lit """\u{}""") (lit """\u{}""")) with (@PCrash (pytok * str)); [reflexivity|].
  unfold next_token. cbn. unfold chr16. rewrite H. reflexivity.
Qed.
Print Assumptions C90_refuted.

(** A raw string is read although it has no opening quote. *)
Theorem C90_raw_refuted : exists src t e, py_toks src = Ok (POk [t; e]) /\ pt_kind t = KRaw /\ pt_text t = lit " b" /\
  ~ exists hs r, Forall (eq cHASH) hs /\ src = cr :: hs ++ cDQ :: r.
Proof.
  exists (lit "r#a b""#"). eexists _, _. split; [vm_compute; reflexivity|]. split; [reflexivity|]. split; [reflexivity|].
  intros (hs & r & H & E). destruct hs as [|a [|b hs]]; [discriminate|discriminate|]. cbn in E. injection E as _ <- _.
  inversion H as [|? ? _ H']. inversion H'. discriminate.
Qed.
Print Assumptions C90_raw_refuted.

(** The text of a token need not be a text: half of a surrogate pair is accepted. *)
Theorem C90_surrogate_refuted : exists src t e, py_toks src = Ok (POk [t; e]) /\ existsb (fun c => negb (valid_char c)) (pt_text t) = true.
Proof. exists (lit """\u{D800}"""). eexists _, _. split; [vm_compute; reflexivity|reflexivity]. Qed.
Print Assumptions C90_surrogate_refuted.

(** * C91: scalars written by the Rust printer *)

(** A scalar written by the Rust printer at the end of a line is one token with the same text for the Python lexer, unless it is a bare word with [>]
    or a heredoc whose text does not end with a line end or contains every delimiter. *)
Theorem C91_partial : forall isupper int16, (forall c, (65 <= c <= 90)%N -> isupper c = true) ->
  (forall n, (n < 128)%N -> int16 (hex4 n) = Some (Z.of_N n)) ->
  forall o quote s p suf, ends_at (eq cLF) suf -> (can_be_bare s = true -> ~ In cGT s) ->
  (scalar_text o quote s = heredoc_text s -> (exists b, s = b ++ [cLF]) /\ exists d, In d delimiters /\ ~ FmtSpec.occurs d s) ->
  let text := scalar_text o quote s in
  exists k, next_token isupper int16 (p ++ text ++ suf) (text ++ suf) = POk (mkpytok k s (blen p) (blen (p ++ text)) false false, suf)
            /\ (k = KScalar \/ k = KQuoted \/ k = KRaw \/ k = KHeredoc).
Proof.
  intros isupper int16 U X o quote s p suf E G H text. subst text. unfold scalar_text in *. destruct (negb quote && can_be_bare s) eqn:B.
  - exists KScalar. split; [|auto]. apply andb_true_iff in B as [_ B]. apply bare_read; auto. destruct E as [E|(c & r & E & <-)]; [now left|right; exists cLF, r; split; [exact E|now left]].
  - destruct (o_heredoc o <=? count_newlines s).
    + destruct (H eq_refl) as [(b & ->) D]. exists KHeredoc. split; [|auto]. apply heredoc_read; auto; [right; eauto|destruct b; discriminate].
    + destruct ((3 <? count_escapes s) && negb (contains_sub [cDQ; cHASH] s)).
      * exists KRaw. split; [|auto]. now apply raw_text_read.
      * exists KQuoted. split; [|auto]. now apply quoted_text_read.
Qed.
Print Assumptions C91_partial.
(** The parameters used in the examples meet the conditions, and each of the four ways of writing occurs. *)
Example C91_example : (forall c, (65 <= c <= 90)%N -> is_upper c = true) /\ (forall n, (n < 128)%N -> int16_ascii (hex4 n) = Some (Z.of_N n)) /\
  map (scalar_text default_opts false) [lit "a-b"; lit "a b"; lit """a"" ""b"" \"; lit "x
y
"] = [lit "a-b"; lit """a b"""; lit "r#""""a"" ""b"" \""#"; lit "<<TEXT
x
y
TEXT"] /\
  py_toks (lit "r#""""a"" ""b"" \""#") = Ok (POk [mkpytok KRaw (lit """a"" ""b"" \") 0 14 false false; mkpytok KEof [] 14 14 false false]).
Proof.
  repeat split.
  - intros c. unfold is_upper, in_range. lia.
  - intros n H. assert (I : In n (map N.of_nat (seq 0 128))).
    { apply in_map_iff. exists (N.to_nat n). split; [apply N2Nat.id|]. apply in_seq. lia. }
    revert n I H. apply (Forall_forall (fun n => (n < 128)%N -> int16_ascii (hex4 n) = Some (Z.of_N n))). repeat (constructor; [intros _; vm_compute; reflexivity|]). constructor.
Qed.

(** A text of several lines whose last line has no line end comes back with one; a word with [>] comes back as three tokens. *)
Theorem C91_refuted : exists s t e, py_toks (scalar_text default_opts false s) = Ok (POk [t; e]) /\ pt_text t <> s.
Proof. exists (lit "a
b
c"). eexists _, _. split; [vm_compute; reflexivity|discriminate]. Qed.
Print Assumptions C91_refuted.
Theorem C91_gt_refuted : exists s a b c e, py_toks (scalar_text default_opts false s) = Ok (POk [a; b; c; e]) /\ pt_kind b = KGt.
Proof. exists (lit "a>b"). eexists _, _, _, _. split; [vm_compute; reflexivity|reflexivity]. Qed.
Print Assumptions C91_gt_refuted.

(** * C92: the parser stops *)

(** It does not on a document that begins with a closing brace, whatever follows: the loop over the entries (parser.py 160-163) goes
    round for ever, because [_parse_entry_with_path_check] (180-181) leaves the brace where it is. *)
Theorem C92_refuted : forall isupper int16 rest fuel, py_parse isupper int16 fuel (cRB :: rest) = VFuel.
Proof.
  intros isupper int16 rest fuel. unfold py_parse, fetch.
  replace (next_token isupper int16 (cRB :: rest) (cRB :: rest)) with
    (POk (mkpytok KRBrace [cRB] (at_ (cRB :: rest) (cRB :: rest)) (at_ (cRB :: rest) rest) false false, rest)) by reflexivity.
  set (t := mkpytok KRBrace [cRB] _ _ false false). set (st := mkpst t None rest). set (total := cRB :: rest).
  assert (C : forall f, skip_commas isupper int16 total (S f) st = VOk (tt, st)) by reflexivity.
  assert (R : forall f ps acc, parse_root isupper int16 total f ps acc st = VFuel).
  { induction f as [|f IH]; intros ps acc; [reflexivity|]. cbn [parse_root]. unfold pbind at 1, check at 1. cbn [existsb kind_eqb pt_kind st_cur st t orb].
    unfold pbind at 1. destruct f as [|f]; [reflexivity|].
    replace (parse_entry_path isupper int16 total (S f) ps st) with (@VOk ((option pyentry * pathst) * pst) ((None, ps), st)) by reflexivity.
    apply IH. }
  destruct fuel as [|f]; [reflexivity|]. unfold parse_doc. unfold pbind at 1. rewrite C. unfold pbind at 1, check at 1.
  cbn [existsb kind_eqb pt_kind st_cur st t orb]. rewrite R. reflexivity.
Qed.
Print Assumptions C92_refuted.

(** It stops if at no place more braces have been closed than opened. *)
Theorem C92_partial : forall isupper int16, (forall c, isupper c = true -> (65 <= c)%N) -> forall src,
  (forall toks r, lexed isupper int16 src toks r -> (0 <= balance toks)%Z) ->
  exists n, forall fuel, n <= fuel -> py_parse isupper int16 fuel src <> VFuel.
Proof. intros. now apply stops_closed. Qed.
Print Assumptions C92_partial.

(** The condition can be checked on the list of tokens. *)
Fixpoint never_negative (z : Z) (l : list pytok) : bool := match l with [] => true | t :: r => (0 <=? z + brace t)%Z && never_negative (z + brace t) r end.
Lemma never_negative_ok : forall a z b, never_negative z (a ++ b) = true -> (0 <= z)%Z -> (0 <= z + balance a)%Z.
Proof.
  induction a as [|t a IH]; intros z b H Z; cbn in *; [lia|]. apply andb_true_iff in H as [H1 H2]. apply IH in H2; lia.
Qed.
Definition C92_source : str := lit "server {host h, port 80}
{list (a @b{} ""}"")}".
Example C92_example : (forall toks r, lexed is_upper int16_ascii C92_source toks r -> (0 <= balance toks)%Z) /\
  py_parse is_upper int16_ascii 60 C92_source = VOk [
    (bare_key (lit "server"), PV None (PPObj [(bare_key (lit "host"), bare_key (lit "h")); (bare_key (lit "port"), bare_key (lit "80"))]));
    (py_unit, PV None (PPObj [(bare_key (lit "list"), PV None (PPSeq [bare_key (lit "a"); PV (Some (lit "b")) (PPObj []); PV None (PPScalar KQuoted (lit "}"))]))]))].
Proof.
  split; [|vm_compute; reflexivity]. intros toks r R.
  destruct (py_toks C92_source) as [[l|b e|]| |] eqn:E; try (vm_compute in E; discriminate).
  assert (K : never_negative 0 l = true) by (vm_compute in E; injection E as <-; reflexivity).
  pose proof (lexed_listed is_upper int16_ascii C92_source _ _ _ E [] toks r (lexed_nil _ _ _) R) as (more & ->).
  apply (never_negative_ok toks 0 more); [exact K|lia].
Qed.
