(** C03, C40: the lexer. *)
From Coq Require Import String.
From Verif Require Import Base TokModel LexModel LexSpec EscapeProofs LexProofs.

(** C03, full statement: the lexer never panics. It is false: the tokenizer counts the hashes of a raw
    string in a saturating [u8], the lexer counts them without bound and then slices with a range whose
    start lies after its end. *)
Theorem C03_no_panic_refuted : exists src, lexemes src = Panic.
Proof.
  exists (lit "r" ++ repeat cHASH 256 ++ lit """""" ++ repeat cHASH 255). vm_compute. reflexivity.
Qed.
Print Assumptions C03_no_panic_refuted.

(** Nor is the content of every raw string its text: beyond 255 hashes its end is cut off. *)
Theorem C03_raw_content_refuted : exists a v sp, v <> a /\ lexemes (lit "r" ++ repeat cHASH 256 ++ cDQ :: a ++ cDQ :: repeat cHASH 255) = Ok [LxScalar sp v Raw].
Proof. exists (lit "abc"), (lit "ab"), (mkspan 0 517). split; [discriminate|]. vm_compute. reflexivity. Qed.
Print Assumptions C03_raw_content_refuted.

(** For every source: the lexer stops, without a panic except at a raw scalar whose hashes are more than 255
    and whose text has no end of as many bytes as there are hashes too many ([torn_raw]); otherwise each
    lexeme's span is a slice of the source whose text spells the lexeme ([lexeme_ok]), the spans are ordered,
    do not overlap and stay inside the source, and only blanks stand between two lexemes unless one of them
    is an error. What was returned before a panic is in order as well. *)
Theorem C03_every_source : forall src,
  (exists ls, lexemes src = Ok ls /\ Forall (lexeme_ok src) ls /\ lex_ordered 0 ls (blen src) /\
    ~ In LxEof ls /\ lex_covers src 0 false ls) \/
  (lexemes src = Panic /\ exists pre t post, src = pre ++ t ++ post /\ torn_raw t).
Proof. exact lexemes_cases. Qed.
Print Assumptions C03_every_source.

Theorem C03_before_panic : forall src ls st, lex_calls (lex_new src) ls st ->
  Forall (lexeme_ok src) ls /\ lex_ordered 0 ls (blen src) /\ ~ In LxEof ls.
Proof. intros src ls st H. exact (lex_calls_good src _ _ _ H (linv_new src) (lclean_new src)). Qed.
Print Assumptions C03_before_panic.

Example C03_before_panic_example : let src := lit "a r" ++ repeat cHASH 256 ++ lit """""" ++ repeat cHASH 255 in
  lexemes src = Panic /\ exists st, lex_calls (lex_new src) [LxScalar (mkspan 0 1) (lit "a") Bare] st.
Proof.
  split; [vm_compute; reflexivity|]. eexists. eapply lc_cons; [vm_compute; reflexivity|discriminate|constructor].
Qed.

(** For every source without 256 consecutive hashes the lexer stops without a panic; each lexeme's span is
    a slice of the source whose text spells the lexeme ([lexeme_ok]: quoted and heredoc contents are the
    decoded text, raw contents the verbatim text, error lexemes about escapes only for text that has no
    decoding); the spans are ordered, do not overlap and stay inside the source; and only blanks stand
    between two lexemes unless one of them is an error. *)
Theorem C03_lexemes_total_partial : forall src, ~ has_hash_run 256 src ->
  exists ls, lexemes src = Ok ls /\ Forall (lexeme_ok src) ls /\ lex_ordered 0 ls (blen src) /\
    ~ In LxEof ls /\ lex_covers src 0 false ls.
Proof. exact lexemes_total. Qed.
Print Assumptions C03_lexemes_total_partial.

Lemma no_hash_run src : ~ In cHASH src -> ~ has_hash_run 256 src.
Proof. intros H (a & b & ->). apply H, in_or_app. right. now left. Qed.

Definition C03_src : str := lit "k>v ""a\u{41}"" <<E,rs
   x
  y
  E
".
Example C03_example : ~ has_hash_run 256 C03_src /\
  lexemes C03_src = Ok
    [LxAttrKey (mkspan 0 2) (mkspan 0 1) (lit "k"); LxScalar (mkspan 2 3) (lit "v") Bare;
     LxScalar (mkspan 4 13) (lit "aA") Quoted;
     LxScalar (mkspan 14 33) (lit " x
y
") Heredoc; LxNewline (mkspan 33 34)].
Proof.
  split; [|vm_compute; reflexivity].
  apply no_hash_run. unfold C03_src. intros H. vm_compute in H. repeat destruct H as [H|H]; discriminate || contradiction.
Qed.

(** C40. Dedenting by [n] computes exactly [heredoc_value n]: the same lines, each without its leading
    blanks but never without more than [n] of them. *)
Theorem C40_dedent : forall n body v, dedent body n = v <-> heredoc_value n body v.
Proof. exact dedent_iff. Qed.
Print Assumptions C40_dedent.

Theorem C40_dedent_zero : forall body, dedent body 0 = body.
Proof. exact dedent_0. Qed.
Print Assumptions C40_dedent_zero.

Example C40_example : dedent (lit "   a
 b

  c
") 2 = lit " a
b

c
".
Proof. vm_compute. reflexivity. Qed.
