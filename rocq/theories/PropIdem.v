(** C61: formatting twice is formatting once. *)
From Coq Require Import String.
From Verif Require Import Base BaseProofs TokModel ParseModel ParseSpec PropParse TreeModel TreeSpec CstModel CstSpec CstProofs CstFmtModel CstFmtSpec PropCstFmt IdemSpec IdemDoc.

(** The full statement. *)
Definition idempotent (indent src : str) : Prop := forall out, format_source indent src = Ok out -> format_source indent out = Ok out.

(** Proved for the sources that the formatter leaves alone because of errors; missing are the others, for which see the next theorem and the refutation. *)
Theorem C61_errors_partial : forall indent src tree errors, cst_parse src = Ok (tree, errors) -> errors <> [] -> idempotent indent src.
Proof. intros indent src tree errors E N out H. unfold format_source in *. rewrite E in *. destruct errors; [congruence|]. cbn [bind] in H. injection H as <-. rewrite E. reflexivity. Qed.
Print Assumptions C61_errors_partial.
Example C61_errors_example : exists tree errors, cst_parse (lit "a {b 1") = Ok (tree, errors) /\ errors <> [].
Proof. eexists _, _. split; [vm_compute; reflexivity|discriminate]. Qed.

(** And for the sources that the parser accepts and that are tidy in the sense of IdemSpec: no heredoc, no entry with
    several values or without a key, no doc comment before a comma, a line comment or inside a sequence, and no line
    end in an empty object. Missing are the other sources without errors; of them some are refuted below. *)
Theorem C61_tidy_partial : forall indent src tree, forallb is_blank indent = true -> cst_parse src = Ok (tree, []) -> tidy tree = true -> idempotent indent src.
Proof. intros indent src tree B E T out H. exact (tidy_twice indent B src tree out E T H). Qed.
Print Assumptions C61_tidy_partial.
(** A source with comments, doc comments, nested objects on one and on several lines, sequences, tags with payloads,
    attributes and blank lines, which the first formatting changes. *)
Definition tidy_source : str :=
  lit "// about" ++ nl ++ lit "@schema  s.styx" ++ nl ++ lit "  /// The name." ++ nl ++ lit "name   x" ++ nl ++ lit "server {host a,port 1}" ++ nl ++
  lit "list ( 1   @some(2 3)" ++ nl ++ nl ++ lit "{a b" ++ nl ++ lit "  c @} // end" ++ nl ++ lit ")" ++ nl ++ lit "opts a>1   b>(2 3), tail @rgb{r 1" ++ nl ++ lit "/// g" ++ nl ++ lit " g ""two""}" ++ nl ++ nl ++ nl ++ lit "last @a/@b".
Example C61_tidy_example : exists tree out, cst_parse tidy_source = Ok (tree, []) /\ tidy tree = true /\ format_source (lit "    ") tidy_source = Ok out /\ out <> tidy_source.
Proof. eexists _, _. split; [vm_compute; reflexivity|]. split; [vm_compute; reflexivity|]. split; [vm_compute; reflexivity|]. vm_compute. discriminate. Qed.

Definition changes (indent src : str) : bool :=
  match format_source indent src with
  | Ok a => match format_source indent a with Ok b => negb (str_eqb a b) | _ => false end
  | _ => false
  end.
Lemma changes_sound indent src : changes indent src = true -> ~ idempotent indent src.
Proof.
  unfold changes, idempotent. destruct (format_source indent src) as [a| |]; try discriminate. intros H I. rewrite (I a eq_refl) in H. rewrite (proj2 (str_eqb_eq a a) eq_refl) in H. discriminate.
Qed.

(** An empty object with a line end inside forces the sequence around it onto several lines, but is itself written
    without the line end. After a heredoc a line end and a comma, a block gets two blank lines first and one the
    second time. A line comment behind a doc comment, in an object, gets one more blank line before it each time. All three sources
    are accepted by the parser. *)
Theorem C61_refuted : Forall (fun src => (exists t, tree src (inl t)) /\ ~ idempotent (lit "    ") src)
  [lit "k (" ++ nl ++ lit "{ " ++ nl ++ lit "} )" ++ nl;
   lit "a <<E" ++ nl ++ lit "E" ++ nl ++ lit ", b {" ++ nl ++ lit "c 1}" ++ nl ++ lit "d 2" ++ nl;
   lit "x {" ++ nl ++ lit "/// d" ++ nl ++ lit "// c" ++ nl ++ lit "a 1}"].
Proof.
  constructor; [|constructor; [|constructor; [|constructor]]];
    (split; [eexists; eexists; split; [apply run_parses; vm_compute; reflexivity | vm_compute; reflexivity]|apply changes_sound; vm_compute; reflexivity]).
Qed.
Print Assumptions C61_refuted.
