(** C04-C08, C41, C42: the event parser. *)
From Coq Require Import String.
From Verif Require Import Base BaseProofs TokModel LexModel LexSpec EscapeProofs LexProofs PropLex
  ParseModel ParseSpec ParseProofs EmitProofs RunProofs DupProofs.

(** Two decision helpers for the examples. *)
Lemma no_bsl_u src : ~ In cBSL src -> ~ has_bsl_u src.
Proof. intros H (a & b & ->). apply H, in_or_app. right. now left. Qed.

Ltac not_in := let H := fresh in intros H; vm_compute in H; repeat destruct H as [H|H]; discriminate || contradiction.

(** ** C04 *)

(** For every source on which the lexer does not panic (see C03), calling [next_event] of a document parser
    or of an expression parser returns finitely many events and then [None] for ever, unless a call panics;
    and a call can only panic if the source contains a backslash followed by [u] (see C42). *)
Theorem C04_parser_stops_partial : forall src ls, lexemes src = Ok ls ->
  forall p, p = parser_new src ls \/ p = parser_new_expr src ls ->
  exists evs p', calls p evs p' /\
    ((exists p'', next_event p' = Ok (None, p'') /\ forall m, silent m p'') \/
     (next_event p' = Panic /\ has_bsl_u src)).
Proof. exact parser_stops. Qed.
Print Assumptions C04_parser_stops_partial.

Definition C04_src : str := lit "a {b (1 2), c>d} 3
@t x".
Example C04_example : exists ls evs, lexemes C04_src = Ok ls /\
  events_from 40 (parser_new C04_src ls) = Ok evs /\ length evs = 25.
Proof.
  eexists _, _. split; [vm_compute; reflexivity|]. split; vm_compute; reflexivity.
Qed.

(** ** C05 *)

Definition run_events (src : str) : res (list event) :=
  do ls <- lexemes src; events_from (20 + 10 * length src) (parser_new src ls).

Lemma run_parses src evs : run_events src = Ok evs -> parses src evs.
Proof.
  unfold run_events, bind. destruct (lexemes src) as [ls| |] eqn:E; try discriminate. intros H. exists ls. eauto.
Qed.

(** The full statement (all events nest) is false: an explicit object after the first entry of a document
    is opened inside the implicit root object, and after its end the document ends without closing the root. *)
Theorem C05_balanced_refuted : exists src evs, parses src evs /\ ~ balanced evs.
Proof.
  exists (lit "a 1
{b 2}"). eexists. split; [apply run_parses; vm_compute; reflexivity|]. vm_compute. discriminate.
Qed.
Print Assumptions C05_balanced_refuted.

(** A doc comment before the braces has the same effect. *)
Theorem C05_doc_comment_refuted : exists evs, parses (lit "/// about
{b 2}") evs /\ ~ balanced evs.
Proof. eexists. split; [apply run_parses; vm_compute; reflexivity|]. vm_compute. discriminate. Qed.
Print Assumptions C05_doc_comment_refuted.

(** Every closing event finds its opening event on top of the stack, and at the end the stack is empty,
    except in the situation of the refutation: an object opened directly in the root object, and then
    exactly the root object stays open. *)
Theorem C05_nested_partial : forall src evs, parses src evs ->
  balanced evs \/ (nest [] evs = Some [FObj] /\ object_in_object evs).
Proof. exact parses_nest. Qed.
Print Assumptions C05_nested_partial.

(** And after every number of calls the events so far nest, also if a later call panics. *)
Theorem C05_always_nested : forall src ls st p evs p', lex_calls (lex_new src) ls st ->
  p = parser_new src ls \/ p = parser_new_expr src ls -> calls p evs p' -> exists open, nest [] evs = Some open.
Proof. intros src ls st p evs p' Hl Hp Hc. exact (proj2 (history_inv src ls st p evs p' Hl Hp Hc)). Qed.
Print Assumptions C05_always_nested.

Example C05_example : exists evs, parses C04_src evs /\ balanced evs /\ length evs = 25.
Proof.
  eexists. split; [apply run_parses; vm_compute; reflexivity|]. split; vm_compute; reflexivity.
Qed.

(** ** C06 *)

(** The full statement (DocumentEnd is the last event) is false: content after the root braces is reported
    after DocumentEnd. *)
Theorem C06_last_event_refuted : exists src evs, parses src evs /\
  forall a e, evs = a ++ [e] -> ev_kind e <> EvDocEnd.
Proof.
  exists (lit "{a 1} b"). eexists. split; [apply run_parses; vm_compute; reflexivity|].
  intros a e H. apply (f_equal (fun l => last l e)) in H. rewrite last_last in H. vm_compute in H. subst e. vm_compute. discriminate.
Qed.
Print Assumptions C06_last_event_refuted.

(** One DocumentStart, first; one DocumentEnd, last except for at most one TrailingContent error. *)
Theorem C06_document_frame_partial : forall src evs, parses src evs ->
  exists a mid b tail, evs = a :: mid ++ b :: tail /\ ev_kind a = EvDocStart /\ ev_kind b = EvDocEnd /\
    Forall (fun e => ~ doc_event e) mid /\ (tail = [] \/ exists t, tail = [t] /\ trailing_event t).
Proof. exact parses_frame. Qed.
Print Assumptions C06_document_frame_partial.

Example C06_example : exists evs, parses C04_src evs /\
  option_map ev_kind (hd_error evs) = Some EvDocStart /\ option_map ev_kind (hd_error (rev evs)) = Some EvDocEnd.
Proof.
  eexists. split; [apply run_parses; vm_compute; reflexivity|]. split; vm_compute; reflexivity.
Qed.

(** ** C07 *)

(** Every event that is returned for a source, in document and in expression mode, also if a later call
    panics: [ls] are the lexemes read so far, [evs] the events returned so far. *)
Theorem C07_event_spans : forall src ls st p evs p', lex_calls (lex_new src) ls st ->
  p = parser_new src ls \/ p = parser_new_expr src ls -> calls p evs p' ->
  Forall (fun e => sp_start (ev_span e) <= sp_end (ev_span e) /\ sp_end (ev_span e) <= blen src) evs.
Proof. intros src ls st p evs p' Hl Hp Hc. exact (proj1 (history_inv src ls st p evs p' Hl Hp Hc)). Qed.
Print Assumptions C07_event_spans.

(** A source on which a later call panics. *)
Definition C07_panic_src : str := lit "a 1
k ""\u{" ++ repeat 233%N 5 ++ lit "}""".
Example C07_panic_example : exists ls st evs p', lex_calls (lex_new C07_panic_src) ls st /\ calls (parser_new C07_panic_src ls) evs p' /\
  next_event p' = Panic /\ length evs = 6.
Proof.
  destruct (lexemes_calls (3 + 2 * length C07_panic_src) (lex_new C07_panic_src)
    ltac:(let x := eval vm_compute in (lexemes C07_panic_src) in match x with Ok ?l => exact l end)) as (st & Hl); [vm_compute; reflexivity|].
  eexists _, st, _, _. split; [exact Hl|]. split.
  - do 6 (eapply calls_cons; [vm_compute; reflexivity|]). apply calls_nil.
  - split; vm_compute; reflexivity.
Qed.

(** In particular for the events of a whole document. *)
Theorem C07_document_spans : forall src evs, parses src evs ->
  Forall (fun e => sp_start (ev_span e) <= sp_end (ev_span e) /\ sp_end (ev_span e) <= blen src) evs.
Proof. exact parses_spans. Qed.
Print Assumptions C07_document_spans.

Example C07_example : exists evs, parses C04_src evs /\
  map ev_span (firstn 4 evs) = [mkspan 0 0; mkspan 0 0; mkspan 0 1; mkspan 0 1].
Proof.
  eexists. split; [apply run_parses; vm_compute; reflexivity|]. vm_compute. reflexivity.
Qed.

(** ** C08 *)

(** The full statement is false: a tag without payload and the same tag with the payload [@] give the same
    key event, but are different keys for the duplicate check. *)
Theorem C08_same_key_refuted : exists src evs k s1 s2, parses src evs /\
  In ([(Some k, s1); (Some k, s2)], []) (brace_objects src evs).
Proof.
  exists (lit "{@t 1, @t@ 2}"). do 4 eexists. split; [apply run_parses; vm_compute; reflexivity|]. vm_compute. left. reflexivity.
Qed.
Print Assumptions C08_same_key_refuted.

Definition no_errors (evs : list event) : Prop := Forall (fun e => forall k, ev_kind e <> EvError k) evs.

Ltac no_errors := repeat (constructor; [intros ? ?; discriminate|]); constructor.

(** Dotted keys inside braces are not checked at all. *)
Theorem C08_dotted_refuted : exists evs, parses (lit "{a.b 1, a.b 2}") evs /\ no_errors evs.
Proof. eexists. split; [apply run_parses; vm_compute; reflexivity|]. no_errors. Qed.
Print Assumptions C08_dotted_refuted.

(** Keys with escapes that the parser accepts but the lexer does not (C41) are compared undecoded. *)
Theorem C08_escaped_refuted : exists evs, parses (lit "{""\u{}"" 1, """" 2}") evs /\ no_errors evs.
Proof. eexists. split; [apply run_parses; vm_compute; reflexivity|]. no_errors. Qed.
Print Assumptions C08_escaped_refuted.

(** In every document, for every object written with braces at any depth: if its keys are text, [@] or tags
    with text (quoted text with a decoding), the DuplicateKey errors of that object are exactly the keys
    that occurred before in it, in order, each pointing at the first occurrence; in particular none if the keys
    differ pairwise. Missing: entries with dotted paths, tags without text, keys with invalid escapes. *)
Theorem C08_duplicates_partial : forall src evs, parses src evs ->
  Forall (report_ok src) (brace_objects src evs).
Proof. exact parses_dups. Qed.
Print Assumptions C08_duplicates_partial.

Definition C08_src : str := lit "k {a 1, ""a"" 2, @, @t""x"", @u""x"", a}".
Example C08_example : exists evs, parses C08_src evs /\
  exists ks, brace_objects C08_src evs = [(map (fun x => (Some (fst x), snd x)) ks, [(mkspan 3 4, mkspan 8 11); (mkspan 3 4, mkspan 32 33)])] /\
    length ks = 6 /\ Forall (fun x => plain_key C08_src (fst x) (snd x)) ks.
Proof.
  eexists. split; [apply run_parses; vm_compute; reflexivity|].
  eexists [(_, _); (_, _); (_, _); (_, _); (_, _); (_, _)]. split; [vm_compute; reflexivity|]. split; [reflexivity|].
  repeat constructor. exists (lit "a"). split; [vm_compute; reflexivity|]. apply process_escapes_decodes. vm_compute. reflexivity.
Qed.

(** ** C41: invalid escapes are reported *)

Definition escape_error (e : event) : Prop := exists s, ev_kind e = EvError (EInvalidEscape s).

(** The full statement is false: the parser re-validates the text of a scalar that the lexer rejected with
    weaker rules, so for some texts without any decoding no InvalidEscape error is emitted.
    An empty escape, a code with too many digits, and three digits instead of four are all accepted. *)
Theorem C41_reported_refuted : exists src evs, parses src evs /\
  (exists a b raw, src = a ++ cDQ :: raw ++ cDQ :: b /\ ~ In cDQ raw /\ forall v, ~ decodes raw v) /\
  Forall (fun e => ~ exists k, ev_kind e = EvError k) evs.
Proof.
  exists (lit "k ""\u123"""). eexists. split; [apply run_parses; vm_compute; reflexivity|]. split.
  - exists (lit "k "), [], (lit "\u123"). split; [reflexivity|]. split; [not_in|].
    intros v Hv. assert (process_escapes (lit "\u123") = inl v) as H by now apply process_escapes_decodes. vm_compute in H. discriminate.
  - repeat constructor; intros [k Hk]; discriminate Hk.
Qed.
Print Assumptions C41_reported_refuted.

(** Without backslash-u in the text the re-validation reports exactly the texts without a decoding.
    Missing for the full property: unicode escapes, and atoms that the parser drops (third and later
    atoms of an entry). *)
Theorem C41_revalidation_partial : forall raw, ~ has_bsl_u raw ->
  exists l, validate_escapes raw = Ok l /\ (l = [] <-> exists v, decodes raw v).
Proof. exact validate_escapes_iff. Qed.
Print Assumptions C41_revalidation_partial.

Example C41_example : ~ has_bsl_u (lit "a\q\n") /\ validate_escapes (lit "a\q\n") = Ok [(1, lit "\q")].
Proof.
  split; [|vm_compute; reflexivity]. intros (a & b & H).
  change (lit "a\q\n") with [97; 92; 113; 92; 110]%N in H.
  repeat (destruct a as [|? a]; cbn [app] in H; [discriminate H|try discriminate H; injection H as _ H]).
Qed.

(** ** C42: the parser never panics *)

(** False: re-validation of an escape in braces slices the text at a byte that need not be a character
    boundary (12 bytes after the backslash). *)
Theorem C42_no_panic_refuted : exists src ls, lexemes src = Ok ls /\ events_from 10 (parser_new src ls) = Panic.
Proof.
  exists (lit "k ""\u{" ++ repeat 233%N 5 ++ lit "}"""). eexists.
  split; [vm_compute; reflexivity|]. vm_compute. reflexivity.
Qed.
Print Assumptions C42_no_panic_refuted.

Theorem C42_parses_total_partial : forall src, ~ has_hash_run 256 src -> ~ has_bsl_u src ->
  exists evs, parses src evs.
Proof. exact parses_total. Qed.
Print Assumptions C42_parses_total_partial.

Example C42_example : ~ has_hash_run 256 C04_src /\ ~ has_bsl_u C04_src.
Proof. split; [apply no_hash_run; not_in|apply no_bsl_u; not_in]. Qed.
