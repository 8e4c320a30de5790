(** C97: the S-expressions of the JavaScript implementation. *)
From Coq Require Import String.
From Verif Require Import Base BaseProofs TokModel LexModel ParseModel ParseSpec PropParse TreeModel TreeSpec LexRunProofs SexpModel SexpSpec SexpProofs PySexpModel PySexpSpec PySexpProofs PropSexp PropPySexp
  JsSexpModel JsSexpSpec JsSexpProofs.

(** For the trees for which Rust and Python print the same (C96) JavaScript prints it too, if Rust writes the control characters as numbers
    and [\s] of JavaScript contains the blank and not the closing parenthesis. The replacement by which JavaScript closes its
    sequences never hits anything but the last line. *)
Theorem C97_same_output : forall unprintable js_space, (forall c, (c < 32)%N -> unprintable c = true) -> js_space cSP = true -> js_space cRP = false ->
  forall es, entries_alike unprintable es -> js_document js_space es = py_format_document es /\
  forall tag sp rest, print_sexp unprintable (Val tag (PObj es sp) None) rest = js_document js_space es ++ rest.
Proof.
  intros u sp C S1 S2 es H. pose proof (js_document_same u C sp S1 S2 es H) as E. split; [exact E|]. intros tag a rest. rewrite E. now apply document_same.
Qed.
Print Assumptions C97_same_output.

Definition js_ws (c : char) : bool := existsb (N.eqb c) [9; 10; 11; 12; 13; 32; 160; 5760; 8192; 8193; 8194; 8195; 8196; 8197; 8198; 8199; 8200; 8201; 8202; 8232; 8233; 8239; 8287; 12288; 65279]%N.
Example C97_example : (forall c, (c < 32)%N -> low c = true) /\ js_ws cSP = true /\ js_ws cRP = false /\
  exists es, tree c96_source (inl (Val None (PObj es None) None)) /\ entries_alike low es /\ List.length (js_document js_ws es) = 617.
Proof.
  split; [intros c L; unfold low; now rewrite (proj2 (N.ltb_lt c 32) L)|]. split; [reflexivity|]. split; [reflexivity|].
  destruct C96_example as (es & T & A & L). exists es. split; [exact T|]. split; [exact A|]. rewrite (js_document_same low); auto. intros c Lc. unfold low. now rewrite (proj2 (N.ltb_lt c 32) Lc).
Qed.

(** For the trees that Rust reads from a source only the texts matter. *)
Theorem C97_sources : forall unprintable js_space, (forall c, (c < 32)%N -> unprintable c = true) -> js_space cSP = true -> js_space cRP = false ->
  forall src v, tree src (inl v) -> (forall w, part_of w v -> fine_texts unprintable w) ->
  exists es sp, v = Val None (PObj es sp) None /\ js_document js_space es = py_format_document es /\ forall rest, print_sexp unprintable v rest = js_document js_space es ++ rest.
Proof. intros u sp C S1 S2. exact (js_source u C sp S1 S2). Qed.
Print Assumptions C97_sources.
Example C97_sources_example : exists v, tree c96_source (inl v) /\ forall w, part_of w v -> fine_texts low w.
Proof. exact C96_sources_example. Qed.

(** Whatever stands in the items of a sequence, the replacement removes exactly the line end and the indentation behind the last item. *)
Theorem C97_sequences : forall js_space, js_space cSP = true -> js_space cRP = false -> forall items sp n, items <> [] ->
  js_payload js_space (PSeq items sp) n = prefix n ++ lit "(sequence " ++ py_span sp ++ [cLF] ++ join_lines (map (fun i => js_value js_space i (S n)) items) ++ lit ")".
Proof. exact js_sequence. Qed.
Print Assumptions C97_sequences.
(** A text that looks like the closing line, and an object whose last line does *)
Example C97_sequences_example : js_payload js_ws (PSeq [Val None (PScalar (cLF :: lit "  )") Quoted None) None; Val None (PObj [Ent (Val None PNone None) (Val None PNone None) None] None) None] None) 0 =
  join_lines [lit "(sequence [-1, -1]"; lit "  (scalar [-1, -1] quoted ""\n  )"")"; lit "  (object [-1, -1]"; lit "    (entry"; lit "      (unit [-1, -1])"; lit "      (unit [-1, -1]))"; lit "  ))"].
Proof. vm_compute. reflexivity. Qed.

(** Texts are written as by Rust exactly if they have no control characters (apart from tab and line ends) and nothing else that Rust writes as a number. *)
Theorem C97_texts : forall unprintable s, debug unprintable s [] = cDQ :: json_escape s ++ [cDQ] <-> Forall (written_alike_js unprintable) s.
Proof. exact js_texts. Qed.
(** Swift writes every text as Python does. *)
Theorem C97_swift_texts : forall s, swift_escape s = escape_string s.
Proof. exact swift_same. Qed.
Example C97_texts_example : Forall (written_alike_js low) (lit "a\" ++ [cDQ; cTAB; cLF; 233%N]) /\ json_escape (lit "a\" ++ [cDQ; cTAB; cLF; 233%N]) = lit "a\\\" ++ [cDQ] ++ lit "\t\n" ++ [233%N] /\
  swift_escape (lit "a\" ++ [cDQ; cTAB; cCR]) = lit "a\\\" ++ [cDQ] ++ lit "\t\r" /\ json_escape [27%N] = lit "\u001b".
Proof. split; [apply C97_texts; reflexivity|]. repeat split. Qed.
(** One control character is written in three ways by Rust, Python and JavaScript. *)
Theorem C97_control_refuted : exists s, debug low s [] <> cDQ :: json_escape s ++ [cDQ] /\ debug low s [] <> cDQ :: escape_string s ++ [cDQ] /\ json_escape s <> escape_string s.
Proof. exists [1%N]. repeat split; discriminate. Qed.
