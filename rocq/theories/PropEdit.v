(** C62-C68: what the language server does with a parsed document. *)
From Coq Require Import String.
From Verif Require Import Base BaseProofs TokModel TokSpec LexModel LexSpec LexProofs LexRunProofs PropLex ParseModel ParseSpec RunProofs PropParse
  TreeModel TreeSpec TreeProofs BuildProofs LinkProofs PathSpec PathProofs GrammarSpec GrammarProofs GrammarRunProofs GrammarSoundProofs GrammarTreeProofs PropGrammar
  SchemaModel LspModel LspSpec LspProofs PropLsp CstModel CstSpec CstFmtModel PropCst HiProofs EditModel EditSpec EditLayProofs EditProofs EditDepthProofs EditShowProofs EditFillSpec EditFillProofs.
Local Open Scope nat_scope.
Notation length := List.length.

(** Trees for the examples. *)
Definition read_tree (src : str) : option value :=
  match run_events src with Ok evs => match build evs with inl v => Some v | inr _ => None end | _ => None end.
Lemma read_tree_ok src v : read_tree src = Some v -> tree src (inl v).
Proof.
  unfold read_tree. destruct (run_events src) as [evs| |] eqn:E; try discriminate. destruct (build evs) eqn:Eb; [|discriminate]. intros [= ->].
  exists evs. split; [now apply run_parses|exact Eb].
Qed.
Ltac tree_tac := apply read_tree_ok; vm_compute; reflexivity.

(** ** The places in a parsed document *)

Lemma parsed_rows src v : clear_escapes src -> tree src (inl v) ->
  exists ls es evs, gdoc (blen src) ls es evs /\ row src 0 ls /\ v = Val None (PObj (map to_entry es) None) None.
Proof.
  intros Hu Ht. apply C50_tree in Ht as (ls & es & evs & El & Hg & ->); auto. destruct (lexemes_good src ls El) as (H1 & H2 & _). exists ls, es, evs. splits; auto. split; auto.
Qed.

(** The keys and values of a parsed document nest: every value lies in its parent, behind its key and behind what comes before. Of the root's
    entries only those written as a dotted path are different. *)
Theorem C63_places : forall src v, clear_escapes src -> tree src (inl v) ->
  (forall es, as_object v = Some es -> Forall (fun e => ~ path_like e) es) -> laid_document (between src) (blen src) v.
Proof.
  intros src v Hu Ht Hp. destruct (parsed_rows src v Hu Ht) as (ls & es & evs & Hg & Hr & ->). eexists. split; [reflexivity|].
  eapply gdoc_laid; eauto.
Qed.
Print Assumptions C63_places.

(** ** C62: the paths of errors lead to the values *)

(** The path of the validator's message that consists of keys leads to the value that one finds by going along the keys.
    Missing: indices (refuted below), keys with a dot and keys in brackets. *)
Theorem C62_path_partial : forall v l w, Forall key_step l -> (find_value_by_path v (path_text true l) = Some w <-> reaches v l w).
Proof. exact find_path_reaches. Qed.
Print Assumptions C62_path_partial.

Definition C62_src : str := lit "srv {ports {http x}}".
Example C62_example : exists v w, tree C62_src (inl v) /\ Forall key_step [SKey (lit "srv"); SKey (lit "ports"); SKey (lit "http")] /\
  path_text true [SKey (lit "srv"); SKey (lit "ports"); SKey (lit "http")] = lit "srv.ports.http" /\
  find_value_by_path v (lit "srv.ports.http") = Some w /\ v_span w = Some (mkspan 17 18) /\ get_error_span v (lit "srv.ports.http") = Some (mkspan 17 18).
Proof.
  eexists _, _. split; [tree_tac|]. split.
  { repeat constructor; cbn; try discriminate; try not_in; intros ([|a [|b [|c [|d m]]]] & H); vm_compute in H; discriminate. }
  splits; vm_compute; reflexivity.
Qed.

(** The full statement is false: an index is looked for in an object, so no path into a sequence leads anywhere. *)
Theorem C62_index_refuted : exists src v w l, tree src (inl v) /\ reaches v l w /\ path_text true l = lit "xs[1]" /\ find_value_by_path v (path_text true l) = None.
Proof.
  exists (lit "xs (1 b)"). eexists _, _, [SKey (lit "xs"); SIdx 1]. split; [tree_tac|]. splits; try (vm_compute; reflexivity).
  eapply reach_step; [apply child_key; eexists [], _, _; splits; [reflexivity|vm_compute; reflexivity|reflexivity|intros []]|]. eapply reach_step; [eapply child_idx; reflexivity|apply reach_here].
Qed.
Print Assumptions C62_index_refuted.

(** A key with a dot is taken for two. *)
Theorem C62_dot_refuted : exists src v w w' l, tree src (inl v) /\ reaches v l w /\ find_value_by_path v (path_text true l) = Some w' /\ v_span w <> v_span w'.
Proof.
  exists (lit "{a {b 1}, ""a.b"" 2}"). eexists _, _, _, [SKey (lit "a.b")]. split; [tree_tac|]. splits; [|vm_compute; reflexivity|].
  - eapply reach_step; [apply child_key; eexists [_], _, _; splits; [reflexivity|vm_compute; reflexivity|reflexivity|intros [H|[]]; vm_compute in H; discriminate]|apply reach_here].
  - vm_compute. discriminate.
Qed.
Print Assumptions C62_dot_refuted.

(** ** C63: the path at the cursor *)

(** Keys and values of a document are marked with paths. The path at the cursor is the one of the innermost mark there: it belongs to a mark
    under the cursor, and the paths of all other marks under the cursor lead to it. There is none exactly if no mark is under the cursor.
    Missing: dotted root entries and keys that are not texts (both refuted below). *)
Theorem C63_cursor_partial : forall src v o, clear_escapes src -> tree src (inl v) ->
  (forall es, as_object v = Some es -> Forall (fun e => ~ path_like e) es) -> text_keyed v ->
  (forall p, find_path_in_value o v = Some p <->
     (exists s, mark v p s /\ over s o) /\ forall p' s', mark v p' s' -> over s' o -> prefix_of p' p) /\
  (find_path_in_value o v = None <-> forall p s, mark v p s -> ~ over s o).
Proof. intros src v o Hu Ht Hp Hk. eapply path_at_cursor; [|exact Hk]. apply (C63_places src); assumption. Qed.
Print Assumptions C63_cursor_partial.

Ltac plain_doc := split; [apply no_bsl_u_clear, no_bsl_u; not_in|].
Ltac no_paths := let es := fresh in let E := fresh in intros es E; vm_compute in E; injection E as <-; repeat constructor;
  let H1 := fresh in let H2 := fresh in let H3 := fresh in
  intros (? & ? & ? & ? & H1 & H2 & H3); cbn in H1, H2; try discriminate; injection H1 as <- <- <-; injection H2 as <-; cbn in H3; discriminate.
(** A check of [text_keyed] for the examples. *)
Fixpoint keyedb (v : value) : bool :=
  match v with
  | Val _ (PObj es _) _ => forallb (fun e => let 'Ent k w _ := e in match as_str k with Some _ => keyedb w | None => false end) es
  | Val _ (PSeq l _) _ => forallb keyedb l
  | _ => true
  end.
Lemma keyedb_ok v : keyedb v = true -> text_keyed v.
Proof.
  induction v as [t p sp IHo IHs] using value_nested; intros H. constructor.
  - intros es osp ->. specialize (IHo _ _ eq_refl). cbn [keyedb] in H. rewrite forallb_forall in H. rewrite Forall_forall in *. intros [k w d] I. specialize (H _ I). specialize (IHo _ I). cbn in *.
    destruct (as_str k); [|discriminate]. eauto.
  - intros l ssp ->. specialize (IHs _ _ eq_refl). cbn [keyedb] in H. rewrite forallb_forall in H. rewrite Forall_forall in *. auto.
Qed.
Ltac text_keys := apply keyedb_ok; vm_compute; reflexivity.

Definition C63_src : str := lit "a {b (x yy), c 1}, d 2".
Example C63_example : clear_escapes C63_src /\ exists v, tree C63_src (inl v) /\
  (forall es, as_object v = Some es -> Forall (fun e => ~ path_like e) es) /\ text_keyed v /\
  find_path_in_value 9 v = Some [SKey (lit "a"); SKey (lit "b"); SIdx 1] /\ find_path_in_value 2 v = Some [SKey (lit "a")] /\ find_path_in_value 18 v = None.
Proof.
  plain_doc. eexists. split; [tree_tac|]. split; [no_paths|]. split; [text_keys|]. splits; vm_compute; reflexivity.
Qed.

(** The full statement is false. In a value whose key is not a text the path at the cursor is one that leads nowhere; *)
Theorem C63_unit_key_refuted : exists src v o p, tree src (inl v) /\ find_path_in_value o v = Some p /\ forall w, ~ reaches v p w.
Proof.
  exists (lit "@ {a 1}"). eexists _, 5, [SKey (lit "a")]. split; [tree_tac|]. split; [vm_compute; reflexivity|].
  intros w H. inversion_clear H as [|? ? ? ? ? H1 _]. inversion_clear H1 as [? ? ? ? ? ? (a & e & b & E & Hk & _)|]. destruct a as [|x [|]]; try discriminate. injection E as <- <-. discriminate.
Qed.
Print Assumptions C63_unit_key_refuted.

(** and on the value of a dotted key there is no path at all. *)
Theorem C63_dotted_refuted : exists src v o p s, tree src (inl v) /\ find_path_in_value o v = None /\ mark v p s /\ over s o.
Proof.
  exists (lit "a.b 1"). eexists _, 4, [SKey (lit "a"); SKey (lit "b")], _. split; [tree_tac|]. split; [vm_compute; reflexivity|]. split.
  - eapply mark_in_value; [left; reflexivity|reflexivity|]. eapply mark_value; [left; reflexivity|reflexivity|reflexivity].
  - vm_compute. split; lia.
Qed.
Print Assumptions C63_dotted_refuted.

(** ** C64: the object at the cursor *)

(** Completion and quick fixes get the smallest object that the cursor touches among those reached through objects, with its path. *)
Theorem C64_object_partial : forall src v o, clear_escapes src -> tree src (inl v) ->
  (forall es, as_object v = Some es -> Forall (fun e => ~ path_like e) es) ->
  exists path es osp, find_object_at_offset v o = Some (mkoc path es osp) /\ object_in v path es osp /\ touched osp o /\
    forall path' es' osp', object_in v path' es' osp' -> touched osp' o -> inside osp osp'.
Proof. intros src v o Hu Ht Hp. eapply object_at_cursor. apply (C63_places src); assumption. Qed.
Print Assumptions C64_object_partial.

Definition C64_src : str := lit "a @t{b {c 1}, d 2}".
Example C64_example : clear_escapes C64_src /\ exists v, tree C64_src (inl v) /\
  (forall es, as_object v = Some es -> Forall (fun e => ~ path_like e) es) /\
  exists es, find_object_at_offset v 9 = Some (mkoc [lit "a"; lit "@t"; lit "b"] es (Some (mkspan 7 12))) /\ length es = 1.
Proof.
  plain_doc. eexists. split; [tree_tac|]. split; [no_paths|]. eexists. split; vm_compute; reflexivity.
Qed.

(** The full statement is false: an object in a sequence is not found, the cursor is taken to be in the object around the sequence. *)
Theorem C64_sequence_refuted : exists src v o c es s, tree src (inl v) /\ find_object_at_offset v o = Some c /\
  object_below v es (Some s) /\ over s o /\ oc_span c = None.
Proof.
  exists (lit "xs ({a 1} {b 2})"). eexists _, 13, _, _, _. split; [tree_tac|]. split; [vm_compute; reflexivity|]. split; [|split].
  - eapply ob_entry; [left; reflexivity|]. eapply ob_item; [right; left; reflexivity|]. apply ob_here.
  - vm_compute. split; lia.
  - reflexivity.
Qed.
Print Assumptions C64_sequence_refuted.

(** ** C65: document symbols *)

(** Symbols are computed without a panic for every document the parser accepts. *)
Theorem C65_total : forall src v, clear_escapes src -> tree src (inl v) -> exists l, symbols src v = Ok l.
Proof.
  intros src v Hu Ht. destruct (parsed_rows src v Hu Ht) as (ls & es & evs & Hg & Hr & ->). apply symbols_total, sized_doc. eapply gdoc_sized; eauto.
Qed.
Print Assumptions C65_total.

(** There is one symbol for each key that is a text, under the symbol of its parent and in the order of the text. The range of a symbol contains its
    selection range and the ranges of its children (the protocol demands the first), and ranges of siblings do not overlap.
    Missing: dotted root entries (refuted below). *)
Theorem C65_symbols_partial : forall src v l, clear_escapes src -> tree src (inl v) ->
  (forall es, as_object v = Some es -> Forall (fun e => ~ path_like e) es) -> symbols src v = Ok l ->
  Forall symbol_ok l /\ apart l /\ outline_below v l.
Proof.
  intros src v l Hu Ht Hp Hs. destruct (C63_places src v Hu Ht Hp) as (es & -> & Hl).
  destruct (all_good_symbols src _ _ _ _ _ _ _ eq_refl Hl l Hs) as (A & B & _ & D). splits; auto. now constructor.
Qed.
Print Assumptions C65_symbols_partial.

Definition C65_src : str := lit "a {b 1, @ 2, c {d @}}
e (1 2)".
Example C65_example : clear_escapes C65_src /\ exists v l, tree C65_src (inl v) /\
  (forall es, as_object v = Some es -> Forall (fun e => ~ path_like e) es) /\ symbols C65_src v = Ok l /\
  map sym_name l = [lit "a"; lit "e"] /\ flat_map (fun s => map sym_name (sym_children s)) l = [lit "b"; lit "c"] /\
  map sym_range l = [(mkpos 0 0, mkpos 0 21); (mkpos 1 0, mkpos 1 7)].
Proof. plain_doc. eexists _, _. split; [tree_tac|]. split; [no_paths|]. splits; vm_compute; reflexivity. Qed.

(** What is shown for an entry: the symbol goes from the key to the end of the value and selects the key; its kind is that of the value, and the text next to the
    name is that of the value. For all trees. *)
Theorem C65_drawn : forall src v l, symbols src v = Ok l -> drawn_below src v l.
Proof. exact symbols_drawn. Qed.
Print Assumptions C65_drawn.
Example C65_drawn_example : exists v l, tree (lit "a @t""x y""
b @
c q") (inl v) /\ symbols (lit "a @t""x y""
b @
c q") v = Ok l /\ map (fun s => let 'Sym n d k _ _ _ := s in (n, d, k)) l = [(lit "a", Some (lit """x y"""), KVariable); (lit "b", Some (lit "@"), KNull); (lit "c", Some (lit "q"), KString)].
Proof. eexists _, _. split; [tree_tac|]. split; vm_compute; reflexivity. Qed.

Lemma symbol_ok_children s : symbol_ok s -> Forall (fun c => range_in (sym_range c) (sym_range s)) (sym_children s).
Proof. destruct 1. assumption. Qed.

(** The full statement is false: the range of the symbol for the first word of a dotted path ends with that word, so the symbol of the second word is outside. *)
Theorem C65_dotted_refuted : exists src v l, tree src (inl v) /\ symbols src v = Ok l /\ ~ Forall symbol_ok l.
Proof.
  exists (lit "a.b 1"). eexists _, _. split; [tree_tac|]. split; [vm_compute; reflexivity|]. intros H. apply Forall_inv, symbol_ok_children, Forall_inv in H.
  destruct H as [_ H]. vm_compute in H. destruct H as [H|[_ H]]; lia.
Qed.
Print Assumptions C65_dotted_refuted.

(** ** C66: quick fixes *)

(** No order of fields in a schema makes the editor offer to reorder the fields of a parsed document: the root object has no place. *)
Theorem C66_reorder_never : forall F src v (fields : list (@schema_field F)), clear_escapes src -> tree src (inl v) ->
  generate_reorder_edit v fields src = Ok None.
Proof.
  intros F src v fields Hu Ht. destruct (parsed_rows src v Hu Ht) as (ls & es & evs & Hg & Hr & ->). apply no_reorder. eapply gdoc_sized; eauto.
Qed.
Print Assumptions C66_reorder_never.

(** So the full statement is false: here the fields are not in the order of the schema. *)
Theorem C66_reorder_refuted : exists src v (fields : list (@schema_field unit)) es, tree src (inl v) /\ as_object v = Some es /\
  text_keys es = rev (map (fun f => Some (sf_name f)) fields) /\ length es = 2 /\ generate_reorder_edit v fields src = Ok None.
Proof.
  exists (lit "b 1
a 2"). eexists _, [mksf (lit "a") false None (SAny _); mksf (lit "b") false None (SAny _)], _. split; [tree_tac|]. splits; vm_compute; reflexivity.
Qed.
Print Assumptions C66_reorder_refuted.

Section Placeholder.
Context {F : Type} (parse_f64 : str -> option F) (f_ltb : F -> F -> bool).
Notation schema := (schema F).

Notation plain := (plain parse_f64 f_ltb).
Notation satisfies := (satisfies parse_f64 f_ltb).

(** The line that is filled in for a field with such a schema holds a value of the schema. Missing: the other schemas (refuted below), and names that are not one
    key without quotes. *)
Theorem C66_placeholder_partial : forall key s, word key -> ~ In cDOT key -> plain s ->
  exists w, value_of key (key ++ cSP :: generate_placeholder s ++ [cLF]) w /\ satisfies w s.
Proof. exact (filled_read parse_f64 f_ltb). Qed.

Example C66_example :
  let s := STuple F [SEnum F [(lit "off", SUnit F); (lit "on", SString F None)]; SDefault F (lit "eth0") (SString F None); SOneOf F (SBool F) [lit "true"];
                     STuple F [SUnion F [SOptional F (SInt F None); SString F None]; SObject F [(mkkey (Some (lit "a")) None, SOptional F (SString F None))]]] in
  plain s /\ word (lit "net") /\ ~ In cDOT (lit "net") /\ generate_placeholder s = lit "(@off eth0 true (0 {}))".
Proof.
  cbv zeta. split; [|split; [split; [reflexivity|]|split; [|reflexivity]]; cbn; intros H; decompose [or] H; try discriminate; contradiction].
  apply pl_tuple. repeat apply pa_cons; try apply pa_nil.
  - apply pl_enum; [|now left]. eexists _, _. split; [reflexivity|]. split; reflexivity.
  - apply pl_default; [split; [reflexivity|cbn; intros H; decompose [or] H; try discriminate; contradiction]|]. intros k a b. exists 0. intros file [|fuel] path L; [lia|]. eexists. split; reflexivity.
  - apply pl_one_of; [split; [reflexivity|cbn; intros H; decompose [or] H; try discriminate; contradiction]|]. intros k a b. exists 0. intros file [|fuel] path L; [lia|]. eexists. split; [vm_compute; reflexivity|reflexivity].
  - apply pl_tuple. repeat apply pa_cons; try apply pa_nil; [apply pl_union, pl_optional, pl_int|]. apply pl_object. constructor; [right; left; eexists; reflexivity|constructor].
Qed.

(** A name with a dot is written as it is and becomes a path: the field is still missing. *)
Theorem C66_name_refuted : exists key s k w d, word key /\ plain s /\
  tree (key ++ cSP :: generate_placeholder s ++ [cLF]) (inl (Val None (PObj [Ent k w d] None) None)) /\ as_str k <> Some key.
Proof.
  exists (lit "a.b"), (SString F None). eexists _, _, _. split; [split; [reflexivity|cbn; intros H; decompose [or] H; try discriminate; contradiction]|]. split; [constructor|].
  split; [tree_tac|]. vm_compute. discriminate.
Qed.

(** The full statement is false: what is filled in for a sequence is a word, *)
Theorem C66_sequence_refuted : exists s w, value_of (lit "k") (lit "k " ++ generate_placeholder s ++ [cLF]) w /\ ~ satisfies w s.
Proof.
  exists (SSeq F (SString F None)). eexists. split; [eexists _, _; split; [tree_tac|vm_compute; reflexivity]|].
  intros (n & H). destruct (H [] (S (S n)) [] ltac:(lia)) as (r & E & Er). cbn in E. injection E as <-. discriminate.
Qed.
(** and for an object with a required field the field is missing. *)
Theorem C66_object_refuted : exists s w, value_of (lit "k") (lit "k " ++ generate_placeholder s ++ [cLF]) w /\ ~ satisfies w s.
Proof.
  exists (SObject F [(mkkey (Some (lit "a")) None, SString F None)]). eexists. split; [eexists _, _; split; [tree_tac|vm_compute; reflexivity]|].
  intros (n & H). destruct (H [] (S (S n)) [] ltac:(lia)) as (r & E & Er). cbn in E. injection E as <-. discriminate.
Qed.
(** A literal is written without quotes: with a blank it gives a document that the parser rejects. *)
Theorem C66_literal_refuted : exists (s : schema) e, tree (lit "k " ++ generate_placeholder s ++ [cLF]) (inr e).
Proof. exists (SLiteral F (lit "a b")). eexists. eexists. split; [apply run_parses; vm_compute; reflexivity|vm_compute; reflexivity]. Qed.
End Placeholder.
Print Assumptions C66_placeholder_partial.
Print Assumptions C66_name_refuted.
Print Assumptions C66_sequence_refuted.
Print Assumptions C66_object_refuted.
Print Assumptions C66_literal_refuted.

(** An edit that puts [text] at [p]. *)
Definition inserted (src : str) (p : position) (text new : str) : Prop := exists a b, src = a ++ b /\ place_of a p /\ new = a ++ text ++ b.

(** Filling in the required field of an object with lines of its own: the field is put behind the closing brace, where it belongs to the object around it. The object
    lacks it as before. *)
Theorem C66_nested_refuted : exists src v o (fields : list (@schema_field unit)) f p text new v' w,
  tree src (inl v) /\ In f fields /\ fill_required src v o fields = Ok (Some (p, text)) /\ inserted src p text new /\
  tree new (inl v') /\ reaches v' [SKey (sf_name f)] w /\
  (exists c, find_object_at_offset v o = Some c /\ oc_path c = [lit "a"]) /\
  exists es sp osp, reaches v' [SKey (lit "a")] (Val None (PObj es osp) sp) /\ ~ In (Some (sf_name f)) (text_keys es).
Proof.
  exists (lit "a {
  b 1
}"). eexists _, 5, [mksf (lit "b") false None (SInt _ None); mksf (lit "c") false None (SInt _ None)], (mksf (lit "c") false None (SInt _ None)), (mkpos 2 1), [cLF; 99; cSP; 48]%N, (lit "a {
  b 1
}
c 0"). eexists _, _. splits.
  - tree_tac.
  - right. left. reflexivity.
  - vm_compute. reflexivity.
  - exists (lit "a {
  b 1
}"), []. splits; [reflexivity| |reflexivity]. exact (C29_place (lit "a {
  b 1
}") []).
  - tree_tac.
  - eapply reach_step; [apply child_key; eexists [_], _, _; splits; [reflexivity|vm_compute; reflexivity|reflexivity|intros [H|[]]; vm_compute in H; discriminate]|apply reach_here].
  - eexists. split; vm_compute; reflexivity.
  - eexists _, _, _. split; [eapply reach_step; [apply child_key; eexists [], _, _; splits; [reflexivity|vm_compute; reflexivity|reflexivity|intros []]|apply reach_here]|].
    intros [H|[]]. vm_compute in H. discriminate.
Qed.
Print Assumptions C66_nested_refuted.

(** The fields that are filled in are those that are required and missing, each on a line of its own with its default or placeholder. *)
Theorem C66_missing : forall F content v cursor (fields : list (@schema_field F)) r, fill_required content v cursor fields = Ok r ->
  exists obj missing indent, (match find_object_at_offset v cursor with Some c => obj = oc_object c | None => obj = match as_object v with Some es => es | None => [] end end) /\
    (forall f, In f missing <-> In f fields /\ sf_optional f = false /\ forall e, In e obj -> as_str (e_key e) <> Some (sf_name f)) /\
    (missing = [] /\ r = None \/ missing <> [] /\ exists pos, fill_position content v cursor = Ok (mkins pos indent) /\
       r = Some (pos, flat_map (fun f => [cLF] ++ indent ++ sf_name f ++ [cSP] ++ match sf_default f with Some d => d | None => generate_placeholder (sf_schema f) end) missing)).
Proof. exact fill_required_missing. Qed.
Print Assumptions C66_missing.

(** At the root they are put at the end of the last line that is neither blank nor a comment, with the indentation of that line. *)
Theorem C66_insert_line : forall src, exists ls, lines_of src ls /\
  ((exists a l b, ls = a ++ l :: b /\ ~ idle_line l /\ Forall idle_line b /\ ip_pos (find_field_insert_position src) = mkpos (length a) (blen l) /\ indented (ip_indent (find_field_insert_position src)) l) \/
   (Forall idle_line ls /\ ip_indent (find_field_insert_position src) = [] /\ forall a l, ls = a ++ [l] -> ip_pos (find_field_insert_position src) = mkpos (length a) (blen l))).
Proof. exact insert_at. Qed.
Print Assumptions C66_insert_line.

Definition C66_src : str := lit "a 1
  b 2
// end
".
Example C66_fill_example : exists v, tree C66_src (inl v) /\
  fill_required C66_src v 0 [mksf (lit "a") false None (SInt unit None); mksf (lit "c") false None (SInt _ None); mksf (lit "d") true None (SInt _ None); mksf (lit "e") false (Some (lit "x")) (SAny _)] =
  Ok (Some (mkpos 1 5, lit "
  c 0
  e x")).
Proof. eexists. split; [tree_tac|]. vm_compute. reflexivity. Qed.

(** That line need not be the end of an entry: in a quoted text of several lines whose last one looks like a comment, the field is put into the text. *)
Theorem C66_text_refuted : exists src v (fields : list (@schema_field unit)) f p text new v',
  tree src (inl v) /\ In f fields /\ fill_required src v 0 fields = Ok (Some (p, text)) /\ inserted src p text new /\ tree new (inl v') /\
  (exists es, as_object v' = Some es /\ text_keys es = [Some (lit "a")]) /\ sf_name f <> lit "a".
Proof.
  exists (lit "a ""x
// y"""). eexists _, [mksf (lit "c") false None (SInt _ None)], (mksf (lit "c") false None (SInt _ None)), (mkpos 0 4), [cLF; 99; cSP; 48]%N, (lit "a ""x
c 0
// y"""). eexists. splits; [tree_tac|left; reflexivity|vm_compute; reflexivity| |tree_tac|eexists; split; vm_compute; reflexivity|discriminate].
  exists (lit "a ""x"), (lit "
// y"""). splits; [reflexivity| |reflexivity]. exact (C29_place (lit "a ""x") []).
Qed.
Print Assumptions C66_text_refuted.

(** The schema of a document is that of its first root entry tagged [@schema] that is a unit, a text, or has texts under [id] and [cli]. *)
Theorem C66_declaration : forall v r, find_schema_declaration v = Some r <->
  exists es a e b, as_object v = Some es /\ es = a ++ e :: b /\ schema_key (e_key e) /\ names_schema (e_val e) r /\
    Forall (fun x => schema_key (e_key x) -> forall r', ~ names_schema (e_val x) r') a.
Proof. exact find_declaration. Qed.
Print Assumptions C66_declaration.
Example C66_declaration_example : exists v, tree (add_schema (lit "x:y@1") (Some (lit "cmd")) (lit "a 1")) (inl v) /\ find_schema_declaration v = Some (REmbedded (lit "x:y@1") (lit "cmd")).
Proof. eexists. split; [tree_tac|]. vm_compute. reflexivity. Qed.

(** The declaration that the editor inserts for a schema without a command is not recognised as one. *)
Theorem C66_declaration_refuted : exists id src v, tree (add_schema id None src) (inl v) /\ find_schema_declaration v = None.
Proof. exists (lit "x:y@1"), (lit "a 1"). eexists. split; [tree_tac|]. vm_compute. reflexivity. Qed.
Print Assumptions C66_declaration_refuted.

(** ** C67: indentation while typing *)

(** For a text without syntax errors, the depth at a cursor is the number of objects and sequences around it, except right between a closing and an opening bracket,
    and in front of an opening bracket at the start of the text. *)
Theorem C67_depth_partial : forall src n o, cst_parse src = Ok (n, []) -> o <= blen src -> ~ seam n o -> find_nesting_depth_cst n o = around o 0 n.
Proof.
  intros src n o H L S. assert (E : node_text n = src) by (destruct (C19_lossless src) as (n' & er & E' & T); rewrite H in E'; injection E' as <- _; rewrite <- T; apply node_text_leaves). destruct (depth_framed n o) as [D|D]; [eapply parse_framed; exact H|now rewrite E|exact D|contradiction].
Qed.
Print Assumptions C67_depth_partial.

(** The seams of a text, for the examples. *)
Fixpoint seams (fresh : bool) (p : nat) (l : list leaf_of) : list nat :=
  match l with [] => [] | (k, t) :: r => (if fresh && opening k then [p] else []) ++ seams (closing k) (p + blen t) r end.
Lemma seams_all k t b a : opening k = true -> forall fresh p, (a = [] /\ fresh = true \/ exists a' k' t', a = a' ++ [(k', t')] /\ closing k' = true) ->
  In (p + blen (text_of a)) (seams fresh p (a ++ (k, t) :: b)).
Proof.
  intros Hk. induction a as [|[k0 t0] a IH]; intros fresh p H.
  - destruct H as [[_ ->]|(a' & k' & t' & H & _)]; [|destruct a'; discriminate]. cbn [app seams]. rewrite Hk. cbn. left. lia.
  - destruct H as [[H _]|(a' & k' & t' & H & Hc)]; [discriminate|]. cbn [app seams]. apply in_or_app. right.
    unfold text_of in *. cbn [map concat snd]. rewrite blen_app, Nat.add_assoc. apply IH.
    destruct a' as [|x a']; cbn [app] in H; inversion H; subst; [left; auto|right; eauto].
Qed.
Lemma seam_in n o : seam n o -> In o (seams true 0 (solid (leaves n))).
Proof.
  intros (a & k & t & b & E & Hk & -> & H). rewrite E. apply (seams_all k t b a Hk true 0). destruct H as [->|H]; [left; auto|right; exact H].
Qed.

Definition C67_src : str := lit "a {
  b (1 {c 2})
}".
Example C67_example : exists n, cst_parse C67_src = Ok (n, []) /\ map (fun o => (around o 0 n, find_nesting_depth_cst n o)) [2; 3; 8; 9; 11; 12; 16; 17; 18; 20] =
  [(0, 0); (1, 1); (1, 1); (2, 2); (2, 2); (3, 3); (2, 2); (1, 1); (1, 1); (0, 0)] /\ (forall o, In o [3; 8; 9; 12; 17] -> ~ seam n o).
Proof.
  eexists. split; [vm_compute; reflexivity|]. split; [vm_compute; reflexivity|]. intros o H S. apply seam_in in S. vm_compute in S. contradiction.
Qed.

(** The full statement is false there: *)
Theorem C67_seam_refuted : exists src n o, cst_parse src = Ok (n, []) /\ around o 0 n = 1 /\ find_nesting_depth_cst n o = 2.
Proof. exists (lit "a ((){})"). eexists _, 5. splits; vm_compute; reflexivity. Qed.
Print Assumptions C67_seam_refuted.
Theorem C67_start_refuted : exists src n, cst_parse src = Ok (n, []) /\ around 0 0 n = 0 /\ find_nesting_depth_cst n 0 = 1.
Proof. exists (lit "{a 1}"). eexists. splits; vm_compute; reflexivity. Qed.
Print Assumptions C67_start_refuted.

(** ** C68: the JSON of extension data *)

(** JSON of strings, nulls, arrays and objects with distinct keys comes back from a document value unchanged. Missing: numbers and booleans. *)
Theorem C68_json_partial : forall j, texts_only j -> to_json (of_json j) = j.
Proof. exact json_back. Qed.
Print Assumptions C68_json_partial.

Example C68_example : texts_only (JObject [(lit "a", JArray [JNull; JString (lit "x")]); (lit "b", JObject [])]).
Proof. repeat (constructor || (intros [H|[]]; discriminate) || intros []). Qed.

(** The full statement is false: numbers and booleans come back as strings; *)
Theorem C68_number_refuted : exists t b, to_json (of_json (JNumber t)) <> JNumber t /\ to_json (of_json (JBool b)) <> JBool b.
Proof. exists (lit "1"), true. split; vm_compute; discriminate. Qed.
Print Assumptions C68_number_refuted.
(** and a tag is not part of the JSON of a value, so two documents that differ in it look alike to an extension. *)
Theorem C68_tag_refuted : exists src src' v v', tree src (inl v) /\ tree src' (inl v') /\ to_json v = to_json v' /\
  exists w w', reaches v [SKey (lit "k")] w /\ reaches v' [SKey (lit "k")] w' /\ option_map fst (v_tag w) <> option_map fst (v_tag w').
Proof.
  exists (lit "k @a"), (lit "k @b"). eexists _, _. split; [tree_tac|]. split; [tree_tac|]. split; [vm_compute; reflexivity|]. eexists _, _.
  split; [eapply reach_step; [apply child_key; eexists [], _, _; splits; [reflexivity|vm_compute; reflexivity|reflexivity|intros []]|apply reach_here]|].
  split; [eapply reach_step; [apply child_key; eexists [], _, _; splits; [reflexivity|vm_compute; reflexivity|reflexivity|intros []]|apply reach_here]|].
  vm_compute. discriminate.
Qed.
Print Assumptions C68_tag_refuted.
