(** Properties C56 and C57: the syntax tree of the editor and the parser agree on accepted documents. *)
From Coq Require Import String.
From Verif Require Import Base BaseProofs TokModel LexModel LexSpec LexProofs LexRunProofs PropLex ParseModel ParseSpec RunProofs PropParse
  TreeModel TreeSpec TreeProofs BuildProofs LinkProofs PathSpec PathProofs GrammarSpec GrammarProofs GrammarRunProofs GrammarSoundProofs GrammarTreeProofs PropGrammar
  CstModel AgreeSpec AgreeSim AgreeUnique.

(** ** C56 *)

(** The full statement: a document that the parser accepts has a syntax tree without errors. *)
Definition no_false_alarm (src : str) : Prop := forall evs, parses src evs -> Forall no_err evs -> balanced evs ->
  exists t, cst_parse src = Ok (t, []).

(** It holds where doc comments stand at the start of a line and attributes outside sequences ([calm]). The condition is on the lexemes
    of the source and their neighbours only. *)
Theorem C56_partial : forall src ls, ~ has_hash_run 256 src -> clear_escapes src -> lexemes src = Ok ls -> calm [] None ls -> no_false_alarm src.
Proof.
  intros src ls Hh Hu El C evs Hp Hn Hb. destruct (proj1 (C50_accepts src evs Hu) (conj Hp (conj Hn Hb))) as (ls' & es & El' & G).
  rewrite El in El'. injection El' as <-. destruct (agree_doc src ls es evs Hh El G C) as (t & Et & _). eauto.
Qed.
Print Assumptions C56_partial.

(** The converse fails as well: the syntax tree of a rejected document can be without errors. *)
Definition cst_quiet (src : str) : bool := match cst_parse src with Ok (_, []) => true | _ => false end.
Definition accepts (src : str) : bool :=
  match run_events src with Ok evs => forallb (fun e => match ev_kind e with EvError _ => false | _ => true end) evs | _ => false end.

(** Finding: doc comments in sequences and behind entries, attributes in sequences, and an attribute that follows a value without a
    blank are accepted by the parser and reported as errors by the editor. *)
Theorem C56_refuted : Forall (fun src => (exists v, tree src (inl v)) /\ exists t e, cst_parse src = Ok (t, e) /\ e <> [])
  [lit "k (a
/// d
b)"; lit "k (/// d
a)"; lit "k 1 /// d
"; lit "{k 1 /// d
}"; lit "k (a>1 b>2 c)"; lit "k (a b>1 c)"; lit "k a>1b>2"].
Proof.
  repeat apply Forall_cons; try apply Forall_nil;
    (split; [eexists; eexists; split; [apply run_parses; vm_compute; reflexivity|vm_compute; reflexivity]
            |eexists; eexists; split; [vm_compute; reflexivity|discriminate]]).
Qed.
Print Assumptions C56_refuted.
(** Finding: two values in an entry, a sequence or object as a key and an entry of attributes are no errors for the editor. *)
Theorem C56_converse_refuted : Forall (fun src => (exists k sp, tree src (inr (BParse k sp))) /\ exists t, cst_parse src = Ok (t, []))
  [lit "a>b"; lit "(a)"; lit "a b c"; lit "{(a) b}"; lit "k ""a""""b"""].
Proof.
  repeat apply Forall_cons; try apply Forall_nil;
    (split; [do 3 eexists; split; [apply run_parses; vm_compute; reflexivity|vm_compute; reflexivity]|eexists; vm_compute; reflexivity]).
Qed.
Print Assumptions C56_converse_refuted.

(** ** C57 *)

(** The full statement: the syntax tree of a document shows the document that the parser reads from it. *)
Definition shown_as_read (src : str) : Prop := forall v, tree src (inl v) ->
  exists t e es, cst_parse src = Ok (t, e) /\ shows_doc t es /\ v = Val None (PObj (map to_entry es) None) None.

Theorem C57_partial : forall src ls, ~ has_hash_run 256 src -> clear_escapes src -> lexemes src = Ok ls -> calm [] None ls -> shown_as_read src.
Proof.
  intros src ls Hh Hu El C v H. apply C50_tree in H; auto. destruct H as (ls' & es & evs & El' & G & ->). rewrite El in El'. injection El' as <-.
  destruct (agree_doc src ls es evs Hh El G C) as (t & Et & Hs). exists t, [], es. auto.
Qed.
Print Assumptions C57_partial.

(** A syntax tree shows only one document, up to places: keys, values, tags, attributes, scalar styles and doc comments are
    determined. *)
Theorem C57_shows_one : forall t es es', shows_doc t es -> shows_doc t es' -> map unplace_entry es = map unplace_entry es'.
Proof. exact doc_unique_shown. Qed.
Print Assumptions C57_shows_one.

(** Hence: whoever reads a document off the syntax tree has what the parser reads, up to places. *)
Fixpoint placeless (v : value) : value :=
  match v with Val t p _ => Val (option_map (fun x => (fst x, None)) t) (placeless_payload p) None end
with placeless_payload (p : payload) : payload :=
  match p with
  | PNone => PNone
  | PScalar t k _ => PScalar t k None
  | PSeq items _ => PSeq (map placeless items) None
  | PObj es _ => PObj (map placeless_entry es) None
  end
with placeless_entry (e : entry) : entry := match e with Ent k v d => Ent (placeless k) (placeless v) d end.

Lemma placeless_docs docs : map snd (map (fun d : span * list str => (nowhere, snd d)) docs) = map snd docs.
Proof. rewrite map_map. reflexivity. Qed.
Lemma placeless_unplace : forall d, placeless (to_value (unplace d)) = placeless (to_value d).
Proof.
  fix IH 1. intros [sp t k|sp|s1 items s2|s1 es s2|s1 n [w|] s2]; cbn.
  - reflexivity.
  - reflexivity.
  - do 2 f_equal. induction items as [|i items IHi]; [reflexivity|]. cbn. now rewrite IH, IHi.
  - do 2 f_equal. induction es as [|[docs a b tag pl k v c] es IHe]; [reflexivity|]. cbn. rewrite IHe, IH. f_equal. f_equal; [destruct tag, pl; reflexivity|].
    destruct docs as [|d docs]; [reflexivity|]. cbn. now rewrite !map_map.
  - specialize (IH w). destruct (to_value (unplace w)) as [t p sp], (to_value w) as [t' p' sp']. cbn in *. injection IH as _ ->. reflexivity.
  - reflexivity.
Qed.
Lemma placeless_entries es : map placeless_entry (map to_entry (map unplace_entry es)) = map placeless_entry (map to_entry es).
Proof.
  pose proof (placeless_unplace (DObj nowhere es nowhere)) as H. cbn in H. injection H as H. exact H.
Qed.

Theorem C57_reading : forall src ls t e es v, ~ has_hash_run 256 src -> clear_escapes src -> lexemes src = Ok ls -> calm [] None ls ->
  tree src (inl v) -> cst_parse src = Ok (t, e) -> shows_doc t es -> placeless v = Val None (PObj (map placeless_entry (map to_entry es)) None) None.
Proof.
  intros src ls t e es v Hh Hu El C H Et Hs. destruct (C57_partial src ls Hh Hu El C v H) as (t' & e' & es' & Et' & Hs' & ->).
  rewrite Et in Et'. injection Et' as <- <-. cbn. do 2 f_equal. rewrite <- (placeless_entries es'), <- (placeless_entries es). do 2 f_equal. eapply C57_shows_one; eauto.
Qed.
Print Assumptions C57_reading.

Definition C57_src : str := lit "// head
/// doc
server.host x>1 y>(2 @) // tail
""k"" @t{a, b @u/@v(1)
/// c
@w r#""q""#}
@ <<E
text
E
".
Ltac calm_tac := repeat (split; [first [exact I|split; [reflexivity|first [exact I|intros; discriminate]]|intros; discriminate]|]); exact I.
Example C57_example : exists ls, ~ has_hash_run 256 C57_src /\ clear_escapes C57_src /\ lexemes C57_src = Ok ls /\ calm [] None ls /\
  accepts C57_src = true /\ cst_quiet C57_src = true.
Proof.
  eexists. splits; [apply short_hash, Nat.ltb_lt; vm_compute; reflexivity|apply no_bsl_u_clear, no_bsl_u; not_in|vm_compute; reflexivity| |vm_compute; reflexivity..].
  cbn [calm nesting tl]. calm_tac.
Qed.

(** The tree of a small document, read by hand. *)
Example C57_example_tree : exists t ls, cst_parse (lit "a.b @t(1)") = Ok (t, []) /\ lexemes (lit "a.b @t(1)") = Ok ls /\ calm [] None ls /\
  exists es, shows_doc t es /\ map unplace_entry es = [DEnt [] nowhere nowhere None (Some (lit "a")) Bare
    (DObj nowhere [DEnt [] nowhere nowhere None (Some (lit "b")) Bare (DTag nowhere (lit "t") (Some (DSeq nowhere [DScalar nowhere (lit "1") Bare] nowhere)) nowhere) nowhere] nowhere) nowhere].
Proof.
  eexists _, _. splits; [vm_compute; reflexivity|vm_compute; reflexivity|cbn [calm nesting tl]; calm_tac|].
  assert (RE : forall docs v, exists e, root_entry (DScalar nowhere (lit "a.b") Bare) v docs [lit "a"; lit "b"] e /\
    e = DEnt docs (mkspan 0 1) (mkspan 0 1) None (Some (lit "a")) Bare (DObj (mkspan 0 1) [DEnt [] (mkspan 2 3) (mkspan 2 3) None (Some (lit "b")) Bare v nowhere] nowhere) nowhere).
  { intros docs v. eexists. split; [|reflexivity]. eapply re_path; [right; left; reflexivity|vm_compute; reflexivity| |vm_compute; reflexivity]. repeat constructor; try discriminate; not_in. }
  set (v := DTag nowhere (lit "t") (Some (DSeq nowhere [DScalar nowhere (lit "1") Bare] nowhere)) nowhere).
  destruct (RE [] v) as (e & R & He). exists [e]. split; [|rewrite He; vm_compute; reflexivity].
  apply (sd_plain _ [(DScalar nowhere (lit "a.b") Bare, v)] _ [([lit "a"; lit "b"], nowhere, PVTerminal)]).
  - eapply (se_entry true [] _ _ _ []); [|reflexivity|exists [lit "a"; lit "b"]; exact R|apply se_end].
    eapply (sl_pair _ _ [_] _ _ []); [eapply sh_scalar, ss_bare|repeat constructor; eexists; reflexivity| |constructor].
    eapply sv_atom, (sh_tag_payload (lit "t")); [now eexists _, []|]. apply (sh_seq [_]), si_item, si_end. eapply sh_scalar, ss_bare.
  - constructor; [|constructor]. exists [], e. split; [exact R|reflexivity].
  - apply accepted_fine; [repeat constructor; discriminate|vm_compute; repeat constructor].
Qed.

(** Finding: a heredoc glued to a tag is its payload in the syntax tree; the parser reads it as a separate value. *)
Theorem C57_refuted : exists src v, tree src (inl v) /\ ~ shown_as_read src.
Proof.
  exists (lit "@t<<E
x
E
"). eexists. split; [eexists; split; [apply run_parses; vm_compute; reflexivity|vm_compute; reflexivity]|].
  intros H. edestruct H as (t & e & es & Et & Hs & Ev); [eexists; split; [apply run_parses; vm_compute; reflexivity|vm_compute; reflexivity]|]. vm_compute in Et. injection Et as <- _.
  set (k := DTag nowhere (lit "t") (Some (DScalar nowhere (lit "x
") Heredoc)) nowhere).
  assert (R : root_entry k (DUnit nowhere) [] [cAT :: lit "t"] (DEnt [] nowhere nowhere (Some (lit "t")) (Some (lit "x
")) Heredoc (DUnit nowhere) nowhere)).
  { apply (re_plain k (DUnit nowhere) [] (Some (lit "t")) (Some (lit "x
")) Heredoc); [intros (sp & x & [=] & _)|intros ? ? [=]|apply key_tag_text; intros [=]]. }
  assert (Hs' : shows_doc (Node DOCUMENT [Node ENTRY [Node KEY [Node TAG [tok Tag (lit "@t"); Node TAG_PAYLOAD [Node HEREDOC [tok HeredocStart (lit "<<E
"); tok HeredocContent (lit "x
"); tok HeredocEnd (lit "E")]]]]]; tok Newline [cLF]]) [DEnt [] nowhere nowhere (Some (lit "t")) (Some (lit "x
")) Heredoc (DUnit nowhere) nowhere]).
  { apply (sd_plain _ [(k, DUnit nowhere)] _ [([cAT :: lit "t"], nowhere, PVTerminal)]).
    - eapply (se_entry true [] _ _ _ []); [|reflexivity|eexists; exact R|apply se_skip; [left; exists Newline, [cLF]; cbn; auto|apply se_end]].
      apply (sl_key _ _ []); [|constructor]. apply (sh_tag_payload (lit "t")); [now eexists _, []|]. apply sh_scalar. apply (ss_heredoc _ _ []); [constructor|discriminate|reflexivity|].
      exists [lit "x"; []], [lit "x"; []]. splits; try reflexivity; try discriminate; [repeat constructor; try not_in|]. repeat constructor; exists []; cbn; auto.
    - constructor; [|constructor]. eexists [], _. split; [exact R|reflexivity].
    - apply accepted_fine; [repeat constructor; discriminate|vm_compute; repeat constructor]. }
  pose proof (C57_shows_one _ _ _ Hs Hs') as E. destruct es as [|[ds a b tag pl kd w c] [|]]; try discriminate E. injection E as _ _ -> _ _. discriminate Ev.
Qed.
Print Assumptions C57_refuted.
