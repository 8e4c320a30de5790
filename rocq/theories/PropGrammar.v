(** C50: the event parser accepts exactly the documents of the grammar in GrammarSpec.v. *)
From Coq Require Import String.
From Verif Require Import Base BaseProofs TokModel LexModel LexSpec LexProofs LexRunProofs PropLex ParseModel ParseSpec RunProofs PropParse
  TreeModel TreeSpec TreeProofs BuildProofs LinkProofs PathSpec PathProofs GrammarSpec GrammarProofs GrammarRunProofs GrammarSoundProofs GrammarTreeProofs.

(** A source parses without an error event and with nested events exactly if its lexemes are a document of the
    grammar, and then the events are the ones the grammar gives. (Nesting is a separate condition because of C05:
    braces in the root after an entry are accepted without an error event.) *)
Theorem C50_accepts : forall src evs, clear_escapes src ->
  (parses src evs /\ Forall no_err evs /\ balanced evs <->
   exists ls es, lexemes src = Ok ls /\ gdoc (blen src) ls es evs).
Proof.
  intros src evs Hu. split.
  - intros ((ls & fuel & El & E) & Hn & Hb). destruct (lexemes_good src ls El) as (Hok & _ & Hne & _). destruct (doc_found src fuel ls evs Hne (fine_all _ _ Hok (Hu ls El)) E Hn Hb) as [es H]. eauto.
  - intros (ls & es & El & H). destruct (lexemes_good src ls El) as (Hok & _ & Hne & _). destruct (doc_tree _ _ _ _ H) as (Hn & Hb & _). destruct (doc_runs src ls es evs Hne H) as [fuel E].
    split; [exists ls, fuel; auto|auto].
Qed.
Print Assumptions C50_accepts.

(** The tree parser succeeds exactly on the documents of the grammar, with the tree of the entries the grammar gives. *)
Theorem C50_tree : forall src v, clear_escapes src ->
  (tree src (inl v) <-> exists ls es evs, lexemes src = Ok ls /\ gdoc (blen src) ls es evs /\ v = Val None (PObj (map to_entry es) None) None).
Proof.
  intros src v Hu. split.
  - intros (evs & Hp & Hb). pose proof (tree_of src evs Hp) as H. destruct (flat_map _ evs) as [|[k sp] r] eqn:Ee; [|congruence].
    destruct H as [[Hbal _]|[_ H]]; [|congruence]. apply no_err_errs in Ee. destruct (proj1 (C50_accepts src evs Hu) (conj Hp (conj Ee Hbal))) as (ls & es & El & Hg).
    exists ls, es, evs. splits; auto. rewrite (doc_build es evs) in Hb; [now injection Hb|]. apply (doc_tree _ _ _ _ Hg).
  - intros (ls & es & evs & El & Hg & ->). destruct (proj2 (C50_accepts src evs Hu)) as [Hp _]; [eauto|]. exists evs. split; [exact Hp|]. apply doc_build. apply (doc_tree _ _ _ _ Hg).
Qed.
Print Assumptions C50_tree.

(** The grammar is unambiguous. *)
Theorem C50_unambiguous : forall n ls es evs es' evs', ~ In LxEof ls -> gdoc n ls es evs -> gdoc n ls es' evs' ->
  evs = evs' /\ map to_entry es = map to_entry es'.
Proof. exact doc_unique. Qed.
Print Assumptions C50_unambiguous.

Lemma short_hash src : length src < 256 -> ~ has_hash_run 256 src.
Proof. intros Hl (a & b & ->). rewrite !app_length, repeat_length in Hl. lia. Qed.

(** A document with most constructs, found through the theorem. *)
Definition C50_src : str := lit "// head
/// doc
server.host x>1 y>(2 @) // tail
""k"" @t{a, b @u/@v(1)
/// c
@w r#""q""#}
@ <<E
text
E
".
Example C50_example : clear_escapes C50_src /\
  exists evs, parses C50_src evs /\ Forall no_err evs /\ balanced evs /\ List.length evs = 58.
Proof.
  split.
  - apply no_bsl_u_clear, no_bsl_u. not_in.
  - eexists. split; [apply run_parses; vm_compute; reflexivity|]. split; [|split; vm_compute; reflexivity].
    repeat (apply Forall_cons; [intros ?; discriminate|]). apply Forall_nil.
Qed.

(** Sources with unicode escapes that are right, and with refused texts without them, are clear as well. *)
Example C50_unicode_example : clear_escapes (lit "k ""\u{1F600} A""
m ""\q""") /\ ~ clear_escapes (lit "k ""\u123""").
Proof.
  split.
  - intros ls E. vm_compute in E. injection E as <-. repeat constructor; cbn [clear_escape].
    + intros (a & b & E). repeat (destruct a as [|? a]; [discriminate|]; injection E as _ E). destruct a; discriminate.
    + intros t Ht. vm_compute in Ht. injection Ht as <-. intros (a & b & E). repeat (destruct a as [|? a]; [discriminate|]; injection E as _ E). destruct a; discriminate.
  - intros H. specialize (H _ ltac:(vm_compute; reflexivity)). inversion_clear H as [|? ? _ H1]. inversion_clear H1 as [|? ? H2 _]. cbn [clear_escape] in H2.
    apply (H2 _ ltac:(vm_compute; reflexivity)). exists [cDQ], (lit "123" ++ [cDQ]). reflexivity.
Qed.

(** A derivation written by hand. *)
Example C50_example_derivation : exists ls es evs, lexemes (lit "a {b 1}") = Ok ls /\ gdoc 7 ls es evs /\
  es = [DEnt [] (mkspan 0 1) (mkspan 0 1) None (Some (lit "a")) Bare
    (DObj (mkspan 2 7) [DEnt [] (mkspan 3 4) (mkspan 3 4) None (Some (lit "b")) Bare (DScalar (mkspan 5 6) (lit "1") Bare) (mkspan 5 6)] (mkspan 2 7)) (mkspan 2 7)].
Proof.
  assert (Hd : forall sp t, ~ In cDOT t -> ~ dotted_key (DScalar sp t Bare)) by (intros sp t H (sp' & t' & [= _ <-] & Hi); contradiction).
  eexists _, _, _. split; [vm_compute; reflexivity|]. split; [eapply gdoc_plain|].
  - eapply gr_entry; [intros ? ? [=]| | |apply gr_end].
    + eapply gl_pair; [apply gv_scalar|intros [=]| |apply gs_eof].
      eapply (gv_obj (mkspan 2 3) _ _ _ _ (mkspan 6 7)).
      * eapply ge_entry; [|apply key_text|apply ge_end]. eapply gl_pair; [apply gv_scalar|intros []|apply gv_scalar|apply gs_brace].
      * repeat constructor; intros [].
    + eapply re_plain; [refine (Hd _ _ _); not_in|intros ? ? [=]|apply key_text].
  - apply accepted_fine; [repeat constructor; discriminate|vm_compute; repeat constructor].
  - vm_compute. reflexivity.
Qed.
