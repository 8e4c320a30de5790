(** Property C22: formatted documents parse to the same document. *)
From Coq Require Import String.
From Verif Require Import Base BaseProofs TokModel TokProofs LexModel LexSpec LexProofs LexRunProofs RelexProofs PropLex ParseModel ParseSpec RunProofs PropParse
  TreeModel TreeSpec TreeProofs BuildProofs LinkProofs PathSpec PathProofs GrammarSpec GrammarProofs GrammarRunProofs GrammarSoundProofs GrammarTreeProofs PropGrammar
  CstModel CstFmtModel CstShapeProofs CstFmtSpec AgreeSpec AgreeUnique PropAgree FmtNodeProofs.

(** The full statement: what the parser reads from the formatted text is what it reads from the source, up to places. *)
Definition keeps_tree (indent src : str) : Prop := forall v, tree src (inl v) ->
  exists out v', format_source indent src = Ok out /\ tree out (inl v') /\ placeless v' = placeless v.

(** It holds, with any indentation made of blanks, where the two parsers agree ([calm]) and the formatted text leaves every heredoc
    its line ([roomy]). Documents that the formatter refuses to touch need no condition. *)
Theorem C22_partial : forall indent src ls t e, forallb is_blank indent = true -> ~ has_hash_run 256 src -> clear_escapes src ->
  lexemes src = Ok ls -> cst_parse src = Ok (t, e) -> (e = [] -> calm [] None ls /\ roomy t = true) -> keeps_tree indent src.
Proof.
  intros indent src ls t e BI Hh Hu El Et Hc v Hv. destruct e as [|x e]; [|exists src, v; splits; [unfold format_source; now rewrite Et|exact Hv|reflexivity]].
  destruct (Hc eq_refl) as [C RM]. destruct (C57_partial src ls Hh Hu El C v Hv) as (t' & e' & es & Et' & Hs & ->). rewrite Et in Et'. injection Et' as <- <-.
  destruct (tokens_total src) as (ts & T). destruct (cst_parse_shape _ _ _ Et T) as (cs & h & -> & IT). set (out := format_cst indent (Node DOCUMENT cs)).
  unfold roomy in RM. cbn [roomy_in andb] in RM. destruct (format_reads indent BI cs h _ es (blen out) IT RM Hs) as (ls' & es' & evs & L & G & E).
  exists out, (Val None (PObj (map to_entry es') None) None). splits.
  - unfold format_source. now rewrite Et.
  - destruct (doc_runs out ls' es' _ (lexd_no_eof _ _ _ L) G) as [fuel Hr]. eexists. split; [exists ls', fuel; split; [now apply lexd_lexemes|exact Hr]|]. destruct (doc_tree _ _ _ _ G) as (_ & _ & Ht). now apply doc_build.
  - cbn. do 2 f_equal. rewrite <- (placeless_entries es'), <- (placeless_entries es). now rewrite E.
Qed.
Print Assumptions C22_partial.

Definition C22_src : str := lit "// head
/// doc
server.host   x>1  y>(2   @) // tail


""k"" @t{a,b @u/@v(1   2)
/// c
@w r#""q""#}
l (
1 // one
@s/@t<<E
  text
  E
 2)
@ <<E
text
E
".
Example C22_example : exists ls t out, ~ has_hash_run 256 C22_src /\ clear_escapes C22_src /\ lexemes C22_src = Ok ls /\ cst_parse C22_src = Ok (t, []) /\
  calm [] None ls /\ roomy t = true /\ accepts C22_src = true /\ format_source (lit "    ") C22_src = Ok out /\ out <> C22_src.
Proof.
  eexists _, _, _. splits; [apply short_hash, Nat.ltb_lt; vm_compute; reflexivity|apply no_bsl_u_clear, no_bsl_u; not_in|vm_compute; reflexivity|vm_compute; reflexivity| |vm_compute; reflexivity|vm_compute; reflexivity|vm_compute; reflexivity|discriminate].
  cbn [calm nesting tl]. calm_tac.
Qed.
