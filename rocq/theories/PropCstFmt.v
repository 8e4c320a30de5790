(** Properties C21 and C22: the source formatter rearranges a document without changing its tokens or its tree. *)
From Coq Require Import String.
From Verif Require Import Base BaseProofs LexModel ParseModel ParseSpec PropParse TreeModel TreeSpec TokModel TokProofs RetokProofs CstModel CstSpec CstProofs CstFmtModel CstShapeProofs CstFmtSpec CstFmtProofs.


(** Whatever the source, the formatter answers; a source with errors comes back unchanged. *)
Theorem C21_errors_unchanged : forall indent src, exists tree errors out,
  cst_parse src = Ok (tree, errors) /\ format_source indent src = Ok out /\ (errors <> [] -> out = src).
Proof.
  intros indent src. destruct (cst_parse_covers src) as (ts & tree & errors & _ & P & _).
  exists tree, errors. unfold format_source. rewrite P. cbn [bind]. eexists. splits; [reflexivity | reflexivity |].
  intros N. destruct errors; [contradiction | reflexivity].
Qed.
Print Assumptions C21_errors_unchanged.
Example C21_errors_example : match cst_parse (lit "a {b 1") with Ok (_, e) => negb (List.length e =? 0) | _ => false end = true
  /\ format_source (lit "    ") (lit "a {b 1") = Ok (lit "a {b 1").
Proof. split; vm_compute; reflexivity. Qed.

(** The full statement: the formatted text of a source without errors has the same tokens in the same order, apart from
    whitespace, newlines and commas. *)
Definition keeps_tokens (indent src : str) : Prop := exists out ts ts',
  format_source indent src = Ok out /\ tokens src = Some ts /\ tokens out = Some ts' /\ meaning ts' = meaning ts.

(** It holds for plain documents, with any indentation made of blanks. Missing: documents with an entry of attributes at the
    place of a key, an entry with several values, or a sequence whose only element ends with a heredoc; for these it fails. *)
Theorem C21_partial : forall indent src tree, forallb is_blank indent = true ->
  cst_parse src = Ok (tree, []) -> plain tree = true -> keeps_tokens indent src.
Proof.
  intros indent src tree BI P PL. destruct (tokens_total src) as (ts & T).
  destruct (cst_parse_shape _ _ _ P T) as (cs & h & -> & IT).
  pose proof (format_retok indent BI _ _ _ IT PL) as R. destruct (retok_tokens _ _ R) as (ts' & T' & E).
  exists (format_cst indent (Node DOCUMENT cs)), ts, ts'. splits; [|exact T | exact T' |].
  - unfold format_source. rewrite P. reflexivity.
  - rewrite !sigs_meaning in E. exact E.
Qed.
Print Assumptions C21_partial.

Definition nl : str := [cLF].
Definition busy : str :=
  lit "/// doc" ++ nl ++ lit "a   {x 1,y (1 2   @t(3) @),  z k>1   l>r#" ++ [cDQ] ++ lit "q" ++ [cDQ] ++ lit "#}" ++ nl ++ nl ++ nl
  ++ lit "// note" ++ nl ++ lit "@e/@f{p <<E" ++ nl ++ lit "  body" ++ nl ++ lit "E" ++ nl ++ lit "} " ++ [cDQ] ++ lit "v" ++ [cDQ] ++ lit ", b (" ++ nl ++ lit "1 // one" ++ nl ++ lit "2)" ++ nl.
Example C21_example : exists tree, cst_parse busy = Ok (tree, []) /\ plain tree = true /\ keeps_tokens (lit "    ") busy /\
  format_source (lit "    ") busy <> Ok busy.
Proof.
  destruct (cst_parse busy) as [[tree errors]| |] eqn:P; [|exfalso; vm_compute in P; discriminate ..].
  assert (E : errors = []) by (vm_compute in P; injection P as _ <-; reflexivity). subst errors.
  assert (PL : plain tree = true) by (vm_compute in P; injection P as <-; vm_compute; reflexivity).
  exists tree. splits; [reflexivity | exact PL | eapply C21_partial; [reflexivity | exact P | exact PL] |].
  intros Q. apply (f_equal (fun r => match r with Ok o => List.length o =? List.length busy | _ => true end)) in Q.
  vm_compute in Q. discriminate.
Qed.

(** Finding: the full statement is false. Sources without errors whose tokens are lost or changed: *)
Definition loses_tokens (src : str) : bool :=
  match cst_parse src, format_source (lit "    ") src, tokens src with
  | Ok (_, []), Ok out, Some ts =>
    match tokens out with
    | Some ts' => negb (List.length (meaning ts') =? List.length (meaning ts))
    | None => false
    end
  | _, _, _ => false
  end.
Lemma loses_sound : forall src, loses_tokens src = true ->
  (exists tree, cst_parse src = Ok (tree, [])) /\ ~ keeps_tokens (lit "    ") src.
Proof.
  intros src H. unfold loses_tokens in H. destruct (cst_parse src) as [[tree [|e es]]| |] eqn:P; try discriminate. split; [eauto|].
  intros (out & ts & ts' & F & T & T' & E). rewrite F, T, T', E, Nat.eqb_refl in H. discriminate.
Qed.
(** A third atom of a root entry, an entry of attributes, and the heredoc that is the only element of a sequence. *)
Theorem C21_refuted : exists s1 s2 s3,
  s1 = lit "a b c" /\ s2 = lit "a>b" /\ s3 = lit "a (" ++ nl ++ lit "<<E" ++ nl ++ lit "x" ++ nl ++ lit "E" ++ nl ++ lit ")" ++ nl /\
  Forall (fun src => (exists tree, cst_parse src = Ok (tree, [])) /\ ~ keeps_tokens (lit "    ") src) [s1; s2; s3].
Proof.
  eexists; eexists; eexists. splits; [reflexivity .. |].
  repeat constructor; apply loses_sound; vm_compute; reflexivity.
Qed.
Print Assumptions C21_refuted.
(** What becomes of them. *)
Example C21_refuted_outputs :
  format_source (lit "    ") (lit "a b c") = Ok (lit "a b" ++ nl) /\
  format_source (lit "    ") (lit "a>b") = Ok [] /\
  format_source (lit "    ") (lit "a (" ++ nl ++ lit "<<E" ++ nl ++ lit "x" ++ nl ++ lit "E" ++ nl ++ lit ")" ++ nl) =
    Ok (lit "a (<<E" ++ nl ++ lit "x" ++ nl ++ lit "E)" ++ nl).
Proof. splits; vm_compute; reflexivity. Qed.

(** ** C22 *)

(** Finding: a valid document whose formatted text does not parse: the delimiter of the heredoc no longer stands alone on its line. *)
Theorem C22_refuted : exists src t out e, tree src (inl t) /\ format_source (lit "    ") src = Ok out /\ tree out (inr e).
Proof.
  exists (lit "a (" ++ nl ++ lit "<<E" ++ nl ++ lit "x" ++ nl ++ lit "E" ++ nl ++ lit ")" ++ nl). eexists; eexists; eexists. splits.
  - eexists. split; [apply run_parses; vm_compute; reflexivity | vm_compute; reflexivity].
  - vm_compute. reflexivity.
  - eexists. split; [apply run_parses; vm_compute; reflexivity | vm_compute; reflexivity].
Qed.
Print Assumptions C22_refuted.
(** Finding: the formatter makes invalid documents valid by dropping what is wrong with them. Here the third atom, the attributes
    that stand for a key, and an object after attributes go. *)
Theorem C22_repairs : Forall (fun src => exists e out t, tree src (inr (BParse (fst e) (snd e))) /\
    format_source (lit "    ") src = Ok out /\ tree out (inl t)) [lit "a b c"; lit "a>b"; lit "a k>v {x 1}"].
Proof.
  repeat constructor; (eexists (_, _); eexists; eexists; splits;
    [ eexists; split; [apply run_parses; vm_compute; reflexivity | vm_compute; reflexivity] | vm_compute; reflexivity
    | eexists; split; [apply run_parses; vm_compute; reflexivity | vm_compute; reflexivity] ]).
Qed.
Print Assumptions C22_repairs.
