(** C96: where the outputs of the Rust and the Python implementation are compared, equal trees count as equal. *)
From Coq Require Import String.
From Verif Require Import Base BaseProofs TokModel LexModel ParseModel ParseSpec PropParse TreeModel TreeSpec LexRunProofs SexpModel SexpSpec SexpProofs PySexpModel PySexpSpec PySexpProofs PropSexp.

(** For the same tree the Python implementation prints what [styx tree --format sexp] prints, if texts are written alike (C94), names of tags
    need no escapes and values without tag stand where their payloads stand. *)
Theorem C96_same_output : forall unprintable es tag sp rest, entries_alike unprintable es ->
  print_sexp unprintable (Val tag (PObj es sp) None) rest = py_format_document es ++ rest.
Proof. intros u es tag sp rest. apply document_same. Qed.
Print Assumptions C96_same_output.

(** Hence, for such trees, equal outputs mean that the same is shown of both. *)
Corollary C96_compared : forall unprintable es es' tag sp, entries_alike unprintable es' ->
  print_sexp unprintable (Val tag (PObj es sp) None) [] = py_format_document es' <-> map show_entry es = map show_entry es'.
Proof.
  intros u es es' tag sp H. rewrite <- (app_nil_r (py_format_document es')), <- (document_same u es' tag sp [] H), root_cut. unfold shown_root. cbn [v_payload v_span]. split.
  - intros [E _]. now injection E.
  - intros ->. auto.
Qed.
Print Assumptions C96_compared.

(** In a tree that Rust reads from a source every value without tag stands where its payload stands, so only the texts matter. *)
Theorem C96_sources : forall unprintable src v, tree src (inl v) -> settled v /\ ((forall w, part_of w v -> fine_texts unprintable w) ->
  exists es sp, v = Val None (PObj es sp) None /\ forall rest, print_sexp unprintable v rest = py_format_document es ++ rest).
Proof.
  intros u src v T. split; [apply (tree_settled _ _ T)|]. intros F. destruct (source_same u src v [] T F) as (es & a & -> & _). exists es, a. split; [reflexivity|].
  intros rest. destruct (source_same u src _ rest T F) as (es' & a' & E & P). injection E as <- <-. exact P.
Qed.
Print Assumptions C96_sources.

Definition c96_source : str := lit "a @t(x ""y\n"" {} () @)
b {@ <<E
h
E
c @u{d r#""z""#}}".
Example C96_example : exists es, tree c96_source (inl (Val None (PObj es None) None)) /\ entries_alike low es /\ List.length (py_format_document es) = 617.
Proof.
  eexists. split; [eexists; split; [apply run_parses; vm_compute; reflexivity|vm_compute; reflexivity]|].
  assert (W : forall s, forallb (fun c => existsb (N.eqb c) [cTAB; cCR; cLF; cDQ; cBSL] || negb (c =? 0)%N && negb (low c)) s = true -> Forall (written_alike low) s).
  { intros s H. rewrite forallb_forall in H. apply Forall_forall. intros c Hc. specialize (H c Hc). apply orb_prop in H as [H|H].
    - left. apply existsb_exists in H as (x & Hx & E). apply N.eqb_eq in E. now subst.
    - right. apply andb_prop in H as [H1 H2]. apply negb_true_iff in H1, H2. split; [now apply N.eqb_neq|exact H2]. }
  assert (E : forall s, forallb (fun c => negb (existsb (N.eqb c) [cTAB; cCR; cLF; cDQ; cBSL]) && (negb (c =? 0)%N && negb (low c))) s = true -> Forall (needs_no_escape low) s).
  { intros s H. rewrite forallb_forall in H. apply Forall_forall. intros c Hc. specialize (H c Hc). apply andb_prop in H as [H H']. apply andb_prop in H' as [H1 H2]. apply negb_true_iff in H, H1, H2.
    split; [|split; [now apply N.eqb_neq|exact H2]]. intros Hi. assert (existsb (N.eqb c) [cTAB; cCR; cLF; cDQ; cBSL] = true) by (apply existsb_exists; exists c; split; [exact Hi|apply N.eqb_refl]). congruence. }
  split; [|vm_compute; reflexivity].
  repeat first [apply pa_no_entries | apply pa_no_items | apply pa_entry | apply pa_item | apply pa_unit | apply pa_tag; [apply E; reflexivity] | apply pa_tagged; [apply E; reflexivity|]
    | apply (pa_plain _ (PScalar _ _ _)) | apply (pa_plain _ (PSeq _ _)) | apply (pa_plain _ (PObj _ _)) | apply pa_scalar; apply W; reflexivity | apply pa_seq | apply pa_obj].
Qed.
Example C96_sources_example : exists v, tree c96_source (inl v) /\ forall w, part_of w v -> fine_texts low w.
Proof. destruct C96_example as (es & T & A & _). eexists. split; [exact T|]. apply alike_fine. apply (pa_plain low (PObj es None)). now constructor. Qed.

(** The span of a document is not printed by Python, so a tree whose root has one is printed differently. *)
Theorem C96_root_refuted : exists es sp, entries_alike low es /\ print_sexp low (Val None (PObj es sp) sp) [] <> py_format_document es.
Proof. exists [], (at_ 0 1). split; [constructor|discriminate]. Qed.
