(** C15: printing a value tree and parsing it gives the same tree. *)
From Coq Require Import String.
From Verif Require Import Base BaseProofs TokModel LexModel LexSpec ParseModel ParseSpec PropParse TreeModel TreeSpec FmtModel FmtSpec LexRunProofs GrammarSpec WriteSpec RoundProofs WriteProofs.

(** Printing goes wrong for [v]: the text is [src], and it is read as another tree or not at all. *)
Definition misread (v : value) (src : str) : Prop :=
  format_value_default v = Ok src /\ exists t, tree src t /\ match t with inl v' => erase v' <> erase v | inr _ => True end.

Ltac misread := split; [vm_compute; reflexivity|]; eexists; split; [eexists; split; [apply run_parses; vm_compute; reflexivity|vm_compute; reflexivity]|]; try exact I; vm_compute; discriminate.

Definition txt (s : str) : value := Val None (PScalar s Bare None) None.
Definition unit_val : value := Val None PNone None.
Definition seq_of (l : list value) : value := Val None (PSeq l None) None.
Definition obj_of (l : list entry) : value := Val None (PObj l None) None.
Definition tagged (n : str) (p : payload) : value := Val (Some (n, None)) p None.
Definition ent (k : str) (v : value) : entry := Ent (txt k) v None.

(** The full statement is false: a scalar under a tag becomes a sequence with one element. *)
Theorem C15_refuted : exists v, misread v (lit "k @t(x)
").
Proof. exists (obj_of [ent (lit "k") (tagged (lit "t") (PScalar (lit "x") Bare None))]). misread. Qed.
Print Assumptions C15_refuted.

(** The unit value is written without the space that separates elements ... *)
Theorem C15_unit_refuted : misread (obj_of [ent (lit "k") (seq_of [txt (lit "a"); unit_val])]) (lit "k (a@)
") /\ misread (obj_of [ent (lit "k") (seq_of [unit_val; txt (lit "a")])]) (lit "k (@a)
").
Proof. split; misread. Qed.
Print Assumptions C15_unit_refuted.

(** ... and so is whatever follows a tag without payload. *)
Theorem C15_tag_refuted : misread (obj_of [ent (lit "k") (seq_of [tagged (lit "a") PNone; txt (lit "b")])]) (lit "k (@a""b"")
").
Proof. misread. Qed.
Print Assumptions C15_tag_refuted.

(** Heredocs are written where they cannot end. *)
Theorem C15_heredoc_refuted : misread (obj_of [ent (lit "k") (seq_of [txt (lit "a
b
")])]) (lit "k (<<TEXT
a
b
TEXT)
") /\ misread (obj_of [ent (lit "k") (obj_of [ent (lit "l") (txt (lit "a
b
"))])]) (lit "k {l <<TEXT
a
b
TEXT}
").
Proof. split; misread. Qed.
Print Assumptions C15_heredoc_refuted.

(** A heredoc gains a line end (C13); a word with [>] is an attribute (C11). *)
Theorem C15_scalar_refuted : misread (obj_of [ent (lit "k") (txt (lit "a
b
c"))]) (lit "k <<TEXT
a
b
c
TEXT
") /\ misread (obj_of [ent (lit "k") (txt (lit "a>b"))]) (lit "k a>b
").
Proof. split; misread. Qed.
Print Assumptions C15_scalar_refuted.

(** A root key with dots becomes a path. *)
Theorem C15_dotted_refuted : misread (obj_of [ent (lit "a.b") (txt (lit "1"))]) (lit "a.b 1
").
Proof. misread. Qed.
Print Assumptions C15_dotted_refuted.

(** Tagged keys: a word is glued to the tag name; a text in quotes is checked for escapes after it was decoded. *)
Theorem C15_tagged_word_refuted : misread (obj_of [Ent (tagged (lit "t") (PScalar (lit "x") Bare None)) (txt (lit "1")) None]) (lit "@tx 1
").
Proof. misread. Qed.
Print Assumptions C15_tagged_word_refuted.

Theorem C15_tagged_escape_refuted : misread (obj_of [Ent (tagged (lit "t") (PScalar (lit "a \q") Quoted None)) (txt (lit "1")) None]) (lit "@t""a \\q"" 1
").
Proof. misread. Qed.
Print Assumptions C15_tagged_escape_refuted.

(** Sequences and objects as keys make the printer panic; a root that is no object is read as a key. *)
Theorem C15_key_panic_refuted : format_value_default (obj_of [Ent (seq_of []) unit_val None]) = Panic /\ misread (txt (lit "x")) (lit "x
").
Proof. split; [reflexivity|misread]. Qed.
Print Assumptions C15_key_panic_refuted.

(** Equal neighbours among the root keys, and doc comments that are empty or end in an empty line. *)
Theorem C15_neighbours_refuted : misread (obj_of [ent (lit "a") (txt (lit "1")); ent (lit "a") (txt (lit "2"))]) (lit "a 1

a 2
") /\ misread (obj_of [Ent (txt (lit "a")) unit_val (Some [])]) (lit "
a @
").
Proof. split; misread. Qed.
Print Assumptions C15_neighbours_refuted.

(** Everything else is read back, for every indentation of blanks, every width and every style: [entry_fine] only
    excludes the situations above (nested heredocs altogether, units and payload-less tags in sequences except
    at the end, doc comments in nested objects for the forced inline style). *)
Theorem C15_partial : forall es a b o, (forall c, In c (o_indent o) -> c = cSP \/ c = cTAB) ->
  Forall (entry_fine (plain_style o) (o_heredoc o)) es -> neighbours_differ (map (fun e => root_name (e_key e)) es) ->
  exists src v', format_value (Val None (PObj es a) b) o = Ok src /\ tree src (inl v') /\ erase v' = erase (Val None (PObj es a) b).
Proof. exact print_parse. Qed.
Print Assumptions C15_partial.

Definition C15_value : list entry := [
  Ent (txt (lit "server")) (tagged (lit "node") (PObj [
      Ent (txt (lit "host name")) (txt (lit "a.b")) (Some (lit "where it
runs"));
      Ent unit_val (seq_of [txt (lit "x y"); obj_of []; tagged (lit "v") (PSeq [unit_val] None); tagged (lit "end") PNone]) None;
      Ent (tagged (lit "k") (PScalar (lit "z w") Bare None)) (obj_of [ent (lit "a.b") (txt (lit "1")); ent (lit "c") (tagged (lit "t") PNone)]) None] None)) (Some (lit "the
 server"));
  Ent (tagged (lit "note") PNone) (txt (lit "one
two

")) None; ent (lit "last") unit_val].

Example C15_example : Forall (entry_fine true 2) C15_value /\ neighbours_differ (map (fun e => root_name (e_key e)) C15_value) /\
  format_value_default (obj_of C15_value) = Ok (lit "/// the
///  server
server @node{
    /// where it
    /// runs
    ""host name"" a.b
    @ (""x y"" {} @v(@)@end)
    @k""z w"" {a.b ""1"", c @t}
}

@note <<TEXT
one
two

TEXT

last @
").
Proof.
  assert (W : forall s, forallb (fun c => negb (c =? cGT)%N) s = true -> no_gt_word s).
  { intros s Hs _ Hi. rewrite forallb_forall in Hs. apply Hs in Hi. discriminate. }
  assert (D : forall s, forallb (fun c => negb (c =? cDOT)%N) s = true -> ~ In cDOT s).
  { intros s Hs Hi. rewrite forallb_forall in Hs. apply Hs in Hi. discriminate. }
  assert (T : forall n, match n with c :: r => is_tag_start c && forallb is_tag_char r | [] => false end = true -> tag_name n).
  { intros [|c r] H; [discriminate|]. apply andb_prop in H as [H1 H2]. now exists c, r. }
  assert (U : forall p, p <> PNone -> ~ is_unit (Val None p None)) by (intros p Hp (sp & [= -> _]); now apply Hp).
  assert (L : forall ls, forallb (fun l => forallb not_eol l) ls = true -> Forall (fun x => ~ In cLF x /\ ~ In cCR x) ls).
  { intros ls H. apply Forall_forall. intros x Hx. rewrite forallb_forall in H. specialize (H x Hx). rewrite forallb_forall in H. split; intros Hi; apply H in Hi; discriminate. }
  splits; [|intros a x b E|vm_compute; reflexivity].
  - repeat apply Forall_cons; [| | |apply Forall_nil]; (split; [|split]); cbn [e_key e_val e_doc].
    + apply kf_text; [apply W; reflexivity|intros _ _; refine (D _ _); reflexivity].
    + left. apply fine_obj; [apply T; reflexivity| |].
      * apply fe_cons; [apply kf_text; [apply W; reflexivity|discriminate]|apply fine_scalar; [vm_compute; lia|apply W; reflexivity]|now right| |].
        { exists [lit "where it"], (lit "runs"). splits; [reflexivity|discriminate|apply L; reflexivity]. }
        apply fe_cons; [apply kf_unit| |now left|exact I|].
        { apply fine_seq; [exact I|].
          assert (forall l, Forall (fun w => unitb w = false) l -> Forall (fun w => ~ is_unit w) l) as F.
          { intros l. apply Forall_impl. intros w Hw (sp & ->). discriminate. }
          apply fi_cons; [apply fine_scalar; [vm_compute; lia|apply W; reflexivity]|intros _; right; now do 4 eexists|apply F; repeat constructor|].
          apply fi_cons; [apply fine_obj; [exact I|apply fe_nil|constructor]|intros _; now left|apply F; repeat constructor|].
          apply fi_cons; [apply fine_seq; [apply T; reflexivity|]|intros _; now left|apply F; repeat constructor|].
          - apply fi_cons; [apply fine_unit|congruence|constructor|apply fi_nil].
          - apply fi_cons; [apply fine_tag, T; reflexivity|congruence|constructor|apply fi_nil]. }
        apply fe_cons; [| |now left|exact I|apply fe_nil].
        { apply kf_tag_text; [apply T; reflexivity|reflexivity|intros m E; destruct m as [|? [|? ?]]; discriminate|]. exists (lit "z w"). repeat (apply dec_plain; [discriminate|]). apply dec_nil. }
        apply fine_obj; [exact I| |].
        { apply fe_cons; [apply kf_text; [apply W; reflexivity|discriminate]|apply fine_scalar; [vm_compute; lia|apply W; reflexivity]|now left|exact I|].
          apply fe_cons; [apply kf_text; [apply W; reflexivity|discriminate]|apply fine_tag, T; reflexivity|now left|exact I|apply fe_nil]. }
        repeat constructor; cbn; intuition discriminate.
      * repeat constructor; cbn; intuition discriminate.
    + exists [lit "the"], (lit " server"). splits; [reflexivity|discriminate|apply L; reflexivity].
    + apply kf_tag, T. reflexivity.
    + right. do 4 eexists. splits; [reflexivity|apply W; reflexivity|exists (lit "one
two
"); reflexivity|]. exists (lit "TEXT"). split; [vm_compute; auto|]. intros Ho. apply contains_sub_iff in Ho. discriminate.
    + exact I.
    + apply kf_text; [apply W; reflexivity|intros _ _; refine (D _ _); reflexivity].
    + left. apply fine_unit.
    + exact I.
  - clear - E. vm_compute in E. destruct a as [|? [|? [|? a]]]; cbn [app] in E; try congruence. injection E as _ _ _ E. now destruct a.
Qed.
