(** C93: documents written by the Rust implementation and read by the Python implementation. *)
From Coq Require Import String.
From Verif Require Import Base BaseProofs TokModel LexModel LexSpec ParseModel ParseSpec PropParse TreeModel TreeSpec FmtModel FmtSpec LexRunProofs GrammarSpec WriteSpec RoundProofs WriteProofs PropWrite
  PyModel PySpec PyProofs PyWriteProofs PyParseModel PyParseProofs PyRoundSpec PyRoundProofs PropPy.
Notation length := List.length.

(** What the Rust printer writes is read by the Rust parser as the tree it was written from, and by the Python parser as the same tree:
    the same tags, keys, elements and texts in the same order. This holds for every indentation of blanks, every width and every style,
    for the trees that Rust itself reads back (C15), if no key of a nested object is a word with dots and Python knows no two
    keys of an object under the same name. *)
Theorem C93_partial : forall isupper int16, (forall c, (65 <= c <= 90)%N -> isupper c = true) -> (forall n, (n < 128)%N -> int16 (hex4 n) = Some (Z.of_N n)) ->
  forall es a b o, (forall c, In c (o_indent o) -> c = cSP \/ c = cTAB) ->
  Forall (entry_fine (plain_style o) (o_heredoc o)) es -> Forall (fun e => py_fine (e_val e)) es -> NoDup (py_names es) -> neighbours_differ (map (fun e => root_name (e_key e)) es) ->
  exists src, format_value (Val None (PObj es a) b) o = Ok src /\
    (exists v, tree src (inl v) /\ erase v = erase (Val None (PObj es a) b)) /\
    exists l n, agrees_entries es l /\ forall fuel, n <= fuel -> py_parse isupper int16 fuel src = VOk l.
Proof.
  intros isupper int16 U H es a b o Hb He Hp Nd Nn. destruct (C15_partial es a b o Hb He Nn) as (src & v & E & T & R). exists src. split; [exact E|]. split; [eauto|].
  destruct (printed_layout es a b o Hb He) as (src' & E' & W). assert (src' = src) as -> by congruence. now apply py_reads.
Qed.
Print Assumptions C93_partial.

Definition C93_value : list entry := [
  Ent (txt (lit "server")) (tagged (lit "node") (PObj [
      Ent (txt (lit "host name")) (txt (lit "a.b")) (Some (lit "where it
runs"));
      Ent unit_val (seq_of [txt (lit "x y"); obj_of []; tagged (lit "v") (PSeq [unit_val] None); tagged (lit "end") PNone]) None;
      Ent (tagged (lit "k") (PScalar (lit "z w") Bare None)) (obj_of [ent (lit "a b") (txt (lit "1")); ent (lit "c") (tagged (lit "t") PNone)]) None] None)) (Some (lit "the
 server"));
  Ent (tagged (lit "note") PNone) (txt (lit "one
two

")) None; ent (lit "last") unit_val].

Example C93_example : Forall (entry_fine true 2) C93_value /\ Forall (fun e => py_fine (e_val e)) C93_value /\ NoDup (py_names C93_value) /\ neighbours_differ (map (fun e => root_name (e_key e)) C93_value) /\
  format_value_default (obj_of C93_value) = Ok (lit "/// the
///  server
server @node{
    /// where it
    /// runs
    ""host name"" a.b
    @ (""x y"" {} @v(@)@end)
    @k""z w"" {""a b"" ""1"", c @t}
}

@note <<TEXT
one
two

TEXT

last @
").
Proof.
  assert (W : forall s, forallb (fun c => negb (c =? cGT)%N) s = true -> no_gt_word s).
  { intros s Hs _ Hi. rewrite forallb_forall in Hs. apply Hs in Hi. discriminate. }
  assert (D : forall s, forallb (fun c => negb (c =? cDOT)%N) s = true -> ~ In cDOT s).
  { intros s Hs Hi. rewrite forallb_forall in Hs. apply Hs in Hi. discriminate. }
  assert (T : forall n, match n with c :: r => is_tag_start c && forallb is_tag_char r | [] => false end = true -> tag_name n).
  { intros [|c r] H; [discriminate|]. apply andb_prop in H as [H1 H2]. now exists c, r. }
  assert (U : forall p, p <> PNone -> ~ is_unit (Val None p None)) by (intros p Hp (sp & [= -> _]); now apply Hp).
  assert (L : forall ls, forallb (fun l => forallb not_eol l) ls = true -> Forall (fun x => ~ In cLF x /\ ~ In cCR x) ls).
  { intros ls H. apply Forall_forall. intros x Hx. rewrite forallb_forall in H. specialize (H x Hx). rewrite forallb_forall in H. split; intros Hi; apply H in Hi; discriminate. }
  assert (Lf : forall v, bracketed v = false -> py_fine v) by (intros v; apply pf_leaf).
  assert (Np : forall k, match k with Val None (PScalar s _ _) _ => negb (existsb (N.eqb cDOT) s) | _ => true end = true -> no_path k).
  { intros k H s kd a b -> _ Hi. cbv iota in H. apply negb_true_iff in H. assert (existsb (N.eqb cDOT) s = true) by (apply existsb_exists; exists cDOT; split; [exact Hi|reflexivity]). congruence. }
  splits; [|clear W D T U L|clear|intros a x b E|vm_compute; reflexivity].
  - repeat apply Forall_cons; [| | |apply Forall_nil]; (split; [|split]); cbn [e_key e_val e_doc].
    + apply kf_text; [apply W; reflexivity|intros _ _; refine (D _ _); reflexivity].
    + left. apply fine_obj; [apply T; reflexivity| |].
      * apply fe_cons; [apply kf_text; [apply W; reflexivity|discriminate]|apply fine_scalar; [vm_compute; lia|apply W; reflexivity]|now right| |].
        { exists [lit "where it"], (lit "runs"). splits; [reflexivity|discriminate|apply L; reflexivity]. }
        apply fe_cons; [apply kf_unit| |now left|exact I|].
        { apply fine_seq; [exact I|].
          assert (forall l, Forall (fun w => unitb w = false) l -> Forall (fun w => ~ is_unit w) l) as F.
          { intros l. apply Forall_impl. intros w Hw (sp & ->). discriminate. }
          apply fi_cons; [apply fine_scalar; [vm_compute; lia|apply W; reflexivity]|intros _; right; now do 4 eexists|apply F; repeat constructor|].
          apply fi_cons; [apply fine_obj; [exact I|apply fe_nil|constructor]|intros _; now left|apply F; repeat constructor|].
          apply fi_cons; [apply fine_seq; [apply T; reflexivity|]|intros _; now left|apply F; repeat constructor|].
          - apply fi_cons; [apply fine_unit|congruence|constructor|apply fi_nil].
          - apply fi_cons; [apply fine_tag, T; reflexivity|congruence|constructor|apply fi_nil]. }
        apply fe_cons; [| |now left|exact I|apply fe_nil].
        { apply kf_tag_text; [apply T; reflexivity|reflexivity|intros m E; destruct m as [|? [|? ?]]; discriminate|]. exists (lit "z w"). repeat (apply LexSpec.dec_plain; [discriminate|]). apply LexSpec.dec_nil. }
        apply fine_obj; [exact I| |].
        { apply fe_cons; [apply kf_text; [apply W; reflexivity|discriminate]|apply fine_scalar; [vm_compute; lia|apply W; reflexivity]|now left|exact I|].
          apply fe_cons; [apply kf_text; [apply W; reflexivity|discriminate]|apply fine_tag, T; reflexivity|now left|exact I|apply fe_nil]. }
        repeat constructor; cbn; intuition discriminate.
      * repeat constructor; cbn; intuition discriminate.
    + exists [lit "the"], (lit " server"). splits; [reflexivity|discriminate|apply L; reflexivity].
    + apply kf_tag, T. reflexivity.
    + right. do 4 eexists. splits; [reflexivity|apply W; reflexivity|exists (lit "one
two
"); reflexivity|]. exists (lit "TEXT"). split; [vm_compute; auto|]. intros Ho. apply contains_sub_iff in Ho. discriminate.
    + exact I.
    + apply kf_text; [apply W; reflexivity|intros _ _; refine (D _ _); reflexivity].
    + left. apply fine_unit.
    + exact I.
  - repeat apply Forall_cons; [| | |apply Forall_nil]; cbn [e_val]; [|now apply Lf|now apply Lf].
    apply pf_obj; [|repeat constructor; cbn; intuition discriminate].
    apply pf_entry; [now apply Np|now apply Lf|]. apply pf_entry; [now apply Np| |].
    { apply pf_seq. apply pf_item; [now apply Lf|]. apply pf_item; [apply pf_obj; [constructor|apply NoDup_nil]|]. apply pf_item; [apply pf_seq, pf_item; [now apply Lf|constructor]|].
      apply pf_item; [now apply Lf|constructor]. }
    apply pf_entry; [now apply Np| |constructor]. apply pf_obj; [|repeat constructor; cbn; intuition discriminate].
    apply pf_entry; [now apply Np|now apply Lf|]. apply pf_entry; [now apply Np|now apply Lf|constructor].
  - repeat constructor; cbn; intuition discriminate.
  - clear - E. vm_compute in E. destruct a as [|? [|? [|? a]]]; cbn [app] in E; try congruence. injection E as _ _ _ E. now destruct a.
Qed.
Example C93_read_example : match format_value_default (obj_of C93_value) with Ok src => exists l, py_parse is_upper int16_ascii 100 src = VOk l /\ agrees_entries C93_value l | _ => False end.
Proof. vm_compute. eexists. split; [reflexivity|]. repeat (first [apply agree_entry|apply agree_no_entries|apply agree_item|apply agree_no_items|apply (agree None)|eapply (agree (Some (_, None)))|constructor]). Qed.

Lemma entries_inv k v d r k' v' l : agrees_entries (Ent k v d :: r) ((k', v') :: l) -> agrees k k' /\ agrees v v' /\ agrees_entries r l.
Proof. intros A. inversion A. auto. Qed.
Lemma value_inv t p sp t' q : agrees (Val t p sp) (PV t' q) -> agrees_payload p q.
Proof. intros A. inversion A. auto. Qed.
Lemma obj_inv es a l : agrees_payload (PObj es a) (PPObj l) -> agrees_entries es l.
Proof. intros A. inversion A. auto. Qed.
Lemma text_inv s k a k' s' : agrees_payload (PScalar s k a) (PPScalar k' s') -> s = s'.
Proof. intros A. inversion A. auto. Qed.

(** Rust writes a tree and reads it back, and Python reads something else, or nothing. *)
Definition parted (es : list entry) (src : str) (x : pout (list pyentry)) : Prop :=
  format_value_default (obj_of es) = Ok src /\ (exists v, tree src (inl v) /\ erase v = erase (obj_of es)) /\ py_parse is_upper int16_ascii 100 src = x /\
  x <> VFuel /\ forall l, x = VOk l -> ~ agrees_entries es l.
Ltac parted := split; [vm_compute; reflexivity|]; split; [eexists; split; [eexists; split; [apply run_parses; vm_compute; reflexivity|vm_compute; reflexivity]|vm_compute; reflexivity]|];
  split; [vm_compute; reflexivity|]; split; [discriminate|].

(** A word with dots as key of a nested object is a key for Rust and a path for Python (parser.py 248-256). *)
Theorem C93_refuted : exists es src l, parted es src (VOk l).
Proof.
  exists [ent (lit "k") (obj_of [ent (lit "a.b") (txt (lit "c"))])]. eexists _, _. parted. intros l [= <-] A.
  apply entries_inv in A as (_ & V & _). apply value_inv, obj_inv, entries_inv in V as (K & _ & _). apply value_inv, text_inv in K. discriminate.
Qed.
Print Assumptions C93_refuted.

(** Python knows the tag [@t] and the text ["@t"] under the same name, and a tagged text under the name of the text. *)
Theorem C93_names_refuted : (exists es src, parted es src VErr) /\ exists es src, NoDup (map (fun e => key_ident (e_key e)) es) /\ parted es src VErr.
Proof.
  split.
  - exists [ent (lit "k") (obj_of [ent (lit "@t") (txt (lit "c")); Ent (tagged (lit "t") PNone) (txt (lit "d")) None])]. eexists. parted. discriminate.
  - exists [ent (lit "x y") (txt (lit "c")); Ent (tagged (lit "t") (PScalar (lit "x y") Quoted None)) (txt (lit "d")) None]. eexists.
    split; [repeat constructor; cbn; intuition discriminate|]. parted. discriminate.
Qed.
Print Assumptions C93_names_refuted.

(** A path without a value: Python takes the key on the next line for its value (parser.py 300-356 has no check for a line end, unlike 205-224). *)
Theorem C93_path_refuted : exists src es a l, tree src (inl (Val None (PObj es a) None)) /\ py_parse is_upper int16_ascii 100 src = VOk l /\ length l = length es /\ ~ agrees_entries es l.
Proof.
  exists (lit "a.b
c d"). eexists _, _, _. split; [eexists; split; [apply run_parses; vm_compute; reflexivity|vm_compute; reflexivity]|]. split; [vm_compute; reflexivity|]. split; [reflexivity|].
  intros A. apply entries_inv in A as (_ & _ & R). apply entries_inv in R as (K & _ & _). apply value_inv, text_inv in K. discriminate.
Qed.
Print Assumptions C93_path_refuted.
