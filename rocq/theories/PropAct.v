(** C80: the formatting edit. C81: the line break key. C82: the edit for a misspelt field. C83: the problems shown. C84: the places of a field. *)
From Coq Require Import String Lia.
From Verif Require Import Base BaseProofs TokModel TokSpec LexModel LexSpec ParseModel ParseSpec RunProofs TreeModel TreeSpec TreeProofs FmtModel CstModel CstFmtModel WarnModel
  SchemaModel CompatSpec PropParse LspModel LspSpec LspProofs PropLsp EditModel EditSpec PropEdit HoverModel HoverSpec HoverProofs PropHover ActModel ActSpec ActProofs.
Local Open Scope nat_scope.
Notation length := List.length.

(** For the examples. *)
Definition the_value (src : str) : value := match read_tree src with Some v => v | None => Val None PNone None end.

(** ** C80 *)

Lemma spaces_only u n : length u = n -> Forall (eq cSP) u -> u = repeat cSP n.
Proof. intros <-. induction 1 as [|c u <- H IH]; [reflexivity|]. cbn. now rewrite <- IH. Qed.
Lemma indent_unit_of spaces size : unit_of spaces size (indent_unit spaces size).
Proof. destruct spaces; [|reflexivity]. split; [apply repeat_length|]. apply Forall_forall. intros x Hx. symmetry. now apply repeat_spec in Hx. Qed.

(** For a text without lone carriage returns, the editor's text after the edit is the formatted text, followed by the line break at the end of the old text if there was
    one; no edit is sent exactly if the text is already as the formatter wants it. Missing: that line break (refuted below), and lone carriage returns (refuted below). *)
Theorem C80_edit_partial : forall content spaces size r, no_lone_cr content -> formatting content true spaces size = Ok r ->
  exists unit formatted, unit_of spaces size unit /\ format_source unit content = Ok formatted /\
  match r with
  | None => formatted = content
  | Some e => formatted <> content /\ exists tl, final_break content tl /\ forall new, applied content e new <-> new = formatted ++ tl
  end.
Proof.
  intros content spaces size r H E. unfold formatting in E. cbn [negb] in E. destruct (format_source (indent_unit spaces size) content) as [f| |] eqn:Ef; try discriminate E.
  cbn in E. injection E as <-. exists (indent_unit spaces size), f. split; [apply indent_unit_of|]. split; [exact Ef|]. unfold whole_edit. destruct (str_eqb f content) eqn:Eq; [now apply str_eqb_eq|].
  split; [intros ->; now rewrite (proj2 (str_eqb_eq content content) eq_refl) in Eq|].
  destruct (last_place content H) as (a & tl & Ec & F & P). exists tl. split; [exact F|].
  assert (applied content (mkedit (mkpos 0 0) (mkpos (length (str_lines content) - 1) (match rev (str_lines content) with l :: _ => blen l | [] => 0 end)) f) (f ++ tl)) as A.
  { exists [], a, tl. splits; [exact Ec| |exact P|reflexivity]. cbn [e_from]. apply (front_of_prefix [] content []); auto. split; [intros []|now left]. }
  intros new. split; [intros A'; eapply applied_unique; eauto|]. intros ->. exact A.
Qed.
Print Assumptions C80_edit_partial.
(** In particular, the edit is right for a text that does not end with a line feed. *)
Corollary C80_unterminated_partial : forall content spaces size e, no_lone_cr content -> (forall x, content <> x ++ [cLF]) -> formatting content true spaces size = Ok (Some e) ->
  exists unit formatted, unit_of spaces size unit /\ format_source unit content = Ok formatted /\ forall new, applied content e new <-> new = formatted.
Proof.
  intros content spaces size e H N E. destruct (C80_edit_partial _ _ _ _ H E) as (u & f & Hu & Ef & _ & tl & F & A). exists u, f. split; [exact Hu|]. split; [exact Ef|]. intros new. rewrite A.
  destruct F as [[-> _]|[[-> (x & ->)]|[-> (x & -> & _)]]]; [now rewrite app_nil_r| |].
  - exfalso. apply (N (x ++ [cCR])). now rewrite <- app_assoc.
  - exfalso. now apply (N x).
Qed.
Print Assumptions C80_unterminated_partial.

(** For the examples. *)
Lemma one_line_ok t : forallb (fun c => negb (c =? cLF)%N && negb (c =? cCR)%N) t = true -> one_line t.
Proof.
  intros H. rewrite forallb_forall in H. split; intros Hi; specialize (H _ Hi); cbn in H; discriminate.
Qed.
Lemma no_lone_ok s : ~ In cCR s -> no_lone_cr s.
Proof. intros H a r ->. exfalso. apply H, in_or_app. right. now left. Qed.

Example C80_example : let content := lit "a   {b  1}" in exists e, no_lone_cr content /\ formatting content true true 2 = Ok (Some e) /\
  applied content e (lit "a {b 1}" ++ [cLF]).
Proof.
  intros content. destruct (formatting content true true 2) as [[e|]| |] eqn:E; try (vm_compute in E; discriminate E). exists e.
  assert (no_lone_cr content) as H by (apply no_lone_ok; vm_compute; intuition discriminate). splits; auto.
  destruct (C80_unterminated_partial content true 2 e H) as (u & f & [Hu Hs] & Ef & A); auto.
  { intros x Hx. apply (f_equal (@rev _)) in Hx. rewrite rev_app_distr in Hx. vm_compute in Hx. discriminate. }
  apply (spaces_only u 2) in Hu as ->; [|exact Hs]. apply A. vm_compute in Ef. injection Ef as <-. reflexivity.
Qed.
(** Finding: the range of the edit leaves out the line break at the end of the text, but the formatted text has one. *)
Theorem C80_refuted : exists content e formatted, no_lone_cr content /\ formatting content true true 2 = Ok (Some e) /\
  format_source (lit "  ") content = Ok formatted /\ applied content e (formatted ++ [cLF]) /\ ~ applied content e formatted.
Proof.
  set (content := lit "a  1" ++ [cLF]). destruct (formatting content true true 2) as [[e|]| |] eqn:E; try (vm_compute in E; discriminate E). exists content, e, (lit "a 1" ++ [cLF]).
  assert (no_lone_cr content) as H by (apply no_lone_ok; vm_compute; intuition discriminate).
  assert (applied content e ((lit "a 1" ++ [cLF]) ++ [cLF])) as A.
  { destruct (C80_edit_partial content true 2 _ H E) as (u & f & [Hu Hs] & Ef & _ & tl & F & A). apply A. apply (spaces_only u 2) in Hu as ->; [|exact Hs]. vm_compute in Ef. injection Ef as <-. 
    destruct F as [[-> F]|[[-> (x & F)]|[-> _]]]; [exfalso; now apply (F (lit "a  1"))| |reflexivity].
    exfalso. apply (f_equal (@rev _)) in F. rewrite rev_app_distr in F. vm_compute in F. discriminate. }
  splits; auto. intros B. pose proof (applied_unique _ _ _ _ A B) as X. apply (f_equal (@length _)) in X. discriminate.
Qed.
Print Assumptions C80_refuted.
(** Finding: formatting such a text again gives an edit that changes nothing, over and over. *)
Theorem C80_settles_refuted : exists content e formatted, no_lone_cr content /\ formatting content true true 2 = Ok (Some e) /\
  format_source (lit "  ") content = Ok formatted /\ formatted <> content /\ applied content e content.
Proof.
  set (content := lit "a 1" ++ [cLF; cLF]). destruct (formatting content true true 2) as [[e|]| |] eqn:E; try (vm_compute in E; discriminate E). exists content, e, (lit "a 1" ++ [cLF]).
  assert (no_lone_cr content) as H by (apply no_lone_ok; vm_compute; intuition discriminate).
  splits; auto; [intros X; apply (f_equal (@length _)) in X; discriminate|].
  destruct (C80_edit_partial content true 2 _ H E) as (u & f & [Hu Hs] & Ef & _ & tl & F & A). apply A. apply (spaces_only u 2) in Hu as ->; [|exact Hs]. vm_compute in Ef. injection Ef as <-.
  destruct F as [[-> F]|[[-> (x & F)]|[-> _]]]; [exfalso; now apply (F (lit "a 1" ++ [cLF]))| |reflexivity].
  exfalso. apply (f_equal (@rev _)) in F. rewrite rev_app_distr in F. vm_compute in F. discriminate.
Qed.
Print Assumptions C80_settles_refuted.
(** Finding: a carriage return inside a quoted text is a line break for the editor, but not for the server; the rest of the text is left behind. *)
Theorem C80_return_refuted : exists content e formatted, formatting content true true 2 = Ok (Some e) /\
  format_source (lit "  ") content = Ok formatted /\ applied content e (formatted ++ [cCR] ++ lit "b""").
Proof.
  set (content := lit "k    ""a" ++ [cCR] ++ lit "b"""). eexists content, _, _. splits; [vm_compute; reflexivity|vm_compute; reflexivity|].
  exists [], (lit "k    ""a"), ([cCR] ++ lit "b"""). splits; [reflexivity| | |reflexivity].
  - change content with (lit "k    ""a" ++ ([cCR] ++ lit "b""")). apply if_here; [now apply one_line_ok| |].
    + right. exists [cCR], (lit "b"""). split; [reflexivity|]. right. right. split; [reflexivity|discriminate].
    + exists (lit "k    ""a"). splits; [reflexivity|cbn; lia|]. intros c r [= <- <-]. cbn. lia.
  - change content with (lit "k    ""a" ++ ([cCR] ++ lit "b""")). apply (if_here (lit "k    ""a")); [now apply one_line_ok| |].
    + right. exists [cCR], (lit "b"""). split; [reflexivity|]. right. right. split; [reflexivity|discriminate].
    + apply column_all. vm_compute. lia.
Qed.
Print Assumptions C80_return_refuted.

(** ** C81 *)

(** In a text without syntax errors, after a line break the line of the cursor is indented by one unit for each object and sequence around the cursor, if the
    line had no indentation before. Missing: lines that already have some (refuted below), cursors right between two brackets, and lone
    carriage returns. *)
Theorem C81_indent_partial : forall src n pos spaces size e p t r, cst_parse src = Ok (n, []) -> no_lone_cr src -> line_at src (p_line pos) p t r ->
  ~ seam n (blen p + blen (firstn (p_char pos) t)) -> on_type src n [cLF] pos spaces size = Some e ->
  exists unit ind, unit_of spaces size unit /\ ind = concat (repeat unit (around (blen p + blen (firstn (p_char pos) t)) 0 n)) /\
  (forall new, applied src e new <-> new = p ++ (ind ++ t) ++ r) /\
  ((forall c x, t = c :: x -> c <> cSP /\ c <> 9%N) -> indented (ind ++ t) ind).
Proof.
  intros src n pos spaces size e p t r P N L S E. eexists _, _. split; [apply indent_unit_of|]. split; [reflexivity|]. split; [|intros H; exists t; auto].
  unfold on_type in E. rewrite (proj2 (str_eqb_eq [cLF] [cLF]) eq_refl) in E. cbn [negb] in E. injection E as <-.
  pose proof (position_to_offset_line _ _ _ _ _ pos L eq_refl) as O. rewrite O.
  assert (blen p + blen (firstn (p_char pos) t) <= blen src) as B.
  { destruct L as (-> & _). rewrite !blen_app. rewrite <- (firstn_skipn (p_char pos) t) at 2. rewrite blen_app. lia. }
  rewrite (C67_depth_partial _ _ _ P B S). set (d := around _ 0 n).
  assert (repeat_str d (indent_unit spaces size) = concat (repeat (indent_unit spaces size) d)) as Er by (clear; induction d as [|d IH]; [reflexivity|]; cbn; now rewrite IH).
  rewrite Er. pose proof (line_start_front _ _ _ _ _ N L) as F.
  set (e := mkedit _ _ _). assert (applied src e (p ++ (concat (repeat (indent_unit spaces size) d) ++ t) ++ r)) as A.
  { exists p, [], (t ++ r). splits; [exact (proj1 L)|exact F|rewrite app_nil_r; exact F|]. cbn [e_text e]. now rewrite <- app_assoc. }
  intros new. split; [intros A'; eapply applied_unique; eauto|]. intros ->. exact A.
Qed.
Print Assumptions C81_indent_partial.

Definition C81_src : str := lit "a {" ++ [cLF] ++ lit "b 1" ++ [cLF] ++ lit "}".
Example C81_example : exists n e, let pos := mkpos 1 0 in let p := lit "a {" ++ [cLF] in let t := lit "b 1" in let r := cLF :: lit "}" in
  cst_parse C81_src = Ok (n, []) /\ no_lone_cr C81_src /\ line_at C81_src 1 p t r /\ ~ seam n (blen p + blen (firstn (p_char pos) t)) /\
  on_type C81_src n [cLF] pos true 4 = Some e /\ applied C81_src e (p ++ (repeat cSP 4 ++ t) ++ r) /\ indented (repeat cSP 4 ++ t) (repeat cSP 4).
Proof.
  destruct (cst_parse C81_src) as [[n [|]]| |] eqn:E; try (vm_compute in E; discriminate E). exists n.
  destruct (on_type C81_src n [cLF] (mkpos 1 0) true 4) as [e|] eqn:Eo; [|discriminate Eo]. exists e.
  set (pos := mkpos 1 0). set (p := lit "a {" ++ [cLF]). set (t := lit "b 1"). set (r := cLF :: lit "}").
  assert (no_lone_cr C81_src) as N by (apply no_lone_ok; vm_compute; intuition discriminate).
  assert (line_at C81_src 1 p t r) as L.
  { repeat split; [right; eexists; reflexivity|vm_compute; intuition discriminate|right; eexists; reflexivity]. }
  assert (~ seam n (blen p + blen (firstn (p_char pos) t))) as S.
  { intros H. apply seam_in in H. vm_compute in E. injection E as <-. vm_compute in H. intuition discriminate. }
  destruct (C81_indent_partial C81_src n pos true 4 e p t r E N L S Eo) as (u & ind & [Hu Hs] & Ei & A & I).
  assert (u = repeat cSP 4) as -> by (apply spaces_only; auto).
  assert (ind = repeat cSP 4) as ->. { rewrite Ei. vm_compute in E. injection E as <-. vm_compute. reflexivity. }
  cbn zeta. splits; auto; [now apply A|]. apply I. intros c x [= <- <-]. split; discriminate.
Qed.
(** Finding: a line that the editor has already indented is indented twice. *)
Theorem C81_refuted : exists src n pos e p t r ind, cst_parse src = Ok (n, []) /\ no_lone_cr src /\ line_at src (p_line pos) p t r /\
  ~ seam n (blen p + blen (firstn (p_char pos) t)) /\ on_type src n [cLF] pos true 2 = Some e /\
  ind = concat (repeat (lit "  ") (around (blen p + blen (firstn (p_char pos) t)) 0 n)) /\ applied src e (p ++ (ind ++ t) ++ r) /\ ~ indented (ind ++ t) ind.
Proof.
  set (src := lit "a {" ++ [cLF] ++ lit "  b 1" ++ [cLF] ++ lit "}").
  destruct (cst_parse src) as [[n [|]]| |] eqn:E; try (vm_compute in E; discriminate E).
  destruct (on_type src n [cLF] (mkpos 1 2) true 2) as [e|] eqn:Eo; [|discriminate Eo].
  set (pos := mkpos 1 2) in *. set (p := lit "a {" ++ [cLF]). set (t := lit "  b 1"). set (r := cLF :: lit "}").
  assert (no_lone_cr src) as N by (apply no_lone_ok; vm_compute; intuition discriminate).
  assert (line_at src 1 p t r) as L.
  { repeat split; [right; eexists; reflexivity|vm_compute; intuition discriminate|right; eexists; reflexivity]. }
  assert (~ seam n (blen p + blen (firstn (p_char pos) t))) as S.
  { intros H. apply seam_in in H. vm_compute in E. injection E as <-. vm_compute in H. intuition discriminate. }
  destruct (C81_indent_partial src n pos true 2 e p t r E N L S Eo) as (u & ind & [Hu Hs] & Ei & A & _).
  assert (u = repeat cSP 2) as -> by (apply spaces_only; auto). exists src, n, pos, e, p, t, r, ind. splits; auto; [now apply A|].
  intros (rest & Er & H). apply app_inv_head in Er. destruct (H cSP (lit " b 1") (eq_sym Er)) as [H1 _]. now apply H1.
Qed.
Print Assumptions C81_refuted.

(** ** C82 *)

(** The edit for a misspelt field replaces exactly the text of its span, if every character on the lines in front of its ends is one UTF-16 unit, and there are no
    lone carriage returns. Missing: other characters (refuted below), and names that need quotes (refuted below). *)
Theorem C82_rename_partial : forall a m b sp to t1 t2, sp_start sp = blen a -> sp_end sp = blen (a ++ m) -> no_lone_cr (a ++ m ++ b) ->
  last_line a t1 -> bmp t1 -> ~ In cCR t1 -> last_line (a ++ m) t2 -> bmp t2 -> ~ In cCR t2 ->
  forall new, applied (a ++ m ++ b) (rename_edit (a ++ m ++ b) sp to) new <-> new = a ++ to ++ b.
Proof.
  intros a m b sp to t1 t2 S1 S2 N L1 B1 C1 L2 B2 C2.
  assert (applied (a ++ m ++ b) (rename_edit (a ++ m ++ b) sp to) (a ++ to ++ b)) as A.
  { exists a, m, b. unfold rename_edit. cbn [e_from e_to e_text]. rewrite S1, S2. splits; auto; unfold position_in.
    - destruct (C29_place a (m ++ b)) as [-> (u & Hu & ->)]. rewrite (last_line_unique _ _ _ Hu L1). apply (front_of_prefix a (m ++ b) t1); auto. symmetry. now apply bmp_width.
    - rewrite app_assoc. destruct (C29_place (a ++ m) b) as [-> (u & Hu & ->)]. rewrite (last_line_unique _ _ _ Hu L2). apply (front_of_prefix (a ++ m) b t2); auto; [now rewrite <- app_assoc|].
      symmetry. now apply bmp_width. }
  intros new. split; [intros A'; eapply applied_unique; eauto|]. intros ->. exact A.
Qed.
Print Assumptions C82_rename_partial.
Example C82_example : let a := lit "host x" ++ [cLF] in let m := lit "prot" in let b := lit " 80" in let sp := mkspan 7 11 in
  sp_start sp = blen a /\ sp_end sp = blen (a ++ m) /\ no_lone_cr (a ++ m ++ b) /\ last_line a [] /\ bmp [] /\ last_line (a ++ m) m /\ bmp m /\ ~ In cCR m /\
  applied (a ++ m ++ b) (rename_edit (a ++ m ++ b) sp (lit "port")) (a ++ lit "port" ++ b).
Proof.
  intros a m b sp. assert (no_lone_cr (a ++ m ++ b)) as N by (apply no_lone_ok; vm_compute; intuition discriminate).
  assert (last_line a []) as L1 by (split; [intros []|right; exists (lit "host x"); reflexivity]).
  assert (last_line (a ++ m) m) as L2 by (split; [vm_compute; intuition discriminate|right; exists (lit "host x"); reflexivity]).
  assert (bmp m) as B by (repeat constructor). assert (~ In cCR m) as C by (vm_compute; intuition discriminate).
  splits; auto; [constructor|]. apply (C82_rename_partial a m b sp (lit "port") [] m); auto. constructor.
Qed.
(** Finding: behind a character of two UTF-16 units on the line, the edit replaces the wrong text. *)
Theorem C82_astral_refuted : exists a m b sp to new, tree (a ++ m ++ b) (inl (the_value (a ++ m ++ b))) /\ sp_start sp = blen a /\ sp_end sp = blen (a ++ m) /\ no_lone_cr (a ++ m ++ b) /\
  applied (a ++ m ++ b) (rename_edit (a ++ m ++ b) sp to) new /\ new <> a ++ to ++ b.
Proof.
  set (a := lit "{k """ ++ [128512]%N ++ lit """, "). set (m := lit "prot"). set (b := lit " 80}").
  exists a, m, b, (mkspan (blen a) (blen (a ++ m))), (lit "port"), (lit "{k """ ++ [128512]%N ++ lit """,portt 80}").
  assert (no_lone_cr (a ++ m ++ b)) as N by (apply no_lone_ok; vm_compute; intuition discriminate).
  splits; auto; [apply read_tree_ok; vm_compute; reflexivity| |intros X; vm_compute in X; discriminate].
  set (a' := lit "{k """ ++ [128512]%N ++ lit ""","). exists a', (lit " pro"), (lit "t 80}").
  splits; [reflexivity| | |reflexivity]; unfold position_in.
  - replace (e_from _) with (mkpos 0 (utf16_len a')) by (vm_compute; reflexivity). apply (front_of_prefix a' (lit " prot 80}") a'); auto.
    + split; [vm_compute; intuition discriminate|now left]. + vm_compute; intuition discriminate.
  - replace (e_to _) with (mkpos 0 (utf16_len (a' ++ lit " pro"))) by (vm_compute; reflexivity). apply (front_of_prefix (a' ++ lit " pro") (lit "t 80}") (a' ++ lit " pro")); auto.
    + split; [vm_compute; intuition discriminate|now left]. + vm_compute; intuition discriminate.
Qed.
Print Assumptions C82_astral_refuted.
(** Finding: a proposed name is written as it is, also if it needs quotes; the document is refused afterwards. *)
Theorem C82_quotes_refuted : exists a m b sp to new k e, suggest_similar (fun s => s) (lit "my prot") [lit "my port"] = Ok (Some to) /\
  tree (a ++ m ++ b) (inl (the_value (a ++ m ++ b))) /\ root_key (the_value (a ++ m ++ b)) (lit "my prot") sp /\ sp_start sp = blen a /\ sp_end sp = blen (a ++ m) /\
  applied (a ++ m ++ b) (rename_edit (a ++ m ++ b) sp to) new /\ tree new (inr (BParse k e)).
Proof.
  set (m := lit """my prot"""). set (b := lit " 80"). eexists [], m, b, (mkspan 0 9), (lit "my port"), (lit "my port 80"), _, _. splits; try reflexivity.
  - apply read_tree_ok; vm_compute; reflexivity.
  - vm_compute. eexists _, _. splits; [reflexivity|now left|reflexivity|reflexivity].
  - assert (no_lone_cr ([] ++ m ++ b)) as N by (apply no_lone_ok; vm_compute; intuition discriminate).
    assert (last_line [] []) as L1 by (split; [intros []|now left]). assert (last_line ([] ++ m) m) as L2 by (split; [vm_compute; intuition discriminate|now left]).
    assert (bmp []) as B1 by constructor. assert (bmp m) as B2 by (repeat constructor). assert (~ In cCR m) as C by (vm_compute; intuition discriminate).
    now apply (C82_rename_partial [] m b (mkspan 0 9) (lit "my port") [] m).
  - eexists; split; [apply run_parses; vm_compute; reflexivity|vm_compute; reflexivity].
Qed.
Print Assumptions C82_quotes_refuted.

(** ** C83 *)

Lemma get_put {A} k (x : A) m : get k (put k x m) = Some x.
Proof. induction m as [|[k' y] m IH]; cbn; [now rewrite (proj2 (str_eqb_eq k k) eq_refl)|]. destruct (str_eqb k' k) eqn:E; cbn; [now rewrite (proj2 (str_eqb_eq k k) eq_refl)|]. now rewrite E. Qed.
Lemma get_put_other {A} k k' (x : A) m : k' <> k -> get k' (put k x m) = get k' m.
Proof.
  intros H. assert (str_eqb k k' = false) as F by (destruct (str_eqb k k') eqn:E; [apply str_eqb_eq in E; congruence|reflexivity]).
  induction m as [|[j y] m IH]; cbn; [now rewrite F|]. destruct (str_eqb j k) eqn:E; cbn.
  - apply str_eqb_eq in E as ->. now rewrite F.
  - now rewrite IH.
Qed.
Lemma get_drop {A} k (m : list (str * A)) : get k (drop k m) = None.
Proof. induction m as [|[j y] m IH]; cbn; [reflexivity|]. destruct (str_eqb j k) eqn:E; cbn; [exact IH|]. now rewrite E. Qed.
Lemma get_drop_other {A} k k' (m : list (str * A)) : k' <> k -> get k' (drop k m) = get k' m.
Proof.
  intros H. induction m as [|[j y] m IH]; cbn; [reflexivity|]. destruct (str_eqb j k) eqn:E; cbn.
  - apply str_eqb_eq in E as ->. rewrite IH. destruct (str_eqb k k') eqn:E; [apply str_eqb_eq in E; congruence|reflexivity].
  - now rewrite IH.
Qed.
Lemma str_dec (a b : str) : {a = b} + {a <> b}.
Proof. apply list_eq_dec, N.eq_dec. Qed.

(** What is shown for an open document is what its last text gives, and nothing is shown for other names. *)
Lemma shown_inv s : reached_quietly s -> forall uri, match get uri (s_docs s) with
  | Some d => exists err, reads_doc (d_text d) d err /\ get uri (s_shown s) = Some (compute_diagnostics d err)
  | None => get uri (s_shown s) = None \/ get uri (s_shown s) = Some []
  end.
Proof.
  induction 1 as [|s r s' R IH Q St]; [|destruct St as [s u src d err Hd|s u|]; [| |contradiction]]; intros uri; cbn.
  - now left.
  - destruct (str_dec uri u) as [->|Hu].
    + rewrite !get_put. exists err. split; [|reflexivity]. destruct Hd as (E & H). split; [reflexivity|]. now rewrite E.
    + rewrite !get_put_other by exact Hu. apply IH.
  - destruct (str_dec uri u) as [->|Hu].
    + rewrite get_drop, get_put. now right.
    + rewrite get_drop_other, get_put_other by exact Hu. apply IH.
Qed.
(** After any requests other than the command that allows an extension: for every open document that the parser refuses an error is shown, at the place of the
    refusal; and nothing is shown for documents that are not open. Missing: that command (refuted below). *)
Theorem C83_shown_partial : forall s uri, reached_quietly s ->
  (forall d, get uri (s_docs s) = Some d -> d_tree d = None ->
     exists e l g, tree (d_text d) (inr e) /\ get uri (s_shown s) = Some l /\ In g l /\ g_sev g = SevError /\
     (forall k sp, e = BParse k sp -> located (d_text d) sp (g_from g, g_to g))) /\
  (get uri (s_docs s) = None -> forall l, get uri (s_shown s) = Some l -> l = []).
Proof.
  intros s uri R. pose proof (shown_inv s R uri) as I. split.
  - intros d Hd Ht. rewrite Hd in I. destruct I as (err & (_ & _ & [v|e] & T & E) & G); [destruct E as [E _]; congruence|]. destruct E as [_ ->].
    exists e, (compute_diagnostics d (Some e)), (build_diag (d_text d) e). splits; auto.
    + unfold compute_diagnostics. apply in_or_app. right. now left.
    + destruct e; reflexivity.
    + intros k sp ->. intros a m b E1 E2 E3. cbn. rewrite <- E2, <- E3, E1. split; [apply C29_place|]. rewrite app_assoc. apply C29_place.
  - intros Hd l Hl. rewrite Hd in I. destruct I as [I|I]; rewrite I in Hl; congruence.
Qed.
Print Assumptions C83_shown_partial.
(** No false errors: for an open document that the parser accepts, whose syntax tree has no errors and which its schema accepts, if it has one, no error is shown. *)
Theorem C83_quiet : forall s uri d, reached_quietly s -> get uri (s_docs s) = Some d -> d_tree d <> None -> d_errors d = [] ->
  (d_check d = None \/ exists r, d_check d = Some (inl r) /\ v_errors r = []) ->
  exists l, get uri (s_shown s) = Some l /\ Forall (fun g => g_sev g <> SevError) l.
Proof.
  intros s uri d R Hd Ht He Hc. pose proof (shown_inv s R uri) as I. rewrite Hd in I. destruct I as (err & (_ & _ & [v|e] & T & E) & G); [|destruct E; congruence]. destruct E as [E ->].
  eexists. split; [exact G|]. unfold compute_diagnostics. rewrite He, E. cbn [map app]. apply Forall_app. split.
  - apply Forall_map, Forall_forall. intros w _. discriminate.
  - apply Forall_app. split; [|destruct (d_hint d); repeat constructor; discriminate].
    destruct Hc as [->|(r & -> & ->)]; [constructor|]. cbn [map app]. apply Forall_map, Forall_forall. intros w _. unfold warning_diag. destruct (vw_span w); discriminate.
Qed.
Print Assumptions C83_quiet.
(** Every problem that the parser, the syntax tree or the validator finds in an open document is among the errors shown. *)
Theorem C83_errors : forall s uri d, reached_quietly s -> get uri (s_docs s) = Some d ->
  exists l, get uri (s_shown s) = Some l /\
  (forall o k, In (o, k) (d_errors d) -> exists g, In g l /\ g_sev g = SevError /\ forall a b, d_text d = a ++ b -> blen a = o -> place_of a (g_from g)) /\
  (forall r e sp, d_tree d <> None -> d_check d = Some (inl r) -> In e (v_errors r) -> ve_span e = Some sp ->
     exists g, In g l /\ g_sev g = SevError /\ located (d_text d) sp (g_from g, g_to g)).
Proof.
  intros s uri d R Hd. pose proof (shown_inv s R uri) as I. rewrite Hd in I. destruct I as (err & _ & G). eexists. split; [exact G|]. split.
  - intros o k Hi. exists (cst_diag (d_text d) (o, k)). splits; [|reflexivity|].
    + apply in_or_app. left. now apply in_map.
    + intros a b E1 <-. cbn. rewrite E1. apply C29_place.
  - intros r e sp Ht Hc Hi Hs. destruct (d_tree d) as [v|] eqn:Ev; [|contradiction]. exists (error_diag (d_text d) v e). splits.
    + unfold compute_diagnostics. rewrite Ev, Hc. do 3 (apply in_or_app; right). apply in_or_app. left. apply in_or_app. left. now apply in_map.
    + unfold error_diag. rewrite Hs. reflexivity.
    + intros a m b E1 E2 E3. unfold error_diag. rewrite Hs. cbn. rewrite <- E2, <- E3, E1. split; [apply C29_place|]. rewrite app_assoc. apply C29_place.
Qed.
Print Assumptions C83_errors.

(** Reading a text that is refused although its syntax tree has no errors. *)
Definition C83_text : str := lit "a b c".
Definition C83_doc : doc := Eval vm_compute in match cst_parse C83_text with Ok (n, er) => mkdoc C83_text n er None None false | _ => mkdoc [] (Node DOCUMENT []) [] None None false end.
Lemma C83_reads : exists k sp, reads_doc C83_text C83_doc (Some (BParse k sp)).
Proof.
  eexists _, _. split; [reflexivity|]. split; [vm_compute; reflexivity|]. eexists (inr (BParse _ _)). split.
  2:{ split; reflexivity. }
  eexists; split; [apply run_parses; vm_compute; reflexivity|vm_compute; reflexivity].
Qed.
Example C83_example : exists s uri d, reached_quietly s /\ get uri (s_docs s) = Some d /\ d_tree d = None.
Proof.
  destruct C83_reads as (k & sp & H). eexists _, (lit "a.styx"), C83_doc. splits; [eapply rq_step; [apply rq_start| |apply (st_open _ (lit "a.styx") _ _ _ H)]; discriminate|apply get_put|reflexivity].
Qed.
(** Finding: the command that allows an extension shows the problems of all documents anew, but without those of the parser: a refused document has no errors then. *)
Theorem C83_allow_refuted : exists s uri d l, reached s /\ get uri (s_docs s) = Some d /\ d_tree d = None /\ (exists e, tree (d_text d) (inr e)) /\
  get uri (s_shown s) = Some l /\ Forall (fun g => g_sev g <> SevError) l.
Proof.
  destruct C83_reads as (k & sp & H). set (s0 := store (lit "a.styx") C83_doc (publish (lit "a.styx") (compute_diagnostics C83_doc (Some (BParse k sp))) (mksv [] []))).
  eexists (fold_left (fun s ud => publish (fst ud) (compute_diagnostics (snd ud) None) s) (s_docs s0) s0), (lit "a.styx"), C83_doc, _. splits.
  - eapply rc_step; [eapply rc_step; [apply rc_start|apply (st_open _ (lit "a.styx") _ _ _ H)]|apply st_allow].
  - reflexivity.
  - reflexivity.
  - destruct H as (_ & _ & [v|e] & T & E); [destruct E; discriminate|]. exists e. exact T.
  - reflexivity.
  - vm_compute. constructor.
Qed.
Print Assumptions C83_allow_refuted.
(** A document that is accepted, and one that its schema does not accept. *)
Definition C83_good (check : option (vresult + unit)) : doc :=
  match cst_parse (lit "a 1"), read_tree (lit "a 1") with Ok (n, er), Some v => mkdoc (lit "a 1") n er (Some v) check true | _, _ => C83_doc end.
Lemma C83_good_reads check : reads_doc (lit "a 1") (C83_good check) None.
Proof. split; [reflexivity|]. split; [vm_compute; reflexivity|]. eexists (inl _). split; [apply read_tree_ok; vm_compute; reflexivity|]. split; vm_compute; reflexivity. Qed.
Example C83_quiet_example : exists s uri d, reached_quietly s /\ get uri (s_docs s) = Some d /\ d_tree d <> None /\ d_errors d = [] /\ (exists r, d_check d = Some (inl r) /\ v_errors r = []).
Proof.
  eexists _, (lit "a.styx"), (C83_good (Some (inl (mkvr [] [])))).
  splits; [eapply rq_step; [apply rq_start| |apply (st_open _ (lit "a.styx")), C83_good_reads]; discriminate|apply get_put|vm_compute; discriminate|vm_compute; reflexivity|eexists; split; vm_compute; reflexivity].
Qed.
Example C83_errors_example : exists s uri d r e sp, reached_quietly s /\ get uri (s_docs s) = Some d /\ d_tree d <> None /\ d_check d = Some (inl r) /\ In e (v_errors r) /\ ve_span e = Some sp.
Proof.
  eexists _, (lit "a.styx"), (C83_good (Some (inl (mkvr [mkverr [] (EUnknownField (lit "a")) (Some (mkspan 0 1))] [])))), _, _, _.
  splits; [eapply rq_step; [apply rq_start| |apply (st_open _ (lit "a.styx")), C83_good_reads]; discriminate|apply get_put|vm_compute; discriminate|vm_compute; reflexivity|vm_compute; left; reflexivity|reflexivity].
Qed.

(** ** C84 *)

Lemma key_is_name name e : key_is name e = true <-> as_str (e_key e) = Some name.
Proof.
  unfold key_is. destruct (as_str (e_key e)) as [s|]; [|split; discriminate]. rewrite str_eqb_eq. split; [now intros ->|now intros [= ->]].
Qed.
Lemma field_entries_sound name text es l : field_in_entries name text es = Some l ->
  exists e sp, In e es /\ as_str (e_key e) = Some name /\ v_span (e_key e) = Some sp /\ l = range_of text (sp_start sp) (sp_end sp).
Proof.
  induction es as [|e es IH]; [discriminate|]. cbn [field_in_entries]. destruct (key_is name e) eqn:K; [destruct (v_span (e_key e)) as [sp|] eqn:V|].
  - intros [= <-]. apply key_is_name in K. exists e, sp. splits; auto. now left.
  - intros H. destruct (IH H) as (e' & sp & I & R). exists e', sp. split; [now right|exact R].
  - intros H. destruct (IH H) as (e' & sp & I & R). exists e', sp. split; [now right|exact R].
Qed.
Lemma field_entries_some name text es e sp : In e es -> as_str (e_key e) = Some name -> v_span (e_key e) = Some sp -> field_in_entries name text es <> None.
Proof.
  intros I K V. induction es as [|x es IH]; [destruct I|]. cbn [field_in_entries]. destruct I as [->|I].
  - rewrite (proj2 (key_is_name name e) K), V. discriminate.
  - destruct (key_is name x); [destruct (v_span (e_key x)); [discriminate|]|]; now apply IH.
Qed.
Lemma range_located text sp : located text sp (range_of text (sp_start sp) (sp_end sp)).
Proof. intros a m b E1 E2 E3. cbn. rewrite <- E2, <- E3, E1. split; [apply C29_place|]. rewrite app_assoc. apply C29_place. Qed.
Lemma use_of_sound name c u l : In (u, l) (use_of name c) -> c_uri c = u /\ exists v sp, c_tree c = Some v /\ root_key v name sp /\ located (c_text c) sp l.
Proof.
  unfold use_of. destruct (c_tree c) as [v|] eqn:T; [|intros []]. unfold find_field_in_doc. destruct (as_object v) as [es|] eqn:O; [|intros []].
  destruct (field_in_entries name (c_text c) es) as [r|] eqn:F; [|intros []]. intros [[= <- <-]|[]]. apply field_entries_sound in F as (e & sp & I & K & V & ->).
  split; [reflexivity|]. exists v, sp. splits; auto; [now exists es, e|apply range_located].
Qed.
Lemma use_of_complete name c v sp : c_tree c = Some v -> root_key v name sp -> exists l sp', In (c_uri c, l) (use_of name c) /\ root_key v name sp' /\ located (c_text c) sp' l.
Proof.
  intros T (es & e & O & I & K & V). unfold use_of, find_field_in_doc. rewrite T, O. pose proof (field_entries_some name (c_text c) es e sp I K V) as N.
  destruct (field_in_entries name (c_text c) es) as [r|] eqn:F; [|contradiction]. apply field_entries_sound in F as (e' & sp' & I' & K' & V' & ->).
  eexists _, sp'. splits; [now left|now exists es, e'|apply range_located].
Qed.
Lemma field_at_last v o name : field_at v o = Some name <-> exists steps st, find_path_in_value o v = Some (steps ++ [st]) /\ step_name st name.
Proof.
  unfold field_at. destruct (find_path_in_value o v) as [steps|]; [|split; [discriminate|intros (? & ? & ? & _); discriminate]]. destruct (rev steps) as [|st r] eqn:E.
  - split; [discriminate|]. intros (s & st & [= ->] & _). rewrite rev_app_distr in E. discriminate.
  - assert (steps = rev r ++ [st]) as -> by (rewrite <- (rev_involutive steps), E; reflexivity). split.
    + intros [= <-]. exists (rev r), st. split; [reflexivity|]. unfold step_name, segment_text. now destruct st.
    + intros (s & st' & [= X] & N). apply app_inj_tail in X as [_ ->]. unfold step_name in N. subst. now destruct st'.
Qed.

Lemma schema_file_doc v : is_schema_file v = true <-> schema_document v.
Proof.
  unfold is_schema_file, schema_document. destruct (as_object v) as [es|]; [|split; [discriminate|intros (? & ? & ? & [=] & _)]].
  rewrite andb_true_iff, !existsb_exists. split.
  - intros [(a & Ia & Ka) (b & Ib & Kb)]. apply key_is_name in Ka, Kb. exists es, a, b. auto.
  - intros (es' & a & b & [= <-] & Ia & Ka & Ib & Kb). split; [exists a|exists b]; (split; [assumption|now apply key_is_name]).
Qed.

(** Every place that is found is a key with the name of the field under the cursor: the key of an entry of the root of an open document with that schema, or a key
    of the schema. *)
Theorem C84_sound : forall docs here schema pos u l, In (u, l) (references docs here schema pos) ->
  exists v steps st name, c_tree here = Some v /\ find_path_in_value (position_to_offset (c_text here) pos) v = Some (steps ++ [st]) /\ step_name st name /\
  ((exists c w sp, In c docs /\ c_uri c = u /\ (schema_document v /\ c_schema c = Some (c_uri here) \/ ~ schema_document v /\ c_schema c = c_schema here) /\ c_tree c = Some w /\ root_key w name sp /\ located (c_text c) sp l) \/
   (exists sv st, ~ schema_document v /\ schema = Some (sv, st) /\ c_schema here = Some u /\
      forall defs, has_block sv defs -> exists k sp, key_of defs k /\ as_str k = Some name /\ v_span k = Some sp /\ located st sp l)).
Proof.
  intros docs here schema pos u l H. unfold references in H. destruct (c_tree here) as [v|] eqn:T; [|destruct H]. destruct (field_at v (position_to_offset (c_text here) pos)) as [name|] eqn:F; [|destruct H].
  apply field_at_last in F as (steps & st & F & N). exists v, steps, st, name. splits; auto. pose proof (schema_file_doc v) as Sd. destruct (is_schema_file v) eqn:S.
  - left. apply in_flat_map in H as (c & I & U). apply filter_In in I as [I B]. apply andb_prop in B as [_ B]. unfold uses in B. destruct (c_schema c) as [x|] eqn:C; [|discriminate]. apply str_eqb_eq in B as ->.
    apply use_of_sound in U as (Eu & w & sp & Hw & R & L). exists c, w, sp. splits; auto. left. split; [now apply Sd|exact C].
  - assert (~ schema_document v) as Nd by (intros X; apply Sd in X; discriminate). destruct (c_schema here) as [x|] eqn:C; [|destruct H]. destruct schema as [[sv tx]|] eqn:Es; [|destruct H]. destruct (field_in_schema sv name) as [sp|] eqn:Fs; [|destruct H].
    destruct H as [[= <- <-]|H].
    + right. exists sv, tx. splits; auto. intros defs B. destruct (proj1 (field_found _ _ name B) sp Fs) as (k & K & A & V). exists k, sp. splits; auto. apply range_located.
    + left. apply in_flat_map in H as (c & I & U). apply filter_In in I as [I B]. unfold uses in B. destruct (c_schema c) as [y|] eqn:Cc; [|discriminate]. apply str_eqb_eq in B as ->.
      apply use_of_sound in U as (Eu & w & sp' & Hw & R & L). exists c, w, sp'. splits; auto.
Qed.
Print Assumptions C84_sound.
(** For a field that is a key of the schema: in every open document with the same schema whose root has such a key, a place of it is found. Missing: keys inside other
    objects (refuted below), and fields of a document whose root is not an object. *)
Theorem C84_found_partial : forall docs here sv tx pos v steps name u c w sp, c_tree here = Some v ->
  find_path_in_value (position_to_offset (c_text here) pos) v = Some (steps ++ [SKey name]) -> ~ schema_document v -> c_schema here = Some u ->
  (exists defs k ks, has_block sv defs /\ usual_root defs /\ key_of defs k /\ as_str k = Some name /\ v_span k = Some ks) ->
  In c docs -> c_schema c = Some u -> c_tree c = Some w -> root_key w name sp ->
  exists l sp', In (c_uri c, l) (references docs here (Some (sv, tx)) pos) /\ root_key w name sp' /\ located (c_text c) sp' l.
Proof.
  intros docs here sv tx pos v steps name u c w sp T P S' U (defs & k & ks & B & R & K & A & V) I Cu Cw Rk. unfold references. rewrite T.
  rewrite (proj2 (field_at_last v (position_to_offset (c_text here) pos) name)) by (exists steps, (SKey name); split; [exact P|reflexivity]).
  assert (is_schema_file v = false) as S by (destruct (is_schema_file v) eqn:X; [apply schema_file_doc in X; contradiction|reflexivity]). rewrite S, U. pose proof (proj2 (field_found _ _ name B) R k ks K A V) as N. destruct (field_in_schema sv name) as [fs|]; [|contradiction].
  destruct (use_of_complete name c w sp Cw Rk) as (l & sp' & H & R' & L). exists l, sp'. splits; auto. right. apply in_flat_map. exists c. split; [|exact H].
  apply filter_In. split; [exact I|]. unfold uses. rewrite Cu. now apply str_eqb_eq.
Qed.
Print Assumptions C84_found_partial.
(** The same from the schema: the field under the cursor in a schema document. *)
Theorem C84_uses_partial : forall docs here schema pos v steps name c w sp, c_tree here = Some v ->
  find_path_in_value (position_to_offset (c_text here) pos) v = Some (steps ++ [SKey name]) -> schema_document v ->
  In c docs -> c_uri c <> c_uri here -> c_schema c = Some (c_uri here) -> c_tree c = Some w -> root_key w name sp ->
  exists l sp', In (c_uri c, l) (references docs here schema pos) /\ root_key w name sp' /\ located (c_text c) sp' l.
Proof.
  intros docs here schema pos v steps name c w sp T P S' I Cn Cu Cw Rk. pose proof (proj2 (schema_file_doc v) S') as S. unfold references. rewrite T.
  rewrite (proj2 (field_at_last v (position_to_offset (c_text here) pos) name)) by (exists steps, (SKey name); split; [exact P|reflexivity]).
  rewrite S. destruct (use_of_complete name c w sp Cw Rk) as (l & sp' & H & R' & L). exists l, sp'. splits; auto. apply in_flat_map. exists c. split; [|exact H].
  apply filter_In. split; [exact I|]. unfold uses. rewrite Cu, (proj2 (str_eqb_eq _ _) eq_refl). destruct (str_eqb (c_uri c) (c_uri here)) eqn:E; [apply str_eqb_eq in E; contradiction|reflexivity].
Qed.
Print Assumptions C84_uses_partial.

Definition C84_here := mksrc (lit "a.styx") C78_doc (Some C78_d) (Some (lit "s.styx")).
Definition C84_other := mksrc (lit "b.styx") (lit "  name y") (read_tree (lit "  name y")) (Some (lit "s.styx")).
Example C84_example : exists w sp, c_tree C84_other = Some w /\ ~ schema_document C78_d /\
  find_path_in_value (position_to_offset C78_doc (mkpos 0 1)) C78_d = Some ([] ++ [SKey (lit "name")]) /\
  has_block C78_v C78_defs /\ (exists k ks, key_of C78_defs k /\ as_str k = Some (lit "name") /\ v_span k = Some ks) /\ root_key w (lit "name") sp /\
  references [C84_here; C84_other] C84_here (Some (C78_v, C78_schema)) (mkpos 0 1) =
    [(lit "s.styx", (mkpos 1 10, mkpos 1 14)); (lit "a.styx", (mkpos 0 0, mkpos 0 4)); (lit "b.styx", (mkpos 0 2, mkpos 0 6))].
Proof.
  eexists _, _. split; [vm_compute; reflexivity|]. split; [intros X; apply schema_file_doc in X; vm_compute in X; discriminate|]. split; [vm_compute; reflexivity|]. split; [block_tac|]. split.
  { eexists _, _. split; [eapply ki_in; [left; reflexivity|]; eapply (ki_here _ _ _ _ (Ent _ _ _)); left; reflexivity|]. split; vm_compute; reflexivity. }
  split; [|vm_compute; reflexivity]. vm_compute. eexists _, _. split; [reflexivity|]. split; [left; reflexivity|]. split; reflexivity.
Qed.
(** Finding: from a field inside another object, the key of the same name in the root is found, which is another field; the place under the cursor is not. *)
Theorem C84_nested_refuted : exists text stext v sv pos, tree text (inl v) /\ tree stext (inl sv) /\
  find_path_in_value (position_to_offset text pos) v = Some [SKey (lit "server"); SKey (lit "port")] /\
  let here := mksrc (lit "a.styx") text (Some v) (Some (lit "s.styx")) in
  exists l sp, In (lit "a.styx", l) (references [here] here (Some (sv, stext)) pos) /\ root_key v (lit "port") sp /\ located text sp l /\
  forall l', In (lit "a.styx", l') (references [here] here (Some (sv, stext)) pos) -> p_line (fst l') <> p_line pos.
Proof.
  exists (lit "server {port 1}" ++ [cLF] ++ lit "port x"), (lit "schema {@ @object{server @object{port @int}, port @string}}"). eexists _, _, (mkpos 0 9).
  split; [tree_tac|]. split; [tree_tac|]. split; [vm_compute; reflexivity|]. cbv zeta. exists (mkpos 1 0, mkpos 1 4), (mkspan 16 20). splits.
  - vm_compute. right. left. reflexivity.
  - eexists _, _. split; [reflexivity|]. split; [right; left; reflexivity|]. split; reflexivity.
  - apply (range_located (lit "server {port 1}" ++ [cLF] ++ lit "port x") (mkspan 16 20)).
  - intros l' H. vm_compute in H. destruct H as [H|[H|[]]]; inversion H; subst; cbn; discriminate.
Qed.
Print Assumptions C84_nested_refuted.
