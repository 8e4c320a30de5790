(** JavaScript prints the S-expressions of Rust and Python. *)
From Coq Require Import String.
From Verif Require Import Base BaseProofs TokModel LexModel ParseModel TreeModel TreeSpec SexpModel SexpSpec SexpProofs PySexpModel PySexpSpec PySexpProofs JsSexpModel JsSexpSpec.

(** ** Texts *)
Lemma hex_digit d r x : hex_text d [] = x :: r -> x <> cLB.
Proof. destruct d; cbn [hex_text]; intros [= <- _]; discriminate. Qed.
Lemma hex4_start c : exists x r, js_hex4 c = x :: r /\ x <> cLB.
Proof.
  unfold js_hex4. destruct (4 - List.length (hex_text (N.to_hex_uint c) [])) as [|k] eqn:E.
  - cbn [repeat app]. destruct (hex_text (N.to_hex_uint c) []) as [|x r] eqn:H; [discriminate E|]. exists x, r. split; [reflexivity|]. now apply (hex_digit _ _ _ H).
  - exists 48%N. eexists. split; [reflexivity|discriminate].
Qed.
Lemma js_texts u s : SexpModel.debug u s [] = cDQ :: json_escape s ++ [cDQ] <-> Forall (written_alike_js u) s.
Proof.
  unfold SexpModel.debug, json_escape. split.
  - intros E. injection E as E. induction s as [|c s IH]; constructor; cbn [fold_right flat_map] in E; rewrite <- app_assoc in E; unfold SexpModel.debug_char, js_char in E; unfold written_alike_js; cbn [In];
    destruct (hex4_start c) as (x & r & Hx & Nx);
    repeat match type of E with
    | context [if (?a =? ?b)%N then _ else _] => destruct (N.eqb_spec a b); [subst; try discriminate|]
    | context [if u ?a then _ else _] => destruct (u a) eqn:?
    | context [if (?a <? ?b)%N then _ else _] => destruct (N.ltb_spec a b)
    end; cbn [app] in E; try rewrite Hx in E; cbn [app] in E; try discriminate E; try (injection E; intros; subst; congruence); auto 10; apply IH; injection E; auto.
  - intros H. f_equal. induction H as [|c s C _ IH]; [reflexivity|]. cbn [fold_right flat_map]. rewrite IH, <- app_assoc. unfold SexpModel.debug_char, js_char. unfold written_alike_js in C. cbn [In] in C.
    destruct (N.eqb_spec c 0).
    { subst. destruct C as [C|C]; [|destruct C; lia]. exfalso. repeat destruct C as [C|C]; try discriminate C; exact C. }
    repeat match goal with |- context [if (c =? ?b)%N then _ else _] => destruct (N.eqb_spec c b); [subst; reflexivity|] end.
    destruct C as [C|[L ->]]; [exfalso; repeat destruct C as [C|C]; congruence || exact C|]. destruct (N.ltb_spec c 32); [lia|reflexivity].
Qed.

Section sexp.
Variable unprintable : char -> bool.
Hypothesis control : forall c, (c < 32)%N -> unprintable c = true.
Variable js_space : char -> bool.
Hypothesis space_blank : js_space cSP = true.
Hypothesis space_close : js_space cRP = false.
Notation js_value := (js_value js_space).
Notation js_payload := (js_payload js_space).
Notation js_entry := (js_entry js_space).
Notation replace_close := (replace_close js_space).
Notation closes := (closes js_space).

Lemma js_text_same s : Forall (written_alike unprintable) s -> json_escape s = escape_string s.
Proof.
  intros H. pose proof (proj2 (texts_alike unprintable s) H) as A. assert (Forall (written_alike_js unprintable) s) as J.
  { eapply Forall_impl; [|exact H]. intros c [C|[C D]]; [now left|]. right. split; [|exact D]. destruct (N.lt_ge_cases c 32) as [L|L]; [|exact L]. apply control in L. congruence. }
  apply js_texts in J. rewrite A in J. injection J as J. apply app_inv_tail in J. auto.
Qed.
Lemma js_name_same s : Forall (needs_no_escape unprintable) s -> json_escape s = s.
Proof.
  unfold json_escape. induction 1 as [|c s (C1 & C2 & C3) _ IH]; [reflexivity|]. cbn [flat_map]. rewrite IH. unfold js_char. cbn [In] in C1.
  repeat match goal with |- context [if (c =? ?b)%N then _ else _] => destruct (N.eqb_spec c b); [subst; exfalso; tauto|] end.
  destruct (N.ltb_spec c 32) as [L|L]; [|reflexivity]. apply control in L. congruence.
Qed.

(** ** The closing line of sequences *)
Lemma closes_pad n : closes (prefix n ++ lit ")") = true.
Proof.
  unfold prefix. induction n as [|n IH]; [reflexivity|]. cbn [pad app]. change (js_space cSP && closes (cSP :: pad n [] ++ lit ")") = true). rewrite space_blank. cbn [andb].
  destruct (pad n [] ++ lit ")") as [|c r] eqn:E; [destruct n; discriminate E|]. change (js_space cSP && closes (c :: r) = true). rewrite space_blank. exact IH.
Qed.
Lemma closes_not x y : y <> [] -> closes (x ++ cRP :: y) = false.
Proof.
  intros N. induction x as [|c x IH]; cbn [app].
  - destruct y as [|d y]; [congruence|]. change (js_space cRP && closes (d :: y) = false). now rewrite space_close.
  - destruct (x ++ cRP :: y) as [|d r] eqn:E; [destruct x; discriminate E|]. change (js_space c && closes (d :: r) = false). rewrite IH. apply andb_false_r.
Qed.
Lemma replace_last x n : replace_close (x ++ cRP :: cLF :: prefix n ++ lit ")") = x ++ [cRP; cRP].
Proof.
  induction x as [|c x IH]; cbn [app JsSexpModel.replace_close].
  - rewrite closes_pad. reflexivity.
  - rewrite (closes_not x (cLF :: prefix n ++ lit ")")) by discriminate. rewrite andb_false_r. f_equal. exact IH.
Qed.
Lemma py_closed v n : exists y, py_format_value v n = y ++ lit ")".
Proof.
  assert (P : forall p n, exists y, py_format_payload p n = y ++ lit ")").
  { intros [|s k sp|[|i l] sp|[|e es] sp] m; cbn [py_format_payload]; [now exists (lit "(unknown")|..]; rewrite !app_assoc; eexists; reflexivity. }
  destruct v as [[[name a]|] [|s k sp'|l sp'|es sp'] sp]; cbn [py_format_value]; try apply P; rewrite !app_assoc; eexists; reflexivity.
Qed.
Lemma join_snoc l x : l <> [] -> join_lines (l ++ [x]) = join_lines l ++ cLF :: x.
Proof.
  induction l as [|a l IH]; [congruence|]. intros _. destruct l as [|b l]; [reflexivity|]. change ((a :: b :: l) ++ [x]) with (a :: (b :: l) ++ [x]). rewrite join_cons by (destruct l; discriminate).
  rewrite IH by discriminate. rewrite (join_cons a (b :: l)) by discriminate. now rewrite <- app_assoc.
Qed.
Lemma join_closed (l : list value) m : l <> [] -> exists y, join_lines (map (fun i => prefix m ++ py_format_value i m) l) = y ++ lit ")".
Proof.
  induction l as [|v l IH]; [congruence|]. intros _. destruct (py_closed v m) as (y & Y). destruct l as [|w l].
  - cbn [map join_lines]. rewrite Y, app_assoc. eauto.
  - change (map ?f (v :: w :: l)) with (f v :: map f (w :: l)). rewrite join_cons by discriminate. destruct IH as (z & ->); [discriminate|]. exists ((prefix m ++ py_format_value v m) ++ cLF :: z). now rewrite <- (app_assoc _ (cLF :: z)).
Qed.

Ltac flat := repeat (rewrite <- app_assoc; cbn [app]).
Lemma js_tagged name a p sp n : p <> PNone ->
  js_value (Val (Some (name, a)) p sp) n = prefix n ++ lit "(tag " ++ py_span sp ++ lit " " ++ [cDQ] ++ json_escape name ++ [cDQ; cLF] ++ js_payload p (S n) ++ lit ")".
Proof. destruct p; [congruence|..]; intros _; reflexivity. Qed.
Lemma js_plain p sp n : p <> PNone -> js_value (Val None p sp) n = js_payload p n.
Proof. destruct p; [congruence|..]; intros _; reflexivity. Qed.
Lemma prefix_S n : prefix (S n) = prefix n ++ lit "  ".
Proof. rewrite <- (app_nil_r (prefix (S n))), <- pad_prefix, pad_more, pad_prefix. reflexivity. Qed.

Theorem js_same :
  (forall v, printed_alike unprintable v -> forall n, js_value v n = prefix n ++ py_format_value v n) /\
  (forall p, payload_alike unprintable p -> forall n, js_payload p n = prefix n ++ py_format_payload p n) /\
  (forall l, items_alike unprintable l -> forall n, map (fun i => js_value i n) l = map (fun i => prefix n ++ py_format_value i n) l) /\
  (forall l, entries_alike unprintable l -> forall n, map (fun e => js_entry e n) l = map (fun e => py_format_entry e n) l).
Proof.
  apply alike_ind.
  - intros sp n. reflexivity.
  - intros name a sp H n. cbn [JsSexpModel.js_value py_format_value]. now rewrite js_name_same.
  - intros name a p sp H P IH n. pose proof (payload_some _ _ P) as Np. rewrite js_tagged, py_tagged by exact Np. rewrite js_name_same, IH, prefix_S by exact H. flat. reflexivity.
  - intros p P IH n. pose proof (payload_some _ _ P) as Np. rewrite js_plain, py_plain by exact Np. apply IH.
  - intros s k sp H n. cbn [JsSexpModel.js_payload py_format_payload]. now rewrite js_text_same.
  - intros [|i items] sp _ IH n; [reflexivity|]. cbn [JsSexpModel.js_payload py_format_payload]. rewrite IH.
    rewrite join_cons by (destruct items; discriminate). rewrite join_snoc by discriminate. destruct (join_closed (i :: items) (S n)) as (y & Y); [discriminate|]. rewrite Y.
    replace (map (fun i => prefix n ++ lit "  " ++ py_format_value i (S n)) (i :: items)) with (map (fun i => prefix (S n) ++ py_format_value i (S n)) (i :: items)).
    2: { apply map_ext. intros v. rewrite prefix_S. now rewrite <- app_assoc. }
    rewrite Y. transitivity (replace_close (((prefix n ++ lit "(sequence " ++ py_span sp) ++ cLF :: y) ++ cRP :: cLF :: prefix (pred n) ++ lit ")")).
    + f_equal. flat. reflexivity.
    + rewrite replace_last. flat. reflexivity.
  - intros [|e es] sp _ IH n; [reflexivity|]. cbn [JsSexpModel.js_payload py_format_payload]. rewrite IH.
    rewrite join_cons by (destruct es; discriminate). rewrite join_snoc by discriminate. flat. reflexivity.
  - reflexivity.
  - intros v l _ IHv _ IHl n. cbn [map]. now rewrite IHv, IHl.
  - reflexivity.
  - intros k v d l _ IHk _ IHv _ IHl n. cbn [map]. rewrite IHl. f_equal. cbn [JsSexpModel.js_entry py_format_entry join_lines]. rewrite IHk, IHv, prefix_S. flat. reflexivity.
Qed.
Theorem js_document_same es : entries_alike unprintable es -> js_document js_space es = py_format_document es.
Proof.
  intros H. unfold js_document. destruct js_same as (_ & _ & _ & E). rewrite (E es H 1). destruct es as [|e es]; [reflexivity|].
  rewrite join_cons by (destruct es; discriminate). rewrite join_snoc by discriminate. cbn [py_format_document]. flat. reflexivity.
Qed.
(** ** Every sequence is closed behind its last item, whatever is in it. *)
Lemma replace_ends x : exists y, replace_close (x ++ lit ")") = y ++ lit ")".
Proof.
  induction x as [|c x (y & IH)]; [now exists []|]. cbn [app JsSexpModel.replace_close]. destruct ((c =? cLF)%N && closes (x ++ lit ")")); [now exists []|]. rewrite IH. now exists (c :: y).
Qed.
Lemma js_payload_closed p n : p <> PNone -> exists y, js_payload p n = y ++ lit ")".
Proof.
  destruct p as [|s k sp|[|i l] sp|[|e es] sp]; intros N; [congruence|..]; cbn [JsSexpModel.js_payload]; try (rewrite !app_assoc; eexists; reflexivity).
  - rewrite app_comm_cons, join_snoc by discriminate. rewrite app_comm_cons, app_assoc. apply replace_ends.
  - rewrite app_comm_cons, join_snoc by discriminate. rewrite app_comm_cons, app_assoc. eexists; reflexivity.
Qed.
Lemma js_closed v n : exists y, js_value v n = y ++ lit ")".
Proof.
  destruct v as [[[name a]|] p sp]; (assert (p = PNone \/ p <> PNone) as [->|N] by (destruct p; (now left) || (right; discriminate))).
  1, 3: cbn [JsSexpModel.js_value]; rewrite !app_assoc; eexists; reflexivity.
  - rewrite js_tagged by exact N. rewrite !app_assoc. eexists; reflexivity.
  - rewrite js_plain by exact N. now apply js_payload_closed.
Qed.
Lemma js_join_closed (l : list value) m : l <> [] -> exists y, join_lines (map (fun i => js_value i m) l) = y ++ lit ")".
Proof.
  induction l as [|v l IH]; [congruence|]. intros _. destruct (js_closed v m) as (y & Y). destruct l as [|w l]; [exists y; exact Y|].
  change (map ?f (v :: w :: l)) with (f v :: map f (w :: l)). rewrite join_cons by discriminate. destruct IH as (z & ->); [discriminate|]. exists (js_value v m ++ cLF :: z). now rewrite <- (app_assoc _ (cLF :: z)).
Qed.
Theorem js_sequence items sp n : items <> [] ->
  js_payload (PSeq items sp) n = prefix n ++ lit "(sequence " ++ py_span sp ++ [cLF] ++ join_lines (map (fun i => js_value i (S n)) items) ++ lit ")".
Proof.
  intros N. destruct (js_join_closed items (S n) N) as (y & Y). destruct items as [|i items]; [congruence|].
  transitivity (replace_close (join_lines ((prefix n ++ lit "(sequence " ++ py_span sp) :: map (fun i => js_value i (S n)) (i :: items) ++ [prefix (pred n) ++ lit ")"]))); [reflexivity|].
  rewrite join_cons by (destruct items; discriminate). rewrite join_snoc by discriminate. rewrite Y.
  transitivity (replace_close (((prefix n ++ lit "(sequence " ++ py_span sp) ++ cLF :: y) ++ cRP :: cLF :: prefix (pred n) ++ lit ")")).
  + f_equal. flat. reflexivity.
  + rewrite replace_last. flat. reflexivity.
Qed.
Theorem js_source src v : TreeSpec.tree src (inl v) -> (forall w, part_of w v -> fine_texts unprintable w) ->
  exists es a, v = Val None (PObj es a) None /\ js_document js_space es = py_format_document es /\ forall rest, SexpModel.print_sexp unprintable v rest = js_document js_space es ++ rest.
Proof.
  intros T F. destruct (tree_settled _ _ T) as (S & _ & _). pose proof (alike_of unprintable v S F) as A. destruct (source_same _ _ _ [] T F) as (es & a & -> & _). exists es, a. split; [reflexivity|].
  assert (E : entries_alike unprintable es) by (inversion A as [| | |p P]; subst; inversion P; assumption). pose proof (js_document_same es E) as J. split; [exact J|]. intros rest. rewrite J. now apply document_same.
Qed.
End sexp.

Lemma swift_same s : swift_escape s = escape_string s.
Proof.
  induction s as [|c s IH]; [reflexivity|]. rewrite escape_cons, <- IH. unfold swift_escape, py_char. cbn [flat_map]. f_equal.
  destruct (N.eqb_spec c cBSL); [subst; reflexivity|]. destruct (N.eqb_spec c cDQ); [subst; reflexivity|]. destruct (N.eqb_spec c cLF); [subst; reflexivity|].
  destruct (N.eqb_spec c cCR); [subst; reflexivity|]. reflexivity.
Qed.
