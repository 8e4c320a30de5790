(** The lines for errors are the same exactly if the message is written alike. *)
From Coq Require Import String.
From Verif Require Import Base BaseProofs TokModel LexModel TreeModel SexpModel SexpSpec SexpProofs PySexpModel PySexpSpec JsSexpModel JsSexpSpec JsSexpProofs ErrSexpModel.

Lemma uint_app d r : uint_text d r = uint_text d [] ++ r.
Proof. induction d; cbn [uint_text app]; rewrite ?IHd; reflexivity. Qed.
Lemma number_app n r : number n r = number n [] ++ r.
Proof. apply uint_app. Qed.
Definition harmless (c : char) : Prop := (32 <= c < 127)%N /\ c <> cDQ /\ c <> cBSL.
Lemma uint_harmless d : Forall harmless (uint_text d []).
Proof. induction d; cbn [uint_text]; constructor; trivial; unfold harmless; repeat split; try lia; discriminate. Qed.
Definition front (sp : span) : str := lit "parse error at " ++ number (sp_start sp) [] ++ lit "-" ++ number (sp_end sp) [] ++ lit ": ".
Lemma front_harmless sp : Forall harmless (front sp).
Proof.
  unfold front. repeat (apply Forall_app; split); try apply uint_harmless; repeat constructor; unfold harmless; cbn; try lia; discriminate.
Qed.
Lemma message_front sp m : error_message sp m = front sp ++ m.
Proof. unfold error_message, front. rewrite number_app, (number_app (sp_end sp)). now rewrite <- !app_assoc. Qed.
Lemma front_text sp x : lit "parse error at " ++ number (sp_start sp) (lit "-" ++ number (sp_end sp) (lit ": " ++ x)) = front sp ++ x.
Proof. exact (message_front sp x). Qed.
Lemma span_app sp r : span_text (Some sp) r = span_text (Some sp) [] ++ r.
Proof. cbn [span_text]. rewrite (number_app (sp_start sp)), (number_app (sp_end sp)), (number_app (sp_start sp) (_ ++ number _ _)), (number_app (sp_end sp) (_ ++ [])). rewrite <- !app_assoc. reflexivity. Qed.

Section errors.
Variable u : char -> bool.
Hypothesis ascii : forall c, (32 <= c < 127)%N -> u c = false.
Lemma debug_harmless p r : Forall harmless p -> fold_right (debug_char u) r p = p ++ r.
Proof.
  induction 1 as [|c p (R & N1 & N2) _ IH]; [reflexivity|]. cbn [fold_right app]. rewrite IH. unfold debug_char.
  repeat match goal with |- context [if (c =? ?b)%N then _ else _] => destruct (N.eqb_spec c b); [subst; try congruence; exfalso; destruct R; lia|] end. now rewrite ascii.
Qed.
Lemma json_harmless p : Forall harmless p -> json_escape p = p.
Proof.
  unfold json_escape. induction 1 as [|c p (R & N1 & N2) _ IH]; [reflexivity|]. cbn [flat_map]. rewrite IH. unfold js_char.
  repeat match goal with |- context [if (c =? ?b)%N then _ else _] => destruct (N.eqb_spec c b); [subst; try congruence; exfalso; destruct R; lia|] end. destruct (N.ltb_spec c 32); [lia|reflexivity].
Qed.
Lemma rust_front sp m : rust_error u sp m = (lit "(error " ++ span_text (Some sp) [] ++ lit " ") ++ cDQ :: front sp ++ fold_right (debug_char u) (cDQ :: lit ")") m.
Proof.
  unfold rust_error, debug. rewrite span_app, message_front, fold_right_app, debug_harmless by apply front_harmless. now rewrite <- !app_assoc.
Qed.
Lemma py_front sp m : py_error sp m = (lit "(error " ++ span_text (Some sp) [] ++ lit " ") ++ cDQ :: front sp ++ double_backslashes m ++ cDQ :: lit ")".
Proof. unfold py_error. rewrite span_app, front_text. now rewrite <- !app_assoc. Qed.
Lemma swift_front sp m : swift_error sp m = (lit "(error " ++ span_text (Some sp) [] ++ lit " ") ++ cDQ :: front sp ++ swift_escape m ++ cDQ :: lit ")".
Proof. unfold swift_error. rewrite span_app, front_text. now rewrite <- !app_assoc. Qed.
Lemma js_front sp m : js_error sp m = (lit "(error " ++ span_text (Some sp) [] ++ lit " ") ++ cDQ :: front sp ++ json_escape m ++ cDQ :: lit ")".
Proof.
  unfold js_error. rewrite span_app, message_front. unfold json_escape. rewrite flat_map_app. fold (json_escape (front sp)). rewrite json_harmless by apply front_harmless. now rewrite <- !app_assoc.
Qed.
Lemma debug_tail m (a : str) : fold_right (debug_char u) (a ++ lit ")") m = fold_right (debug_char u) a m ++ lit ")".
Proof.
  induction m as [|c m IH]; [reflexivity|]. cbn [fold_right]. rewrite IH. unfold debug_char. repeat match goal with |- context [if ?b then _ else _] => destruct b; [try reflexivity|] end; try reflexivity.
  cbn [app]. do 3 f_equal. generalize (fold_right (debug_char u) a m). intros x. change (cRB :: x ++ lit ")") with ((cRB :: x) ++ lit ")"). generalize (cRB :: x). intros y. induction (N.to_hex_uint c) as [|d I|d I|d I|d I|d I|d I|d I|d I|d I|d I|d I|d I|d I|d I|d I|d I]; cbn [hex_text app]; rewrite ?I; reflexivity.
Qed.
Lemma text_eq sp m x : rust_error u sp m = (lit "(error " ++ span_text (Some sp) [] ++ lit " ") ++ cDQ :: front sp ++ x ++ cDQ :: lit ")" <-> debug u m [] = cDQ :: x ++ [cDQ].
Proof.
  rewrite rust_front. unfold debug. pose proof (debug_tail m [cDQ]) as D. change ([cDQ] ++ lit ")") with (cDQ :: lit ")") in D. rewrite D.
  assert (X : x ++ cDQ :: lit ")" = (x ++ [cDQ]) ++ lit ")") by now rewrite <- app_assoc. rewrite X. split.
  - intros E. apply app_inv_head in E. injection E as E. apply app_inv_head in E. apply app_inv_tail in E. now rewrite E.
  - intros E. injection E as E. now rewrite E.
Qed.
Definition backslash_or_plain (c : char) : Prop := c = cBSL \/ needs_no_escape u c.
Lemma double_texts m : debug u m [] = cDQ :: double_backslashes m ++ [cDQ] <-> Forall backslash_or_plain m.
Proof.
  unfold debug, double_backslashes. split.
  - intros E. injection E as E. induction m as [|c s IH]; constructor; cbn [fold_right flat_map] in E; rewrite <- app_assoc in E; unfold debug_char in E; unfold backslash_or_plain, needs_no_escape; cbn [In];
    repeat match type of E with
    | context [if (?a =? ?b)%N then _ else _] => destruct (N.eqb_spec a b); [subst; try discriminate|]
    | context [if u ?a then _ else _] => destruct (u a) eqn:?
    end; cbn [app] in E; try discriminate E; try (injection E; intros; subst; congruence); auto 10; try (apply IH; injection E; auto).
    right. split; [|auto]. intros [|[|[|[|[|[]]]]]]; congruence.
  - intros H. f_equal. induction H as [|c s C _ IH]; [reflexivity|]. cbn [fold_right flat_map]. rewrite IH, <- app_assoc. unfold debug_char. destruct C as [->|(C & N0 & P)]; [reflexivity|]. cbn [In] in C.
    repeat match goal with |- context [if (c =? ?b)%N then _ else _] => destruct (N.eqb_spec c b); [subst; exfalso; tauto|] end. now rewrite P.
Qed.
Theorem py_errors sp m : rust_error u sp m = py_error sp m <-> Forall backslash_or_plain m.
Proof. rewrite py_front, text_eq. apply double_texts. Qed.
Theorem js_errors sp m : rust_error u sp m = js_error sp m <-> Forall (written_alike_js u) m.
Proof. rewrite js_front, text_eq. apply js_texts. Qed.
Theorem swift_errors sp m : rust_error u sp m = swift_error sp m <-> Forall (written_alike u) m.
Proof. rewrite swift_front, text_eq, swift_same. apply texts_alike. Qed.
End errors.
