(** The S-expression of a tree can be read in one way only. *)
From Coq Require Import String.
From Coq Require DecimalNat HexadecimalN.
From Verif Require Import Base BaseProofs TokModel LexModel TreeModel SexpModel SexpSpec.

(** ** Numbers, texts, spans *)
Lemma uint_cut d : forall d' x q y q', (x < 48 \/ 57 < x)%N -> (y < 48 \/ 57 < y)%N -> uint_text d (x :: q) = uint_text d' (y :: q') -> d = d' /\ x :: q = y :: q'.
Proof.
  induction d; intros d' x q y q' X Y E; destruct d'; cbn [uint_text] in E; try (split; [reflexivity|exact E]); try discriminate E;
    injection E; intros; subst; try lia; match goal with H : uint_text _ _ = uint_text _ _ |- _ => apply IHd in H as [-> H2]; auto end.
Qed.
Lemma number_cut a b x q y q' : (x < 48 \/ 57 < x)%N -> (y < 48 \/ 57 < y)%N -> number a (x :: q) = number b (y :: q') -> a = b /\ x :: q = y :: q'.
Proof. intros X Y E. apply uint_cut in E as [E1 E2]; auto. split; [|exact E2]. now apply DecimalNat.Unsigned.to_uint_inj. Qed.
Lemma hex_cut d : forall d' q q', hex_text d (cRB :: q) = hex_text d' (cRB :: q') -> d = d' /\ q = q'.
Proof.
  induction d; intros d' q q' E; destruct d'; cbn [hex_text] in E; try discriminate E; injection E; intros; subst; auto;
    match goal with H : hex_text _ _ = hex_text _ _ |- _ => apply IHd in H as [-> H2]; auto end.
Qed.

Lemma number_some n r : exists c q, number n r = c :: q /\ (48 <= c <= 57)%N.
Proof.
  unfold number. destruct (Nat.to_uint n) eqn:E; cbn [uint_text]; try (eexists _, _; split; [reflexivity|lia]).
  exfalso. pose proof (DecimalNat.Unsigned.of_to n) as H. rewrite E in H. cbn in H. subst n. discriminate E.
Qed.
Lemma number_minus n r q : number n r <> 45%N :: q.
Proof. destruct (number_some n r) as (c & z & -> & L). intros [= -> _]. lia. Qed.
Lemma span_cut a b r r' : span_text a r = span_text b r' -> a = b /\ r = r'.
Proof.
  destruct a as [[a1 a2]|], b as [[b1 b2]|]; unfold span_text; cbn [sp_start sp_end lit app]; intros E.
  - injection E as E. apply number_cut in E as [-> E]; [|cbv; auto..]. injection E as E. apply number_cut in E as [-> E]; [|cbv; auto..]. injection E as ->. auto.
  - injection E as E. now apply number_minus in E.
  - injection E as E. symmetry in E. now apply number_minus in E.
  - injection E as ->. auto.
Qed.

Section sexp.
Variable unprintable : char -> bool.
Notation debug_char := (debug_char unprintable).
Notation debug := (debug unprintable).

Lemma char_cut c d z w : debug_char c z = debug_char d w -> c = d /\ z = w.
Proof.
  unfold SexpModel.debug_char. intros E.
  repeat match type of E with
  | context [if (?a =? ?b)%N then _ else _] => destruct (N.eqb_spec a b); [subst|]
  | context [if unprintable ?a then _ else _] => destruct (unprintable a)
  end; try discriminate E; try (injection E; intros; subst; auto; congruence).
  injection E as E. apply hex_cut in E as [E ->]. split; [|reflexivity]. now apply HexadecimalN.Unsigned.to_uint_inj.
Qed.
Lemma char_quote c z r : cDQ :: r <> debug_char c z.
Proof.
  unfold SexpModel.debug_char. repeat match goal with |- context [if ?b then _ else _] => destruct b eqn:? end; intros [=]; subst; try discriminate.
Qed.
Lemma body_cut s : forall t r r', fold_right debug_char (cDQ :: r) s = fold_right debug_char (cDQ :: r') t -> s = t /\ r = r'.
Proof.
  induction s as [|c s IH]; intros [|d t] r r' E; cbn [fold_right] in E.
  - injection E as ->. auto.
  - now apply char_quote in E.
  - symmetry in E. now apply char_quote in E.
  - apply char_cut in E as [-> E]. apply IH in E as [-> ->]. auto.
Qed.
Lemma debug_cut s t r r' : debug s r = debug t r' -> s = t /\ r = r'.
Proof. unfold SexpModel.debug. intros E. injection E as E. now apply body_cut. Qed.
Lemma pad_cut n a b : pad n a = pad n b -> a = b.
Proof. induction n as [|n IH]; cbn [pad]; [auto|]. intros [= E]. auto. Qed.
Lemma pad_more n a : pad (S n) a = pad n (cSP :: cSP :: a).
Proof. induction n as [|n IH]; [reflexivity|]. cbn [pad] in *. now rewrite IH. Qed.
Lemma kind_cut k l r r' : kind_text k ++ cSP :: r = kind_text l ++ cSP :: r' -> k = l /\ r = r'.
Proof. destruct k, l; cbn; intros E; try discriminate E; injection E as ->; auto. Qed.

(** ** From what is shown *)
Section lists.
Context {A : Type} (f : A -> str -> str).
Fixpoint items_text (l : list A) (rest : str) : str :=
  match l with [] => lit ")" ++ rest | i :: r => f i (match r with [] => items_text r rest | _ => cLF :: items_text r rest end) end.
End lists.

Fixpoint render (x : shown) (n : nat) (rest : str) {struct x} : str :=
  pad n (match x with
  | ShUnit sp => lit "(unit " ++ span_text sp (lit ")" ++ rest)
  | ShScalar sp k s => lit "(scalar " ++ span_text sp (lit " " ++ kind_text k ++ lit " " ++ debug s (lit ")" ++ rest))
  | ShSeq sp items => lit "(sequence " ++ span_text sp (match items with [] => lit ")" ++ rest | _ => cLF :: items_text (fun i => render i (S n)) items rest end)
  | ShObj sp es => lit "(object " ++ span_text sp (match es with [] => lit ")" ++ rest | _ =>
      cLF :: fold_right (fun e r => match e with (k, v) => pad (S n) (lit "(entry" ++ cLF :: render k (S (S n)) (cLF :: render v (S (S n)) (lit ")" ++ cLF :: r))) end) (pad n (lit ")" ++ rest)) es end)
  | ShTag sp name p => lit "(tag " ++ span_text sp (lit " " ++ debug name (match p with None => lit ")" ++ rest | Some q => cLF :: render q (S n) (lit ")" ++ rest) end))
  end).
Definition render_entry (n : nat) (e : shown * shown) (r : str) : str :=
  match e with (k, v) => pad n (lit "(entry" ++ cLF :: render k (S n) (cLF :: render v (S n) (lit ")" ++ cLF :: r))) end.

Notation print_sexp_value := (print_sexp_value unprintable).
Notation print_sexp_payload := (print_sexp_payload unprintable).
Notation print_sexp_entry := (print_sexp_entry unprintable).
Notation print_sexp := (print_sexp unprintable).

Definition own (p : payload) : option span := match p with PNone => None | PScalar _ _ s | PSeq _ s | PObj _ s => s end.
Lemma print_shown : forall v n r, print_sexp_value v n r = render (show v) n r.
Proof.
  fix val_ok 1.
  assert (ent_ok : forall k v d n r, (forall n r, print_sexp_value k n r = render (show k) n r) -> (forall n r, print_sexp_value v n r = render (show v) n r) ->
    print_sexp_entry (Ent k v d) n r = render_entry n (show_entry (Ent k v d)) r).
  { intros k v d n r K V. cbn [SexpModel.print_sexp_entry show_entry render_entry]. now rewrite V, K. }
  intros [t p sp] n r.
  assert (Items : match p with PSeq l _ => forall n r,
    (fix go (l : list value) : str := match l with [] => lit ")" ++ r | i :: q => print_sexp_value i (S n) (match q with [] => go q | _ => cLF :: go q end) end) l =
    items_text (fun i => render i (S n)) (map show l) r | _ => True end).
  { destruct p as [|? ? ?|l s'|es s']; auto. intros m q. induction l as [|i l IH]; [reflexivity|]. cbn [map items_text].
    rewrite val_ok, IH. destruct l; reflexivity. }
  assert (Ents : match p with PObj es _ => forall n z,
    (fix go (l : list entry) : str := match l with [] => z | e :: q => print_sexp_entry e (S n) (go q) end) es = fold_right (render_entry (S n)) z (map show_entry es) | _ => True end).
  { destruct p as [|? ? ?|l s'|es s']; auto. intros m z. induction es as [|[k v d] es IH]; [reflexivity|]. cbn [map fold_right].
    rewrite IH. apply ent_ok; [exact (val_ok k)|exact (val_ok v)]. }
  clear val_ok ent_ok.
  destruct t as [[name ts]|]; destruct p as [|s k ps|l ps|es ps]; cbn [SexpModel.print_sexp_value SexpModel.print_sexp_payload show show_payload render]; try reflexivity.
  - destruct l as [|i l]; [reflexivity|]. rewrite Items. reflexivity.
  - destruct es as [|e es]; [reflexivity|]. rewrite Ents. reflexivity.
  - destruct l as [|i l]; [reflexivity|]. rewrite Items. reflexivity.
  - destruct es as [|e es]; [reflexivity|]. rewrite Ents. reflexivity.
Qed.

(** ** Reading it *)
Section nested.
Variable P : shown -> Prop.
Hypothesis HU : forall sp, P (ShUnit sp).
Hypothesis HS : forall sp k s, P (ShScalar sp k s).
Hypothesis HL : forall sp l, Forall P l -> P (ShSeq sp l).
Hypothesis HO : forall sp es, Forall (fun e => P (fst e) /\ P (snd e)) es -> P (ShObj sp es).
Hypothesis HT : forall sp n p, match p with Some q => P q | None => True end -> P (ShTag sp n p).
Fixpoint shown_nested (x : shown) : P x :=
  match x with
  | ShUnit sp => HU sp
  | ShScalar sp k s => HS sp k s
  | ShSeq sp l => HL sp l ((fix go l : Forall P l := match l with [] => Forall_nil _ | i :: r => Forall_cons i (shown_nested i) (go r) end) l)
  | ShObj sp es => HO sp es ((fix go l : Forall (fun e => P (fst e) /\ P (snd e)) l :=
      match l with [] => Forall_nil _ | e :: r => @Forall_cons _ (fun e => P (fst e) /\ P (snd e)) e r (match e with (k, v) => conj (shown_nested k) (shown_nested v) end) (go r) end) es)
  | ShTag sp n p => HT sp n p (match p with Some q => shown_nested q | None => I end)
  end.
End nested.

Definition single (x : shown) : Prop := forall y n r r', render x n r = render y n r' -> x = y /\ r = r'.
Lemma items_cut n l : Forall single l -> forall l' r r', l <> [] -> l' <> [] ->
  items_text (fun i => render i n) l r = items_text (fun i => render i n) l' r' -> l = l' /\ r = r'.
Proof.
  induction 1 as [|x l X _ IH]; intros [|y l'] r r' N N' E; try congruence. cbn [items_text] in E. apply X in E as [-> E].
  destruct l as [|a l], l' as [|b l']; cbn [items_text] in E; try discriminate E.
  - cbn in E. injection E as ->. auto.
  - injection E as E. apply (IH (b :: l')) in E as [E ->]; try discriminate. split; [|reflexivity]. now f_equal.
Qed.
Lemma ents_cut n es : Forall (fun e => single (fst e) /\ single (snd e)) es -> forall es' r r',
  fold_right (render_entry (S n)) (pad n (lit ")" ++ r)) es = fold_right (render_entry (S n)) (pad n (lit ")" ++ r')) es' -> es = es' /\ r = r'.
Proof.
  induction 1 as [|[k v] es [K V] _ IH]; intros [|[k' v'] es'] r r' E; cbn [fold_right render_entry] in E.
  - apply pad_cut in E. cbn in E. injection E as ->. auto.
  - rewrite pad_more in E. apply pad_cut in E. discriminate E.
  - rewrite pad_more in E. apply pad_cut in E. discriminate E.
  - apply pad_cut in E. cbn [lit app] in E. injection E as E. cbn [fst snd] in K, V. apply K in E as [-> E]. injection E as E. apply V in E as [-> E]. cbn [lit app] in E. injection E as E.
    apply IH in E as [-> ->]. auto.
Qed.

Lemma render_single : forall x, single x.
Proof.
  induction x as [sp|sp k s|sp l IH|sp es IH|sp name p IH] using shown_nested; intros y n r r' E;
    destruct y as [sp'|sp' k' s'|sp' l'|sp' es'|sp' name' p']; cbn [render] in E; apply pad_cut in E; try discriminate E; cbn [lit app] in E; injection E as E; apply span_cut in E as [-> E].
  - injection E as ->. auto.
  - injection E as E. apply kind_cut in E as [-> E]. apply debug_cut in E as [-> E]. injection E as ->. auto.
  - destruct l as [|a l], l' as [|b l']; try discriminate E; [injection E as ->; auto|]. injection E as E. apply (items_cut (S n) (a :: l) IH (b :: l')) in E as [E ->]; try discriminate. split; [now f_equal|reflexivity].
  - destruct es as [|a es], es' as [|b es']; try discriminate E; [injection E as ->; auto|]. injection E as E. apply (ents_cut n (a :: es) IH (b :: es')) in E as [E ->]. split; [now f_equal|reflexivity].
  - injection E as E. apply body_cut in E as [-> E]. destruct p as [q|], p' as [q'|]; try discriminate E; [|injection E as ->; auto].
    injection E as E. apply IH in E as [-> E]. injection E as ->. auto.
Qed.

Theorem value_cut v w n r r' : print_sexp_value v n r = print_sexp_value w n r' <-> show v = show w /\ r = r'.
Proof. rewrite !print_shown. split; [apply render_single|]. intros [-> ->]. reflexivity. Qed.

Lemma document_text v es sp r : v_payload v = PObj es sp -> print_sexp v r = lit "(document " ++ span_text (v_span v) (cLF :: fold_right (render_entry 1) (lit ")" ++ r) (map show_entry es)).
Proof.
  intros E. unfold SexpModel.print_sexp. rewrite E. do 2 f_equal. f_equal. clear E. induction es as [|[k w d] es IH]; [reflexivity|]. cbn [map fold_right]. rewrite IH.
  cbn [SexpModel.print_sexp_entry show_entry render_entry]. now rewrite !print_shown.
Qed.
Lemma not_document x r z : render x 0 r <> lit "(document " ++ z.
Proof. destruct x; discriminate. Qed.
Theorem root_cut v w r r' : print_sexp v r = print_sexp w r' <-> shown_root v = shown_root w /\ r = r'.
Proof.
  assert (Other : forall v r, (forall es sp, v_payload v <> PObj es sp) -> print_sexp v r = render (show v) 0 r /\ shown_root v = inr (show v)).
  { intros u q H. unfold SexpModel.print_sexp, shown_root. rewrite <- print_shown. destruct (v_payload u); auto. now edestruct H. }
  assert (Case : forall v, (exists es sp, v_payload v = PObj es sp) \/ forall es sp, v_payload v <> PObj es sp).
  { intros u. destruct (v_payload u) as [| | |es sp]; [right; discriminate..|left; eauto]. }
  destruct (Case v) as [(es & sp & V)|V], (Case w) as [(es' & sp' & W)|W].
  - rewrite (document_text v _ _ r V), (document_text w _ _ r' W). unfold shown_root. rewrite V, W. split.
    + cbn [lit app]. intros E. injection E as E. apply span_cut in E as [-> E]. injection E as E.
      apply (ents_cut 0) in E as [-> ->]; [auto|]. apply Forall_forall. intros x _. split; apply render_single.
    + intros [E ->]. injection E as -> ->. reflexivity.
  - destruct (Other w r' W) as [-> Sw]. rewrite (document_text v _ _ r V). split; [intros E; symmetry in E; now apply not_document in E|].
    rewrite Sw. unfold shown_root. rewrite V. intros [[=] _].
  - destruct (Other v r V) as [-> Sv]. rewrite (document_text w _ _ r' W). split; [intros E; now apply not_document in E|].
    rewrite Sv. unfold shown_root. rewrite W. intros [[=] _].
  - destruct (Other v r V) as [-> ->], (Other w r' W) as [-> ->]. split.
    + intros E. apply render_single in E as [-> ->]. auto.
    + intros [E ->]. injection E as ->. reflexivity.
Qed.
End sexp.

(** ** The texts of Python *)
Definition py_char (c : char) : str :=
  if (c =? cTAB)%N then [cBSL; ct] else if (c =? cCR)%N then [cBSL; cr] else if (c =? cLF)%N then [cBSL; cn]
  else if (c =? cDQ)%N then [cBSL; cDQ] else if (c =? cBSL)%N then [cBSL; cBSL] else [c].
Lemma replace_app c t a b : replace_char c t (a ++ b) = replace_char c t a ++ replace_char c t b.
Proof. apply flat_map_app. Qed.
Lemma escape_cons c s : escape_string (c :: s) = py_char c ++ escape_string s.
Proof.
  change (c :: s) with ([c] ++ s). unfold escape_string. rewrite !replace_app. f_equal. unfold py_char.
  destruct (N.eqb_spec c cTAB); [subst; reflexivity|]. destruct (N.eqb_spec c cCR); [subst; reflexivity|]. destruct (N.eqb_spec c cLF); [subst; reflexivity|].
  destruct (N.eqb_spec c cDQ); [subst; reflexivity|]. destruct (N.eqb_spec c cBSL); [subst; reflexivity|].
  unfold replace_char. cbn [flat_map]. rewrite (proj2 (N.eqb_neq c cBSL)) by assumption. cbn [flat_map app]. rewrite (proj2 (N.eqb_neq c cDQ)) by assumption.
  cbn [flat_map app]. rewrite (proj2 (N.eqb_neq c cLF)) by assumption. cbn [flat_map app]. rewrite (proj2 (N.eqb_neq c cCR)) by assumption.
  cbn [flat_map app]. now rewrite (proj2 (N.eqb_neq c cTAB)) by assumption.
Qed.
Lemma texts_alike u s : SexpModel.debug u s [] = cDQ :: escape_string s ++ [cDQ] <-> Forall (written_alike u) s.
Proof.
  unfold SexpModel.debug. split.
  - intros E. injection E as E. induction s as [|c s IH]; constructor; cbn [fold_right] in E; rewrite escape_cons in E; unfold SexpModel.debug_char, py_char in E; unfold written_alike; cbn [In];
    repeat match type of E with
    | context [if (?a =? ?b)%N then _ else _] => destruct (N.eqb_spec a b); [subst; try discriminate|]
    | context [if u ?a then _ else _] => destruct (u a) eqn:?
    end; cbn [app] in E; try discriminate E; try (injection E; intros; subst; congruence); auto 10; apply IH; injection E; auto.
  - intros H. f_equal. induction H as [|c s C _ IH]; [reflexivity|]. cbn [fold_right]. rewrite IH, escape_cons. unfold SexpModel.debug_char, py_char. unfold written_alike in C. cbn [In] in C.
    destruct (N.eqb_spec c 0).
    { subst. destruct C as [C|C]; [|destruct C; congruence]. exfalso. repeat destruct C as [C|C]; try discriminate C; exact C. }
    repeat match goal with |- context [if (c =? ?b)%N then _ else _] => destruct (N.eqb_spec c b); [subst; reflexivity|] end.
    destruct C as [C|[_ ->]]; [|reflexivity]. exfalso. repeat destruct C as [C|C]; congruence || exact C.
Qed.
