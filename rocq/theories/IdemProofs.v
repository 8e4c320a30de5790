(** Formatting tidy sources twice: the tree of the formatted text, which is formatted to the same text. *)
From Coq Require Import String.
From Verif Require Import Base BaseProofs TokModel TokSpec TokProofs RetokProofs CstModel CstSpec CstProofs CstFmtModel CstFmtSpec CstShapeProofs.
From Verif Require Import AgreeProofs AgreeSim AgreeLex CstFmtProofs IdemSpec IdemRows.
Local Open Scope nat_scope.

Section Idem.
Variable indent : str.
Hypothesis BI : forallb is_blank indent = true.
Notation fmt := (format_node indent).
Notation ind := (ind indent).

Definition prints (f : cst -> fstate -> fstate) (lv : nat) (n : cst) (s : str) : Prop :=
  forall out b, f n (mkf out lv b) = mkf (out ++ ind b lv ++ s) lv false.
Definition wsy (lv : nat) : list sym := match ind true lv with [] => [] | s => [(Whitespace, s)] end.
Lemma wsy_text lv : stext (wsy lv) = ind true lv.
Proof. unfold wsy. destruct (ind true lv) eqn:E; [reflexivity|]. unfold stext. cbn. now rewrite app_nil_r. Qed.
Lemma wsy_reads lv : reads Fstart (stext (wsy lv)) (wsy lv).
Proof.
  pose proof (ind_blank indent BI true lv) as B. unfold wsy. destruct (ind true lv) as [|c s] eqn:E; [intros r _; apply lexes_nil|].
  unfold stext. cbn [map concat snd]. rewrite app_nil_r. apply reads_blanks; [discriminate|exact B].
Qed.
Lemma wsy_triv lv : triv (wsy lv).
Proof. unfold wsy. destruct (ind true lv); constructor; [split; [reflexivity|discriminate]|constructor]. Qed.

(** What the layout depends on. *)
Definition tag_block (n : cst) : bool := match first_payload [n] with Some p => contains_block p | None => false end.
Definition tag_schema (n : cst) : bool :=
  is_node TAG n && existsb (fun l => match l with Leaf (LTok Tag) t => str_eqb t (lit "@schema") | _ => false end) (children n).
Definition same (n n' : cst) : Prop := contains_block n' = contains_block n /\ tag_block n' = tag_block n /\ tag_schema n' = tag_schema n.
Definition same_entry (e e' : cst) : Prop :=
  contains_block e' = contains_block e /\ is_block_entry e' = is_block_entry e /\
  is_schema_declaration e' = is_schema_declaration e /\ is_tag_with_block_payload e' = is_tag_with_block_payload e.
Definition node (n : cst) : Prop := exists k cs, n = Node k cs.

(** [n] is written as [s], which is read as the tokens [l] and the tree [n'], which is written as [s] again. *)
Definition Catom (lv : nat) (n n' : cst) (s : str) (l : list sym) : Prop :=
  node n' /\ prints fmt lv n s /\ prints fmt lv n' s /\ reads Fdelim s l /\ parses_atom n' l /\ begins l s /\ bare_alone l /\ same n n'.
Definition Gatom (n : cst) (l0 : list sym) : Prop :=
  node n /\ forall lv, exists n' s l, Catom lv n n' s l /\ exists k t x y, l0 = (k, t) :: x /\ l = (k, t) :: y.
Definition Cent (lv : nat) (e e' : cst) (s : str) (l : list sym) : Prop :=
  (exists cs, e = Node ENTRY cs) /\ (exists cs, e' = Node ENTRY cs) /\ prints fmt lv e s /\ prints fmt lv e' s /\
  reads Fdelim s l /\ begins l s /\ same_entry e e' /\ parses_entry e' l.
Definition Celem (lv : nat) (e e' : cst) (s : str) (l : list sym) : Prop :=
  (exists cs, e = Node ENTRY cs) /\ (exists cs, e' = Node ENTRY cs) /\ prints (seq_element fmt) lv e s /\ prints (seq_element fmt) lv e' s /\
  reads Fdelim s l /\ begins l s /\ same_entry e e' /\ exists a, e' = Node ENTRY [Node KEY [a]] /\ parses_atom a l.
Definition Gent (e : cst) : Prop :=
  (exists cs, e = Node ENTRY cs) /\ forall lv, (exists e' s l, Cent lv e e' s l) /\ (element e -> exists e' s l, Celem lv e e' s l).
Inductive item : cst -> Prop :=
| im_gap : forall k t, k = Whitespace \/ k = Newline \/ k = Comma -> item (Leaf (LTok k) t)
| im_com : forall k t, k = LineComment \/ k = DocComment -> valid k t -> item (Leaf (LTok k) t)
| im_ent : forall e, Gent e -> item e.

(** ** Rows on lines *)
Section Arr.
Variable f : cst -> fstate -> fstate.
Variable lv : nat.
Variable K : cst -> cst -> str -> list sym -> Prop.
Definition row_rel : Prop := forall e e' s l, K e e' s l ->
  (exists cs, e = Node ENTRY cs) /\ (exists cs, e' = Node ENTRY cs) /\ prints f lv e s /\ prints f lv e' s /\ reads Fdelim s l /\ begins l s /\ same_entry e e' /\ K e' e' s l.
Hypothesis HK : row_rel.

Definition nls (b : bool) : list sym := (Newline, [cLF]) :: if b then [(Newline, [cLF])] else [].
Definition msep (w : bool) (n : nat) : list sym := nls (w && (2 <=? n)) ++ wsy lv.
Definition passed (k : tkind) : Prop := k = Whitespace \/ k = LBrace \/ k = RBrace \/ k = LParen \/ k = RParen.
Inductive arr : bool -> nat -> bool -> list cst -> list rw -> Prop :=
| arr_nil : forall w n d, arr w n d [] []
| arr_nl : forall w n d t cs R, arr w (S n) d cs R -> arr w n d (Leaf (LTok Newline) t :: cs) R
| arr_pass : forall w n d k t cs R, passed k -> arr w n d cs R -> arr w n d (Leaf (LTok k) t :: cs) R
| arr_comma : forall w n t cs R, arr w 0 false cs R -> arr w n false (Leaf (LTok Comma) t :: cs) R
| arr_line : forall w n t cs R, valid LineComment t -> arr true 0 false cs R ->
    arr w n false (Leaf (LTok LineComment) t :: cs) (mkrw (msep w n) (Leaf (LTok LineComment) t) t [(LineComment, t)] :: R)
| arr_doc : forall w n d t cs R, valid DocComment t -> arr true 0 true cs R ->
    arr w n d (Leaf (LTok DocComment) t :: cs) (mkrw (msep w n) (Leaf (LTok DocComment) t) t [(DocComment, t)] :: R)
| arr_ent : forall w n d e e' s l cs R, K e e' s l -> arr true 0 false cs R -> arr w n d (e :: cs) (mkrw (msep w n) e' s l :: R).

Lemma arr_exists cs : Forall item cs -> (forall e, In e cs -> Gent e -> exists e' s l, K e e' s l) -> forall w n d, docs_belong d cs = true -> exists R, arr w n d cs R.
Proof.
  induction 1 as [|c cs Hc _ IH]; intros HE w n d D; [exists []; constructor|].
  assert (IH' := IH (fun e Hi => HE e (or_intror Hi))). destruct Hc as [k t Hk|k t Hk V|e G].
  - destruct Hk as [->|[-> | ->]]; cbn [docs_belong] in D.
    + destruct (IH' w n d D) as [R A]. exists R. apply arr_pass; [left; reflexivity|exact A].
    + destruct (IH' w (S n) d D) as [R A]. exists R. now apply arr_nl.
    + apply andb_prop in D as [D1 D]. apply negb_true_iff in D1. subst d. destruct (IH' w 0 false D) as [R A]. exists R. now apply arr_comma.
  - destruct Hk as [-> | ->]; cbn [docs_belong] in D.
    + apply andb_prop in D as [D1 D]. apply negb_true_iff in D1. subst d. destruct (IH' true 0 false D) as [R A]. eexists. apply arr_line; eauto.
    + destruct (IH' true 0 true D) as [R A]. eexists. apply arr_doc; eauto.
  - destruct (HE e (or_introl eq_refl) G) as (e' & s & l & Ke). destruct (proj1 (HK _ _ _ _ Ke)) as (cs' & ->). cbn [docs_belong] in D.
    destruct (IH' true 0 false D) as [R A]. eexists. eapply arr_ent; eauto.
Qed.
Lemma msep_text w n : stext (msep w n) = cLF :: (if w && (2 <=? n) then [cLF] else []) ++ ind true lv.
Proof. unfold msep, nls. rewrite stext_app, wsy_text. destruct (w && (2 <=? n)); reflexivity. Qed.
Lemma lines_step w n out t : t <> [] -> f_write indent t (separate w n (mkf out lv (negb w))) = mkf (out ++ (if w then stext (msep w n) else tl (stext (msep w n))) ++ t) lv false.
Proof.
  intros N. rewrite msep_text. unfold separate. destruct w; cbn [negb andb tl].
  - destruct (2 <=? n); unfold f_newline; cbn [f_out f_level]; rewrite write_eq by exact N; rewrite <- !app_assoc; reflexivity.
  - rewrite write_eq by exact N. rewrite <- !app_assoc. reflexivity.
Qed.
Lemma lines_entry w n out e s : prints f lv e s -> f e (separate w n (mkf out lv (negb w))) = mkf (out ++ (if w then stext (msep w n) else tl (stext (msep w n))) ++ s) lv false.
Proof.
  intros P. rewrite msep_text. unfold separate. destruct w; cbn [negb andb tl].
  - destruct (2 <=? n); unfold f_newline; cbn [f_out f_level]; rewrite P, <- !app_assoc; reflexivity.
  - rewrite P, <- !app_assoc. reflexivity.
Qed.
Lemma arr_lines w n d cs R : arr w n d cs R -> forall out, lines indent f w n cs (mkf out lv (negb w)) =
  match R with [] => mkf out lv (negb w) | _ => mkf (out ++ (if w then rtext R else tl (rtext R))) lv false end.
Proof.
  assert (HX : forall (w : bool) (n : nat) (a x : str), (if w then stext (msep w n) else tl (stext (msep w n))) ++ a ++ x = if w then (stext (msep w n) ++ a) ++ x else tl ((stext (msep w n) ++ a) ++ x)).
  { intros w0 n0 a x. rewrite msep_text. destruct w0; cbn [tl app]; rewrite <- ?app_assoc; reflexivity. }
  induction 1 as [w n d|w n d t cs R _ IH|w n d k t cs R P _ IH|w n t cs R _ IH|w n t cs R V _ IH|w n d t cs R V _ IH|w n d e e' s l cs R Ke _ IH]; intros out.
  - reflexivity.
  - exact (IH out).
  - destruct P as [->|[->|[->|[-> | ->]]]]; exact (IH out).
  - exact (IH out).
  - cbn [lines]. rewrite lines_step by apply V. specialize (IH (out ++ (if w then stext (msep w n) else tl (stext (msep w n))) ++ t)). cbn [negb] in IH. rewrite IH. unfold rtext. cbn [flat_map r_sep r_text]. rewrite <- HX.
    destruct R; [cbn [flat_map]; rewrite app_nil_r|rewrite <- !app_assoc]; reflexivity.
  - cbn [lines]. rewrite lines_step by apply V. specialize (IH (out ++ (if w then stext (msep w n) else tl (stext (msep w n))) ++ t)). cbn [negb] in IH. rewrite IH. unfold rtext. cbn [flat_map r_sep r_text]. rewrite <- HX.
    destruct R; [cbn [flat_map]; rewrite app_nil_r|rewrite <- !app_assoc]; reflexivity.
  - destruct (HK _ _ _ _ Ke) as ((cs' & ->) & _ & P & _). cbn [lines]. rewrite (lines_entry _ _ _ _ _ P). specialize (IH (out ++ (if w then stext (msep w n) else tl (stext (msep w n))) ++ s)). cbn [negb] in IH. rewrite IH. unfold rtext. cbn [flat_map r_sep r_text]. rewrite <- HX.
    destruct R; [cbn [flat_map]; rewrite app_nil_r|rewrite <- !app_assoc]; reflexivity.
Qed.
Lemma arr_wsy w n d cs R : arr w n d cs R -> arr w n d (leafs (wsy lv) ++ cs) R.
Proof. unfold wsy. destruct (ind true lv); intros H; [exact H|]. cbn. apply arr_pass; [left; reflexivity|exact H]. Qed.
Lemma arr_sep w n d c cs R : (forall m, (w && (2 <=? m)) = (w && (2 <=? n)) -> arr w m d (c :: cs) R) -> arr w 0 d (leafs (msep w n) ++ c :: cs) R.
Proof.
  intros H. unfold msep, nls. rewrite leafs_app, <- app_assoc. destruct (w && (2 <=? n)) eqn:E; cbn [leafs map app fst snd].
  - apply arr_nl, arr_nl, arr_wsy, H. destruct w; [reflexivity|discriminate].
  - apply arr_nl, arr_wsy, H. destruct w; reflexivity.
Qed.
Lemma arr_back w n d cs R tail : arr w n d cs R -> (forall w d n, arr w n d tail []) -> arr w 0 d (kids R ++ tail) R.
Proof.
  intros H HT. induction H as [w n d|w n d t cs R _ IH|w n d k t cs R P _ IH|w n t cs R _ IH|w n t cs R V _ IH|w n d t cs R V _ IH|w n d e e' s l cs R Ke _ IH]; auto; try apply HT.
  - unfold kids. cbn [flat_map r_sep r_node]. rewrite <- !app_assoc. apply arr_sep. intros m E. unfold msep. rewrite <- E. apply arr_line; [exact V|exact IH].
  - unfold kids. cbn [flat_map r_sep r_node]. rewrite <- !app_assoc. apply arr_sep. intros m E. unfold msep. rewrite <- E. apply arr_doc; [exact V|exact IH].
  - unfold kids. cbn [flat_map r_sep r_node]. rewrite <- !app_assoc. apply arr_sep. intros m E. unfold msep. rewrite <- E. apply (arr_ent _ _ _ e'); [apply (HK _ _ _ _ Ke)|exact IH].
Qed.
Lemma nls_reads b : reads Fany (stext (nls b)) (nls b).
Proof.
  unfold nls. destruct b; [|apply (reads_mark Newline cLF); cbn; tauto]. apply (reads_app Fany Fany [cLF] [cLF] [_] [_]); [apply (reads_mark Newline cLF); cbn; tauto|apply (reads_mark Newline cLF); cbn; tauto|intros; exact I].
Qed.
Lemma msep_lex w n : seplex Fline (msep w n).
Proof.
  split.
  - unfold msep. rewrite stext_app. apply (reads_app Fany); [apply nls_reads|apply wsy_reads|intros; exact I].
  - intros x. rewrite msep_text. right. eexists. reflexivity.
Qed.
Lemma com_rowlex sep k t nd : valid k t -> k = LineComment \/ k = DocComment -> rowlex Fline (mkrw sep nd t [(k, t)]).
Proof.
  intros V H. split; [apply reads_comment; assumption|]. destruct V as (N & S & _). destruct (shape_char k t S N (or_intror H)) as (c & r & -> & B & _). intros x. exact B.
Qed.
Lemma ent_rowlex (F : str -> Prop) sep e s l : (forall r, F r -> Fdelim r) -> reads Fdelim s l -> begins l s -> rowlex F (mkrw sep e s l).
Proof. intros HF R B. split; [eapply reads_weaken; eauto|]. destruct (begins_char _ _ B) as (c & r & -> & Hb & _). intros x. exact Hb. Qed.
Lemma arr_lex w n d cs R : arr w n d cs R -> reads Fline (rtext R) (rsyms R).
Proof.
  intros H. apply rows_lex.
  - induction H as [w n d|w n d t cs R _ IH|w n d k t cs R P _ IH|w n t cs R _ IH|w n t cs R V _ IH|w n d t cs R V _ IH|w n d e e' s l cs R Ke _ IH]; auto; constructor; auto.
    + apply com_rowlex; auto.
    + apply com_rowlex; auto.
    + destruct (HK _ _ _ _ Ke) as (_ & _ & _ & _ & A & B & _). apply ent_rowlex; auto. apply line_delim.
  - assert (S : Forall (fun r => seplex Fline (r_sep r)) R).
    { induction H as [w n d|w n d t cs R _ IH|w n d k t cs R P _ IH|w n t cs R _ IH|w n t cs R V _ IH|w n d t cs R V _ IH|w n d e e' s l cs R Ke _ IH]; auto; constructor; auto; apply msep_lex. }
    intros r R' ->. inversion_clear S as [|? ? [A _] B]. auto.
Qed.
Lemma msep_esep w n : esep (msep w n).
Proof.
  unfold msep, nls. exists (Newline, [cLF]), ((if w && (2 <=? n) then [(Newline, [cLF])] else []) ++ wsy lv). splits; [reflexivity|now left|].
  apply Forall_app. split; [destruct (w && (2 <=? n)); constructor; [split; [reflexivity|discriminate]|constructor]|apply wsy_triv].
Qed.
Lemma msep_triv w n : triv (msep w n).
Proof. destruct (msep_esep w n) as (x & l' & E & [-> | ->] & T); rewrite E; [constructor; [split; [reflexivity|discriminate]|exact T]|]. discriminate E. Qed.
Lemma arr_seps w n d cs R : arr w n d cs R -> Forall (fun r => exists a m, r_sep r = msep a m) R.
Proof. induction 1; auto; constructor; auto; eexists _, _; reflexivity. Qed.
Lemma arr_followed w n d cs R : arr w n d cs R -> forall cm, followed cm d R.
Proof.
  induction 1 as [w n d|w n d t cs R _ IH|w n d k t cs R P _ IH|w n t cs R _ IH|w n t cs R V _ IH|w n d t cs R V _ IH|w n d e e' s l cs R Ke _ IH]; intros cm; auto; cbn [followed r_sep r_node]; try exact I; try (split; [intros _; apply msep_triv|]); auto.
  destruct (HK _ _ _ _ Ke) as (_ & (cs' & ->) & _). auto.
Qed.
Lemma arr_comments w n d cs R : arr w n d cs R -> existsb is_comment (kids R) = existsb is_comment cs.
Proof.
  assert (N : forall w n, existsb is_comment (leafs (msep w n)) = false).
  { intros w0 n0. pose proof (msep_triv w0 n0) as T. induction T as [|[k t] l [A B] _ IH]; [reflexivity|]. cbn [leafs map existsb fst snd]. cbn [fst] in A, B. fold (leafs l). rewrite IH. destruct k; try discriminate; try reflexivity. contradiction. }
  induction 1 as [w n d|w n d t cs R _ IH|w n d k t cs R P _ IH|w n t cs R _ IH|w n t cs R V _ IH|w n d t cs R V _ IH|w n d e e' s l cs R Ke _ IH]; auto.
  - destruct P as [->|[->|[->|[-> | ->]]]]; exact IH.
  - unfold kids. cbn [flat_map r_sep r_node]. rewrite !existsb_app, N. reflexivity.
  - unfold kids. cbn [flat_map r_sep r_node]. rewrite !existsb_app, N. reflexivity.
  - destruct (HK _ _ _ _ Ke) as ((c1 & ->) & (c2 & ->) & _). unfold kids. cbn [flat_map r_sep r_node]. rewrite !existsb_app, N. exact IH.
Qed.
Lemma leafs_entries l : filter (is_node ENTRY) (leafs l) = [].
Proof. induction l as [|x l IH]; [reflexivity|exact IH]. Qed.
Lemma arr_entries w n d cs R : arr w n d cs R -> Forall2 same_entry (filter (is_node ENTRY) cs) (filter (is_node ENTRY) (kids R)).
Proof.
  induction 1 as [w n d|w n d t cs R _ IH|w n d k t cs R P _ IH|w n t cs R _ IH|w n t cs R V _ IH|w n d t cs R V _ IH|w n d e e' s l cs R Ke _ IH]; auto; try (now constructor);
    try (unfold kids; cbn [flat_map r_sep r_node]; rewrite !filter_app, leafs_entries; exact IH).
  destruct (HK _ _ _ _ Ke) as ((c1 & ->) & (c2 & ->) & _ & _ & _ & _ & S & _). unfold kids. cbn [flat_map r_sep r_node]. rewrite !filter_app, leafs_entries. cbn [app filter is_node nkind_eqb]. constructor; auto.
Qed.
Lemma arr_nonempty w n d cs R : arr w n d cs R -> R = [] -> existsb is_comment cs = false /\ existsb (is_node ENTRY) cs = false.
Proof.
  intros H E. pose proof (arr_comments _ _ _ _ _ H) as C. pose proof (arr_entries _ _ _ _ _ H) as F. subst R. cbn in C, F. split; [auto|].
  inversion F as [F0|]. clear -F0. induction cs as [|c cs IH]; [reflexivity|]. cbn [filter existsb] in *. destruct (is_node ENTRY c); [discriminate|]. auto.
Qed.

(** ** Rows on one line *)
Variable sp : list sym.
Definition isep (first : bool) : list sym := if first then [] else sp.
Inductive fl : bool -> list cst -> list rw -> Prop :=
| fl_none : forall b, fl b [] []
| fl_leaf : forall b k t cs R, is_comment (Leaf k t) = false -> fl b cs R -> fl b (Leaf k t :: cs) R
| fl_ent : forall b e e' s l cs R, K e e' s l -> fl false cs R -> fl b (e :: cs) (mkrw (isep b) e' s l :: R).
Lemma fl_exists cs : Forall item cs -> (forall e, In e cs -> Gent e -> exists e' s l, K e e' s l) -> existsb is_comment cs = false -> forall b, exists R, fl b cs R.
Proof.
  induction 1 as [|c cs Hc _ IH]; intros HE D b; [exists []; constructor|]. cbn [existsb] in D. apply orb_false_iff in D as [D1 D2].
  assert (IH' := IH (fun e Hi => HE e (or_intror Hi)) D2). destruct Hc as [k t Hk|k t Hk V|e G].
  - destruct (IH' b) as [R A]. exists R. now constructor.
  - destruct Hk as [-> | ->]; discriminate.
  - destruct (HE e (or_introl eq_refl) G) as (e' & s & l & Ke). destruct (IH' false) as [R A]. eexists. eapply fl_ent; eauto.
Qed.
Lemma fl_entries b cs R : fl b cs R -> Forall2 same_entry (filter (is_node ENTRY) cs) (filter (is_node ENTRY) (kids R)).
Proof.
  induction 1 as [b|b k t cs R C _ IH|b e e' s l cs R Ke _ IH]; auto; [constructor|].
  destruct (HK _ _ _ _ Ke) as ((c1 & ->) & (c2 & ->) & _ & _ & _ & _ & S & _). unfold kids. cbn [flat_map r_sep r_node]. rewrite !filter_app, leafs_entries. cbn [app filter is_node nkind_eqb]. constructor; auto.
Qed.
Lemma filter_exists (p : cst -> bool) cs : existsb p cs = negb (match filter p cs with [] => true | _ => false end).
Proof. induction cs as [|c cs IH]; [reflexivity|]. cbn. destruct (p c); [reflexivity|exact IH]. Qed.
Lemma forall2_exists (A : Type) (p q : A -> bool) (r : A -> A -> Prop) l l' : (forall x y, r x y -> q y = p x) -> Forall2 r l l' -> existsb q l' = existsb p l.
Proof. intros E. induction 1 as [|x y l l' H _ IH]; [reflexivity|]. cbn. now rewrite (E _ _ H), IH. Qed.
Lemma fl_more cs R : fl false cs R -> existsb (is_node ENTRY) cs = match R with [] => false | _ => true end.
Proof.
  remember false as b eqn:Eb. induction 1 as [b|b k t cs R C _ IH|b e e' s l cs R Ke _ IH]; auto. destruct (HK _ _ _ _ Ke) as ((c1 & ->) & _). reflexivity.
Qed.
Lemma fl_first_sep cs R0 r R : fl false cs R0 -> R0 = r :: R -> r_sep r = sp.
Proof.
  intros H. remember false as b eqn:Eb. induction H as [b|b k t cs R0 C _ IH|b e e' s l cs R0 Ke A IH]; intros E; [discriminate|auto|]. injection E as <- _. subst b. reflexivity.
Qed.
Lemma fl_prints b cs R : stext sp <> [] -> fl b cs R -> forall out, nodes_between indent f ENTRY (stext sp) cs (mkf out lv false) =
  mkf (out ++ (if b then rtext R else match R with [] => [] | r :: R' => r_text r ++ rtext R' end)) lv false.
Proof.
  intros NS. induction 1 as [b|b k t cs R C _ IH|b e e' s l cs R Ke A IH]; intros out.
  - cbn. destruct b; rewrite app_nil_r; reflexivity.
  - exact (IH out).
  - pose proof (fl_more _ _ A) as M. destruct (HK _ _ _ _ Ke) as ((cs' & ->) & _ & P & _). cbn [nodes_between is_node nkind_eqb]. cbv zeta. rewrite !P, M. destruct R as [|r R].
    + cbv beta iota. rewrite IH. unfold rtext, isep. destruct b; cbn [flat_map r_sep r_text stext map concat app CstFmtProofs.ind]; rewrite !app_nil_r; reflexivity.
    + cbv beta iota. rewrite write_eq by exact NS. rewrite IH.
      assert (rtext (r :: R) = stext sp ++ r_text r ++ rtext R) as E1.
      { unfold rtext. cbn [flat_map]. rewrite (fl_first_sep _ _ _ _ A eq_refl), <- app_assoc. reflexivity. }
      destruct b.
      * change (rtext (mkrw (isep true) e' s l :: r :: R)) with ((stext [] ++ s) ++ rtext (r :: R)). rewrite E1. cbn [stext map concat app CstFmtProofs.ind]. rewrite <- !app_assoc. reflexivity.
      * cbn [r_text]. rewrite E1. cbn [CstFmtProofs.ind app]. rewrite <- !app_assoc. reflexivity.
Qed.
Lemma fl_back b cs R tail : existsb is_comment (leafs sp) = false -> fl b cs R -> fl false tail [] -> fl true tail [] -> fl b (kids R ++ tail) R.
Proof.
  intros NC H T1 T2. induction H as [b|b k t cs R C _ IH|b e e' s l cs R Ke A IH]; auto; [destruct b; assumption|].
  unfold kids. cbn [flat_map r_sep r_node]. rewrite <- !app_assoc. cbn [app].
  assert (G : forall l0 c R0, existsb is_comment (leafs l0) = false -> fl b c R0 -> fl b (leafs l0 ++ c) R0).
  { intros l0. induction l0 as [|x l0 IHl]; intros c R0 E X; [exact X|]. cbn [leafs map existsb] in E. apply orb_false_iff in E as [E1 E2]. cbn [leafs map app]. constructor; auto. }
  apply G; [destruct b; [reflexivity|exact NC]|]. apply fl_ent with (e := e'); [apply (HK _ _ _ _ Ke)|exact IH].
Qed.
Lemma fl_lex b cs R : seplex Fdelim sp -> fl b cs R -> reads Fdelim (rtext R) (rsyms R).
Proof.
  intros HS H. apply rows_lex.
  - induction H as [b|b k t cs R C _ IH|b e e' s l cs R Ke A IH]; auto; constructor; auto. destruct (HK _ _ _ _ Ke) as (_ & _ & _ & _ & X & B & _). apply ent_rowlex; auto.
  - induction H as [b|b k t cs R C _ IH|b e e' s l cs R Ke A IH]; intros r R' E; [discriminate|auto|]. injection E as <- <-. split.
    + cbn [r_sep]. destruct b; [intros x _; apply lexes_nil|apply HS].
    + clear -A HS. remember false as b eqn:Eb. induction A as [b|b k t cs R C _ IH|b e e' s l cs R Ke A IH]; auto. subst b. constructor; [exact HS|auto].
Qed.
Lemma fl_seps b cs R : fl b cs R -> Forall (fun r => r_sep r = isep b \/ r_sep r = sp) R /\ (forall r R', R = r :: R' -> r_sep r = isep b /\ Forall (fun r => r_sep r = sp) R').
Proof.
  intros H. assert (G : forall r R', R = r :: R' -> r_sep r = isep b /\ Forall (fun r => r_sep r = sp) R').
  { induction H as [b|b k t cs R C _ IH|b e e' s l cs R Ke A IH]; intros r R' E; [discriminate|auto|]. injection E as <- <-. split; [reflexivity|].
    destruct R as [|r R]; constructor; destruct (IH _ _ eq_refl) as [I1 I2]; auto. }
  split; [|exact G]. destruct R as [|r R]; constructor; destruct (G _ _ eq_refl) as [G1 G2]; auto. eapply Forall_impl; [|exact G2]. cbn. auto.
Qed.
End Arr.
End Idem.
