(** Rust and Python print the same S-expressions. *)
From Coq Require Import String.
From Verif Require Import Base BaseProofs TokModel LexModel ParseModel TreeModel TreeSpec SexpModel SexpSpec SexpProofs PySexpModel PySexpSpec.

Scheme pa_v := Minimality for printed_alike Sort Prop with pa_p := Minimality for payload_alike Sort Prop
  with pa_i := Minimality for items_alike Sort Prop with pa_e := Minimality for entries_alike Sort Prop.
Combined Scheme alike_ind from pa_v, pa_p, pa_i, pa_e.

Lemma pad_prefix n r : pad n r = prefix n ++ r.
Proof. unfold prefix. induction n as [|n IH]; cbn [pad app]; [reflexivity|]. now rewrite IH. Qed.
Lemma prefix_more n r : prefix n ++ cSP :: cSP :: r = pad (S n) r.
Proof. now rewrite pad_more, pad_prefix. Qed.
Lemma uint_app d r : uint_text d r = uint_text d [] ++ r.
Proof. induction d; cbn [uint_text app]; congruence. Qed.
Lemma number_app n r : number n r = number n [] ++ r.
Proof. apply uint_app. Qed.
Lemma numbers_app a b x y r : number a (x ++ number b (y ++ r)) = number a (x ++ number b y) ++ r.
Proof. rewrite (number_app a (x ++ number b (y ++ r))), (number_app a (x ++ number b y)), (number_app b (y ++ r)), (number_app b y), <- !app_assoc. reflexivity. Qed.
Lemma span_app sp r : span_text sp r = py_span sp ++ r.
Proof.
  unfold py_span, span_text. destruct sp as [sp|]; [|reflexivity]. now rewrite app_nil_r, numbers_app, app_assoc.
Qed.

Section sexp.
Variable unprintable : char -> bool.
Notation debug := (debug unprintable).
Notation print_sexp_value := (print_sexp_value unprintable).
Notation print_sexp_payload := (print_sexp_payload unprintable).
Notation print_sexp_entry := (print_sexp_entry unprintable).

Lemma hex_app d r : hex_text d r = hex_text d [] ++ r.
Proof. induction d; cbn [hex_text app]; congruence. Qed.
Lemma char_app c r : SexpModel.debug_char unprintable c r = SexpModel.debug_char unprintable c [] ++ r.
Proof.
  unfold SexpModel.debug_char. repeat match goal with |- context [if ?b then _ else _] => destruct b; [try reflexivity|] end; [|reflexivity].
  cbn [app]. do 3 f_equal. rewrite hex_app, (hex_app _ [cRB]), <- app_assoc. reflexivity.
Qed.
Lemma debug_app s r : debug s r = debug s [] ++ r.
Proof.
  unfold SexpModel.debug. cbn [app]. f_equal. induction s as [|c s IH]; [reflexivity|]. cbn [fold_right]. rewrite char_app, IH, (char_app c (fold_right _ [cDQ] s)), <- app_assoc. reflexivity.
Qed.
Lemma text_same s r : Forall (written_alike unprintable) s -> debug s r = cDQ :: escape_string s ++ cDQ :: r.
Proof. intros H. rewrite debug_app. apply texts_alike in H. rewrite H. cbn [app]. rewrite <- app_assoc. reflexivity. Qed.
Lemma name_same s r : Forall (needs_no_escape unprintable) s -> debug s r = cDQ :: s ++ cDQ :: r.
Proof.
  intros H. unfold SexpModel.debug. f_equal. induction H as [|c s (C1 & C2 & C3) _ IH]; [reflexivity|]. cbn [fold_right app]. rewrite IH. unfold SexpModel.debug_char. cbn [In] in C1.
  repeat match goal with |- context [if (c =? ?b)%N then _ else _] => destruct (N.eqb_spec c b); [subst; exfalso; tauto|] end. now rewrite C3.
Qed.

Definition go_items (n : nat) (r : str) := fix go (l : list value) : str := match l with [] => lit ")" ++ r | i :: q => print_sexp_value i (S n) (match q with [] => go q | _ => cLF :: go q end) end.
Definition go_entries (n : nat) (z : str) := fix go (l : list entry) : str := match l with [] => z | e :: q => print_sexp_entry e n (go q) end.

Lemma payload_value p n r : p <> PNone -> print_sexp_value (Val None p (place p)) n r = print_sexp_payload p n r.
Proof. destruct p; [congruence|..]; intros _; reflexivity. Qed.
Lemma tagged_value name a p sp n r : p <> PNone -> print_sexp_value (Val (Some (name, a)) p sp) n r = pad n (lit "(tag " ++ span_text sp (lit " " ++ debug name (cLF :: print_sexp_payload p (S n) (lit ")" ++ r)))).
Proof. destruct p; [congruence|..]; intros _; reflexivity. Qed.
Lemma py_tagged name a p sp n : p <> PNone ->
  py_format_value (Val (Some (name, a)) p sp) n = lit "(tag " ++ py_span sp ++ lit " " ++ [cDQ] ++ name ++ [cDQ; cLF] ++ prefix n ++ lit "  " ++ py_format_payload p (S n) ++ lit ")".
Proof. destruct p; [congruence|..]; intros _; reflexivity. Qed.
Lemma py_plain p sp n : p <> PNone -> py_format_value (Val None p sp) n = py_format_payload p n.
Proof. destruct p; [congruence|..]; intros _; reflexivity. Qed.
Lemma payload_some p : payload_alike unprintable p -> p <> PNone.
Proof. intros H. inversion H; discriminate. Qed.
Lemma join_cons a l : l <> [] -> join_lines (a :: l) = a ++ cLF :: join_lines l.
Proof. destruct l; [congruence|reflexivity]. Qed.

Ltac flat := repeat (rewrite <- app_assoc; cbn [app]).
Theorem all_same :
  (forall v, printed_alike unprintable v -> forall n r, print_sexp_value v n r = pad n (py_format_value v n ++ r)) /\
  (forall p, payload_alike unprintable p -> forall n r, print_sexp_payload p n r = pad n (py_format_payload p n ++ r)) /\
  (forall l, items_alike unprintable l -> l <> [] -> forall n r, go_items n r l = join_lines (map (fun i => prefix n ++ lit "  " ++ py_format_value i (S n)) l) ++ lit ")" ++ r) /\
  (forall l, entries_alike unprintable l -> l <> [] -> forall n z, go_entries n z l = join_lines (map (fun e => py_format_entry e n) l) ++ cLF :: z).
Proof.
  apply alike_ind.
  - intros sp n r. cbn [SexpModel.print_sexp_value py_format_value]. rewrite span_app. flat. reflexivity.
  - intros name a sp H n r. cbn [SexpModel.print_sexp_value py_format_value]. rewrite span_app, name_same by exact H. flat. reflexivity.
  - intros name a p sp H P IH n r. pose proof (payload_some _ P) as Np. rewrite tagged_value, py_tagged by exact Np. rewrite span_app, name_same, IH by exact H. flat. rewrite pad_more, (pad_prefix n (cSP :: _)). reflexivity.
  - intros p P IH n r. pose proof (payload_some _ P) as Np. rewrite payload_value, py_plain by exact Np. apply IH.
  - intros s k sp H n r. cbn [SexpModel.print_sexp_payload py_format_payload]. rewrite span_app, text_same by exact H. flat. reflexivity.
  - intros [|i items] sp _ IH n r; [cbn [SexpModel.print_sexp_payload py_format_payload]; rewrite span_app; flat; reflexivity|].
    specialize (IH ltac:(discriminate) n r). change (print_sexp_payload (PSeq (i :: items) sp) n r) with (pad n (lit "(sequence " ++ span_text sp (cLF :: go_items n r (i :: items)))).
    rewrite IH, span_app. cbn [py_format_payload]. flat. reflexivity.
  - intros [|e es] sp _ IH n r; [cbn [SexpModel.print_sexp_payload py_format_payload]; rewrite span_app; flat; reflexivity|].
    specialize (IH ltac:(discriminate) (S n) (pad n (lit ")" ++ r))). change (print_sexp_payload (PObj (e :: es) sp) n r) with (pad n (lit "(object " ++ span_text sp (cLF :: go_entries (S n) (pad n (lit ")" ++ r)) (e :: es)))).
    rewrite IH, span_app. cbn [py_format_payload]. flat. rewrite (pad_prefix n (lit ")" ++ r)). reflexivity.
  - congruence.
  - intros v l _ IHv _ IHl _ n r. change (go_items n r (v :: l)) with (print_sexp_value v (S n) (match l with [] => go_items n r l | _ => cLF :: go_items n r l end)). rewrite IHv, pad_more, pad_prefix.
    destruct l as [|w l]; [cbn [map join_lines]; flat; reflexivity|]. rewrite IHl by discriminate. change (map ?f (v :: w :: l)) with (f v :: map f (w :: l)). rewrite join_cons by discriminate. flat. reflexivity.
  - congruence.
  - intros k v d l _ IHk _ IHv _ IHl _ n z. change (go_entries n z (Ent k v d :: l)) with (pad n (lit "(entry" ++ cLF :: print_sexp_value k (S n) (cLF :: print_sexp_value v (S n) (lit ")" ++ cLF :: go_entries n z l)))).
    rewrite IHv, IHk, !pad_more, !pad_prefix.
    destruct l as [|e l]; [cbn [map join_lines py_format_entry]; flat; reflexivity|]. rewrite IHl by discriminate. change (map ?f (?a :: e :: l)) with (f a :: map f (e :: l)). rewrite join_cons by discriminate.
    cbn [py_format_entry]. flat. reflexivity.
Qed.
Theorem document_same es t a r : entries_alike unprintable es -> SexpModel.print_sexp unprintable (Val t (PObj es a) None) r = py_format_document es ++ r.
Proof.
  intros H. destruct all_same as (_ & _ & _ & E). unfold SexpModel.print_sexp. cbn [v_payload v_span]. destruct es as [|e es]; [reflexivity|].
  specialize (E _ H ltac:(discriminate) 1 (lit ")" ++ r)).
  replace (fold_right (fun e r => print_sexp_entry e 1 r) (lit ")" ++ r) (e :: es)) with (go_entries 1 (lit ")" ++ r) (e :: es)); [rewrite E; cbn [py_format_document span_text]; flat; reflexivity|].
  clear. generalize (e :: es). intros l. induction l as [|x l IH]; [reflexivity|]. cbn [fold_right]. now rewrite <- IH.
Qed.
End sexp.

(** ** Trees that are read *)
Definition all_settled (es : list entry) : Prop := forall k v d, In (Ent k v d) es -> settled k /\ settled v.
Definition frame_settled (f : frame) : Prop :=
  match f with
  | FObj es _ _ => all_settled es
  | FSeq items _ => forall v, In v items -> settled v
  | FEntry (Some k) _ => settled k
  | _ => True
  end.
Definition state_settled (b : bstate) : Prop := Forall frame_settled (b_stack b) /\ all_settled (b_root b).
Lemma settled_snoc es k v d : all_settled es -> settled k -> settled v -> all_settled (es ++ [Ent k v d]).
Proof. intros H K V k' v' d' Hi. apply in_app_or in Hi as [Hi|[[= <- <- <-]|[]]]; [eauto|auto]. Qed.
Lemma settled_retag v t : settled v -> settled (Val (Some t) (v_payload v) (v_span v)).
Proof. intros H. inversion H; subst; cbn [v_payload v_span]; constructor; assumption. Qed.
Lemma add_settled k v d stack root stack' root' : add_entry (Ent k v d) stack root = (stack', root') -> settled k -> settled v -> Forall frame_settled stack -> all_settled root ->
  Forall frame_settled stack' /\ all_settled root'.
Proof.
  intros E K V S R. unfold add_entry in E. destruct stack as [|[es sp pd|items sp|n sp|[key|] doc] stack]; injection E as <- <-; try (split; [exact S|now apply settled_snoc]).
  apply Forall_cons_iff in S as [S1 S2]. split; [|exact R]. constructor; [|exact S2]. now apply settled_snoc.
Qed.
Lemma push_settled stack : forall root d v, Forall frame_settled stack -> all_settled root -> settled v ->
  Forall frame_settled (fst (fst (push_value stack root d v))) /\ all_settled (snd (fst (push_value stack root d v))).
Proof.
  assert (U : settled unit_value) by constructor.
  induction stack as [|[es sp pd|items sp|n sp|[key|] doc] stack IH]; intros root d v S R V; cbn [push_value fst snd].
  - split; [constructor|now apply settled_snoc].
  - apply Forall_cons_iff in S as [S1 S2]. split; [|exact R]. constructor; [now apply settled_snoc|exact S2].
  - apply Forall_cons_iff in S as [S1 S2]. split; [|exact R]. constructor; [|exact S2]. intros w Hw. apply in_app_or in Hw as [Hw|[<-|[]]]; auto.
  - apply Forall_cons_iff in S as [S1 S2]. apply IH; auto. now apply settled_retag.
  - apply Forall_cons_iff in S as [S1 S2]. destruct (add_entry (Ent key v doc) stack root) as [r' root'] eqn:E. cbn [fst snd].
    destruct (add_settled _ _ _ _ _ _ _ E S1 V S2 R) as [A B]. split; [constructor; [exact I|exact A]|exact B].
  - apply Forall_cons_iff in S as [S1 S2]. split; [|exact R]. constructor; [exact V|exact S2].
Qed.
Lemma pushed_settled b v : state_settled b -> settled v -> state_settled (pushed b v).
Proof.
  intros [S R] V. unfold pushed. pose proof (push_settled (b_stack b) (b_root b) (b_doc b) v S R V) as P. destruct (push_value _ _ _ _) as [[s r] d]. exact P.
Qed.
Lemma end_settled k d es : settled k -> all_settled es -> all_settled (end_key k d es).
Proof.
  intros K E. assert (D : all_settled (es ++ [Ent k unit_value d])) by (apply settled_snoc; [exact E|exact K|constructor]). unfold end_key.
  destruct (rev es) as [|[k' v' [d'|]] r] eqn:Er; try exact D. destruct (is_unit k'); [|exact D].
  assert (es = rev r ++ [Ent k' v' None]) as Ee by (rewrite <- (rev_involutive es), Er; reflexivity). subst es. apply settled_snoc; [|exact K|].
  - intros a b c Hi. apply (E a b c). apply in_or_app. now left.
  - apply (E k' v' None). apply in_or_app. right. now left.
Qed.
Lemma event_settled b e : state_settled b -> state_settled (build_event b e).
Proof.
  destruct b as [stack root pdoc errs]. intros H. pose proof H as [S R]. cbn [b_stack b_root] in S, R. unfold build_event. destruct (ev_kind e); try exact H.
  all: try (split; [constructor; [|exact S]; cbn; auto|exact R]; fail).
  - split; cbn [b_stack b_root]; [constructor; [intros ? ? ? []|exact S]|exact R].
  - destruct stack as [|f r]; [exact H|]. apply Forall_cons_iff in S as [S1 S2]. destruct f as [es ssp pd|items sp|n sp|[key|] doc]; try (split; [exact S2|exact R]).
    destruct r as [|f r]; [split; [constructor|exact S1]|]. apply pushed_settled; [split; [exact S2|exact R]|]. apply (se_plain (PObj es _)). now constructor.
  - split; cbn [b_stack b_root]; [constructor; [intros ? []|exact S]|exact R].
  - destruct stack as [|f r]; [exact H|]. apply Forall_cons_iff in S as [S1 S2]. destruct f as [es ssp pd|items sp|n sp|[key|] doc]; try (split; [exact S2|exact R]).
    apply pushed_settled; [split; [exact S2|exact R]|]. apply (se_plain (PSeq items _)). now constructor.
  - destruct stack as [|[es osp pd|items sp|n sp|[key|] doc] r]; (split; [|exact R]); try (constructor; [exact I|exact S]).
    apply Forall_cons_iff in S as [S1 S2]. constructor; [exact I|]. constructor; [exact S1|exact S2].
  - destruct stack as [|f r]; [exact H|]. apply Forall_cons_iff in S as [S1 S2]. destruct f as [es ssp pd|items sp|n sp|[key|] doc]; try (split; [exact S2|exact R]).
    destruct r as [|[es osp pd|items sp|n sp|[key'|] doc'] r']; try (split; [exact S2|now apply end_settled]).
    apply Forall_cons_iff in S2 as [S2 S3]. split; [|exact R]. constructor; [now apply end_settled|exact S3].
  - destruct stack as [|[es osp pd|items sp|n sp|key doc] r]; try exact H. apply Forall_cons_iff in S as [S1 S2]. split; [|exact R]. constructor; [|exact S2].
    cbn [frame_settled]. destruct payload; [|constructor]. destruct tag; [apply se_tagged; constructor|]. apply (se_plain (PScalar _ _ _)). constructor.
  - apply pushed_settled; [exact H|]. apply (se_plain (PScalar _ _ _)). constructor.
  - apply pushed_settled; [exact H|]. constructor.
  - destruct stack as [|[es osp pd|items sp|n sp|key doc] r]; try exact H. apply Forall_cons_iff in S as [S1 S2]. apply pushed_settled; [split; [exact S2|exact R]|constructor].
  - destruct stack as [|[es osp pd|items sp|n sp|key doc] r]; try (split; [exact S|exact R]). apply Forall_cons_iff in S as [S1 S2]. split; [|exact R]. constructor; [exact S1|exact S2].
Qed.
Theorem tree_settled src v : TreeSpec.tree src (inl v) -> settled v /\ v_span v = None /\ v_tag v = None.
Proof.
  intros (evs & _ & B). unfold build, build_finish in B.
  assert (forall evs b, state_settled b -> state_settled (fold_left build_event evs b)) as F.
  { clear. induction evs as [|e evs IH]; intros b H; [exact H|]. cbn [fold_left]. apply IH. now apply event_settled. }
  destruct (F evs builder_new) as [_ R]; [split; [constructor|intros ? ? ? []]|]. destruct (b_errs _) as [|[]]; [|discriminate B]. destruct (b_stack _); [|discriminate B]. injection B as <-.
  splits; [|reflexivity|reflexivity]. apply (se_plain (PObj _ None)). now constructor.
Qed.

Lemma settled_pay t p sp : settled (Val t p sp) -> p <> PNone -> settled_payload p.
Proof. intros H N. inversion H; subst; congruence. Qed.
Lemma alike_of u : forall v, settled v -> (forall w, part_of w v -> fine_texts u w) -> printed_alike u v.
Proof.
  fix IH 1. intros [t p sp] S F.
  assert (P : p <> PNone -> payload_alike u p).
  { intros N. pose proof (settled_pay _ _ _ S N) as Sp. clear S. destruct p as [|s k a|items a|es a]; [congruence| | |].
    - constructor. exact (proj1 (F _ (part_self _))).
    - constructor. assert (Q : forall v, In v items -> settled v) by (inversion Sp; assumption). assert (G : forall v w, In v items -> part_of w v -> fine_texts u w) by (intros v w Hv Hw; apply F; now apply (part_item w v)).
      clear - IH Q G. induction items as [|v items IHl]; constructor.
      + apply IH; [apply Q; now left|]. intros w. apply G. now left.
      + apply IHl; [intros w Hw; apply Q; now right|]. intros x w Hx. apply G. now right.
    - constructor. assert (Q : forall k v d, In (Ent k v d) es -> settled k /\ settled v) by (inversion Sp; assumption).
      assert (G : forall k v d w, In (Ent k v d) es -> part_of w k \/ part_of w v -> fine_texts u w).
      { intros k v d w Hv [Hw|Hw]; apply F; [now apply (part_key w k v d)|now apply (part_value w k v d)]. }
      clear - IH Q G. induction es as [|[k v d] es IHl]; constructor.
      + apply IH; [apply (Q k v d); now left|]. intros w Hw. apply (G k v d); [now left|now left].
      + apply IH; [apply (Q k v d); now left|]. intros w Hw. apply (G k v d); [now left|now right].
      + apply IHl; [intros k' v' d' Hw; apply (Q k' v' d'); now right|]. intros k' v' d' w Hx. apply (G k' v' d'). now right. }
  clear IH. pose proof (proj2 (F _ (part_self _))) as T. cbn [v_tag] in T. destruct t as [[n a]|].
  - destruct p as [|s k b|items b|es b]; [now constructor|..]; (apply pa_tagged; [exact T|apply P; discriminate]).
  - inversion S; subst; [constructor|]. apply pa_plain, P. match goal with H : settled_payload _ |- _ => inversion H; discriminate end.
Qed.
Theorem source_same u src v rest : TreeSpec.tree src (inl v) -> (forall w, part_of w v -> fine_texts u w) ->
  exists es a, v = Val None (PObj es a) None /\ SexpModel.print_sexp u v rest = py_format_document es ++ rest.
Proof.
  intros T F. destruct (tree_settled _ _ T) as (S & _ & _). pose proof (alike_of u v S F) as A. destruct T as (evs & _ & B). unfold build, build_finish in B.
  destruct (b_errs _) as [|[]]; [|discriminate B]. destruct (b_stack _); [|discriminate B]. injection B as <-. do 2 eexists. split; [reflexivity|]. apply document_same.
  inversion A as [| | |p P]; subst. inversion P. assumption.
Qed.
Lemma alike_fine u : (forall v, printed_alike u v -> forall w, part_of w v -> fine_texts u w) /\
  (forall p, payload_alike u p -> match p with PScalar s _ _ => Forall (written_alike u) s | _ => True end /\ forall t b w, part_of w (Val t p b) -> w = Val t p b \/ fine_texts u w) /\
  (forall l, items_alike u l -> forall v w, In v l -> part_of w v -> fine_texts u w) /\
  (forall es, entries_alike u es -> forall k v d w, In (Ent k v d) es -> part_of w k \/ part_of w v -> fine_texts u w).
Proof.
  apply alike_ind.
  - intros sp w P. inversion P; subst. now split.
  - intros n a sp H w P. inversion P; subst. now split.
  - intros n a p sp H _ [IH1 IH2] w P. apply IH2 in P as [->|P]; [|exact P]. split; assumption.
  - intros p _ [IH1 IH2] w P. apply IH2 in P as [->|P]; [|exact P]. split; [exact IH1|exact I].
  - intros s k sp H. split; [exact H|]. intros t b w P. left. now inversion P.
  - intros items sp _ IH. split; [exact I|]. intros t b w P. inversion P; subst; eauto.
  - intros es sp _ IH. split; [exact I|]. intros t b w P. inversion P; subst; eauto.
  - intros v w [].
  - intros v l _ IHv _ IHl x w [<-|Hx]; eauto.
  - intros k v d w [].
  - intros k v d es _ IHk _ IHv _ IHl k' v' d' w [[= <- <- <-]|Hx]; [|eauto]. intros [P|P]; auto.
Qed.
