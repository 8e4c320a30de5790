(** Lemmas about the tree builder. *)
From Verif Require Import Base BaseProofs TokModel LexModel ParseModel ParseSpec TreeModel TreeSpec.

Section DvalInd.
  Context (P : dval -> Prop) (Q : dentry -> Prop).
  Context (Hs : forall sp t k, P (DScalar sp t k)) (Hu : forall sp, P (DUnit sp))
    (Hq : forall s1 items s2, Forall P items -> P (DSeq s1 items s2))
    (Ho : forall s1 es s2, Forall Q es -> P (DObj s1 es s2))
    (Ht : forall s1 n p s2, (forall w, p = Some w -> P w) -> P (DTag s1 n p s2))
    (He : forall docs s1 ksp tag pl k v s2, P v -> Q (DEnt docs s1 ksp tag pl k v s2)).
  Fixpoint dval_rect' (d : dval) : P d :=
    match d with
    | DScalar sp t k => Hs sp t k
    | DUnit sp => Hu sp
    | DSeq s1 items s2 => Hq s1 items s2 ((fix go l : Forall P l := match l with [] => Forall_nil _ | x :: r => Forall_cons _ (dval_rect' x) (go r) end) items)
    | DObj s1 es s2 => Ho s1 es s2 ((fix go l : Forall Q l := match l with [] => Forall_nil _ | x :: r => Forall_cons _ (dentry_rect' x) (go r) end) es)
    | DTag s1 n p s2 => Ht s1 n p s2
        (match p return forall w, p = Some w -> P w with
         | None => fun w E => match E in _ = o return match o with Some w => P w | None => True end with eq_refl => I end
         | Some v => fun w E => match E in _ = o return match o with Some w => P w | None => True end with eq_refl => dval_rect' v end
         end)
    end
  with dentry_rect' (e : dentry) : Q e :=
    match e with DEnt docs s1 ksp tag pl k v s2 => He docs s1 ksp tag pl k v s2 (dval_rect' v) end.
End DvalInd.

Definition run (evs : list event) (b : bstate) : bstate := fold_left build_event evs b.

Lemma run_app e1 e2 b : run (e1 ++ e2) b = run e2 (run e1 b).
Proof. apply fold_left_app. Qed.
Lemma run_cons e evs b : run (e :: evs) b = run evs (build_event b e).
Proof. reflexivity. Qed.

Lemma run_comments evs b : run (filter not_comment evs) b = run evs b.
Proof.
  revert b. induction evs as [|e evs IH]; intros b; [reflexivity|]. cbn [filter]. destruct (not_comment e) eqn:E.
  - rewrite !run_cons. apply IH.
  - rewrite run_cons, IH. f_equal. destruct e as [sp k]. destruct k; try discriminate. destruct b; reflexivity.
Qed.

(** A stack on which a value may arrive: a sequence or an entry with its key, below any tags. *)
Fixpoint ready (stack : list frame) : Prop :=
  match stack with
  | FTag _ _ :: r => ready r
  | FSeq _ _ :: _ => True
  | FEntry (Some _) _ :: _ => True
  | _ => False
  end.

Definition settled (stack : list frame) : Prop :=
  match stack with FSeq _ _ :: _ => True | FEntry None None :: _ => True | _ => False end.

Lemma push_ready stack root pdoc v : ready stack ->
  exists s r, push_value stack root pdoc v = (s, r, pdoc) /\ settled s.
Proof.
  revert v. induction stack as [|f stack IH]; intros v H; [contradiction|]. destruct f as [| | |[k|] doc]; cbn in *; try contradiction.
  - eauto.
  - now apply IH.
  - destruct (add_entry _ _ _) as [r' root']. eauto.
Qed.

Lemma pushed_doc b v : ready (b_stack b) -> b_doc (pushed b v) = b_doc b /\ b_errs (pushed b v) = b_errs b /\ settled (b_stack (pushed b v)).
Proof.
  intros H. unfold pushed. destruct (push_ready _ (b_root b) (b_doc b) v H) as (s & r & -> & Hs). auto.
Qed.

Lemma docs_run docs es sp pd stk root pdoc errs :
  run (map (fun d => mkev (fst d) (EvDoc (snd d))) docs) (mkb (FObj es sp pd :: stk) root pdoc errs) =
  mkb (FObj es sp (fold_left append_doc (map (fun d => join [cLF] (snd d)) docs) pd) :: stk) root pdoc errs.
Proof.
  revert pd. induction docs as [|[dsp lines] docs IH]; intros pd; [reflexivity|]. cbn [map]. rewrite run_cons. cbn. apply IH.
Qed.

Lemma append_join l : forall x, fold_left append_doc l (Some x) = Some (join [cLF] (x :: l)).
Proof.
  induction l as [|y l IH]; intros x; [reflexivity|]. cbn [fold_left append_doc]. rewrite IH. f_equal. 
  destruct l as [|z l]; cbn; [reflexivity|]. rewrite <- !app_assoc. reflexivity.
Qed.

Lemma append_join0 l : fold_left append_doc l None = match l with [] => None | _ => Some (join [cLF] l) end.
Proof. destruct l as [|x l]; [reflexivity|]. apply append_join. Qed.

Definition builds (d : dval) : Prop := forall b, ready (b_stack b) -> run (val_events d) b = pushed b (to_value d).
Definition builds_entry (e : dentry) : Prop := forall es sp stk root pdoc errs,
  run (ent_events e) (mkb (FObj es sp None :: stk) root pdoc errs) = mkb (FObj (es ++ [to_entry e]) sp None :: stk) root pdoc errs.

Lemma settled_tag_end b sp : settled (b_stack b) -> build_event b (mkev sp EvTagEnd) = b.
Proof. destruct b as [stack r d e]. cbn. destruct stack as [|[] ?]; try contradiction; reflexivity. Qed.

Lemma entries_build es0 : Forall builds_entry es0 -> forall es sp stk root pdoc errs,
  run (flat_map ent_events es0) (mkb (FObj es sp None :: stk) root pdoc errs) = mkb (FObj (es ++ map to_entry es0) sp None :: stk) root pdoc errs.
Proof.
  induction 1 as [|e es0 He _ IH]; intros es sp stk root pdoc errs; cbn [flat_map map]; [now rewrite app_nil_r|].
  rewrite run_app, He, IH. now rewrite <- app_assoc.
Qed.

Lemma val_build d : builds d.
Proof.
  apply (dval_rect' builds builds_entry).
  - intros sp t k b H. reflexivity || (destruct b; reflexivity).
  - intros sp b H. destruct b; reflexivity.
  - intros s1 items s2 Hi b H. cbn [val_events]. rewrite run_cons, run_app.
    destruct b as [stack root pdoc errs]. cbn [build_event ev_kind ev_span].
    assert (Hgo : forall it0, run (flat_map val_events items) (mkb (FSeq it0 s1 :: stack) root pdoc errs) = mkb (FSeq (it0 ++ map to_value items) s1 :: stack) root pdoc errs).
    { clear H. induction Hi as [|x items Hx _ IH]; intros it0; cbn [flat_map map]; [now rewrite app_nil_r|].
      rewrite run_app, Hx by exact I. cbn. rewrite IH. now rewrite <- app_assoc. }
    rewrite Hgo. reflexivity.
  - intros s1 es s2 He b H. cbn [val_events]. rewrite run_cons, run_app.
    destruct b as [stack root pdoc errs]. cbn [build_event ev_kind ev_span]. rewrite entries_build by exact He.
    cbn. destruct stack as [|f stack]; [contradiction|]. reflexivity.
  - intros s1 n p s2 Hp b H. cbn [val_events]. rewrite run_cons. destruct b as [stack root pdoc errs].
    destruct p as [w|].
    + rewrite run_app. cbn [build_event ev_kind ev_span]. rewrite (Hp w eq_refl) by exact H.
      assert (E : pushed (mkb (FTag n s1 :: stack) root pdoc errs) (to_value w) = pushed (mkb stack root pdoc errs) (to_value (DTag s1 n (Some w) s2))).
      { unfold pushed. cbn. now destruct (to_value w). }
      rewrite E, run_cons. cbn [run fold_left]. apply settled_tag_end. now apply pushed_doc.
    + reflexivity.
  - intros docs s1 ksp tag pl k v s2 Hv es sp stk root pdoc errs. cbn [ent_events]. rewrite run_app, docs_run, append_join0.
    rewrite run_cons. cbn [build_event ev_kind ev_span]. rewrite run_cons. cbn [build_event ev_kind ev_span]. rewrite run_app, Hv by exact I.
    cbn. destruct docs; reflexivity.
Qed.

Lemma doc_build es evs : doc_events es (filter not_comment evs) -> build evs = inl (Val None (PObj (map to_entry es) None) None).
Proof.
  unfold build. fold (run evs builder_new). rewrite <- run_comments. generalize (filter not_comment evs). intros l [a b|a s1 es' s2 b].
  - reflexivity.
  - cbn [val_events app]. rewrite run_cons. cbn [build_event ev_kind builder_new]. rewrite run_cons. cbn [build_event ev_kind ev_span].
    rewrite <- app_assoc, run_app. unfold builder_new. cbn [build_event ev_kind ev_span]. rewrite entries_build.
    + reflexivity.
    + apply Forall_forall. intros e _. destruct e. intros es0 sp0 stk root pdoc errs.
      cbn [ent_events]. rewrite run_app, docs_run, append_join0.
      rewrite run_cons. cbn [build_event ev_kind ev_span]. rewrite run_cons. cbn [build_event ev_kind ev_span].
      rewrite run_app, val_build by exact I. cbn. destruct docs; reflexivity.
Qed.
