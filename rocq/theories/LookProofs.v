(** Proofs about completion. *)
From Coq Require Import String Lia Permutation.
From Verif Require Import Base BaseProofs TreeModel TreeProofs SchemaModel SchemaSpec SchemaProofs LspModel LspSpec LspProofs EditModel EditSpec LookModel LookSpec.
Local Open Scope nat_scope.

Section Proofs.
Variable F : Type.
Notation schema := (schema F).
Notation schema_file := (schema_file F).
Variable file : schema_file.
Hypothesis ND : NoDup (map fst file).

(** With enough fuel. *)
Definition finally {A} (g : nat -> res A) (r : res A) : Prop := exists f0, forall f, f0 <= f -> g f = r.
Lemma finally_S {A} (g h : nat -> res A) r : (forall f, g (S f) = h f) -> finally h r -> finally g r.
Proof. intros E (f0 & H). exists (S f0). intros [|f] L; [lia|]. rewrite E. apply H. lia. Qed.
Lemma finally_const {A} (g : nat -> res A) r : (forall f, g (S f) = r) -> finally g r.
Proof. intros E. exists 1. intros [|f] L; [lia|]. apply E. Qed.

Lemma at_stands s t : stands_for F file s t -> forall path r, path <> [] ->
  finally (fun f => schema_at F file f t path) r -> finally (fun f => schema_at F file f s path) r.
Proof.
  induction 1 as [s|s t H IH|d s t H IH|re s t H IH|n s t I H IH]; intros path r NE E; [exact E|..];
    (eapply finally_S; [|apply (IH path r NE E)]; intros f; destruct path; [contradiction|]; cbn [schema_at]); try reflexivity.
  apply (lookup_type_spec F) in I; [|exact ND]. now rewrite I.
Qed.
Lemma stands_occurs root s t : stands_for F file s t -> occurs F file root s -> occurs F file root t.
Proof.
  induction 1; intros O; auto; try (apply IHstands_for; eapply oc_child; [exact O | constructor]).
  apply IHstands_for. eapply oc_def. eassumption.
Qed.

Lemma field_own_iff D fs n s : (forall k t, In (k, t) fs -> ~ flattens F t) ->
  (field F D file fs n s <-> In (mkkey (Some n) None, s) fs).
Proof.
  intros NF. split.
  - inversion 1 as [fs' n' s' I N|fs' k t fs2 n' s' E I]; subst; [exact I|]. exfalso. eapply NF; [exact I|]. eexists. reflexivity.
  - intros I. constructor; [exact I|]. intros _. eauto.
Qed.
Lemma catch_all_field_spec fs s : Forall (fun p => k_value (fst p) = None \/ k_tag (fst p) = None) fs ->
  catch_all F fs s -> catch_all_field F fs = Some s.
Proof.
  intros W (a & k & b & -> & K & A). induction a as [|[k' t] a IH]; cbn [app catch_all_field].
  - apply Forall_cons_iff in W as [[W|W] _]; cbn [fst] in W; [|contradiction]. rewrite W. destruct (k_tag k); [reflexivity|contradiction].
  - apply Forall_cons_iff in A as [A A']. cbn [fst] in A. rewrite A. destruct (k_value k'); (apply IH; [now inversion W | exact A']).
Qed.

Variable root : schema.
Hypothesis WK : forall s, occurs F file root s -> distinct_keys F s.
Hypothesis NF : forall s, occurs F file root s -> ~ flattens F s.

Lemma at_entry fs k n t path r : occurs F file root (SObject _ fs) -> as_str k = Some n -> entry_schema F schema_md file fs k t ->
  finally (fun f => schema_at F file f t path) r -> finally (fun f => schema_at F file f (SObject _ fs) (n :: path)) r.
Proof.
  intros O K (name & KN & E) R.
  assert (KF : name = Some n). { inversion KN; subst; cbn in K; congruence. } subst name.
  destruct (WK _ O) as [N1 W1].
  assert (NFf : forall k t, In (k, t) fs -> ~ flattens F t). { intros k' t' I. apply NF. eapply oc_child; [exact O|]. econstructor. exact I. }
  destruct E as [(n' & [= <-] & I)|[H C]].
  - eapply finally_S; [|exact R]. intros f. cbn [schema_at]. apply (field_own_iff _ _ _ _ NFf) in I.
    apply (field_schema_spec F) in I; [|exact N1]. now rewrite I.
  - eapply finally_S; [|exact R]. intros f. cbn [schema_at].
    destruct (field_schema F n fs) as [s'|] eqn:Ef.
    + exfalso. apply (field_schema_spec F) in Ef; [|exact N1]. apply (H n s' eq_refl). apply (field_own_iff _ _ _ _ NFf). exact Ef.
    + rewrite (catch_all_field_spec _ _ W1 C). reflexivity.
Qed.

Lemma entry_occurs fs k t : occurs F file root (SObject _ fs) -> entry_schema F schema_md file fs k t -> occurs F file root t.
Proof.
  intros O (name & _ & E).
  assert (NFf : forall k t, In (k, t) fs -> ~ flattens F t). { intros k' t' I. apply NF. eapply oc_child; [exact O|]. econstructor. exact I. }
  destruct E as [(n & _ & I)|[_ (a & k' & b & -> & _)]].
  - apply (field_own_iff _ _ _ _ NFf) in I. eapply oc_child; [exact O | econstructor; exact I].
  - eapply oc_child; [exact O|]. econstructor. apply in_or_app. right. left. reflexivity.
Qed.

Lemma at_typed v s path w t : typed F file v s path w t -> occurs F file root s ->
  finally (fun f => schema_at F file f s path) (Ok (Some t)) /\ occurs F file root t.
Proof.
  induction 1 as [v s|s fs es a b k x d n t path w u S I K E T IH|s t es a b k x d n path w u S I K T IH|s ks t es a b k x d n path w u S I K T IH|s vs tag ts p b t path w u S I N T IH]; intros O.
  - split; [|exact O]. apply finally_const. reflexivity.
  - pose proof (stands_occurs _ _ _ S O) as O'. destruct (IH (entry_occurs _ _ _ O' E)) as [R Ou]. split; [|exact Ou].
    eapply at_stands; [exact S|discriminate|]. eapply at_entry; eauto.
  - pose proof (stands_occurs _ _ _ S O) as O'. destruct IH as [R Ou]. { eapply oc_child; [exact O'|]. constructor. left. reflexivity. }
    split; [|exact Ou]. eapply at_stands; [exact S|discriminate|]. eapply finally_S; [|exact R]. reflexivity.
  - pose proof (stands_occurs _ _ _ S O) as O'. destruct IH as [R Ou]. { eapply oc_child; [exact O'|]. constructor. right. left. reflexivity. }
    split; [|exact Ou]. eapply at_stands; [exact S|discriminate|]. eapply finally_S; [|exact R]. reflexivity.
  - pose proof (stands_occurs _ _ _ S O) as O'. destruct IH as [R Ou]. { eapply oc_child; [exact O'|]. econstructor. exact I. }
    split; [|exact Ou]. eapply at_stands; [exact S|discriminate|]. eapply finally_S; [|exact R]. intros f. cbn [schema_at].
    pose proof (WK _ O') as NDv. cbn in NDv. apply (variant_schema_spec F) in I; [|exact NDv]. rewrite I. reflexivity.
Qed.

Lemma resolve_names s t : names F file s t -> (forall n, t <> SType _ (Some n)) -> finally (fun f => resolve_type F file f s) (Ok t).
Proof.
  induction 1 as [s|n s t I H IH]; intros NT.
  - apply finally_const. intros f. cbn [resolve_type]. destruct s; try reflexivity. destruct name; [|reflexivity]. destruct (NT s eq_refl).
  - eapply finally_S; [|apply IH, NT]. intros f. cbn [resolve_type]. apply (lookup_type_spec F) in I; [|exact ND]. now rewrite I.
Qed.

Lemma fields_at path t fs : In (None, root) file -> finally (fun f => schema_at F file f root path) (Ok (Some t)) -> names F file t (SObject _ fs) ->
  finally (fun f => get_schema_fields_at_path F file f path) (Ok (object_fields F fs)).
Proof.
  intros R (f1 & H1) Nm. destruct (resolve_names _ _ Nm ltac:(discriminate)) as (f2 & H2).
  exists (S (f1 + f2)). intros f L. unfold get_schema_fields_at_path, get_schema_at_path.
  apply (lookup_type_spec F) in R; [|exact ND]. rewrite R, H1 by lia. cbn. rewrite H2 by lia. cbn. destruct f; [lia|]. reflexivity.
Qed.

(** ** Field types *)
Lemma wraps_unwrap s ms t : wraps F s ms t ->
  unwrap_field_modifiers s = (existsb (fun m => match m with None => true | _ => false end) ms,
                              match find (fun m => match m with Some _ => true | _ => false end) ms with Some m => m | None => None end, t).
Proof.
  induction 1 as [s ms t H IH|d s ms t H IH|re s ms t H IH|s H]; cbn [unwrap_field_modifiers].
  - rewrite IH. reflexivity.
  - rewrite IH. reflexivity.
  - exact IH.
  - destruct s; try contradiction; reflexivity.
Qed.
Lemma wraps_ex s : exists ms t, wraps F s ms t.
Proof.
  induction s; try (eexists [], _; apply wr_none; exact I).
  - destruct IHs as (ms & t & H). eexists _, _. constructor. exact H.
  - destruct IHs as (ms & t & H). eexists _, _. constructor. exact H.
  - destruct IHs as (ms & t & H). eexists _, _. apply wr_deprecated. exact H.
Qed.
Lemma wraps_fun s ms t ms' t' : wraps F s ms t -> wraps F s ms' t' -> ms = ms' /\ t = t'.
Proof.
  intros H. revert ms' t'. induction H as [s ms t H IH|d s ms t H IH|re s ms t H IH|s H]; intros ms' t' H'; inversion H'; subst; cbn in *; try contradiction; auto;
    try (match goal with W : wraps F s _ _ |- _ => destruct (IH _ _ W) as [-> ->]; auto end).
Qed.
Lemma shown_iff s text : shown F s text <->
  text = (let '(o, d, i) := unwrap_field_modifiers s in field_text F (mksf [] o d i)).
Proof.
  destruct (wraps_ex s) as (ms & t & W). pose proof (wraps_unwrap _ _ _ W) as E. rewrite E. unfold field_text. cbn [sf_optional sf_default sf_schema].
  assert (X : existsb (fun m : option str => match m with None => true | _ => false end) ms = true <-> In None ms).
  { rewrite existsb_exists. split; [intros ([m|] & I & Q); [discriminate|exact I]|intros I; exists None; auto]. }
  split.
  - intros (ms' & t' & W' & H). destruct (wraps_fun _ _ _ _ _ W W') as [<- <-].
    destruct H as [[H ->]|[[H (d & ms2 & -> & ->)]|[-> ->]]].
    + apply X in H. now rewrite H.
    + destruct (existsb _ (Some d :: ms2)) eqn:Q; [exfalso; apply H, X; reflexivity|]. reflexivity.
    + reflexivity.
  - intros ->. exists ms, t. split; [exact W|]. destruct (existsb _ ms) eqn:Q.
    + left. split; [apply X; reflexivity|reflexivity].
    + destruct ms as [|[d|] ms2].
      * right. right. auto.
      * right. left. split; [intros I; apply X in I; congruence|]. exists d, ms2. auto.
      * discriminate.
Qed.

Lemma object_fields_in fs n text : Forall (fun p => k_value (fst p) = None \/ k_tag (fst p) = None) fs ->
  In (n, text) (map (fun f => (sf_name f, field_text F f)) (object_fields F fs)) <->
  exists s, In (mkkey (Some n) None, s) fs /\ shown F s text.
Proof.
  intros W. rewrite in_map_iff. unfold object_fields. split.
  - intros (f & E & I). apply in_flat_map in I as ([k s] & I & Q). cbn [fst snd] in Q.
    destruct k as [[m|] tg]; cbn [k_value] in Q; [|destruct Q].
    destruct (unwrap_field_modifiers s) as [[o d] i] eqn:U. destruct Q as [<-|[]]. cbn [sf_name] in E. injection E as <- <-.
    exists s. rewrite Forall_forall in W. destruct (W _ I) as [X|X]; cbn in X; [discriminate|]. subst tg. split; [exact I|].
    apply shown_iff. rewrite U. reflexivity.
  - intros (s & I & Sh). apply shown_iff in Sh. destruct (unwrap_field_modifiers s) as [[o d] i] eqn:U.
    exists (mksf n o d i). split; [cbn; f_equal; rewrite Sh; reflexivity|]. apply in_flat_map. exists (mkkey (Some n) None, s). split; [exact I|].
    cbn. rewrite U. left. reflexivity.
Qed.
Lemma object_fields_length fs : List.length (object_fields F fs) <= List.length fs.
Proof.
  unfold object_fields. induction fs as [|[k s] fs IH]; cbn; [lia|]. rewrite app_length.
  destruct (k_value k); [destruct (unwrap_field_modifiers s) as [[? ?] ?]|]; cbn; lia.
Qed.

Lemma existing_in v cursor c n : find_object_at_offset v cursor = Some c -> (In n (existing_fields v cursor) <-> has_entry n (oc_object c)).
Proof.
  intros E. unfold existing_fields. rewrite E. rewrite in_flat_map. split.
  - intros ([k x d] & I & Q). cbn in Q. destruct (as_str k) eqn:K; [|destruct Q]. destruct Q as [<-|[]]. exists k, x, d. auto.
  - intros (k & x & d & I & K). exists (Ent k x d). split; [exact I|]. cbn. rewrite K. left. reflexivity.
Qed.

Theorem completion_proposes lower content v pos cursor path es osp tg sp t fs word :
  cursor = position_to_offset content pos -> In (None, root) file ->
  find_object_at_offset v cursor = Some (mkoc path es osp) ->
  typed F file v root path (Val tg (PObj es osp) sp) t -> names F file t (SObject _ fs) ->
  get_word_range_at_position content pos = Ok word -> List.length fs <= 50 ->
  exists l, finally (fun f => completion F lower file f content v pos) (Ok l) /\ proposes F file fs es l.
Proof.
  intros -> R Ho T Nm Wd L.
  destruct (at_typed _ _ _ _ _ T (oc_root _ _ _)) as [A Ot].
  destruct (fields_at _ _ _ R A Nm) as (f0 & Hf).
  set (avail := filter (fun f => negb (existsb (str_eqb (fst f)) (existing_fields v (position_to_offset content pos))))
                  (map (fun f => (sf_name f, field_text F f)) (object_fields F fs))).
  exists avail. split.
  - exists f0. intros f Lf. unfold completion. rewrite Ho. cbn [oc_path]. rewrite (Hf f Lf). cbn [bind]. rewrite Wd. cbn [bind].
    fold avail. unfold choose_fields.
    assert (La : List.length avail <= 50).
    { unfold avail. eapply Nat.le_trans; [|exact L]. eapply Nat.le_trans; [|apply object_fields_length]. rewrite <- (map_length (fun f => (sf_name f, field_text F f))).
      generalize (map (fun f => (sf_name f, field_text F f)) (object_fields F fs)) as l. induction l as [|x l IH]; cbn; [lia|]. destruct (negb _); cbn; lia. }
    destruct (Nat.ltb_spec max_completions (List.length avail)); [unfold max_completions in *; lia|reflexivity].
  - assert (Ofs : occurs F file root (SObject _ fs)).
    { revert Ot. clear -Nm. intros Ot. remember (SObject F fs) as o. revert Heqo Ot. induction Nm as [s|n s t I H IH]; intros -> O; [exact O|]. apply IH; [reflexivity|]. eapply oc_def. exact I. }
    destruct (WK _ Ofs) as [N1 W1].
    assert (NFf : forall k t, In (k, t) fs -> ~ flattens F t). { intros k' t' I. apply NF. eapply oc_child; [exact Ofs|]. econstructor. exact I. }
    intros n text. unfold avail. rewrite filter_In, (object_fields_in _ _ _ W1), negb_true_iff. cbn [fst].
    assert (X : existsb (str_eqb n) (existing_fields v (position_to_offset content pos)) = false <-> ~ has_entry n es).
    { pose proof (existing_in v _ _ n Ho) as EI. cbn [oc_object] in EI. rewrite <- EI.
      split.
      - intros Q I. assert (existsb (str_eqb n) (existing_fields v (position_to_offset content pos)) = true); [|congruence].
        apply existsb_exists. exists n. split; [exact I|apply str_eqb_refl].
      - intros Q. destruct (existsb _ _) eqn:Z; [|reflexivity]. exfalso. apply Q. apply existsb_exists in Z as (m & I & Em). apply str_eqb_eq in Em. now subst. }
    rewrite X. split.
    + intros [(s & I & S) N]. exists s. split; [|auto]. now apply (field_own_iff _ _ _ _ NFf).
    + intros (s & I & N & S). split; [|exact N]. exists s. split; [|exact S]. now apply (field_own_iff _ _ _ _ NFf) in I.
Qed.
End Proofs.

(** ** Ending *)
Section Ending.
Variable F : Type.
Notation schema := (schema F).
Notation schema_file := (schema_file F).
Variable file : schema_file.
Hypothesis ND : NoDup (map fst file).
Variable root : schema.
Hypothesis WK : forall s, occurs F file root s -> distinct_keys F s.
Hypothesis AC : forall s, occurs F file root s -> Acc (same_value F file) s.

Definition ends {A} (g : nat -> res A) (P : res A -> Prop) : Prop := exists r, finally g r /\ r <> OutOfFuel /\ P r.
Lemma ends_const {A} (g : nat -> res A) (P : res A -> Prop) r : (forall f, g (S f) = r) -> r <> OutOfFuel -> P r -> ends g P.
Proof. intros E N Pr. exists r. split; [now apply finally_const|auto]. Qed.
Lemma ends_S {A} (g h : nat -> res A) P : (forall f, g (S f) = h f) -> ends h P -> ends g P.
Proof. intros E (r & H & N). exists r. split; [eapply finally_S; eauto|exact N]. Qed.

Definition at_ok (r : res (option schema)) : Prop := match r with Ok (Some t) => occurs F file root t | Panic => empty_map F file root | _ => True end.
Lemma lookup_occurs n t : lookup_type F n file = Some t -> occurs F file root t.
Proof. intros E. apply (lookup_type_spec F) in E; [|exact ND]. eapply oc_def. exact E. Qed.
Lemma at_ends : forall path s, occurs F file root s -> ends (fun f => schema_at F file f s path) at_ok.
Proof.
  induction path as [|n path IH]; intros s O.
  - eapply (ends_const _ _ (Ok (Some s))); [reflexivity|discriminate|exact O].
  - pose proof (AC _ O) as A. revert O. induction A as [s _ IHA]. intros O.
    assert (none : forall g : nat -> res (option schema), (forall f, g (S f) = Ok None) -> ends g at_ok).
    { intros g E. eapply (ends_const _ _ (Ok None)); [exact E|discriminate|exact I]. }
    assert (into : forall t (g : nat -> res (option schema)), occurs F file root t -> (forall f, g (S f) = schema_at F file f t path) -> ends g at_ok).
    { intros t g Ot E. eapply ends_S; [exact E|]. apply IH, Ot. }
    destruct s as [c|c|c| | | |fs|s|l|l|l|s|vs|s allowed|s|d s|re s|x|name]; try (apply none; reflexivity).
    + destruct (field_schema F n fs) as [t|] eqn:E1; [|destruct (catch_all_field F fs) as [t|] eqn:E2].
      * apply (into t); [|intros f; cbn [schema_at]; now rewrite E1]. eapply oc_child; [exact O|].
        apply (field_schema_spec F) in E1; [|apply (WK _ O)]. econstructor. exact E1.
      * apply (into t); [|intros f; cbn [schema_at]; now rewrite E1, E2]. eapply oc_child; [exact O|].
        assert (exists k, In (k, t) fs) as [k I].
        { clear -E2. induction fs as [|[[kv kt] s] fs IH]; cbn [catch_all_field k_value k_tag] in E2; [discriminate|].
          destruct kv; [destruct (IH E2); eexists; right; eassumption|]. destruct kt; [injection E2 as ->; eexists; left; reflexivity|].
          destruct (IH E2); eexists; right; eassumption. }
        econstructor. exact I.
      * apply none. intros f. cbn [schema_at]. now rewrite E1, E2.
    + destruct l as [|t [|t' l]].
      * eapply (ends_const _ _ Panic); [reflexivity|discriminate|exact O].
      * apply (into t); [|reflexivity]. eapply oc_child; [exact O|]. constructor. left. reflexivity.
      * apply (into t'); [|reflexivity]. eapply oc_child; [exact O|]. constructor. right. left. reflexivity.
    + eapply ends_S; [|apply (IHA s); [constructor|eapply oc_child; [exact O|constructor]]]. reflexivity.
    + destruct n as [|ch variant]; [apply none; reflexivity|]. destruct (ch =? cAT)%N eqn:E1; [|apply none; intros f; cbn [schema_at]; now rewrite E1].
      destruct (variant_schema F variant vs) as [t|] eqn:E2; [|apply none; intros f; cbn [schema_at]; now rewrite E1, E2].
      apply (into t); [|intros f; cbn [schema_at]; now rewrite E1, E2]. eapply oc_child; [exact O|].
      apply (variant_schema_spec F) in E2; [|exact (WK _ O)]. econstructor. exact E2.
    + eapply ends_S; [|apply (IHA s); [constructor|eapply oc_child; [exact O|constructor]]]. reflexivity.
    + eapply ends_S; [|apply (IHA s); [constructor|eapply oc_child; [exact O|constructor]]]. reflexivity.
    + destruct name as [m|]; [|apply none; reflexivity]. destruct (lookup_type F (Some m) file) as [t|] eqn:E; [|apply none; intros f; cbn [schema_at]; now rewrite E].
      eapply ends_S; [|apply (IHA t); [constructor; apply (lookup_type_spec F); [exact ND|exact E]|eapply lookup_occurs; exact E]].
      intros f. cbn [schema_at]. now rewrite E.
Qed.

Inductive below : schema -> schema -> Prop :=
| be_same s : below s s
| be_step s t u : below s t -> same_value F file t u -> below s u.
Lemma resolve_ends s : occurs F file root s -> exists t, finally (fun f => resolve_type F file f s) (Ok t) /\ below t s /\ occurs F file root t.
Proof.
  intros O. pose proof (AC _ O) as A. revert O. induction A as [s _ IHA]. intros O.
  assert (here : (forall f, resolve_type F file (S f) s = Ok s) -> exists t, finally (fun f => resolve_type F file f s) (Ok t) /\ below t s /\ occurs F file root t).
  { intros E. exists s. split; [apply finally_const, E|]. split; [constructor|exact O]. }
  destruct s; try (apply here; reflexivity). destruct name as [m|]; [|apply here; reflexivity].
  destruct (lookup_type F (Some m) file) as [t|] eqn:E; [|apply here; intros f; cbn [resolve_type]; now rewrite E].
  destruct (IHA t) as (u & H & B & Ou); [constructor; apply (lookup_type_spec F); [exact ND|exact E]|eapply lookup_occurs; exact E|].
  exists u. split; [|split; [|exact Ou]].
  - eapply finally_S; [|exact H]. intros f. cbn [resolve_type]. now rewrite E.
  - eapply be_step; [exact B|]. constructor. apply (lookup_type_spec F); [exact ND|exact E].
Qed.

Lemma collect_ends s : occurs F file root s -> exists l, finally (fun f => collect_fields F file f s) (Ok l).
Proof.
  intros O. pose proof (AC _ O) as A. revert O.
  assert (G : forall u, below u s -> occurs F file root u -> exists l, finally (fun f => collect_fields F file f u) (Ok l)).
  2: { intros O. apply G; [constructor|exact O]. }
  induction A as [s _ IHA]. intros u B. destruct B as [u|u t s B St]; [|intros O; exact (IHA t St u B O)].
  intros O.
  assert (const : forall l, (forall f, collect_fields F file (S f) u = Ok l) -> exists l, finally (fun f => collect_fields F file f u) (Ok l)).
  { intros l E. exists l. apply finally_const, E. }
  destruct u; try (eapply const; reflexivity).
  - destruct (IHA u) with (u := u) as (l & H); [constructor|constructor|eapply oc_child; [exact O|constructor]|]. exists l. eapply finally_S; [|exact H]. reflexivity.
  - destruct name as [m|]; [|eapply const; reflexivity]. destruct (lookup_type F (Some m) file) as [t|] eqn:E; [|eapply const; intros f; cbn [collect_fields]; now rewrite E].
    destruct (resolve_ends t) as (r & (f1 & H1) & B & Or); [eapply lookup_occurs; exact E|].
    destruct (IHA t) with (u := r) as (l & f2 & H2); [constructor; apply (lookup_type_spec F); [exact ND|exact E]|exact B|exact Or|].
    exists l. exists (S (f1 + f2)). intros [|f] L; [lia|]. cbn [collect_fields]. rewrite E, H1 by lia. cbn. apply H2. lia.
Qed.

Theorem fields_end path : In (None, root) file ->
  ends (fun f => get_schema_fields_at_path F file f path) (fun r => r = Panic -> empty_map F file root).
Proof.
  intros R. apply (lookup_type_spec F) in R; [|exact ND].
  destruct (at_ends path root (oc_root _ _ _)) as (r & (f1 & H1) & N & K).
  destruct r as [[t|]| |]; [| | |contradiction].
  - destruct (resolve_ends t K) as (u & (f2 & H2) & _ & Ou). destruct (collect_ends u Ou) as (l & f3 & H3).
    exists (Ok l). split; [|split; [discriminate|intros [=]]]. exists (f1 + f2 + f3). intros f L. unfold get_schema_fields_at_path, get_schema_at_path.
    rewrite R, H1 by lia. cbn. rewrite H2 by lia. cbn. apply H3. lia.
  - exists (Ok []). split; [|split; [discriminate|intros [=]]]. exists f1. intros f L. unfold get_schema_fields_at_path, get_schema_at_path. rewrite R, H1 by lia. reflexivity.
  - exists Panic. split; [|split; [discriminate|auto]]. exists f1. intros f L. unfold get_schema_fields_at_path, get_schema_at_path. rewrite R, H1 by lia. reflexivity.
Qed.
End Ending.

(** ** The choice *)
Lemma starts_spec p s : starts p s = true <-> is_prefix p s.
Proof.
  revert s. induction p as [|a p IH]; intros [|b s]; cbn [starts].
  - split; [exists []; reflexivity|reflexivity].
  - split; [exists (b :: s); reflexivity|reflexivity].
  - split; [discriminate|intros (r & H); discriminate].
  - rewrite andb_true_iff, N.eqb_eq, IH. split.
    + intros (-> & r & ->). exists r. reflexivity.
    + intros (r & [= -> ->]). split; [reflexivity|exists r; reflexivity].
Qed.
Lemma has_text_spec p s : has_text p s = true <-> is_part p s.
Proof.
  induction s as [|b s IH]; cbn [has_text]; rewrite orb_true_iff, starts_spec.
  - split.
    + intros [(r & H)|H]; [|discriminate]. exists [], r. exact H.
    + intros (a & r & H). left. exists r. destruct a; [exact H|discriminate].
  - rewrite IH. split.
    + intros [(r & H)|(a & r & H)]; [exists [], r; exact H|]. exists (b :: a), r. cbn. now rewrite H.
    + intros ([|x a] & r & H); [left; exists r; exact H|]. right. cbn in H. injection H as _ H. exists a, r. exact H.
Qed.

Section Choice.
Variable lower : str -> str.
Lemma rank_fun w n j k : rank lower w n j -> rank lower w n k -> j = k.
Proof.
  assert (PP : forall p s, is_prefix p s -> is_part p s). { intros p s (r & H). exists [], r. exact H. }
  intros [H|H1 H2|d H1 H2 H3 H4] [G|G1 G2|e G1 G2 G3 G4]; try reflexivity; try contradiction; try (exfalso; now auto).
  f_equal. destruct H2 as [A B], G2 as [C D]. specialize (B _ C). specialize (D _ A). lia.
Qed.
Lemma score_rank w n : exists o, score lower w n = Ok o /\ (forall k, o = Some k <-> rank lower w n k).
Proof.
  assert (PP : forall p s, is_prefix p s -> is_part p s). { intros p s (r & H). exists [], r. exact H. }
  assert (E : forall o, (match o with Some k => rank lower w n k | None => forall k, ~ rank lower w n k end) -> forall k, o = Some k <-> rank lower w n k).
  { intros [j|] H k; split; [intros [= ->]; exact H|intros G; f_equal; eapply rank_fun; eauto|discriminate|intros G; destruct (H k G)]. }
  unfold score. destruct (starts (lower w) (lower n)) eqn:E1.
  - exists (Some 0). split; [reflexivity|]. apply E. constructor. now apply starts_spec.
  - assert (N1 : ~ is_prefix (lower w) (lower n)). { intros H. apply starts_spec in H. congruence. }
    destruct (has_text (lower w) (lower n)) eqn:E2.
    + exists (Some 1). split; [reflexivity|]. apply E. apply rk_part; [exact N1|now apply has_text_spec].
    + assert (N2 : ~ is_part (lower w) (lower n)). { intros H. apply has_text_spec in H. congruence. }
      rewrite lsp_levenshtein_lev. cbn [bind]. set (d := lev (lower w) (lower n)). pose proof (lev_distance (lower w) (lower n)) as D. fold d in D.
      eexists. split; [reflexivity|]. apply E. destruct ((d <=? 3) && (d <? Nat.max (blen w) 2)) eqn:Q.
      * apply andb_true_iff in Q as [Q1 Q2]. apply Nat.leb_le in Q1. apply Nat.ltb_lt in Q2. apply (rk_close _ _ _ d); auto.
      * intros k H. inversion H as [?|?|e H1 H2 H3 H4]; subst; auto. assert (e = d). { destruct H2 as [A B], D as [C D']. specialize (B _ C). specialize (D' _ A). lia. }
        subst e. apply andb_false_iff in Q as [Q|Q]; [apply Nat.leb_gt in Q; lia|apply Nat.ltb_ge in Q; lia].
Qed.

Lemma insert_perm {A} (key : A -> nat) x l : Permutation (insert_by key x l) (x :: l).
Proof.
  induction l as [|y l IH]; cbn [insert_by]; [reflexivity|]. destruct (key x <=? key y); [reflexivity|].
  rewrite IH. apply perm_swap.
Qed.
Lemma sort_perm {A} (key : A -> nat) l : Permutation (sort_by key l) l.
Proof. induction l as [|x l IH]; cbn; [reflexivity|]. rewrite insert_perm. now constructor. Qed.
Inductive ordered {A} (key : A -> nat) : list A -> Prop :=
| or_nil : ordered key []
| or_cons x l : (forall y, In y l -> key x <= key y) -> ordered key l -> ordered key (x :: l).
Lemma insert_ordered {A} (key : A -> nat) x l : ordered key l -> ordered key (insert_by key x l).
Proof.
  induction 1 as [|y l H O IH]; cbn [insert_by]; [repeat constructor; intros ? []|].
  destruct (Nat.leb_spec (key x) (key y)).
  - constructor; [|constructor; assumption]. intros z [<-|I]; [lia|]. specialize (H z I). lia.
  - constructor; [|exact IH]. intros z I. apply (Permutation_in _ (insert_perm key x l)) in I as [<-|I]; [lia|auto].
Qed.
Lemma sort_ordered {A} (key : A -> nat) l : ordered key (sort_by key l).
Proof. induction l; cbn; [constructor|now apply insert_ordered]. Qed.
Lemma ordered_firstn {A} (key : A -> nat) k l x : ordered key l -> In x l -> ~ In x (firstn k l) ->
  List.length (firstn k l) = k /\ forall y, In y (firstn k l) -> key y <= key x.
Proof.
  intros O. revert k. induction O as [|z l H O IH]; intros k I N; [destruct I|].
  destruct k as [|k]; cbn [firstn] in *; [split; [reflexivity|intros ? []]|].
  destruct I as [->|I]; [destruct N; left; reflexivity|].
  destruct (IH k I) as [L K]; [intros J; apply N; right; exact J|]. split; [cbn; now rewrite L|].
  intros y [<-|J]; auto.
Qed.
Lemma firstn_in {A} k (l : list A) x : In x (firstn k l) -> In x l.
Proof. revert k. induction l as [|y l IH]; intros [|k]; cbn; auto; try tauto. intros [->|H]; eauto. Qed.

Lemma scored_spec w l : exists l', scored lower w l = Ok l' /\ forall f k, In (f, k) l' <-> In f l /\ rank lower w (fst f) k.
Proof.
  induction l as [|f l (l' & E & H)]; cbn [scored].
  - exists []. split; [reflexivity|]. intros f k. cbn. tauto.
  - destruct (score_rank w (fst f)) as (o & Eo & Ho). rewrite Eo. cbn. rewrite E. cbn. eexists. split; [reflexivity|].
    intros g k. destruct o as [j|].
    + cbn [In]. rewrite H. split.
      * intros [[= <- <-]|[I R]]; [split; [auto|now apply Ho]|auto].
      * intros [[<-|I] R]; [left; f_equal; apply Ho in R; congruence|auto].
    + rewrite H. split; [tauto|]. intros [[<-|I] R]; [apply Ho in R; discriminate|auto].
Qed.

Theorem choose_word w available : 50 < List.length available ->
  exists l, choose_fields lower (Some w) available = Ok l /\ best_of (fun f => rank lower w (fst f)) available l.
Proof.
  intros L. unfold choose_fields. destruct (Nat.ltb_spec max_completions (List.length available)); [|unfold max_completions in *; lia].
  destruct (scored_spec w available) as (l' & E & H'). rewrite E. cbn [bind]. eexists. split; [reflexivity|].
  set (ch := firstn max_completions (sort_by snd l')).
  assert (IN : forall f k, In (f, k) ch -> In f available /\ rank lower w (fst f) k).
  { intros f k I. apply H'. apply (Permutation_in _ (sort_perm snd l')). eapply firstn_in. exact I. }
  split; [|split].
  - rewrite map_length. unfold ch. rewrite firstn_length. unfold max_completions. lia.
  - intros f I. apply in_map_iff in I as ([g k] & <- & I). destruct (IN _ _ I). cbn. eauto.
  - intros f k I R N.
    assert (J : In (f, k) (sort_by snd l')). { apply (Permutation_in _ (Permutation_sym (sort_perm snd l'))). apply H'. auto. }
    destruct (ordered_firstn snd max_completions _ _ (sort_ordered snd l') J) as [L' K].
    { intros Q. apply N. apply in_map_iff. exists (f, k). auto. }
    split; [rewrite map_length; exact L'|]. intros g j Ig Rg. apply in_map_iff in Ig as ([g' j'] & <- & Ig). specialize (K _ Ig). cbn [fst snd] in *.
    destruct (IN _ _ Ig) as [_ R']. rewrite (rank_fun _ _ _ _ Rg R'). exact K.
Qed.

Theorem choose_no_word available : 50 < List.length available ->
  exists l, choose_fields lower None available = Ok l /\
    best_of (fun f k => k = 0 /\ marked_optional (snd f) = false \/ k = 1 /\ marked_optional (snd f) = true) available l.
Proof.
  intros L. unfold choose_fields. destruct (Nat.ltb_spec max_completions (List.length available)); [|unfold max_completions in *; lia].
  set (key := fun f : str * str => if marked_optional (snd f) then 1 else 0). eexists. split; [reflexivity|].
  assert (KE : forall (f : str * str) k, k = 0 /\ marked_optional (snd f) = false \/ k = 1 /\ marked_optional (snd f) = true <-> k = key f).
  { intros f k. unfold key. destruct (marked_optional (snd f)); intuition congruence. }
  assert (P : forall f, In f (sort_by key available) <-> In f available).
  { intros f. split; apply Permutation_in; [|apply Permutation_sym]; apply sort_perm. }
  split; [|split].
  - rewrite firstn_length. unfold max_completions. lia.
  - intros f I. apply firstn_in in I. apply P in I. split; [exact I|]. exists (key f). now apply KE.
  - intros f k I R N. apply KE in R. subst k. apply P in I.
    destruct (ordered_firstn key max_completions _ _ (sort_ordered key available) I N) as [L' K].
    split; [exact L'|]. intros g j Ig Rg. apply KE in Rg. subst j. apply K. exact Ig.
Qed.
End Choice.

(** ** The type's text *)
Lemma type_text_tag F (s : schema F) tag : written_tag F s = Some tag ->
  (match s with SOneOf _ _ _ => False | SType _ None => False | _ => True end) -> begins_with_tag (type_text F s) tag.
Proof.
  intros E N. destruct s as [c|c|c| | | |fs|s|l|l|l|s|vs|s allowed|s|d s|re s|x|name]; cbn [written_tag] in E; try contradiction; try discriminate.
  all: try (injection E as <-; eexists; split; [cbn; reflexivity|first [left; reflexivity|right; eexists; auto]]; fail).
  destruct name as [n|]; [|contradiction]. injection E as <-. exists []. split; [cbn; now rewrite app_nil_r|auto].
Qed.
