(** What the editor shows and offers, entry by entry: proofs for C65 and C66. *)
From Coq Require Import String.
From Verif Require Import Base BaseProofs TokModel TokSpec TreeModel TreeSpec LspModel LspSpec SchemaModel EditModel EditSpec EditProofs.

Lemma shown_by src w vs text : v_span w = Some vs -> slice src (sp_start vs) (sp_end vs) = Some text ->
  shown src w
    (match w with Val _ (PObj _ _) _ => KObject | Val _ (PSeq _ _) _ => KArray
     | _ => match as_str w with Some _ => KString | None => if is_unit w then KNull else match v_tag w with Some _ => KVariable | None => KConstant end end end)
    (match w with Val _ (PObj _ _) _ => None | Val _ (PSeq _ _) _ => Some (lit "array") | _ => match as_str w with Some _ => Some text | None => if is_unit w then Some [cAT] else Some text end end).
Proof.
  intros Ev Es. destruct w as [[t|] [|x k s|l s|es s] sp]; cbn in Ev; subst; cbn [as_str is_unit v_tag]; econstructor; eauto.
Qed.

Lemma symbols_drawn src v : forall l, symbols src v = Ok l -> drawn_below src v l.
Proof.
  induction v as [t p sp IHe _] using value_nested. intros l H. destruct p as [|x k s|items s|es osp]; try (injection H as <-; apply db_flat; discriminate).
  apply db_object. specialize (IHe _ _ eq_refl). rewrite symbols_obj in H. revert l H. induction es as [|[k w d] es IH]; intros l H; [injection H as <-; constructor|].
  inversion_clear IHe as [|? ? Iw Ies]. cbn [e_val] in Iw. rewrite symbols_cons in H. destruct (symbol_of src k w) as [x| |] eqn:Ex; try discriminate. cbn [bind] in H.
  destruct (symbols_entries src es) as [rest| |] eqn:Er; try discriminate. cbn [bind] in H. injection H as <-. specialize (IH Ies rest eq_refl).
  unfold symbol_of in Ex. destruct (is_unit k) eqn:Eu; [injection Ex as <-; apply dr_other; [left; now apply is_unit_none|exact IH]|].
  destruct (as_str k) as [name|] eqn:Ek; [|injection Ex as <-; apply dr_other; auto]. destruct (v_span k) as [ks|] eqn:Eks; [|injection Ex as <-; apply dr_other; auto].
  destruct (v_span w) as [vs|] eqn:Evs; [|injection Ex as <-; apply dr_other; auto]. destruct (slice src (sp_start vs) (sp_end vs)) as [text|] eqn:Es; [|discriminate]. cbn [of_opt bind] in Ex.
  match type of Ex with (do c <- ?e; _) = _ => destruct e as [c| |] eqn:Ec; try discriminate end. cbn [bind] in Ex. injection Ex as <-.
  eapply dr_text; eauto; [now apply (shown_by _ _ vs)|]. destruct w as [tw [|? ? ?|? ?|es' os'] sw]; try (injection Ec as <-; apply db_flat; discriminate). apply Iw. exact Ec.
Qed.

(** *** Lines *)
Lemma split_lines_of s : forall cur ls, ~ In cLF cur -> split_lf s cur = ls -> lines_of (rev cur ++ s) ls.
Proof.
  induction s as [|c s IH]; intros cur ls Hn H; cbn [split_lf] in H.
  - rewrite app_nil_r. destruct cur as [|d cur]; subst; [constructor|]. apply lo_last; [cbn; now destruct (rev cur)|]. now rewrite <- in_rev.
  - destruct (c =? cLF)%N eqn:Ec; subst ls.
    + apply N.eqb_eq in Ec as ->. assert (R : lines_of s (split_lf s [])) by (apply (IH [] _ (fun x => x) eq_refl)). destruct cur as [|d t].
      * apply (lo_line []); auto. intros m. destruct m; discriminate.
      * destruct (d =? cCR)%N eqn:Ed.
        -- apply N.eqb_eq in Ed as ->. cbn [rev]. rewrite <- app_assoc. apply lo_crlf; auto. rewrite <- in_rev. intros Hi. apply Hn. now right.
        -- apply lo_line; auto; [now rewrite <- in_rev|]. intros m E. cbn [rev] in E. apply app_inj_tail in E as [_ ->]. discriminate.
    + change (c :: s) with ([c] ++ s). rewrite app_assoc. change (rev cur ++ [c]) with (rev (c :: cur)). apply IH; [|reflexivity]. intros [->|Hi]; [discriminate|auto].
Qed.
Lemma text_lines_of s : lines_of s (text_lines s).
Proof. apply (split_lines_of s [] _ (fun x => x) eq_refl). Qed.

Lemma trim_split s : s = blanks_of s ++ trim_start s /\ blank_text (blanks_of s) /\ match trim_start s with c :: _ => is_ws c = false | [] => True end.
Proof.
  induction s as [|c s (IH1 & IH2 & IH3)]; [repeat split; constructor|]. cbn [blanks_of trim_start]. destruct (is_ws c) eqn:E; [|repeat split; auto; constructor].
  splits; auto; [cbn; now f_equal|now constructor].
Qed.

Lemma content_line_false l : content_line l = false -> idle_line l.
Proof.
  unfold content_line. destruct (trim_split l) as (E & Hb & Hc). destruct (trim_start l) as [|c r]; intros H; exists (blanks_of l); eexists; (split; [exact E|]); (split; [exact Hb|]); [now left|].
  right. destruct (starts_with [cSLASH; cSLASH] (c :: r)) eqn:Es.
  - left. apply starts_with_iff in Es as [u Eu]. exists u. exact Eu.
  - right. cbn in H. apply negb_false_iff, N.eqb_eq in H as ->. eauto.
Qed.
Lemma content_line_true l : content_line l = true -> indented (blanks_of l) l /\ ~ idle_line l.
Proof.
  unfold content_line. destruct (trim_split l) as (E & Hb & Hc). destruct (trim_start l) as [|c r]; [discriminate|]. intros H. split; [exists c, r; auto|].
  intros (b & t & E' & Hb' & Ht). assert (X : b = blanks_of l /\ t = c :: r \/ t = [] /\ exists x, b = blanks_of l ++ c :: x).
  { clear H. revert E' E Hb Hb' Hc Ht. generalize (blanks_of l) as b0. clear. intros b0 E' E Hb Hb' Hc Ht. subst l. revert b0 E Hb. induction Hb' as [|d b Hd Hb' IH]; intros b0 E Hb.
    - cbn in E. destruct Hb as [|e b0 He Hb]; [left; auto|]. cbn in E. subst t. exfalso. destruct Ht as [Ht|[[u Ht]|[u Ht]]]; try discriminate; injection Ht as -> _; discriminate.
    - destruct Hb as [|e b0 He Hb]; [cbn in E; injection E as -> _; congruence|]. injection E as -> E. destruct (IH b0 E Hb) as [[-> ->]|(-> & x & ->)]; [left; split; reflexivity|right; split; [reflexivity|exists x; reflexivity]]. }
  destruct X as [[-> ->]|(-> & x & ->)].
  - destruct Ht as [Ht|[[u Ht]|[u Ht]]]; [discriminate| |]; injection Ht; intros; subst; discriminate.
  - apply Forall_app in Hb' as [_ Hb']. inversion_clear Hb'. congruence.
Qed.

Lemma last_content ls : forall i, match last_content_line i ls with
  | Some (j, l) => exists a b, ls = a ++ l :: b /\ j = i + length a /\ content_line l = true /\ Forall idle_line b
  | None => Forall idle_line ls end.
Proof.
  induction ls as [|l ls IH]; intros i; cbn [last_content_line]; [constructor|]. specialize (IH (S i)). destruct (last_content_line (S i) ls) as [[j m]|].
  - destruct IH as (a & b & -> & -> & Hc & Hb). exists (l :: a), b. splits; auto. cbn. lia.
  - destruct (content_line l) eqn:E; [exists [], ls; splits; auto; cbn; lia|constructor; [now apply content_line_false|exact IH]].
Qed.

Lemma insert_at src : exists ls, lines_of src ls /\
  ((exists a l b, ls = a ++ l :: b /\ ~ idle_line l /\ Forall idle_line b /\ ip_pos (find_field_insert_position src) = mkpos (length a) (blen l) /\ indented (ip_indent (find_field_insert_position src)) l) \/
   (Forall idle_line ls /\ ip_indent (find_field_insert_position src) = [] /\ forall a l, ls = a ++ [l] -> ip_pos (find_field_insert_position src) = mkpos (length a) (blen l))).
Proof.
  exists (text_lines src). split; [apply text_lines_of|]. unfold find_field_insert_position. pose proof (last_content (text_lines src) 0) as H. destruct (last_content_line 0 (text_lines src)) as [[j l]|].
  - left. destruct H as (a & b & E & -> & Hc & Hb). destruct (content_line_true l Hc) as [H1 H2]. exists a, l, b. splits; auto.
  - right. splits; auto. intros a l ->. cbn [ip_pos]. rewrite rev_app_distr, app_length. cbn. f_equal; lia.
Qed.

(** *** Missing fields *)
Lemma fill_required_missing F content v cursor (fields : list (@schema_field F)) r : fill_required content v cursor fields = Ok r ->
  exists obj missing indent, (match find_object_at_offset v cursor with Some c => obj = oc_object c | None => obj = match as_object v with Some es => es | None => [] end end) /\
    (forall f, In f missing <-> In f fields /\ sf_optional f = false /\ forall e, In e obj -> as_str (e_key e) <> Some (sf_name f)) /\
    (missing = [] /\ r = None \/ missing <> [] /\ exists pos, fill_position content v cursor = Ok (mkins pos indent) /\
       r = Some (pos, flat_map (fun f => [cLF] ++ indent ++ sf_name f ++ [cSP] ++ match sf_default f with Some d => d | None => generate_placeholder (sf_schema f) end) missing)).
Proof.
  unfold fill_required. set (obj := match find_object_at_offset v cursor with Some c => oc_object c | None => match as_object v with Some es => es | None => [] end end).
  set (missing := filter _ fields). intros H. destruct (fill_position content v cursor) as [[pos ind]| |] eqn:Ep; try discriminate. cbn [bind ip_pos ip_indent] in H.
  exists obj, missing, ind. split; [unfold obj; destruct (find_object_at_offset v cursor); reflexivity|]. split.
  - intros f. unfold missing. rewrite filter_In. split.
    + intros [H1 H2]. apply andb_prop in H2 as [H2 H3]. apply negb_true_iff in H2, H3. splits; auto. intros e He Hk. assert (existsb (TreeModel.key_is (sf_name f)) obj = true); [|congruence].
      apply existsb_exists. exists e. split; [exact He|]. unfold TreeModel.key_is. rewrite Hk. apply str_eqb_refl.
    + intros (H1 & H2 & H3). split; [exact H1|]. rewrite H2. cbn. apply negb_true_iff. destruct (existsb _ obj) eqn:E; [|reflexivity]. apply existsb_exists in E as (e & He & E). exfalso. apply (H3 e He).
      unfold TreeModel.key_is in E. destruct (as_str (e_key e)) as [s|]; [|discriminate]. apply str_eqb_eq in E. now subst.
  - destruct missing as [|f m]; injection H as <-; [left; auto|right]. split; [discriminate|]. exists pos. split; reflexivity.
Qed.

(** *** Declarations *)
Lemma declared_names w : match declared w with Some r => names_schema w r | None => forall r, ~ names_schema w r end.
Proof.
  unfold declared. destruct w as [[t|] [|x k s|l s|es s] sp]; cbn [is_unit as_str embedded as_object]; try (intros r H; inversion H; fail); try constructor.
  all: unfold embedded; cbn [as_object v_payload]; unfold obj_get; destruct (find_val (TreeModel.key_is (lit "id")) es) as [vi|] eqn:Ei; [|intros r H; inversion H; subst; congruence].
  all: destruct (find_val (TreeModel.key_is (lit "cli")) es) as [vc|] eqn:Ec; [|intros r H; inversion H; subst; congruence].
  all: destruct (as_str vi) as [i|] eqn:E1; [|intros r H; inversion H; subst; congruence]; destruct (as_str vc) as [c|] eqn:E2; [|intros r H; inversion H; subst; congruence].
  all: econstructor; eauto.
Qed.

Lemma find_declaration v r : find_schema_declaration v = Some r <->
  exists es a e b, as_object v = Some es /\ es = a ++ e :: b /\ schema_key (e_key e) /\ names_schema (e_val e) r /\
    Forall (fun x => schema_key (e_key x) -> forall r', ~ names_schema (e_val x) r') a.
Proof.
  assert (K : forall k, is_schema_tag k = true <-> schema_key k).
  { intros [[[t sp]|] p s]; unfold is_schema_tag, schema_key; cbn; split; try discriminate; try (intros (? & ? & ? & [=]); fail).
    - intros H. apply str_eqb_eq in H as ->. eauto.
    - intros (? & ? & ? & [= -> _ _ _]). apply str_eqb_refl. }
  unfold find_schema_declaration. destruct (as_object v) as [es|]; [|split; [discriminate|intros (? & ? & ? & ? & [=] & _)]].
  transitivity (exists a e b, es = a ++ e :: b /\ schema_key (e_key e) /\ names_schema (e_val e) r /\ Forall (fun x => schema_key (e_key x) -> forall r', ~ names_schema (e_val x) r') a).
  2:{ split; [intros (a & e & b & H); exists es, a, e, b; auto|intros (es' & a & e & b & [= <-] & H); eauto]. }
  induction es as [|x es IH]; cbn [first_declared].
  - split; [discriminate|]. intros ([|? ?] & ? & ? & [=] & _).
  - assert (U : forall w r1 r2, names_schema w r1 -> names_schema w r2 -> r1 = r2) by (intros w r1 r2 H1 H2; inversion H1; subst; inversion H2; subst; congruence).
    assert (Go : (schema_key (e_key x) -> forall r', ~ names_schema (e_val x) r') -> ((exists a e b, es = a ++ e :: b /\ schema_key (e_key e) /\ names_schema (e_val e) r /\ Forall (fun x => schema_key (e_key x) -> forall r', ~ names_schema (e_val x) r') a) <->
      exists a e b, x :: es = a ++ e :: b /\ schema_key (e_key e) /\ names_schema (e_val e) r /\ Forall (fun x => schema_key (e_key x) -> forall r', ~ names_schema (e_val x) r') a)).
    { intros Hx. split.
      - intros (a & e & b & -> & H1 & H2 & H3). exists (x :: a), e, b. splits; auto.
      - intros ([|y a] & e & b & E & H1 & H2 & H3); injection E as -> E; [exfalso; exact (Hx H1 _ H2)|]. subst es. inversion_clear H3. exists a, e, b. splits; auto. }
    pose proof (declared_names (e_val x)) as D. destruct (is_schema_tag (e_key x)) eqn:Ek.
    + apply K in Ek. destruct (declared (e_val x)) as [r0|].
      * split; [intros [= ->]; exists [], x, es; splits; auto|]. intros ([|y a] & e & b & E & H1 & H2 & H3); injection E as -> E; [f_equal; eauto|]. inversion_clear H3 as [|? ? Hy _]. exfalso. exact (Hy Ek _ D).
      * rewrite IH. apply Go. intros _. exact D.
    + rewrite IH. apply Go. intros H. apply K in H. congruence.
Qed.
