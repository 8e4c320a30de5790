(** Proofs for hover and go-to-definition. *)
From Coq Require Import String Lia.
From Verif Require Import Base BaseProofs LexModel TreeModel TreeSpec TreeProofs SchemaModel CompatSpec LspModel EditModel EditSpec HoverModel HoverSpec.
Local Open Scope nat_scope.

(** ** Types in short *)

Lemma join_sp ss : join [cSP] ss = concat (match ss with [] => [] | s :: r => s :: map (fun x => lit " " ++ x) r end).
Proof.
  destruct ss as [|s r]; [reflexivity|]. revert s. induction r as [|s' r IH]; intros s; [cbn; now rewrite app_nil_r|].
  change (join [cSP] (s :: s' :: r)) with (s ++ [cSP] ++ join [cSP] (s' :: r)). rewrite IH. cbn [map concat]. rewrite <- !app_assoc. reflexivity.
Qed.

Section ShortInd.
Variable P : value -> str -> Prop.
Hypothesis H1 : forall sp, P (Val None PNone sp) (lit "@").
Hypothesis H2 : forall t tsp sp, P (Val (Some (t, tsp)) PNone sp) (lit "@" ++ t).
Hypothesis H3 : forall x k s sp, x <> [] -> P (Val None (PScalar x k s) sp) x.
Hypothesis H4 : forall t tsp x k s sp, P (Val (Some (t, tsp)) (PScalar x k s) sp) (lit "@" ++ t ++ lit "(" ++ x ++ lit ")").
Hypothesis H5 : forall t tsp es osp sp, P (Val (Some (t, tsp)) (PObj es osp) sp) (lit "@" ++ t ++ lit "{...}").
Hypothesis H7 : forall es osp sp, P (Val None (PObj es osp) sp) (lit "{...} (" ++ decimal (List.length es) ++ lit " fields)").
Hypothesis H8 : forall l lsp sp ss, Forall2 P l ss ->
  P (Val None (PSeq l lsp) sp) (lit "(" ++ concat (match ss with [] => [] | s :: r => s :: map (fun x => lit " " ++ x) r end) ++ lit ")").
Hypothesis H6 : forall t tsp l lsp sp ss, Forall2 P l ss ->
  P (Val (Some (t, tsp)) (PSeq l lsp) sp) (lit "@" ++ t ++ lit "(" ++ concat (match ss with [] => [] | s :: r => s :: map (fun x => lit " " ++ x) r end) ++ lit ")").
Fixpoint short_nested v s (H : short v s) : P v s :=
  match H in short v s return P v s with
  | sh_unit sp => H1 sp
  | sh_name t tsp sp => H2 t tsp sp
  | sh_text x k s sp N => H3 x k s sp N
  | sh_tag_text t tsp x k s sp => H4 t tsp x k s sp
  | sh_tag_object t tsp es osp sp => H5 t tsp es osp sp
  | sh_object es osp sp => H7 es osp sp
  | sh_list l lsp sp ss F => H8 l lsp sp ss
      ((fix go l ss (F : Forall2 short l ss) : Forall2 P l ss :=
          match F in Forall2 _ l ss return Forall2 P l ss with
          | Forall2_nil _ => Forall2_nil P
          | Forall2_cons x y hx hr => Forall2_cons x y (short_nested x y hx) (go _ _ hr)
          end) l ss F)
  | sh_tag_list t tsp l lsp sp ss F => H6 t tsp l lsp sp ss
      ((fix go l ss (F : Forall2 short l ss) : Forall2 P l ss :=
          match F in Forall2 _ l ss return Forall2 P l ss with
          | Forall2_nil _ => Forall2_nil P
          | Forall2_cons x y hx hr => Forall2_cons x y (short_nested x y hx) (go _ _ hr)
          end) l ss F)
  end.
End ShortInd.

Lemma format_short v s : short v s -> format_type v = s.
Proof.
  intros H. apply (short_nested (fun v s => format_type v = s)); try exact H; clear v s H.
  - reflexivity.
  - intros t tsp sp. cbn [format_type v_tag app]. now rewrite app_nil_r.
  - intros x k s sp N. cbn [format_type v_tag app]. destruct x; [contradiction|reflexivity].
  - reflexivity.
  - reflexivity.
  - reflexivity.
  - intros l lsp sp ss F. cbn [format_type v_tag app]. replace (map format_type l) with ss; [rewrite join_sp; reflexivity|].
    induction F; cbn; congruence.
  - intros t tsp l lsp sp ss F. cbn [format_type v_tag app]. replace (map format_type l) with ss; [rewrite join_sp; reflexivity|].
    induction F; cbn; congruence.
Qed.

(** ** Lookup *)

Definition eventually {A} (f : nat -> A) (r : A) : Prop := exists n, forall m, n <= m -> f m = r.
Lemma eventually_S {A} (f g : nat -> A) r : eventually f r -> (forall n, f n = r -> g (S n) = r) -> eventually g r.
Proof. intros [n H] E. exists (S n). intros [|m] L; [lia|]. apply E, H. lia. Qed.

Lemma key_is_iff n e : key_is n e = true <-> as_str (e_key e) = Some n.
Proof.
  unfold key_is. destruct (as_str (e_key e)) as [s|]; [|split; discriminate].
  rewrite str_eqb_eq. split; congruence.
Qed.
Lemma key_is_not n e : as_str (e_key e) <> Some n -> key_is n e = false.
Proof. intros H. destruct (key_is n e) eqn:E; [apply key_is_iff in E; contradiction|reflexivity]. Qed.
Lemma text_keys_not n a : ~ In (Some n) (text_keys a) -> Forall (fun e => key_is n e = false) a.
Proof.
  intros H. apply Forall_forall. intros e I. apply key_is_not. intros E. apply H. unfold text_keys. rewrite <- E. now apply (in_map (fun e => as_str (e_key e))).
Qed.
Lemma find_maps es n v : maps_to es n v -> find_val (key_is n) es = Some v.
Proof.
  intros (a & e & b & -> & E & <- & N). apply find_val_app; [now apply text_keys_not|now apply key_is_iff].
Qed.

Section Defs.
Variable defs : list entry.
Notation resolve := (resolve_reference defs).

Lemma resolve_name v n u : reference v n -> maps_to defs n u -> resolve v = u.
Proof. intros [(tsp & sp & ->) _] M. cbn. now rewrite (find_maps _ _ _ M). Qed.
Lemma resolve_seq t l lsp sp : resolve (Val t (PSeq l lsp) sp) = Val t (PSeq l lsp) sp.
Proof. destruct t as [[? ?]|]; reflexivity. Qed.
Lemma resolve_obj t es osp sp : resolve (Val t (PObj es osp) sp) = Val t (PObj es osp) sp.
Proof. destruct t as [[? ?]|]; reflexivity. Qed.

(** What [fields] finds is no bare name that the lookup would follow twice. *)
Lemma fields_obj v es : fields defs v es -> eventually (fun f => object_in defs f v) (Ok (Some es)) /\
  (~ bare v -> eventually (fun f => match f with O => OutOfFuel | S f => match v with
    | Val _ (PObj es _) _ => Ok (Some es)
    | Val (Some _) (PSeq items _) _ =>
      (fix first (l : list value) : res (option (list entry)) :=
         match l with
         | [] => Ok None
         | x :: r => do o <- object_in defs f x; match o with Some es => Ok (Some es) | None => first r end
         end) items
    | _ => Ok None
    end end) (Ok (Some es))).
Proof.
  induction 1 as [v es (osp & tsp & sp & ->)|v n u es R M NB F [_ IH]|v u es (lsp & tsp & sp & ->) F [IH _]
    |v d u es (lsp & tsp & sp & ->) (t & k & s & dsp & ->) F [IH _]|v d u es (lsp & tsp & sp & ->) (t & k & s & dsp & ->) F [IH _]].
  - split; [|intros _]; exists 1; intros [|m] L; [lia|reflexivity|lia|reflexivity].
  - split; [|intros N; destruct R as [(tsp & sp & ->) _]; exfalso; apply N; unfold bare; eauto].
    destruct (IH NB) as [m H]. exists m. intros f L. specialize (H f L). destruct f as [|f]; [discriminate|].
    cbn [object_in]. now rewrite (resolve_name _ _ _ R M).
  - assert (X : eventually (fun f => do o <- object_in defs f u; match o with Some es => Ok (Some es) | None => Ok None end) (Ok (Some es))).
    { destruct IH as [m H]. exists m. intros f L. now rewrite (H f L). }
    split; [|intros _]; (eapply eventually_S; [exact X|]); intros f E; cbn [object_in resolve_reference]; exact E.
  - assert (X : eventually (fun f => do o <- object_in defs f (Val None (PScalar t k s) dsp); match o with Some es => Ok (Some es) | None =>
        do o <- object_in defs f u; match o with Some es => Ok (Some es) | None => Ok None end end) (Ok (Some es))).
    { destruct IH as [m H]. exists (S m). intros [|f] L; [lia|]. rewrite (H (S f)) by lia. reflexivity. }
    split; [|intros _]; (eapply eventually_S; [exact X|]); intros f E; cbn [object_in resolve_reference]; exact E.
  - assert (X : eventually (fun f => do o <- object_in defs f (Val None (PScalar t k s) dsp); match o with Some es => Ok (Some es) | None =>
        do o <- object_in defs f u; match o with Some es => Ok (Some es) | None => Ok None end end) (Ok (Some es))).
    { destruct IH as [m H]. exists (S m). intros [|f] L; [lia|]. rewrite (H (S f)) by lia. reflexivity. }
    split; [|intros _]; (eapply eventually_S; [exact X|]); intros f E; cbn [object_in resolve_reference]; exact E.
Qed.

Lemma fields_none v es : fields defs v es -> seq_element v = None /\ map_value v = None /\ enum_object v = None /\
  (forall e k, In e es -> as_str (e_key e) = Some k -> catchall_value v = None).
Proof.
  induction 1 as [v es (osp & tsp & sp & ->)|v n u es [(tsp & sp & ->) _] M NB F IH|v u es (lsp & tsp & sp & ->) F (IH & _)
    |v d u es (lsp & tsp & sp & ->) (t & k & s & dsp & ->) F (IH & _)|v d u es (lsp & tsp & sp & ->) (t & k & s & dsp & ->) F (IH & _)].
  - splits; try reflexivity. intros e k I E. unfold catchall_value. cbn [as_object]. destruct (tag_is (lit "object") (Val (Some (lit "object", tsp)) (PObj es osp) sp)); [|reflexivity].
    destruct es as [|[key w dc] [|]]; [reflexivity| |destruct key as [[?|] [] ?]; reflexivity].
    destruct I as [<-|[]]. cbn in E. destruct key as [[tg|] [] ksp]; try discriminate. reflexivity.
  - splits; try reflexivity.
    + unfold map_value. cbn [as_sequence]. destruct (tag_is _ _); reflexivity.
    + unfold enum_object. cbn [as_object]. destruct (tag_is _ _); reflexivity.
    + intros. unfold catchall_value. cbn [as_object]. destruct (tag_is _ _); reflexivity.
  - splits; try reflexivity. change (match seq_element u with Some t => Some t | None => None end = None). now rewrite IH.
  - splits; try reflexivity. change (match seq_element u with Some t => Some t | None => None end = None). now rewrite IH.
  - splits; reflexivity.
Qed.

Lemma in_entries_at look a e b k rest : as_str (e_key e) = Some k -> ~ In (Some k) (text_keys a) -> Forall (fun e => is_unit (e_key e) = false) a ->
  in_entries look (a ++ e :: b) k rest = match rest with [] => Ok (Some (mkfi (format_type (e_val e)) (e_doc e))) | _ => look (e_val e) rest end.
Proof.
  intros E N U. pose proof (text_keys_not _ _ N) as T. clear N. induction a as [|x a IH]; cbn [app in_entries].
  - now rewrite (proj2 (key_is_iff k e) E).
  - inversion U; inversion T; subst. rewrite H1, H5. auto.
Qed.

Lemma in_entries_without look es k rest : Forall (fun e => exists k', as_str (e_key e) = Some k' /\ k' <> k) es -> in_entries look es k rest = Ok None.
Proof.
  induction 1 as [|e es (k' & E & N) H IH]; [reflexivity|]. cbn [in_entries]. rewrite key_is_not by congruence.
  replace (is_unit (e_key e)) with false; [exact IH|]. destruct (e_key e) as [[?|] [] ?]; cbn in E; try discriminate; reflexivity.
Qed.

Lemma items_seq v u : items v u -> seq_element v = Some u.
Proof.
  induction 1 as [v u (lsp & tsp & sp & ->)|v w u (lsp & tsp & sp & ->) I IH|v d w u (lsp & tsp & sp & ->) (t & k & s & dsp & ->) I IH].
  - reflexivity.
  - change (match seq_element w with Some t => Some t | None => None end = Some u). now rewrite IH.
  - change (match seq_element w with Some t => Some t | None => None end = Some u). now rewrite IH.
Qed.


Lemma free_keys_value v u : free_keys v u -> seq_element v = None /\
  (map_value v = Some u \/ map_value v = None /\ catchall_value v = Some u).
Proof.
  destruct 1 as [v u (lsp & tsp & sp & ->)|v k u (lsp & tsp & sp & ->)|v e (osp & tsp & sp & ->) (t & ksp & E)].
  - split; [reflexivity|left; reflexivity].
  - split; [reflexivity|left; reflexivity].
  - split; [reflexivity|right]. split; [reflexivity|]. destruct e as [key w dc]. cbn in E. subst key. destruct t. reflexivity.
Qed.
Lemma without_value k v f rest : without k v -> info_in_type defs (S (S f)) v (k :: rest) = Ok None.
Proof.
  destruct 1 as [sp|v es (osp & tsp & sp & ->) H]; [reflexivity|].
  assert (C : catchall_value (Val (Some (lit "object", tsp)) (PObj es osp) sp) = None).
  { unfold catchall_value. cbn [as_object]. destruct (tag_is (lit "object") (Val (Some (lit "object", tsp)) (PObj es osp) sp)); [|reflexivity].
    destruct es as [|[key w dc] [|]]; [reflexivity| |destruct key as [[?|] [] ?]; reflexivity].
    inversion H as [|? ? (k' & E & _) ?]; subst. cbn in E. destruct key as [[tg|] [] ksp]; try discriminate; reflexivity. }
  change (info_in_type defs (S (S f)) (Val (Some (lit "object", tsp)) (PObj es osp) sp) (k :: rest)) with
    (match catchall_value (Val (Some (lit "object", tsp)) (PObj es osp) sp) with
     | Some w => match rest with [] => Ok (Some (mkfi (format_type w) None)) | _ => info_in_type defs (S f) (resolve w) rest end
     | None => in_entries (info_in_type defs (S f)) es k rest end).
  rewrite C. now apply in_entries_without.
Qed.

Definition no_text (v : value) : Prop := forall t k s, v_payload v <> PScalar t k s.
Lemma without_no_text k v : without k v -> no_text v.
Proof. destruct 1 as [sp|v es (osp & tsp & sp & ->) H]; intros ? ? ?; discriminate. Qed.
Lemma fields_no_text v es : fields defs v es -> no_text v.
Proof.
  destruct 1 as [v es (osp & tsp & sp & ->)|v n u es [(tsp & sp & ->) _] M NB F|v u es (lsp & tsp & sp & ->) F
    |v d u es (lsp & tsp & sp & ->) _ F|v d u es (lsp & tsp & sp & ->) _ F]; intros ? ? ?; discriminate.
Qed.
Lemma clear_no_text v l d : clear defs v l d -> no_text v.
Proof.
  destruct 1 as [v es k e a b F|v es k e a b l d F|v u k F|v u u' k l d F|v u u' n l d F|v a e b t u k l d (osp & tsp & sp & ->)];
    try now apply fields_no_text in F.
  1,2: destruct F as [v u (lsp & tsp & sp & ->)|v k' u (lsp & tsp & sp & ->)|v e (osp & tsp & sp & ->) ?]; intros ? ? ?; discriminate.
  - destruct F as [v u (lsp & tsp & sp & ->)|v w u (lsp & tsp & sp & ->) I|v d' w u (lsp & tsp & sp & ->) ? I]; intros ? ? ?; discriminate.
  - intros ? ? ?; discriminate.
Qed.
Lemma looked_up_resolve u u' : looked_up defs u u' -> no_text u' -> resolve u = u'.
Proof.
  intros [v NB|v n w R M] NT; [|now apply (resolve_name _ _ _ R M)].
  destruct v as [[[n tsp]|] [|t k s|l s|es s] sp]; try reflexivity.
  - exfalso. apply NB. unfold bare. eauto.
  - exfalso. exact (NT t k s eq_refl).
Qed.

(** The indices are machine integers. *)
Definition small (l : list place) : Prop := Forall (fun p => match p with InItem n => (N.of_nat n < 18446744073709551616)%N | _ => True end) l.
Definition names (l : list place) : list str := map segment_text (untagged l).

Lemma info_step v name rest f : info_in_type defs (S f) v (name :: rest) =
  (let inner w := match rest with
                     | [] => Ok (Some (mkfi (format_type w) None))
                     | _ => info_in_type defs f (resolve w) rest
                     end in
      match seq_element v, parse_usize name with
      | Some w, Some _ => info_in_type defs f (resolve w) rest
      | _, _ =>
        match map_value v with
        | Some w => inner w
        | None =>
          match catchall_value v with
          | Some w => inner w
          | None =>
            match enum_object v with
            | Some es => in_variants (info_in_type defs f) defs es (name :: rest)
            | None =>
              do o <- object_in defs f v;
              match o with Some es => in_entries (info_in_type defs f) es name rest | None => Ok None end
            end
          end
        end
      end).
Proof. reflexivity. Qed.

Lemma clear_names v l d : clear defs v l d -> names l <> [].
Proof. destruct 1; discriminate. Qed.

Theorem clear_found v l d : clear defs v l d -> small l ->
  eventually (fun f => info_in_type defs f v (names l)) (Ok (Some (mkfi (format_type (d_type d)) (d_doc d)))).
Proof.
  induction 1 as [v es k e a b F Ees E N U|v es k e a b l d F Ees E N U C IH|v u k F|v u u' k l d F L C IH|v u u' n l d F L C IH
    |v a e b t u k l d (osp & tsp & sp & Ev) E N L A C IH]; intros Sm.
  - destruct (fields_none _ _ F) as (F1 & F2 & F3 & F4). destruct (fields_obj _ _ F) as [Ob _].
    assert (F5 : catchall_value v = None) by (apply (F4 e k); [subst es; apply in_or_app; cbn; auto|exact E]).
    eapply eventually_S with (f := fun f => do o <- object_in defs f v; match o with Some es => in_entries (info_in_type defs f) es k [] | None => Ok None end).
    + destruct Ob as [m H]. exists m. intros f Lf. rewrite (H f Lf). cbn [bind]. subst es. now rewrite in_entries_at.
    + intros f Hf. change (names [InKey k]) with [k]. rewrite info_step, F1, F2, F3, F5. exact Hf.
  - destruct (fields_none _ _ F) as (F1 & F2 & F3 & F4). destruct (fields_obj _ _ F) as [Ob _].
    assert (F5 : catchall_value v = None) by (apply (F4 e k); [subst es; apply in_or_app; cbn; auto|exact E]).
    inversion Sm; subst. destruct (IH H2) as [m2 I2]. pose proof (clear_names _ _ _ C) as NN.
    eapply eventually_S with (f := fun f => do o <- object_in defs f v; match o with Some es => in_entries (info_in_type defs f) es k (names l) | None => Ok None end).
    + destruct Ob as [m H]. exists (m + m2). intros f Lf. rewrite (H f) by lia. cbn [bind]. rewrite in_entries_at by assumption.
      rewrite <- (I2 f) by lia. destruct (names l); [contradiction|reflexivity].
    + intros f Hf. change (names (InKey k :: l)) with (k :: names l). rewrite info_step, F1, F2, F3, F5. exact Hf.
  - destruct (free_keys_value _ _ F) as [F1 [F2|[F2 F3]]]; exists 1; intros [|f] Lf; try lia;
      change (names [InKey k]) with [k]; rewrite info_step, F1, F2, ?F3; reflexivity.
  - inversion Sm; subst. pose proof (clear_names _ _ _ C) as NN. rewrite <- (looked_up_resolve _ _ L (clear_no_text _ _ _ C)) in IH.
    eapply eventually_S; [exact (IH H2)|]. cbv beta. intros f Hf. change (names (InKey k :: l)) with (k :: names l). rewrite info_step.
    destruct (free_keys_value _ _ F) as [F1 [F2|[F2 F3]]]; rewrite F1, F2, ?F3; cbv zeta; (destruct (names l); [contradiction|exact Hf]).
  - inversion Sm; subst. rewrite <- (looked_up_resolve _ _ L (clear_no_text _ _ _ C)) in IH.
    eapply eventually_S; [exact (IH H2)|]. cbv beta. intros f Hf. change (names (InItem n :: l)) with (decimal n :: names l).
    rewrite info_step, (items_seq _ _ F), decimal_ok by assumption. exact Hf.
  - inversion Sm; subst. pose proof (looked_up_resolve _ _ L (clear_no_text _ _ _ C)) as Rs. destruct (IH H2) as [m H].
    exists (S (S (S m))). intros f Lf. destruct f as [|f]; [lia|].
    change (names (InTag t :: InKey k :: l)) with (names (InKey k :: l)). change (names (InKey k :: l)) with (k :: names l) in *.
    change (in_variants (info_in_type defs f) defs (a ++ e :: b) (k :: names l) = Ok (Some (mkfi (format_type (d_type d)) (d_doc d)))).
    clear N Sm. induction A as [|x a (u' & Lx & W) A IHA]; cbn [app in_variants].
    + rewrite Rs, (H f) by lia. reflexivity.
    + rewrite (looked_up_resolve _ _ Lx (without_no_text _ _ W)). destruct f as [|[|f]]; [lia|lia|]. rewrite without_value by exact W. exact IHA.
Qed.
End Defs.

(** ** The lookup's part of the declarations is a part of them *)
Section Sound.
Variable defs : list entry.
Lemma fields_stand v es : fields defs v es -> exists o, stands_for defs v o /\ an_object "object" es o.
Proof.
  induction 1 as [v es O|v n u es R M NB F (o & S & O)|v u es L F (o & S & O)|v d u es L D F (o & S & O)|v d u es L D F (o & S & O)]; try (exists o).
  - exists v. split; [constructor|exact O].
  - split; [|exact O]. eapply sf_name; eauto.
  - split; [|exact O]. eapply sf_optional; eauto.
  - split; [|exact O]. eapply sf_default; eauto.
  - split; [|exact O]. eapply sf_deprecated; eauto.
Qed.
Lemma items_stand v u : items v u -> exists o, stands_for defs v o /\ a_list "seq" [u] o.
Proof.
  induction 1 as [v u L|v w u L I (o & S & O)|v d w u L D I (o & S & O)]; try (exists o).
  - exists v. split; [constructor|exact L].
  - split; [|exact O]. eapply sf_optional; eauto.
  - split; [|exact O]. eapply sf_default; eauto.
Qed.
Lemma free_below v u k : free_keys v u -> below defs v (InKey k) (mkdecl None u None).
Proof.
  destruct 1 as [v u L|v kt u L|v e O B].
  - eapply b_map1; [constructor|exact L].
  - eapply b_map2; [constructor|exact L].
  - eapply (b_other defs v v [e]); [constructor|exact O| |now left|now left].
    destruct B as (t & sp & E). cbn. rewrite E. intros [[=]|[]].
Qed.
Lemma stands_below v w p d : stands_for defs v w -> below defs w p d -> below defs v p d.
Proof.
  assert (T : forall a b c, stands_for defs a b -> stands_for defs b c -> stands_for defs a c).
  { intros a b c H. revert c. induction H; intros c Hc; [exact Hc| | | |].
    - eapply sf_name; eauto.
    - eapply sf_optional; eauto.
    - eapply sf_default; eauto.
    - eapply sf_deprecated; eauto. }
  intros S B. destruct B as [v0 o|v0 o|v0 o|v0 o|v0 o|v0 o|v0 o|v0 o|v0 o]; match goal with H : stands_for defs v0 o |- _ => pose proof (T _ _ _ S H) as X; clear S H end.
  - eapply b_field; eauto.
  - eapply b_other; eauto.
  - eapply b_map1; eauto.
  - eapply b_map2; eauto.
  - eapply b_seq; eauto.
  - eapply b_tuple; eauto.
  - eapply b_variant; eauto.
  - eapply b_flatten; eauto.
  - eapply b_union; eauto.
Qed.
Lemma looked_declares u u' l d : looked_up defs u u' -> declares defs u' l d -> declares defs u l d.
Proof.
  intros L D. assert (S : stands_for defs u u') by (destruct L as [v NB|v n w R M]; [constructor|eapply sf_name; [exact R|exact M|constructor]]).
  destruct D as [v p d B|v p d l d' B D].
  - apply dc_last. eapply stands_below; eauto.
  - eapply dc_step; [eapply stands_below; eauto|exact D].
Qed.
Theorem clear_declares v l d : clear defs v l d -> declares defs v l d.
Proof.
  induction 1 as [v es k e a b F Ees E N U|v es k e a b l d F Ees E N U C IH|v u k F|v u u' k l d F L C IH|v u u' n l d F L C IH
    |v a e b t u k l d O E N L A C IH].
  - destruct (fields_stand _ _ F) as (o & S & O). apply dc_last. eapply b_field; eauto. exists a, b. auto.
  - destruct (fields_stand _ _ F) as (o & S & O). eapply dc_step; [eapply b_field; eauto; exists a, b; eauto|exact IH].
  - apply dc_last. now apply free_below.
  - eapply dc_step; [apply (free_below _ _ _ F)|]. eapply looked_declares; eauto.
  - destruct (items_stand _ _ F) as (o & S & O). eapply dc_step; [eapply b_seq; eauto|]. eapply looked_declares; eauto.
  - eapply dc_step; [eapply b_variant; [constructor|exact O|]|].
    + exists a, e, b. splits; eauto.
    + eapply looked_declares; eauto.
Qed.
End Sound.

(** ** Hover *)
Lemma block_found schema defs : has_block schema defs -> exists top block, as_object schema = Some top /\ find_val (key_is (lit "schema")) top = Some block /\ as_object block = Some defs.
Proof.
  intros (t & a & k & x & d & b & s0 & E & K & F & sp & P). exists (a ++ Ent k x d :: b), x. splits.
  - rewrite E. reflexivity.
  - apply (find_val_app _ a (Ent k x d)); [|exact K]. apply Forall_app in F. tauto.
  - destruct x. cbn in *. subst. reflexivity.
Qed.
Lemma root_found defs v : root_type defs v -> obj_get_unit defs = Some v.
Proof. intros (a & e & b & -> & U & F & <-). now apply find_val_app. Qed.

Lemma hover_text_ok l d link text : shown_as (untagged l) d link text ->
  hover_text (map segment_text (untagged l)) (mkfi (format_type (d_type d)) (d_doc d)) link = text.
Proof.
  intros (ns & ty & F & S & ->). rewrite (format_short _ _ S). unfold hover_text. cbn [fi_doc fi_type]. rewrite flat_map_concat_map.
  replace (map segment_text (untagged l)) with ns; [reflexivity|].
  induction F as [|s n r rs E F IH]; [reflexivity|]. cbn. rewrite IH, E. destruct s; reflexivity.
Qed.

Theorem hover_shows schema defs root doc o link l d text : has_block schema defs -> root_type defs root ->
  find_path_in_value o doc = Some (untagged l) -> small l -> clear defs root l d -> shown_as (untagged l) d link text ->
  exists fuel, forall fuel', fuel <= fuel' -> hover schema doc fuel' o link = Ok (Some text).
Proof.
  intros B R P Sm C Sh. destruct (block_found _ _ B) as (top & block & E1 & E2 & E3). destruct (clear_found _ _ _ _ C Sm) as [f H]. exists f.
  intros f' L. unfold hover, field_info_from_schema. rewrite P, E1, E2, E3, (root_found _ _ R). unfold names in H. rewrite (H f' L). cbn [bind option_map].
  now rewrite (hover_text_ok _ _ _ _ Sh).
Qed.

(** ** Going to the definition *)
Lemma key_in_obj name t es osp sp : key_in_object name (Val t (PObj es osp) sp) =
  (fix entries (l : list entry) : option span :=
       match l with
       | [] => None
       | Ent k w _ :: r =>
         match (if key_is name (Ent k w None) then v_span k else None) with
         | Some s => Some s
         | None => match key_in_object name w with Some s => Some s | None => entries r end
         end
       end) es.
Proof. reflexivity. Qed.

Section VInd.
Variable P : value -> Prop.
Hypothesis HO : forall t es osp sp, Forall (fun e => P (e_val e)) es -> P (Val t (PObj es osp) sp).
Hypothesis HX : forall t p sp, (forall es osp, p <> PObj es osp) -> P (Val t p sp).
Fixpoint in_objects (v : value) : P v :=
  match v with
  | Val t (PObj es osp) sp => HO t es osp sp
      ((fix go es : Forall (fun e => P (e_val e)) es :=
          match es with [] => Forall_nil _ | e :: r => Forall_cons (P := fun e => P (e_val e)) e (match e return P (e_val e) with Ent k w d => in_objects w end) (go r) end) es)
  | Val t PNone sp => HX t PNone sp (fun es osp E => match E in _ = q return match q with PNone => True | _ => False end with eq_refl => I end)
  | Val t (PScalar a b c) sp => HX t (PScalar a b c) sp (fun es osp E => match E in _ = q return match q with PScalar _ _ _ => True | _ => False end with eq_refl => I end)
  | Val t (PSeq a b) sp => HX t (PSeq a b) sp (fun es osp E => match E in _ = q return match q with PSeq _ _ => True | _ => False end with eq_refl => I end)
  end.
End VInd.

Lemma key_sound name v s : key_in_object name v = Some s -> exists k, key_inside v k /\ as_str k = Some name /\ v_span k = Some s.
Proof.
  revert v. apply (in_objects (fun v => key_in_object name v = Some s -> exists k, key_inside v k /\ as_str k = Some name /\ v_span k = Some s)).
  - intros t es osp sp F. rewrite key_in_obj. 
    assert (G : forall l, incl l es -> (fix entries (l : list entry) : option span :=
       match l with
       | [] => None
       | Ent k w _ :: r =>
         match (if key_is name (Ent k w None) then v_span k else None) with
         | Some s => Some s
         | None => match key_in_object name w with Some s => Some s | None => entries r end
         end
       end) l = Some s -> exists k, key_inside (Val t (PObj es osp) sp) k /\ as_str k = Some name /\ v_span k = Some s).
    { induction l as [|[k w d] r IH]; intros I E; [discriminate|]. assert (Ie : In (Ent k w d) es) by (apply I; now left).
      destruct (if key_is name (Ent k w None) then v_span k else None) eqn:Ek.
      - injection E as ->. destruct (key_is name (Ent k w None)) eqn:K; [|discriminate]. apply key_is_iff in K. exists k. splits; auto. now apply (ki_here t es osp sp (Ent k w d)).
      - destruct (key_in_object name w) eqn:Ew.
        + injection E as ->. rewrite Forall_forall in F. destruct (F _ Ie Ew) as (k' & A & B & C). exists k'. splits; auto. now apply (ki_in t es osp sp (Ent k w d)).
        + apply IH; [|exact E]. intros x Hx. apply I. now right. }
    apply G. apply incl_refl.
  - intros t p sp N E. destruct p; try discriminate. exfalso. eapply N. reflexivity.
Qed.

Lemma key_found name v k s : key_inside v k -> as_str k = Some name -> v_span k = Some s -> key_in_object name v <> None.
Proof.
  induction 1 as [t es osp sp e I|t es osp sp e k I K IH]; intros A B; rewrite key_in_obj; induction es as [|[k' w d] r IHr]; try destruct I; subst;
    cbn [e_key e_val] in *.
  - replace (key_is name (Ent k' w None)) with true by (symmetry; now apply key_is_iff). rewrite B. discriminate.
  - destruct (if key_is name (Ent k' w None) then v_span k' else None); [discriminate|]. destruct (key_in_object name w); [discriminate|]. now apply IHr.
  - destruct (if key_is name (Ent k' w None) then v_span k' else None); [discriminate|]. destruct (key_in_object name w); [discriminate|]. exfalso; now apply IH.
  - destruct (if key_is name (Ent k' w None) then v_span k' else None); [discriminate|]. destruct (key_in_object name w); [discriminate|]. now apply IHr.
Qed.

Lemma key_in_any name t es osp sp t' osp' sp' : key_in_object name (Val t (PObj es osp) sp) = key_in_object name (Val t' (PObj es osp') sp').
Proof. reflexivity. Qed.

Lemma tagged_object_in es w : tagged_object es = Some w -> exists e tsp, In e es /\ v_tag (e_key e) = Some (lit "object", tsp) /\ w = e_val e.
Proof.
  induction es as [|e r IH]; [discriminate|]. cbn [tagged_object]. destruct (tag_is (lit "object") (e_key e)) eqn:E.
  - intros [= <-]. unfold tag_is in E. destruct (v_tag (e_key e)) as [[n tsp]|] eqn:T; [|discriminate]. apply str_eqb_eq in E. subst n. exists e, tsp. splits; auto. now left.
  - intros H. destruct (IH H) as (e' & tsp & I & R). exists e', tsp. split; [now right|exact R].
Qed.

Lemma find_val_in p es v : find_val p es = Some v -> exists e, In e es /\ p e = true /\ e_val e = v.
Proof.
  induction es as [|e r IH]; [discriminate|]. cbn [find_val]. destruct (p e) eqn:E; [intros [= <-]; exists e; splits; auto; now left|].
  intros H. destruct (IH H) as (e' & I & R). exists e'. split; [now right|exact R].
Qed.
Lemma find_val_split p es v : find_val p es = Some v -> exists a e b, es = a ++ e :: b /\ p e = true /\ Forall (fun e => p e = false) a /\ e_val e = v.
Proof.
  induction es as [|e r IH]; [discriminate|]. cbn [find_val]. destruct (p e) eqn:E; [intros [= <-]; exists [], e, r; splits; auto; constructor|].
  intros H. destruct (IH H) as (a & e' & b & -> & A & B & C). exists (e :: a), e', b. splits; auto.
Qed.

Lemma field_found schema defs name : has_block schema defs ->
  (forall s, field_in_schema schema name = Some s -> exists k, key_of defs k /\ as_str k = Some name /\ v_span k = Some s) /\
  (usual_root defs -> forall k s, key_of defs k -> as_str k = Some name -> v_span k = Some s -> field_in_schema schema name <> None).
Proof.
  intros B. destruct (block_found _ _ B) as (top & block & E1 & E2 & E3). unfold field_in_schema. rewrite E1, E2, E3.
  destruct block as [t [|? ? ?|? ?|es osp] sp]; try discriminate. cbn in E3. injection E3 as ->.
  rewrite (key_in_any name t defs osp sp None None None).
  assert (G1 : forall s, key_in_object name (Val None (PObj defs None) None) = Some s -> exists k, key_of defs k /\ as_str k = Some name /\ v_span k = Some s)
    by (intros s H; now apply key_sound in H).
  assert (G2 : forall k s, key_of defs k -> as_str k = Some name -> v_span k = Some s -> key_in_object name (Val None (PObj defs None) None) <> None)
    by (intros k s K A V; now apply (key_found name _ k s)).
  destruct (obj_get_unit defs) as [root|] eqn:Eu; [|split; [exact G1|intros _; exact G2]].
  destruct (find_val_split _ _ _ Eu) as (a & e & b & Ed & Ue & Fa & Er).
  destruct root as [rt [|? ? ?|? ?|res rsp] rs]; unfold as_object; cbn [v_payload].
  4: { destruct (tagged_object res) as [w|] eqn:Et; [|split; [exact G1|intros _; exact G2]].
    destruct (tagged_object_in _ _ Et) as (x & tsp & I & T & ->). split.
    - intros s H. destruct (key_sound _ _ _ H) as (k & K & R). exists k. split; [|exact R].
      apply (ki_in None defs None None e); [rewrite Ed; apply in_or_app; right; now left|]. rewrite Er. now apply (ki_in rt res rsp rs x).
    - intros N. exfalso. destruct (N (Val rt (PObj res rsp) rs)) as [(es & osp' & E & H)|[H _]]; [exists a, e, b; auto| |eapply H; reflexivity].
      injection E as <- <-. exact (H x tsp I T). }
  all: match goal with |- context [tag_is _ ?v] => destruct (tag_is (lit "object") v) eqn:Et end; [|split; [exact G1|intros _; exact G2]]; split; [intros s H; discriminate|intros N].
  all: exfalso; match type of Et with tag_is _ ?v = _ => destruct (N v) as [(es & osp' & E & H)|[_ H]] end; [exists a, e, b; auto|discriminate|].
  all: unfold tag_is in Et; cbn [v_tag] in *; destruct rt as [[n tsp]|]; [|discriminate]; apply str_eqb_eq in Et; subst n; exact (H tsp eq_refl).
Qed.

Theorem goto_sound schema defs schema_text doc o p q : has_block schema defs -> goto_definition schema doc schema_text o = Some (p, q) ->
  exists steps st k s, find_path_in_value o doc = Some (steps ++ [st]) /\ key_of defs k /\ (exists n, step_name st n /\ as_str k = Some n) /\ v_span k = Some s /\ p = offset_to_position schema_text (sp_start s) /\ q = offset_to_position schema_text (sp_end s).
Proof.
  intros B. unfold goto_definition. destruct (find_path_in_value o doc) as [steps|]; [|discriminate].
  destruct (rev steps) as [|st r] eqn:Er; [discriminate|]. destruct (field_in_schema schema (segment_text st)) as [s|] eqn:E; [|discriminate].
  intros [= <- <-]. destruct (proj1 (field_found _ _ _ B) s E) as (k & K & A & V). exists (rev r), st, k, s. splits; auto.
  - f_equal. rewrite <- (rev_involutive steps), Er. reflexivity.
  - exists (segment_text st). split; [destruct st; reflexivity|exact A].
Qed.
Theorem goto_found schema defs schema_text doc o steps name k s : has_block schema defs -> usual_root defs ->
  find_path_in_value o doc = Some (steps ++ [SKey name]) ->
  key_of defs k -> as_str k = Some name -> v_span k = Some s -> (forall k', key_of defs k' -> as_str k' = Some name -> k' = k) ->
  goto_definition schema doc schema_text o = Some (offset_to_position schema_text (sp_start s), offset_to_position schema_text (sp_end s)).
Proof.
  intros B U P K A V Un. unfold goto_definition. rewrite P, rev_app_distr. cbn [rev app segment_text].
  destruct (field_found _ _ name B) as [H1 H2]. specialize (H2 U k s K A V). destruct (field_in_schema schema name) as [s'|]; [|contradiction].
  destruct (H1 s' eq_refl) as (k' & K' & A' & V'). rewrite (Un k' K' A') in V'. rewrite V in V'. now injection V' as <-.
Qed.

(** ** The key of a declaration is the last key of the path *)
Lemma below_key defs v p d k : below defs v p d -> d_key d = Some k -> exists n, p = InKey n /\ as_str k = Some n.
Proof.
  induction 1 as [v o es n e S O (a & b & _ & E & _)| | | | | | |v o es n e u d S O N I L B IH|v o l u p d S L I B IH]; cbn; intros K; try discriminate.
  - injection K as <-. eauto.
  - auto.
  - auto.
Qed.
Lemma declares_key defs v l d k : declares defs v l d -> d_key d = Some k -> exists l' n, l = l' ++ [InKey n] /\ as_str k = Some n.
Proof.
  induction 1 as [v p d B|v p d l d' B D IH]; intros K.
  - destruct (below_key _ _ _ _ _ B K) as (n & -> & A). exists [], n. auto.
  - destruct (IH K) as (l' & n & -> & A). exists (p :: l'), n. auto.
Qed.
Lemma untagged_app a b : untagged (a ++ b) = untagged a ++ untagged b.
Proof. induction a as [|[k|n|t] a IH]; cbn; [reflexivity|f_equal; exact IH|f_equal; exact IH|exact IH]. Qed.
