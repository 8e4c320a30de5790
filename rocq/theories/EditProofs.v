(** Proofs about the editor's functions on trees. *)
From Coq Require Import String.
From Verif Require Import Base BaseProofs TokModel TreeModel TreeSpec TreeProofs LspModel LspSpec LspProofs SchemaModel CstModel EditModel EditSpec EditLayProofs FacetDocProofs.
Notation length := List.length.

Section Nested.
Variable P : value -> Prop.
Hypothesis HV : forall t p sp, (forall es osp, p = PObj es osp -> Forall (fun e => P (e_val e)) es) ->
  (forall items ssp, p = PSeq items ssp -> Forall P items) -> P (Val t p sp).
Fixpoint value_nested (v : value) : P v :=
  match v with
  | Val t p sp =>
    HV t p sp
      (match p as p0 return forall es osp, p0 = PObj es osp -> Forall (fun e => P (e_val e)) es with
       | PObj es0 _ => fun es osp E =>
         match E in _ = q return match q with PObj es _ => Forall (fun e => P (e_val e)) es | _ => True end with
         | eq_refl => (fix go (l : list entry) : Forall (fun e => P (e_val e)) l :=
                         match l with [] => Forall_nil _ | Ent k w d :: r => @Forall_cons _ (fun e => P (e_val e)) (Ent k w d) r (value_nested w) (go r) end) es0
         end
       | _ => fun es osp E => match E with end
       end)
      (match p as p0 return forall items ssp, p0 = PSeq items ssp -> Forall P items with
       | PSeq l0 _ => fun items ssp E =>
         match E in _ = q return match q with PSeq items _ => Forall P items | _ => True end with
         | eq_refl => (fix go (l : list value) : Forall P l :=
                         match l with [] => Forall_nil _ | w :: r => @Forall_cons _ P w r (value_nested w) (go r) end) l0
         end
       | _ => fun items ssp E => match E with end
       end)
  end.
End Nested.

(** ** C62 *)

Lemma not_bracketed k : k <> [] -> ~ (exists m, k = cLSQ :: m ++ [cRSQ]) -> bracketed k = false.
Proof.
  intros Hn Hb. destruct k as [|c k]; [congruence|]. cbn [bracketed]. destruct (N.eqb_spec c cLSQ) as [->|]; [|reflexivity]. cbn [andb].
  apply N.eqb_neq. intros E. apply Hb. destruct k as [|d k]; [discriminate|]. destruct (exists_last (l := d :: k)) as (m & x & E2); [discriminate|]. exists m. rewrite E2 in *. f_equal.
  rewrite app_comm_cons, last_last in E. now subst x.
Qed.

Lemma path_keys_text r : Forall key_step r -> r <> [] -> path_text false r = cDOT :: path_text true r.
Proof. destruct r as [|[k|n] r]; intros F Hn; [congruence|reflexivity|]. apply Forall_inv in F. destruct F. Qed.
Lemma path_keys_nonempty r : Forall key_step r -> r <> [] -> path_text true r <> [].
Proof. destruct r as [|[k|n] r]; intros F Hn; [congruence| |discriminate]. apply Forall_inv in F. destruct F as [F _]. cbn. destruct k; [congruence|discriminate]. Qed.

Lemma by_path_step f v k r : key_step (SKey k) -> Forall key_step r ->
  find_by_path (S f) v (path_text true (SKey k :: r)) =
  match as_object v with
  | None => None
  | Some es => match obj_get k es with Some w => find_by_path f w (path_text true r) | None => None end
  end.
Proof.
  intros (Hn & Hd & Hb) F. change (path_text true (SKey k :: r)) with (k ++ path_text false r).
  assert (E : exists c t, k ++ path_text false r = c :: t) by (destruct k; [congruence|cbn; eauto]). destruct E as (c & t & E). rewrite E. cbn [find_by_path]. rewrite <- E. destruct (as_object v) as [es|]; [|reflexivity].
  assert (C : match cut_at cDOT (k ++ path_text false r) with Some x => x | None => (k ++ path_text false r, []) end = (k, path_text true r)).
  { rewrite cut_at_app by exact Hd. destruct r as [|s r]; [cbn; now rewrite app_nil_r|]. rewrite path_keys_text by (auto; discriminate). cbn [cut_at]. rewrite N.eqb_refl. now rewrite app_nil_r. }
  destruct (cut_at cDOT (k ++ path_text false r)) as [[a b]|]; injection C as -> ->; rewrite (not_bracketed k Hn Hb); reflexivity.
Qed.

Lemma as_object_iff v es : as_object v = Some es <-> exists t osp sp, v = Val t (PObj es osp) sp.
Proof.
  split; [|intros (t & osp & sp & ->); reflexivity]. destruct v as [t p sp]. unfold as_object. cbn. destruct p; try discriminate. intros [= <-]. eauto.
Qed.

Lemma by_path_reaches l : forall v w f, Forall key_step l -> length (path_text true l) <= f ->
  find_by_path f v (path_text true l) = Some w <-> reaches v l w.
Proof.
  induction l as [|s l IH]; intros v w f F L.
  - replace (find_by_path f v (path_text true [])) with (Some v) by (destruct f; reflexivity). split; [intros [= <-]; constructor|intros H; inversion H; reflexivity].
  - inversion_clear F as [|? ? Hs Fl]. destruct s as [k|n]; [|destruct Hs]. pose proof Hs as (Hn & _).
    assert (L2 : S (length (path_text true l)) <= f).
    { change (path_text true (SKey k :: l)) with (k ++ path_text false l) in L. rewrite app_length in L. destruct k as [|c k]; [congruence|]. cbn [List.length] in L.
      destruct l as [|s l]; [cbn in *; lia|]. rewrite path_keys_text in L by (auto; discriminate). cbn [List.length] in L. lia. }
    destruct f as [|f]; [lia|]. rewrite by_path_step by assumption. rewrite reaches_cons_iff. destruct (as_object v) as [es|] eqn:Ev.
    + apply as_object_iff in Ev as (t & osp & sp & ->). split.
      * intros H. destruct (obj_get k es) as [u|] eqn:Eu; [|discriminate]. apply obj_get_iff in Eu. exists u. split; [now constructor|]. apply (IH u w f Fl); [lia|exact H].
      * intros (u & Hu & Hr). apply child_obj_key in Hu. apply obj_get_iff in Hu. rewrite Hu. apply (IH u w f Fl); [lia|exact Hr].
    + split; [discriminate|]. intros (u & Hu & _). inversion Hu; subst; discriminate.
Qed.

Lemma find_path_reaches v l w : Forall key_step l -> find_value_by_path v (path_text true l) = Some w <-> reaches v l w.
Proof. intros F. apply by_path_reaches; auto. Qed.

(** ** C68 *)

Fixpoint obj_json (es : list entry) (m : list (str * json)) : list (str * json) :=
  match es with
  | [] => m
  | Ent k w _ :: r => obj_json r (match as_str k with Some key => map_insert key (to_json w) m | None => m end)
  end.
Lemma to_json_obj t es osp sp : to_json (Val t (PObj es osp) sp) = JObject (obj_json es []).
Proof.
  destruct t; reflexivity.
Qed.

Lemma map_insert_new k x m : ~ In k (map fst m) -> map_insert k x m = m ++ [(k, x)].
Proof.
  induction m as [|[k' y] m IH]; intros H; [reflexivity|]. cbn [map_insert]. destruct (str_eqb k k') eqn:E; [apply str_eqb_eq in E; subst; destruct H; cbn; auto|].
  rewrite IH; [reflexivity|]. intros Hi. apply H. cbn. auto.
Qed.

Section JsonInd.
Variable P : json -> Prop.
Hypotheses (H1 : P JNull) (H2 : forall b, P (JBool b)) (H3 : forall t, P (JNumber t)) (H4 : forall t, P (JString t))
  (H5 : forall l, Forall P l -> P (JArray l)) (H6 : forall m, Forall (fun x => P (snd x)) m -> P (JObject m)).
Fixpoint json_nested (j : json) : P j :=
  match j with
  | JNull => H1 | JBool b => H2 b | JNumber t => H3 t | JString t => H4 t
  | JArray l => H5 l ((fix go (l : list json) : Forall P l := match l with [] => Forall_nil _ | x :: r => Forall_cons x (json_nested x) (go r) end) l)
  | JObject m => H6 m ((fix go (m : list (str * json)) : Forall (fun x => P (snd x)) m :=
                          match m with [] => Forall_nil _ | (k, x) :: r => @Forall_cons _ (fun x => P (snd x)) (k, x) r (json_nested x) (go r) end) m)
  end.
End JsonInd.

Lemma json_back j : texts_only j -> to_json (of_json j) = j.
Proof.
  induction j as [|b|t|t|l IH|m IH] using json_nested; intros H; inversion H as [|t0|l0 Hl|m0 Hn Hm]; subst; try reflexivity.
  - cbn [of_json to_json as_str]. f_equal. rewrite map_map. clear H. induction Hl as [|x l Hx Hl IHl]; [reflexivity|]. cbn [map]. inversion_clear IH as [|? ? Ix Il]. rewrite Ix by exact Hx. f_equal. now apply IHl.
  - change (of_json (JObject m)) with (Val None (PObj (map (fun x => Ent (bare (fst x)) (of_json (snd x)) None) m) None) None). rewrite to_json_obj. f_equal.
    change m with ([] ++ m) at 2. assert (G : forall x, In x (map fst m) -> ~ In x (map fst (@nil (str * json)))) by (intros ? _ []). revert G. generalize (@nil (str * json)) as acc. clear H. revert Hn IH Hm.
    induction m as [|[k x] m IHm]; intros Hn IH Hm acc G; [cbn; now rewrite app_nil_r|]. cbn [map obj_json]. change (as_str (bare (fst (k, x)))) with (Some k). cbn [snd].
    inversion_clear Hn as [|? ? N1 N2]. inversion_clear IH as [|? ? Ix Im]. inversion_clear Hm as [|? ? Hx Hm']. cbn [snd] in *. rewrite Ix by exact Hx. rewrite map_insert_new by (apply G; cbn; auto).
    rewrite IHm; auto; [now rewrite <- app_assoc|]. intros y Hy. rewrite map_app, in_app_iff. cbn. intros [Hy2|[<-|[]]]; [|contradiction]. apply (G y); [cbn; auto|exact Hy2].
Qed.

(** ** C63 *)

Section Paths.
Variable B : nat -> Prop.
Variable o : nat.

Fixpoint path_entries (es : list entry) : option (list step) :=
  match es with
  | [] => None
  | Ent k w _ :: r =>
    match holds (v_span k) o, as_str k with
    | true, Some key => Some [SKey key]
    | _, _ =>
      if holds (v_span w) o then
        match find_path_in_value o w with
        | Some p => Some (match as_str k with Some key => SKey key :: p | None => p end)
        | None => match as_str k with Some key => Some [SKey key] | None => path_entries r end
        end
      else path_entries r
    end
  end.
Fixpoint path_items (i : nat) (l : list value) : option (list step) :=
  match l with
  | [] => None
  | w :: r => if holds (v_span w) o then Some (SIdx i :: match find_path_in_value o w with Some p => p | None => [] end) else path_items (S i) r
  end.
Lemma path_obj t es osp sp : find_path_in_value o (Val t (PObj es osp) sp) = path_entries es.
Proof. reflexivity. Qed.
Lemma path_seq t l ssp sp : find_path_in_value o (Val t (PSeq l ssp) sp) = path_items 0 l.
Proof. reflexivity. Qed.

Lemma holds_iff sp : holds sp o = true <-> exists s, sp = Some s /\ over s o.
Proof.
  unfold holds, over. destruct sp as [s|]; [|split; [discriminate|intros (s & E & _); discriminate]]. rewrite andb_true_iff, Nat.leb_le, Nat.ltb_lt. split; [eauto|intros (s' & [= <-] & H); exact H].
Qed.

(** The payload's parts lie between [lo] and [hi]. *)
Definition inner (lo hi : nat) (p : payload) : Prop :=
  match p with PObj es _ => laid_entries B lo hi es | PSeq items _ => laid_items B lo hi items | _ => True end.
Lemma laid_inner lo hi v : laid B lo hi v -> exists a b, v_span v = Some (mkspan a b) /\ lo <= a /\ a <= b /\ b <= hi /\ inner a b (v_payload v).
Proof. intros H. inversion H as [t p a b L1 L2 L3 Ba Bb Hp]; subst. exists a, b. cbn. splits; auto. inversion Hp; subst; cbn; auto. Qed.

Lemma items_in lo hi l : laid_items B lo hi l -> forall i w, nth_error l i = Some w -> laid B lo hi w.
Proof.
  induction 1 as [lo hi L|lo hi m v r Hv Hr IH]; intros [|i] w E; try discriminate; cbn in E.
  - injection E as <-. eapply laid_wider; [exact Hv|lia|]. apply laid_items_le in Hr. exact Hr.
  - eapply laid_wider; [apply (IH _ _ E)| |lia]. apply laid_val_wider in Hv. exact Hv.
Qed.
Lemma entries_in lo hi es : laid_entries B lo hi es -> forall k w d, In (Ent k w d) es ->
  exists t p a b, k = Val t p (Some (mkspan a b)) /\ lo <= a /\ a < b /\ b <= hi /\ (w = Val None PNone (Some (mkspan a b)) \/ laid B b hi w).
Proof.
  induction 1 as [lo hi L|lo hi a b t p d r L1 L2 Ba Bb Hr IH|lo hi a b m t p w d r L1 L2 Ba Bb Hw Hr IH]; intros k w' d' Hi; [destruct Hi| |]; destruct Hi as [E|E].
  - injection E as <- <- <-. exists t, p, a, b. apply laid_entries_le in Hr. splits; auto.
  - destruct (IH _ _ _ E) as (t' & p' & a' & b' & -> & H1 & H2 & H3 & H4). exists t', p', a', b'. splits; auto. lia.
  - injection E as <- <- <-. exists t, p, a, b. apply laid_entries_le in Hr. pose proof (laid_val_wider _ _ _ _ Hw). splits; auto; [lia|]. right. eapply laid_wider; [exact Hw|lia|lia].
  - destruct (IH _ _ _ E) as (t' & p' & a' & b' & -> & H1 & H2 & H3 & H4). exists t', p', a', b'. pose proof (laid_val_wider _ _ _ _ Hw). splits; auto. lia.
Qed.

Lemma mark_within v p s : mark v p s -> forall lo hi, inner lo hi (v_payload v) -> lo <= sp_start s /\ sp_end s <= hi.
Proof.
  induction 1 as [t es osp sp k w d key s Hi Hk Hs|t es osp sp k w d key s Hi Hk Hs|t es osp sp k w d key p s Hi Hk Hm IH|t items ssp sp i w s Hn Hs|t items ssp sp i w p s Hn Hm IH]; intros lo hi H; cbn in H.
  - destruct (entries_in _ _ _ H _ _ _ Hi) as (t' & p' & a & b & -> & L1 & L2 & L3 & _). injection Hs as <-. cbn. lia.
  - destruct (entries_in _ _ _ H _ _ _ Hi) as (t' & p' & a & b & -> & L1 & L2 & L3 & [->|Hw]); [injection Hs as <-; cbn; lia|]. apply laid_inner in Hw as (a' & b' & E & M1 & M2 & M3 & _). rewrite E in Hs. injection Hs as <-. cbn. lia.
  - destruct (entries_in _ _ _ H _ _ _ Hi) as (t' & p' & a & b & -> & L1 & L2 & L3 & [->|Hw]); [inversion Hm|]. apply laid_inner in Hw as (a' & b' & E & M1 & M2 & M3 & Hin). apply IH in Hin. lia.
  - apply items_in with (i := i) (w := w) in H; [|exact Hn]. apply laid_inner in H as (a' & b' & E & M1 & M2 & M3 & _). rewrite E in Hs. injection Hs as <-. cbn. lia.
  - apply items_in with (i := i) (w := w) in H; [|exact Hn]. apply laid_inner in H as (a' & b' & E & M1 & M2 & M3 & Hin). apply IH in Hin. lia.
Qed.

Definition finds (r : option (list step)) (M : list step -> span -> Prop) : Prop :=
  match r with
  | Some p => (exists s, M p s /\ over s o) /\ forall p' s', M p' s' -> over s' o -> prefix_of p' p
  | None => forall p s, M p s -> ~ over s o
  end.
Lemma finds_ext r M M' : (forall p s, M p s <-> M' p s) -> finds r M -> finds r M'.
Proof.
  intros E. destruct r as [p|]; cbn.
  - intros [(s & H1 & H2) H3]. split; [exists s; split; [now apply E|exact H2]|]. intros p' s' H. apply H3. now apply E.
  - intros H p s Hm. apply (H p). now apply E.
Qed.
Lemma finds_left r (M1 M2 : list step -> span -> Prop) m : r <> None -> finds r M1 -> (forall p s, M1 p s -> sp_end s <= m) -> (forall p s, M2 p s -> m <= sp_start s) -> finds r (fun p s => M1 p s \/ M2 p s).
Proof.
  destruct r as [p|]; [|congruence]. intros _ [(s & H1 & H2) H3] A1 A2. split; [exists s; auto|]. intros p' s' [H|H] Ho; [eauto|]. apply A1 in H1. apply A2 in H. unfold over in *. lia.
Qed.
Lemma finds_right r (M1 M2 : list step -> span -> Prop) : (forall p s, M1 p s -> ~ over s o) -> finds r M2 -> finds r (fun p s => M1 p s \/ M2 p s).
Proof.
  intros H1. destruct r as [p|]; cbn.
  - intros [(s & H2 & H3) H4]. split; [exists s; auto|]. intros p' s' [H|H] Ho; [destruct (H1 _ _ H Ho)|eauto].
  - intros H2 p s [H|H]; eauto.
Qed.

(** Marks of one entry, of entries, of elements. *)
Definition mark1 (k w : value) (p : list step) (s : span) : Prop :=
  exists key, as_str k = Some key /\ (p = [SKey key] /\ (v_span k = Some s \/ v_span w = Some s) \/ exists q, p = SKey key :: q /\ mark w q s).
Definition marks (es : list entry) (p : list step) (s : span) : Prop := exists k w d, In (Ent k w d) es /\ mark1 k w p s.
Lemma mark_obj_iff t es osp sp p s : mark (Val t (PObj es osp) sp) p s <-> marks es p s.
Proof.
  split.
  - intros H. inversion H; subst; eexists _, _, _; (split; [eassumption|]); eexists; (split; [eassumption|]); eauto.
  - intros (k & w & d & Hi & key & Hk & [[-> [Hs|Hs]]|(q & -> & Hm)]); econstructor; eassumption.
Qed.
Definition marki (i : nat) (l : list value) (p : list step) (s : span) : Prop :=
  exists j w, nth_error l j = Some w /\ (p = [SIdx (i + j)] /\ v_span w = Some s \/ exists q, p = SIdx (i + j) :: q /\ mark w q s).
Lemma mark_seq_iff t l ssp sp p s : mark (Val t (PSeq l ssp) sp) p s <-> marki 0 l p s.
Proof.
  split.
  - intros H. inversion H; subst; eexists _, _; (split; [eassumption|]); eauto.
  - intros (j & w & Hn & [[-> Hs]|(q & -> & Hm)]); econstructor; eassumption.
Qed.

Definition good (v : value) : Prop := forall lo hi, inner lo hi (v_payload v) -> text_keyed v -> finds (find_path_in_value o v) (mark v).

Lemma prefix_self {A} (l : list A) : prefix_of l l.
Proof. exists []. now rewrite app_nil_r. Qed.
Lemma prefix_one {A} (x : A) l : prefix_of [x] (x :: l).
Proof. exists l. reflexivity. Qed.
Lemma prefix_cons {A} (x : A) a l : prefix_of a l -> prefix_of (x :: a) (x :: l).
Proof. intros [c ->]. exists c. reflexivity. Qed.

(** A value in its place, under the step [st]. *)
Lemma in_place w lo hi st : laid B lo hi w -> text_keyed w -> good w ->
  let M := fun p s => p = [st] /\ v_span w = Some s \/ exists q, p = st :: q /\ mark w q s in
  (forall p s, M p s -> lo <= sp_start s /\ sp_end s <= hi) /\
  finds (if holds (v_span w) o then Some (st :: match find_path_in_value o w with Some p => p | None => [] end) else None) M.
Proof.
  intros Hl Ht Hg M. apply laid_inner in Hl as (a & b & E & L1 & L2 & L3 & Hi). unfold M. split.
  - intros p s [[-> Hs]|(q & -> & Hm)]; [rewrite E in Hs; injection Hs as <-; cbn; lia|]. apply mark_within with (lo := a) (hi := b) in Hm; [lia|exact Hi].
  - specialize (Hg a b Hi Ht). destruct (holds (v_span w) o) eqn:Eh.
    + apply holds_iff in Eh as (s0 & E0 & Ho). destruct (find_path_in_value o w) as [q|]; cbn [finds] in *.
      * destruct Hg as [(s & Hm & Hs) Hu]. split; [exists s; split; [right; eauto|exact Hs]|]. intros p' s' [[-> _]|(q' & -> & Hm')] Ho'; [apply prefix_one|]. apply prefix_cons. eauto.
      * split; [exists s0; auto|]. intros p' s' [[-> _]|(q' & -> & Hm')] Ho'; [apply prefix_self|]. destruct (Hg _ _ Hm' Ho').
    + intros p s HM Ho. assert (X : exists s, v_span w = Some s /\ over s o); [|apply holds_iff in X; congruence]. exists (mkspan a b). split; [exact E|].
      destruct HM as [[_ Hs]|(q & -> & Hm)]; [rewrite E in Hs; injection Hs as <-; exact Ho|]. apply mark_within with (lo := a) (hi := b) in Hm; [|exact Hi]. unfold over in *. cbn. lia.
Qed.

Lemma items_path l : Forall good l -> Forall text_keyed l -> forall lo hi i, laid_items B lo hi l -> finds (path_items i l) (marki i l).
Proof.
  induction 1 as [|w l Hg _ IH]; intros Ht lo hi i Hl; [intros p s (j & w & Hn & _); destruct j; discriminate|].
  inversion_clear Ht as [|? ? Tw Tl]. inversion Hl as [|m v0 r0 Hw Hr]; subst. destruct (in_place w lo m (SIdx i) Hw Tw Hg) as [I1 I2].
  eapply finds_ext with (M := fun p s => (p = [SIdx i] /\ v_span w = Some s \/ (exists q, p = SIdx i :: q /\ mark w q s)) \/ marki (S i) l p s).
  - intros p s. split.
    + intros [H|(j & u & Hn & H)]; [exists 0, w; rewrite Nat.add_0_r; auto|]. exists (S j), u. rewrite Nat.add_succ_r. auto.
    + intros ([|j] & u & Hn & H); cbn in Hn; [injection Hn as <-; rewrite Nat.add_0_r in H; auto|]. right. exists j, u. rewrite Nat.add_succ_r in H. auto.
  - cbn [path_items]. destruct (holds (v_span w) o).
    + eapply finds_left with (m := m); [discriminate|exact I2|intros p s H; apply (I1 p s H)|]. intros p s (j & u & Hn & H). apply items_in with (i := j) (w := u) in Hr; [|exact Hn].
      apply laid_inner in Hr as (a & b & E & L1 & L2 & L3 & Hi). destruct H as [[_ Hs]|(q & _ & Hm)]; [rewrite E in Hs; injection Hs as <-; exact L1|]. apply mark_within with (lo := a) (hi := b) in Hm; [lia|exact Hi].
    + apply finds_right; [exact I2|]. now apply (IH Tl m hi).
Qed.

Lemma entries_path es : Forall (fun e => good (e_val e)) es -> Forall (fun e => (exists k, as_str (e_key e) = Some k) /\ text_keyed (e_val e)) es ->
  forall lo hi, laid_entries B lo hi es -> finds (path_entries es) (marks es).
Proof.
  induction 1 as [|[k w d] es Hg _ IH]; intros Ht lo hi Hl; [intros p s (k & w & d & [] & _)|].
  inversion_clear Ht as [|? ? [[key Hk] Tw] Tl]. cbn [e_key e_val] in *.
  eapply finds_ext with (M := fun p s => mark1 k w p s \/ marks es p s).
  { intros p s. split.
    - intros [H|(k' & w' & d' & Hi & H)]; eexists _, _, _; (split; [|exact H]); [left; reflexivity|right; exact Hi].
    - intros (k' & w' & d' & HI & HM). destruct HI as [Q|Hi]; [injection Q as -> -> ->; left; exact HM|right]. unfold marks. eauto. }
  assert (R : forall m, laid_entries B m hi es -> forall p s, marks es p s -> m <= sp_start s).
  { intros m Hm p s Hs. apply (mark_obj_iff None es None None) in Hs. apply mark_within with (lo := m) (hi := hi) in Hs; [lia|exact Hm]. }
  cbn [path_entries]. rewrite Hk.
  inversion Hl as [|a b t p d' r L1 L2 Ba Bb Hr E1|a b m t p w' d' r L1 L2 Ba Bb Hw Hr E1]; subst.
  - (* the unit in the key's place *)
    cbn [v_span]. destruct (holds (Some (mkspan a b)) o) eqn:Eh.
    + eapply finds_left with (m := b); [discriminate| | |now apply R].
      * apply holds_iff in Eh as (s0 & E0 & Ho). split; [exists s0; split; [|exact Ho]; exists key; split; [exact Hk|]; left; auto|].
        intros p' s' (key' & E & [[-> _]|(q & _ & Hm)]) _; [rewrite Hk in E; injection E as <-; apply prefix_self|inversion Hm].
      * intros p' s' (key' & E & [[-> [Hs|Hs]]|(q & _ & Hm)]); [injection Hs as <-; cbn; lia|injection Hs as <-; cbn; lia|inversion Hm].
    + apply finds_right; [|now apply (IH Tl b hi)]. intros p' s' (key' & E & [[-> Hs]|(q & _ & Hm)]) Ho; [|inversion Hm].
      assert (X : exists s, Some (mkspan a b) = Some s /\ over s o) by (exists s'; cbn in Hs; tauto). apply holds_iff in X. congruence.
  - destruct (in_place w b m (SKey key) Hw Tw Hg) as [I1 I2]. cbn [v_span]. destruct (holds (Some (mkspan a b)) o) eqn:Eh.
    + apply holds_iff in Eh as (s0 & E0 & Ho). injection E0 as <-. pose proof (laid_val_wider _ _ _ _ Hw) as Lw.
      eapply finds_left with (m := m); [discriminate| | |now apply R].
      * split; [exists (mkspan a b); split; [|exact Ho]; exists key; split; [exact Hk|]; left; auto|].
        intros p' s' (key' & E & [[-> _]|(q & -> & Hm)]) Ho'; rewrite Hk in E; injection E as <-; [apply prefix_self|].
        destruct (I1 (SKey key :: q) s') as [X _]; [right; eauto|]. unfold over in *. cbn in *. lia.
      * intros p' s' (key' & E & [[-> [Hs|Hs]]|(q & -> & Hm)]); rewrite Hk in E; injection E as <-; [injection Hs as <-; cbn; lia| |]; eapply I1; eauto.
    + assert (NK : ~ over (mkspan a b) o) by (intros Ho; assert (X : exists s, Some (mkspan a b) = Some s /\ over s o) by eauto; apply holds_iff in X; congruence).
      assert (M1 : forall p' s', over s' o -> mark1 (Val t p (Some (mkspan a b))) w p' s' -> p' = [SKey key] /\ v_span w = Some s' \/ (exists q, p' = SKey key :: q /\ mark w q s')).
      { intros p' s' Ho (key' & E & [[-> [Hs|Hs]]|(q & -> & Hm)]); rewrite Hk in E; injection E as <-; [injection Hs as <-; contradiction|eauto|eauto]. }
      destruct (holds (v_span w) o).
      * assert (X : finds (Some (SKey key :: match find_path_in_value o w with Some p => p | None => [] end)) (mark1 (Val t p (Some (mkspan a b))) w)).
        { destruct I2 as [(s & Hs & Ho) Hu]. split; [|intros p' s' Hm Ho'; apply (Hu p' s'); auto]. exists s. split; [|exact Ho]. exists key. split; [exact Hk|]. destruct Hs as [[-> Hs]|Hs]; auto. }
        match goal with |- finds ?r _ => replace r with (Some (SKey key :: match find_path_in_value o w with Some p => p | None => [] end)) by (destruct (find_path_in_value o w); reflexivity) end.
        eapply finds_left with (m := m); [discriminate|exact X| |now apply R]. pose proof (laid_val_wider _ _ _ _ Hw) as Lw.
        intros p' s' (key' & E & [[-> [Hs|Hs]]|(q & -> & Hm)]); rewrite Hk in E; injection E as <-; [injection Hs as <-; cbn; lia| |]; eapply I1; eauto.
      * apply finds_right; [|now apply (IH Tl m hi)]. intros p' s' Hm Ho. apply (I2 p' s'); auto.
Qed.

Lemma all_good v : good v.
Proof.
  induction v as [t p sp IHe IHi] using value_nested. intros lo hi Hin Ht. inversion Ht as [t0 p0 sp0 T1 T2]; subst. destruct p as [|x kd ssp|l ssp|es osp]; cbn in Hin.
  - intros q s H. inversion H.
  - intros q s H. inversion H.
  - rewrite path_seq. eapply finds_ext; [intros q s; symmetry; apply mark_seq_iff|]. eapply items_path; [apply (IHi _ _ eq_refl)|apply (T2 _ _ eq_refl)|exact Hin].
  - rewrite path_obj. eapply finds_ext; [intros q s; symmetry; apply mark_obj_iff|]. eapply entries_path; [apply (IHe _ _ eq_refl)|apply (T1 _ _ eq_refl)|exact Hin].
Qed.

Lemma path_at_cursor n v : laid_document B n v -> text_keyed v ->
  (forall p, find_path_in_value o v = Some p <-> (exists s, mark v p s /\ over s o) /\ forall p' s', mark v p' s' -> over s' o -> prefix_of p' p) /\
  (find_path_in_value o v = None <-> forall p s, mark v p s -> ~ over s o).
Proof.
  intros (es & -> & Hl) Ht. pose proof (all_good (Val None (PObj es None) None) 0 n Hl Ht) as G. destruct (find_path_in_value o _) as [q|] eqn:E; cbn in G.
  - split.
    + intros p. split; [intros [= <-]; exact G|]. intros [(s & H1 & H2) H3]. destruct G as [(s' & G1 & G2) G3]. destruct (G3 _ _ H1 H2) as [c ->]. destruct (H3 _ _ G1 G2) as [c' Ec].
      rewrite <- app_assoc in Ec. rewrite <- (app_nil_r p) in Ec at 1. apply app_inv_head in Ec. destruct c; [now rewrite app_nil_r|discriminate].
    + split; [discriminate|]. intros H. destruct G as [(s & H1 & H2) _]. destruct (H _ _ H1 H2).
  - split; [|split; auto]. intros p. split; [discriminate|]. intros [(s & H1 & H2) _]. destruct (G _ _ H1 H2).
Qed.
End Paths.

(** ** C64 *)

Section Objects.
Variable B : nat -> Prop.
Variable o : nat.

Definition context_entries (path : list str) (here : option object_context) : list entry -> option object_context :=
  fix entries l :=
  match l with
  | [] => here
  | Ent k w _ :: r =>
    match touches (v_span w) o, w with
    | true, Val _ (PObj es' _) _ =>
      match object_at o w (sub_context path k w) with
      | Some c => Some c
      | None => Some (mkoc (sub_context path k w) es' (v_span w))
      end
    | _, _ => entries r
    end
  end.
Lemma context_cons path here k w d r : context_entries path here (Ent k w d :: r) =
    match touches (v_span w) o, w with
    | true, Val _ (PObj es' _) _ =>
      match object_at o w (sub_context path k w) with
      | Some c => Some c
      | None => Some (mkoc (sub_context path k w) es' (v_span w))
      end
    | _, _ => context_entries path here r
    end.
Proof. reflexivity. Qed.
Lemma object_at_obj t es osp sp path : object_at o (Val t (PObj es osp) sp) path =
  if match osp with Some _ => negb (touches osp o) | None => false end then None else context_entries path (Some (mkoc path es osp)) es.
Proof. reflexivity. Qed.

Lemma touches_iff sp : touches sp o = true <-> exists s, sp = Some s /\ sp_start s <= o <= sp_end s.
Proof.
  unfold touches. destruct sp as [s|]; [|split; [discriminate|intros (s & E & _); discriminate]]. rewrite andb_true_iff, !Nat.leb_le. split; [eauto|intros (s' & [= <-] & H); exact H].
Qed.

Lemma sub_context_eq path k w : sub_context path k w = path ++ steps_to k w.
Proof. unfold sub_context, steps_to. reflexivity. Qed.

(** The objects of a value lie in its place. *)
Lemma object_in_within v path es osp : object_in v path es osp -> forall lo hi, laid B lo hi v -> exists a b, osp = Some (mkspan a b) /\ lo <= a /\ a <= b /\ b <= hi.
Proof.
  induction 1 as [t es osp sp|t es osp sp k w d path es' osp' Hi Ho IH]; intros lo hi H; inversion H as [t0 p a b L1 L2 L3 Ba Bb Hp]; subst; inversion Hp; subst.
  - exists a, b. auto.
  - match goal with X : laid_entries _ _ _ es |- _ => destruct (entries_in _ _ _ _ X _ _ _ Hi) as (t' & p' & a' & b' & -> & M1 & M2 & M3 & [->|Hw]) end; [inversion Ho|].
    destruct (IH _ _ Hw) as (a2 & b2 & -> & N1 & N2 & N3). exists a2, b2. splits; auto; lia.
Qed.

Lemma inside_refl s : inside s s.
Proof. destruct s as [s|]; cbn; auto. Qed.

(** The object found below a value of place [sp], for the cursor touching it. *)
Definition finds_object (v : value) (path : list str) (r : option object_context) : Prop :=
  exists q es osp, r = Some (mkoc (path ++ q) es osp) /\ object_in v q es osp /\ touched osp o /\
    forall q' es' osp', object_in v q' es' osp' -> touched osp' o -> inside osp osp'.

Definition good_object (v : value) : Prop := forall es osp t sp lo hi path, v = Val t (PObj es osp) sp -> laid_entries B lo hi es ->
  (forall s, osp = Some s -> s = mkspan lo hi) -> touched osp o -> finds_object v path (object_at o v path).

Definition below (es : list entry) (q : list str) (es' : list entry) (osp' : option span) : Prop :=
  exists k w d q0, In (Ent k w d) es /\ q = steps_to k w ++ q0 /\ object_in w q0 es' osp'.

Lemma entries_object path here es : Forall (fun e => good_object (e_val e)) es -> forall lo hi, laid_entries B lo hi es ->
  (exists q es' osp', context_entries path here es = Some (mkoc (path ++ q) es' osp') /\ below es q es' osp' /\ touched osp' o /\ osp' <> None /\
     forall q2 es2 osp2, below es q2 es2 osp2 -> touched osp2 o -> inside osp' osp2) \/
  (context_entries path here es = here /\ forall q2 es2 osp2, below es q2 es2 osp2 -> ~ touched osp2 o).
Proof.
  induction 1 as [|[k w d] es Hg _ IH]; intros lo hi Hl; [right; split; [reflexivity|]; intros ? ? ? (? & ? & ? & ? & [] & _)|]. cbn [e_val] in Hg.
  assert (R : forall m, laid_entries B m hi es -> forall q2 es2 osp2, below es q2 es2 osp2 -> exists a b, osp2 = Some (mkspan a b) /\ m < a /\ a <= b).
  { intros m Hm q2 es2 osp2 (k2 & w2 & d2 & q0 & Hi & _ & Ho). destruct (entries_in _ _ _ _ Hm _ _ _ Hi) as (t' & p' & a' & b' & -> & M1 & M2 & M3 & [->|Hw]); [inversion Ho|].
    destruct (object_in_within _ _ _ _ Ho _ _ Hw) as (a & b & -> & N1 & N2 & N3). exists a, b. splits; auto. lia. }
  assert (C : forall q2 es2 osp2, below (Ent k w d :: es) q2 es2 osp2 -> (exists q0, q2 = steps_to k w ++ q0 /\ object_in w q0 es2 osp2) \/ below es q2 es2 osp2).
  { intros q2 es2 osp2 (k2 & w2 & d2 & q0 & HI & Eq & Ho). destruct HI as [Q|Hi]; [injection Q as -> -> ->; left; eauto|right; exists k2, w2, d2, q0; auto]. }
  assert (D : forall q2 es2 osp2, below es q2 es2 osp2 -> below (Ent k w d :: es) q2 es2 osp2).
  { intros q2 es2 osp2 (k2 & w2 & d2 & q0 & HI & Eq & Ho). exists k2, w2, d2, q0. splits; auto. right. exact HI. }
  (* the entry holds no touched object: what the others give *)
  assert (SKIP : forall m, laid_entries B m hi es -> (forall q0 es2 osp2, object_in w q0 es2 osp2 -> ~ touched osp2 o) -> context_entries path here (Ent k w d :: es) = context_entries path here es ->
    (exists q es' osp', context_entries path here (Ent k w d :: es) = Some (mkoc (path ++ q) es' osp') /\ below (Ent k w d :: es) q es' osp' /\ touched osp' o /\ osp' <> None /\
       forall q2 es2 osp2, below (Ent k w d :: es) q2 es2 osp2 -> touched osp2 o -> inside osp' osp2) \/
    (context_entries path here (Ent k w d :: es) = here /\ forall q2 es2 osp2, below (Ent k w d :: es) q2 es2 osp2 -> ~ touched osp2 o)).
  { intros m Hm Hno ->. destruct (IH m hi Hm) as [(q & es' & osp' & H1 & H2 & H3 & H4 & H5)|[H1 H2]].
    - left. exists q, es', osp'. splits; auto. intros q2 es2 osp2 Hb Ht. apply C in Hb as [(q0 & _ & Hb)|Hb]; [destruct (Hno _ _ _ Hb Ht)|eauto].
    - right. split; [exact H1|]. intros q2 es2 osp2 Hb Ht. apply C in Hb as [(q0 & _ & Hb)|Hb]; [apply (Hno _ _ _ Hb Ht)|apply (H2 _ _ _ Hb Ht)]. }
  inversion Hl as [|a b t p d' r L1 L2 Ba Bb Hr E1|a b m t p w' d' r L1 L2 Ba Bb Hw Hr E1]; subst.
  - apply (SKIP b); auto; [intros q0 es2 osp2 Ho; inversion Ho|]. rewrite context_cons; cbn [v_span]. destruct (touches _ o); reflexivity.
  - inversion Hw as [tw pw aw bw W1 W2 W3 Bw1 Bw2 Hp]; subst. cbn [v_span] in *.
    assert (NT : touches (Some (mkspan aw bw)) o = false -> forall q0 es2 osp2, object_in (Val tw pw (Some (mkspan aw bw))) q0 es2 osp2 -> ~ touched osp2 o).
    { intros Ht q0 es2 osp2 Ho Htt. destruct (object_in_within _ _ _ _ Ho aw bw) as (a2 & b2 & -> & N1 & N2 & N3); [constructor; auto|]. cbn in Htt.
      assert (X : exists s, Some (mkspan aw bw) = Some s /\ sp_start s <= o <= sp_end s) by (eexists; split; [reflexivity|cbn; lia]). apply touches_iff in X. congruence. }
    destruct Hp as [|x kd|items Hi|es' He]; try (apply (SKIP m); auto; [intros q0 es2 osp2 Ho; inversion Ho|rewrite context_cons; cbn [v_span]; destruct (touches _ o); reflexivity]).
    destruct (touches (Some (mkspan aw bw)) o) eqn:Et.
    + left. rewrite context_cons; cbn [v_span]. rewrite Et. apply touches_iff in Et as (s & [= <-] & Ho). cbn [sp_start sp_end] in Ho.
      destruct (Hg es' (Some (mkspan aw bw)) tw (Some (mkspan aw bw)) aw bw (sub_context path (Val t p (Some (mkspan a b))) (Val tw (PObj es' (Some (mkspan aw bw))) (Some (mkspan aw bw)))) eq_refl He) as (q & es2 & osp2 & E & H1 & H2 & H3); [congruence|cbn; lia|].
      rewrite E. rewrite sub_context_eq. rewrite <- app_assoc. eexists _, es2, osp2. split; [reflexivity|]. splits.
      * eexists _, _, _, q. split; [left; reflexivity|]. auto.
      * exact H2.
      * destruct (object_in_within _ _ _ _ H1 _ _ Hw) as (? & ? & -> & _). discriminate.
      * intros q2 es3 osp3 Hb Ht. apply C in Hb as [(q0 & _ & Hb)|Hb]; [eauto|]. destruct (R m Hr _ _ _ Hb) as (a3 & b3 & -> & N1 & N2). cbn in Ht.
        exfalso. lia.
    + apply (SKIP m); [exact Hr|exact (NT eq_refl)|]. rewrite context_cons; cbn [v_span]. rewrite Et. reflexivity.
Qed.

Lemma all_good_object v : good_object v.
Proof.
  induction v as [t p sp IHe IHi] using value_nested. intros es osp t0 sp0 lo hi path [= -> -> ->] Hl Hs Ht. specialize (IHe _ _ eq_refl). rewrite object_at_obj.
  assert (X : match osp with Some _ => negb (touches osp o) | None => false end = false).
  { destruct osp as [s|]; [|reflexivity]. apply negb_false_iff. apply touches_iff. eauto. }
  rewrite X. assert (Y : forall q' es' osp', object_in (Val t0 (PObj es osp) sp0) q' es' osp' -> q' = [] /\ es' = es /\ osp' = osp \/ below es q' es' osp').
  { intros q' es' osp' H. inversion H; subst; [auto|]. right. eexists _, _, _, _. eauto. }
  destruct (entries_object path (Some (mkoc path es osp)) es IHe lo hi Hl) as [(q & es' & osp' & H1 & H2 & H3 & H4 & H5)|[H1 H2]].
  - exists q, es', osp'. splits; auto.
    + destruct H2 as (k & w & d & q0 & Hi & -> & Ho). econstructor; eassumption.
    + intros q2 es2 osp2 Ho Ht2. apply Y in Ho as [(-> & -> & ->)|Hb]; [|eauto]. destruct H2 as (k & w & d & q0 & Hi & _ & Ho).
      destruct (entries_in _ _ _ _ Hl _ _ _ Hi) as (t' & p' & a' & b' & -> & M1 & M2 & M3 & [->|Hw]); [inversion Ho|]. destruct (object_in_within _ _ _ _ Ho _ _ Hw) as (a & b & -> & N1 & N2 & N3).
      destruct osp as [s|]; [|exact I]. rewrite (Hs s eq_refl). cbn. lia.
  - exists [], es, osp. rewrite app_nil_r. splits; auto; [constructor|]. intros q2 es2 osp2 Ho Ht2. apply Y in Ho as [(-> & -> & ->)|Hb]; [apply inside_refl|]. destruct (H2 _ _ _ Hb Ht2).
Qed.

Lemma object_at_cursor n v : laid_document B n v -> exists path es osp, find_object_at_offset v o = Some (mkoc path es osp) /\
  object_in v path es osp /\ touched osp o /\ forall path' es' osp', object_in v path' es' osp' -> touched osp' o -> inside osp osp'.
Proof.
  intros (es & -> & Hl). destruct (all_good_object _ es None None None 0 n [] eq_refl Hl ltac:(discriminate) I) as (q & es' & osp' & H). exists q, es', osp'. exact H.
Qed.
End Objects.

(** ** C65 *)

Section Symbols.
Variable src : str.
Notation B := (between src).

Lemma pos_mono p q : B p -> B q -> p <= q -> pos_le (offset_to_position src p) (offset_to_position src q).
Proof.
  intros (a & b & E & ->) (a' & b' & E' & ->) L. rewrite E in E'. destruct (app_eq_app _ _ _ _ E') as (l & [[H1 H2]|[H1 H2]]).
  - subst a. rewrite blen_app in L. assert (l = []) as -> by (apply blen_zero; lia). rewrite app_nil_r. right. split; [reflexivity|lia].
  - subst a' b. rewrite E. rewrite blen_app. pose proof (offset_mono a l b') as H. exact (proj1 H).
Qed.

Definition symbols_entries (content : str) : list entry -> res (list symbol) :=
  fix entries l :=
       match l with
       | [] => Ok []
       | Ent k w _ :: r =>
         if is_unit k then entries r else
         match as_str k, v_span k, v_span w with
         | Some name, Some ks, Some vs =>
           do text <- of_opt (slice content (sp_start vs) (sp_end vs));
           do x <- (match w with
                    | Val _ (PObj _ _) _ => do c <- symbols content w; Ok (KObject, None, c)
                    | Val _ (PSeq _ _) _ => Ok (KArray, Some (lit "array"), [])
                    | _ => Ok (match as_str w with
                               | Some _ => (KString, Some text, [])
                               | None => if is_unit w then (KNull, Some [cAT], [])
                                         else match v_tag w with Some _ => (KVariable, Some text, []) | None => (KConstant, Some text, []) end
                               end)
                    end);
           let '(kind, detail, ch) := x in
           do rest <- entries r;
           Ok (Sym name detail kind (range_of content (sp_start ks) (sp_end vs)) (range_of content (sp_start ks) (sp_end ks)) ch :: rest)
         | _, _, _ => entries r
         end
       end.
Lemma symbols_obj content t es osp sp : symbols content (Val t (PObj es osp) sp) = symbols_entries content es.
Proof. reflexivity. Qed.

(** What one entry adds. *)
Definition symbol_of (k w : value) : res (option symbol) :=
  if is_unit k then Ok None else
  match as_str k, v_span k, v_span w with
  | Some name, Some ks, Some vs =>
    do text <- of_opt (slice src (sp_start vs) (sp_end vs));
    do c <- (match w with Val _ (PObj _ _) _ => symbols src w | _ => Ok [] end);
    Ok (Some (Sym name
      (match w with Val _ (PObj _ _) _ => None | Val _ (PSeq _ _) _ => Some (lit "array") | _ => match as_str w with Some _ => Some text | None => if is_unit w then Some [cAT] else Some text end end)
      (match w with Val _ (PObj _ _) _ => KObject | Val _ (PSeq _ _) _ => KArray
       | _ => match as_str w with Some _ => KString | None => if is_unit w then KNull else match v_tag w with Some _ => KVariable | None => KConstant end end end)
      (range_of src (sp_start ks) (sp_end vs)) (range_of src (sp_start ks) (sp_end ks)) c))
  | _, _, _ => Ok None
  end.
Lemma symbols_cons k w d r : symbols_entries src (Ent k w d :: r) =
  do x <- symbol_of k w; do rest <- symbols_entries src r; Ok (match x with Some s => s :: rest | None => rest end).
Proof.
  cbn [symbols_entries]. unfold symbol_of. fold (symbols_entries src). assert (R : symbols_entries src r = do rest <- symbols_entries src r; Ok rest) by (destruct (symbols_entries src r); reflexivity).
  destruct (is_unit k); [exact R|]. destruct (as_str k); [|exact R]. destruct (v_span k); [|exact R]. destruct (v_span w); [|exact R].
  destruct (slice src _ _); [|reflexivity]. cbn [of_opt bind]. destruct w as [t [|x kd ss|l ss|es os] sp]; try reflexivity; cbn [as_str is_unit v_tag].
  - destruct t; reflexivity.
  - destruct t; reflexivity.
  - destruct (symbols src (Val t (PObj es os) sp)); reflexivity.
Qed.

Lemma symbols_total v : sized B v -> exists l, symbols src v = Ok l.
Proof.
  induction v as [t p sp IHe _] using value_nested. intros H. inversion H as [t0 p0 sp0 _ He _]; subst. destruct p as [| | |es osp]; try (eexists; reflexivity).
  specialize (IHe _ _ eq_refl). specialize (He _ _ eq_refl). rewrite symbols_obj. induction es as [|[k w d] es IH]; [eexists; reflexivity|]. inversion_clear IHe as [|? ? Iw Ies]. inversion_clear He as [|? ? (_ & Sw & _) Ses]. cbn [e_val] in *.
  destruct IH as [rest Er]; auto. { constructor; [intros s Es; inversion H; subst; auto|intros ? ? [= <- <-]; exact Ses|discriminate]. }
  rewrite symbols_cons. assert (X : exists x, symbol_of k w = Ok x).
  { unfold symbol_of. destruct (is_unit k); [eauto|]. destruct (as_str k); [|eauto]. destruct (v_span k); [|eauto]. destruct (v_span w) as [vs|] eqn:Ev; [|eauto].
    assert (P : piece B (v_span w)) by (inversion Sw; subst; assumption). destruct (P vs Ev) as (L & B1 & B2). destruct (on_slice src vs (conj B1 B2) L) as [text ->]. cbn [of_opt bind].
    destruct (Iw Sw) as [c Ec]. destruct w as [t1 [| | |es1 os1] sp1]; try (eexists; reflexivity). rewrite Ec. eexists. reflexivity. }
  destruct X as [x ->]. cbn [bind]. rewrite Er. cbn [bind]. eexists. reflexivity.
Qed.

Definition located (lo hi : nat) (s : symbol) : Prop := exists x y, B x /\ B y /\ lo <= x /\ x <= y /\ y <= hi /\ sym_range s = range_of src x y.

Lemma located_wider lo hi lo' hi' s : located lo hi s -> lo' <= lo -> hi <= hi' -> located lo' hi' s.
Proof. intros (x & y & H1 & H2 & H3 & H4 & H5 & H6) L1 L2. exists x, y. splits; auto; lia. Qed.

Definition good_symbols (v : value) : Prop := forall t es osp sp lo hi, v = Val t (PObj es osp) sp -> laid_entries B lo hi es -> forall l, symbols src v = Ok l ->
  Forall symbol_ok l /\ apart l /\ Forall (located lo hi) l /\ outline es l.

Lemma is_unit_none k : is_unit k = true -> as_str k = None.
Proof. destruct k as [[?|] [| | |] ?]; try discriminate; reflexivity. Qed.

Lemma flat_symbol n dt kd ks vs : B (sp_start ks) -> B (sp_end ks) -> B (sp_end vs) -> sp_start ks <= sp_end ks -> sp_end ks <= sp_end vs -> forall ch, Forall symbol_ok ch -> apart ch ->
  (exists lo, sp_start ks <= lo /\ Forall (located lo (sp_end vs)) ch) ->
  symbol_ok (Sym n dt kd (range_of src (sp_start ks) (sp_end vs)) (range_of src (sp_start ks) (sp_end ks)) ch).
Proof.
  intros B1 B2 B3 L1 L2 ch H1 H2 (lo & L & H3). constructor; auto.
  - apply pos_mono; auto. lia.
  - apply pos_mono; auto.
  - split; cbn; apply pos_mono; auto.
  - eapply Forall_impl; [|exact H3]. intros s (x & y & X1 & X2 & X3 & X4 & X5 & ->). split; cbn; apply pos_mono; auto. lia.
Qed.

(** The symbol of one entry of place [a], [m]. *)
Lemma entry_symbol lo m t p a b w x : lo <= a -> a < b -> B a -> B b -> (w = Val None PNone (Some (mkspan a b)) /\ b <= m \/ laid B b m w) -> good_symbols w ->
  symbol_of (Val t p (Some (mkspan a b))) w = Ok x ->
  match x with
  | Some s => symbol_ok s /\ located lo m s /\ as_str (Val t p (Some (mkspan a b))) = Some (sym_name s) /\ outline_below w (sym_children s)
  | None => as_str (Val t p (Some (mkspan a b))) = None
  end.
Proof.
  intros L1 L2 Ba Bb Hw Hg H. unfold symbol_of in H. destruct (is_unit (Val t p (Some (mkspan a b)))) eqn:Eu; [injection H as <-; now apply is_unit_none|].
  destruct (as_str (Val t p (Some (mkspan a b)))) as [key|] eqn:Ek; [|injection H as <-; reflexivity]. cbn [v_span] in H.
  assert (W : exists a' b', v_span w = Some (mkspan a' b') /\ B b' /\ b <= b' /\ b' <= m /\
     forall es osp, v_payload w = PObj es osp -> b <= a' /\ a' <= b' /\ laid_entries B a' b' es).
  { destruct Hw as [[-> L]|Hw]; [exists a, b; splits; auto; discriminate|]. inversion Hw as [tw pw aw bw W1 W2 W3 Bw1 Bw2 Hp]; subst. exists aw, bw. splits; auto; [lia|]. cbn. intros es osp ->. inversion Hp; subst. auto. }
  destruct W as (a' & b' & Ev & Bb' & L3 & L4 & Hobj). rewrite Ev in H. cbn [sp_start sp_end] in H. destruct (slice src a' b') as [text|]; [|discriminate]. cbn [of_opt bind] in H.
  assert (LOC : forall n dt kd ch, located lo m (Sym n dt kd (range_of src a b') (range_of src a b) ch)) by (intros n dt kd ch; exists a, b'; splits; auto; lia).
  destruct w as [tw pw spw]. destruct pw as [|tx kx sx|items six|es osp].
  1-3: injection H as <-; splits; auto; [|apply ob_flat; discriminate]; apply (flat_symbol _ _ _ (mkspan a b) (mkspan a' b')); auto; [cbn; lia|constructor|exists a; split; [cbn; lia|constructor]].
  destruct (symbols src (Val tw (PObj es osp) spw)) as [c| |] eqn:Ec; try discriminate. cbn [bind] in H. injection H as <-. destruct (Hobj _ _ eq_refl) as (N1 & N2 & N3). destruct (Hg _ _ _ _ a' b' eq_refl N3 c Ec) as (G1 & G2 & G3 & G4).
  splits; auto; [|now apply ob_object]. apply (flat_symbol _ _ _ (mkspan a b) (mkspan a' b')); auto; [cbn; lia|]. exists a'. cbn. split; [lia|exact G3].
Qed.

Lemma all_good_symbols v : good_symbols v.
Proof.
  induction v as [t p sp IHe _] using value_nested. intros t0 es osp sp0 lo hi [= -> -> ->] Hl. specialize (IHe _ _ eq_refl). rewrite symbols_obj. clear osp. revert IHe.
  induction Hl as [lo hi L|lo hi a b tk pk d r L1 L2 Ba Bb Hr IH|lo hi a b m tk pk w d r L1 L2 Ba Bb Hw Hr IH]; intros IHe l H.
  - injection H as <-. splits; constructor.
  - rewrite symbols_cons in H. inversion_clear IHe as [|? ? Iw Ies]. destruct (symbol_of _ _) as [x| |] eqn:Ex; try discriminate. cbn [bind] in H. destruct (symbols_entries src r) as [rest| |] eqn:Er; try discriminate. cbn [bind] in H. injection H as <-.
    destruct (IH Ies _ eq_refl) as (H1 & H2 & H3 & H4). apply entry_symbol with (lo := lo) (m := b) in Ex; auto. assert (LW : Forall (located lo hi) rest) by (eapply Forall_impl; [|exact H3]; intros s Hs; eapply located_wider; [exact Hs|lia|lia]). apply laid_entries_le in Hr.
    destruct x as [s|]; [|splits; auto; now apply ou_other]. destruct Ex as (X1 & X2 & X3 & X4). splits; auto.
    + constructor; [|exact H2]. eapply Forall_impl; [|exact H3]. intros s' (x & y & Y1 & Y2 & Y3 & Y4 & Y5 & ->). destruct X2 as (x2 & y2 & Z1 & Z2 & Z3 & Z4 & Z5 & ->). cbn. apply pos_mono; auto. lia.
    + constructor; [|exact LW]. eapply located_wider; [exact X2|lia|lia].
    + eapply ou_text; eauto.
  - rewrite symbols_cons in H. inversion_clear IHe as [|? ? Iw Ies]. destruct (symbol_of _ _) as [x| |] eqn:Ex; try discriminate. cbn [bind] in H. destruct (symbols_entries src r) as [rest| |] eqn:Er; try discriminate. cbn [bind] in H. injection H as <-.
    destruct (IH Ies _ eq_refl) as (H1 & H2 & H3 & H4). apply entry_symbol with (lo := lo) (m := m) in Ex; auto. pose proof (laid_val_wider _ _ _ _ Hw) as Lw. assert (LW : Forall (located lo hi) rest) by (eapply Forall_impl; [|exact H3]; intros s Hs; eapply located_wider; [exact Hs|lia|lia]). apply laid_entries_le in Hr.
    destruct x as [s|]; [|splits; auto; now apply ou_other]. destruct Ex as (X1 & X2 & X3 & X4). splits; auto.
    + constructor; [|exact H2]. eapply Forall_impl; [|exact H3]. intros s' (x & y & Y1 & Y2 & Y3 & Y4 & Y5 & ->). destruct X2 as (x2 & y2 & Z1 & Z2 & Z3 & Z4 & Z5 & ->). cbn. apply pos_mono; auto. lia.
    + constructor; [|exact LW]. eapply located_wider; [exact X2|lia|lia].
    + eapply ou_text; eauto.
Qed.
End Symbols.

(** ** C66: reordering *)
Lemma after_lf_prefix a : exists p t, a = p ++ t /\ after_last_lf a 0 0 = blen p.
Proof.
  destruct (last_line_ex a) as (t & Ht & [->|(p & ->)]).
  - exists [], t. split; [reflexivity|]. now rewrite after_last_lf_line.
  - exists (p ++ [cLF]), t. rewrite <- app_assoc. split; [reflexivity|]. rewrite after_last_lf_app. cbn [after_last_lf]. rewrite after_last_lf_line by exact Ht. rewrite N.eqb_refl, blen_app. cbn. lia.
Qed.

Lemma in_put {A} (le : A -> A -> bool) x y l : In x (put_in le y l) -> x = y \/ In x l.
Proof.
  induction l as [|z l IH]; cbn [put_in]; [intros [H|[]]; auto|]. destruct (le y z); [intros [H|H]; auto|]. intros [H|H]; [right; left; exact H|]. destruct (IH H); [auto|right; right; assumption].
Qed.
Lemma in_sort {A} (le : A -> A -> bool) x l : In x (sort_by le l) -> In x l.
Proof. induction l as [|y l IH]; cbn; [auto|]. intros H. apply in_put in H as [->|H]; auto. Qed.

Lemma bounds_slice src a b : between src a -> between src b -> a <= b -> exists t, slice src a b = Some t.
Proof. intros Ha Hb L. apply (on_slice src (mkspan a b) (conj Ha Hb) L). Qed.

Lemma texts_total src : forall es first, Forall (fun x => ent_sized src (snd x)) es -> exists t, entry_texts src first es = Ok t.
Proof.
  induction es as [|[i e] es IH]; intros first H; [eexists; reflexivity|]. inversion_clear H as [|? ? (H1 & H2 & H3) H4]. cbn [snd] in *. cbn [entry_texts]. destruct (IH false H4) as [rest Er].
  destruct (v_span (e_key e)) as [ks|] eqn:Ek; [|cbn [bind]; rewrite Er; eexists; reflexivity]. destruct (v_span (e_val e)) as [vs|] eqn:Ev; [|cbn [bind]; rewrite Er; eexists; reflexivity].
  destruct (H1 _ eq_refl) as (_ & B1 & _). assert (B2 : between src (sp_end vs)) by (clear H3; revert H2 Ev; generalize (e_val e); intros w H2 Ev; destruct H2 as [t p sp P _ _]; apply (P vs Ev)). specialize (H3 _ _ Ek Ev).
  pose proof B1 as (a & b & E & Ea). assert (slice src 0 (sp_start ks) = Some a) as -> by (rewrite Ea, E; apply slice_prefix). cbn [of_opt bind]. destruct (after_lf_prefix a) as (p & t & Ep & El).
  destruct (bounds_slice src (after_last_lf a 0 0) (sp_start ks)) as [ind ->]; [exists p, (t ++ b); split; [rewrite E, Ep; now rewrite <- app_assoc|exact El]|exact B1|rewrite El, Ea, Ep, blen_app; lia|]. cbn [of_opt bind].
  destruct (bounds_slice src (sp_start ks) (sp_end vs) B1 B2 H3) as [tx ->]. cbn [of_opt bind]. rewrite Er. eexists. reflexivity.
Qed.

Lemma no_reorder {F} src es (fields : list (@schema_field F)) : Forall (ent_sized src) es -> generate_reorder_edit (Val None (PObj es None) None) fields src = Ok None.
Proof.
  intros H. unfold generate_reorder_edit. cbn [v_payload]. destruct (list_eqb _ _ _); [reflexivity|]. edestruct (texts_total src) as [t ->]; [|reflexivity].
  apply Forall_forall. intros x Hx. apply in_sort in Hx. apply in_map_iff in Hx as (e & <- & He). cbn. rewrite Forall_forall in H. auto.
Qed.
