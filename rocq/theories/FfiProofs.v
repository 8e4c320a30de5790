(** Proofs for C88 and C89. *)
From Coq Require Import Lia.
From Verif Require Import Base BaseProofs TokModel LexModel ParseModel TreeModel FfiModel FfiSpec.
Local Open Scope nat_scope.

Lemma value_nest (P : value -> Prop) (Q : payload -> Prop) :
  (forall t p sp, Q p -> P (Val t p sp)) -> Q PNone -> (forall s k a, Q (PScalar s k a)) -> (forall l a, Forall P l -> Q (PSeq l a)) ->
  (forall es a, Forall (fun e => P (e_key e) /\ P (e_val e)) es -> Q (PObj es a)) -> forall v, P v.
Proof.
  intros H1 H2 H3 H4 H5. fix IH 1. intros [t p sp]. apply H1. destruct p as [|s k a|l a|es a]; [exact H2|apply H3|apply H4|apply H5].
  - induction l as [|x l IHl]; constructor; [apply IH|exact IHl].
  - induction es as [|[k x d] es IHes]; constructor; [split; apply IH|exact IHes].
Qed.

Definition opt_same (v w : option value) : Prop := match v, w with Some a, Some b => same_tree a b | None, None => True | _, _ => False end.

Lemma c_string_clear s : clear s -> c_string s = Some s.
Proof.
  intros H. unfold c_string. destruct (existsb (N.eqb cNUL) s) eqn:E; [|reflexivity]. apply existsb_exists in E as (c & I & E). apply N.eqb_eq in E. subst c. contradiction.
Qed.
Lemma stored_text s mem : stored s mem -> c_text mem = s.
Proof.
  intros (C & r & ->). induction s as [|c s IH]; [reflexivity|]. cbn [app c_text]. destruct (N.eqb_spec c cNUL) as [->|D]; [exfalso; apply C; now left|].
  rewrite IH; [reflexivity|]. intros I. apply C. now right.
Qed.

Lemma same_tag v w : same_tree v w -> option_map fst (v_tag v) = option_map fst (v_tag w).
Proof. now intros []. Qed.
Lemma same_str v w : same_tree v w -> as_str v = as_str w.
Proof. intros [t p sp t' p' sp' T P]. destruct t as [[n a]|], t' as [[n' a']|]; try discriminate T; destruct P; reflexivity. Qed.
Lemma same_unit v w : same_tree v w -> is_unit v = is_unit w.
Proof. intros [t p sp t' p' sp' T P]. destruct t as [[n a]|], t' as [[n' a']|]; try discriminate T; destruct P; reflexivity. Qed.
Lemma items_nth l l' : same_items l l' -> forall i, opt_same (nth_error l i) (nth_error l' i).
Proof. induction 1; intros [|i]; cbn; auto. Qed.
Lemma items_length l l' : same_items l l' -> length l = length l'.
Proof. induction 1; cbn; auto. Qed.
Lemma entries_key es es' : same_entries es es' -> forall i, opt_same (option_map e_key (nth_error es i)) (option_map e_key (nth_error es' i)).
Proof. induction 1; intros [|i]; cbn; auto. Qed.
Lemma entries_val es es' : same_entries es es' -> forall i, opt_same (option_map e_val (nth_error es i)) (option_map e_val (nth_error es' i)).
Proof. induction 1; intros [|i]; cbn; auto. Qed.
Lemma entries_length es es' : same_entries es es' -> length es = length es'.
Proof. induction 1; cbn; auto. Qed.
Lemma entries_get k es es' : same_entries es es' -> opt_same (obj_get k es) (obj_get k es').
Proof.
  unfold obj_get. induction 1 as [|q v d q' v' d' es es' K V E IH]; [exact I|]. cbn [find_val]. unfold key_is. cbn [e_key e_val]. rewrite (same_str _ _ K).
  destruct (match as_str q' with Some s => str_eqb s k | None => false end); [exact V|exact IH].
Qed.
Lemma get_same fuel : forall v w path, same_tree v w -> opt_same (get_fuel fuel v path) (get_fuel fuel w path).
Proof.
  induction fuel as [|f IH]; intros v w path S; cbn [get_fuel].
  - destruct path; [exact S|exact I].
  - destruct path as [|c path]; [exact S|]. destruct (split_path (c :: path)) as [seg rest]. destruct S as [t p sp t' p' sp' T P]. cbn [v_payload]. destruct P as [|s k a k' a'|l a l' a' L|es a es' a' E]; try exact I.
    + destruct (seg_index seg) as [i|]; [|exact I]. pose proof (items_nth _ _ L i) as N. destruct (nth_error l i) as [x|], (nth_error l' i) as [y|]; try contradiction; [|exact I]. destruct rest; [exact N|now apply IH].
    + pose proof (entries_get seg _ _ E) as N. destruct (obj_get seg es) as [x|], (obj_get seg es') as [y|]; try contradiction; [|exact I]. destruct rest; [exact N|now apply IH].
Qed.

Lemma same_alike n : forall v w, opt_same v w -> alike n v w.
Proof.
  induction n as [|n IH]; [exact (fun _ _ _ => I)|]. intros [v|] [w|] S; try contradiction; cbn [alike].
  - cbn [opt_same] in S. destruct S as [t p sp t' p' sp' T P]. pose proof (st_val t p sp t' p' sp' T P) as S.
    assert (forall path, alike n (styx_value_get (Some (Val t p sp)) path) (styx_value_get (Some (Val t' p' sp')) path)) as G.
    { intros [mem|]; [|now apply IH]. apply IH. unfold styx_value_get, value_get. now apply get_same. }
    assert (value_is_unit (Some (Val t p sp)) = value_is_unit (Some (Val t' p' sp'))) as U by (cbn [value_is_unit]; now apply same_unit).
    assert (value_tag (Some (Val t p sp)) = value_tag (Some (Val t' p' sp'))) as Tg. { destruct t as [[a b]|], t' as [[a' b']|]; try discriminate T; [|reflexivity]. cbn in T |- *. now injection T as ->. }
    split; [split; discriminate|]. destruct P as [|s k a k' a'|l a l' a' L|es a es' a' E]; cbn [value_payload_kind v_payload value_scalar value_as_sequence value_as_object sequence_len sequence_get object_len object_key_at object_value_at object_get];
      (split; [reflexivity|split; [exact U|split; [exact Tg|split; [reflexivity|]]]]).
    + splits; try easy; intros; now apply IH.
    + splits; try easy; intros; now apply IH.
    + splits; try easy; try (intros; now apply IH); [now apply items_length|]. intros i. now apply IH, items_nth.
    + splits; try easy; try (intros; now apply IH).
      * now apply entries_length.
      * intros i. now apply IH, entries_key.
      * intros i. now apply IH, entries_val.
      * intros [mem|]; apply IH; [now apply entries_get|exact I].
  - splits; try easy; intros; now apply IH.
Qed.

Lemma alike_same : forall v, nul_free v -> forall w, nul_free w -> (forall n, alike n (Some v) (Some w)) -> same_tree v w.
Proof.
  refine (value_nest _ (fun p => nul_free_payload p -> forall t sp w, nul_free w -> (forall n, alike n (Some (Val t p sp)) (Some w)) -> same_payload p (v_payload w)) _ _ _ _ _).
  - intros t p sp IH N w Nw H. inversion N as [? ? ? Nt Np]; subst. specialize (IH Np t sp w Nw H). destruct w as [t' p' sp']. constructor; [|exact IH].
    destruct (H 1) as (_ & K & U & Tg & _). inversion Nw as [? ? ? Nt' Np']; subst. destruct t as [[n a]|], t' as [[n' a']|]; cbn [option_map fst]; [| | |reflexivity].
    + cbn [value_tag] in Tg. rewrite (c_string_clear n (Nt n a eq_refl)), (c_string_clear n' (Nt' n' a' eq_refl)) in Tg. exact Tg.
    + cbn [value_tag] in Tg. rewrite (c_string_clear n (Nt n a eq_refl)) in Tg. discriminate.
    + cbn [value_tag] in Tg. rewrite (c_string_clear n' (Nt' n' a' eq_refl)) in Tg. discriminate.
  - intros _ t sp [t' p' sp'] Nw H. destruct (H 1) as (_ & K & _). destruct p'; try discriminate K. constructor.
  - intros s k a N t sp [t' p' sp'] Nw H. destruct (H 1) as (_ & K & _ & _ & S & _). destruct p' as [|s' k' a'| |]; try discriminate K. inversion N; inversion Nw as [? ? ? _ Np]; inversion Np; subst.
    cbn [value_scalar] in S. rewrite !c_string_clear in S by assumption. injection S as ->. constructor.
  - intros l a IH N t sp [t' p' sp'] Nw H. destruct (H 1) as (_ & K & _). destruct p' as [| |l' a'|]; try discriminate K. constructor. inversion N as [| |? ? Nl|]; inversion Nw as [? ? ? _ Np]; inversion Np as [| |? ? Nl'|]; subst.
    assert (length l = length l') as L by (destruct (H 1) as (_ & _ & _ & _ & _ & _ & L & _); exact L).
    assert (forall i n, alike n (nth_error l i) (nth_error l' i)) as A by (intros i n; destruct (H (S n)) as (_ & _ & _ & _ & _ & _ & _ & A & _); exact (A i)).
    clear - IH Nl Nl' L A. revert l' Nl' L A. induction IH as [|x l Hx Hl IHl]; intros [|y l'] Nl' L A; try discriminate L; constructor; inversion Nl; inversion Nl'; subst.
    + apply Hx; auto. exact (A 0).
    + apply IHl; auto. intros i. exact (A (S i)).
  - intros es a IH N t sp [t' p' sp'] Nw H. destruct (H 1) as (_ & K & _). destruct p' as [| | |es' a']; try discriminate K. constructor. inversion N as [| | |? ? Nl]; inversion Nw as [? ? ? _ Np]; inversion Np as [| | |? ? Nl']; subst.
    assert (length es = length es') as L by (destruct (H 1) as (_ & _ & _ & _ & _ & _ & _ & _ & _ & L & _); exact L).
    assert (forall i n, alike n (option_map e_key (nth_error es i)) (option_map e_key (nth_error es' i))) as A by (intros i n; destruct (H (S n)) as (_ & _ & _ & _ & _ & _ & _ & _ & _ & _ & A & _); exact (A i)).
    assert (forall i n, alike n (option_map e_val (nth_error es i)) (option_map e_val (nth_error es' i))) as B by (intros i n; destruct (H (S n)) as (_ & _ & _ & _ & _ & _ & _ & _ & _ & _ & _ & B & _); exact (B i)).
    clear - IH Nl Nl' L A B. revert es' Nl' L A B. induction IH as [|[k v d] es [Hk Hv] Hl IHl]; intros [|[k' v' d'] es'] Nl' L A B; try discriminate L; constructor; inversion Nl as [|? ? [N1 N2] N3]; inversion Nl' as [|? ? [M1 M2] M3]; subst; cbn [e_key e_val] in *.
    + apply Hk; auto. exact (A 0).
    + apply Hv; auto. exact (B 0).
    + apply IHl; auto; [intros i; exact (A (S i))|intros i; exact (B (S i))].
Qed.
