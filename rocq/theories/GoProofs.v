(** Proofs about the Go generator. *)
From Coq Require Import String ZArith Permutation.
From Verif Require Import Base BaseProofs TreeModel SchemaModel CliSpec CliModel CliProofs GoModel GoSpec.
Local Open Scope nat_scope.

(** ** Names *)

Lemma name_sep_iff c : name_sep c = true <-> sep c.
Proof. unfold name_sep, sep. rewrite orb_true_iff, !N.eqb_eq. tauto. Qed.
Lemma name_sep_not c : name_sep c = false <-> ~ sep c.
Proof. rewrite <- name_sep_iff. destruct (name_sep c); split; congruence. Qed.

Section Names.
Variable up : char -> str.

Lemma pascal_sep c s : name_sep c = true -> pascal up (c :: s) = pascal up s.
Proof. intros H. unfold pascal. cbn [split_where]. rewrite H. reflexivity. Qed.

Lemma split_word : forall w s, Forall (fun x => name_sep x = false) w ->
  match split_where name_sep s with
  | x :: ws => split_where name_sep (w ++ s) = (w ++ x) :: ws
  | [] => False
  end.
Proof.
  induction w as [|c w IH]; intros s H.
  - cbn [app]. destruct s as [|a s]; cbn [split_where]; [reflexivity|].
    destruct (name_sep a); [reflexivity|]. destruct (split_where name_sep s); reflexivity.
  - inversion H as [|? ? Hc Hw]; subst. specialize (IH s Hw). cbn [app split_where]. rewrite Hc.
    destruct (split_where name_sep s); [tauto|]. rewrite IH. reflexivity.
Qed.

Lemma pascal_word c w s : Forall (fun x => name_sep x = false) (c :: w) -> (forall x r, s = x :: r -> name_sep x = true) ->
  pascal up (c :: w ++ s) = up c ++ w ++ pascal up s.
Proof.
  intros H Hs. unfold pascal. pose proof (split_word (c :: w) s H) as E. change (c :: w ++ s) with ((c :: w) ++ s).
  destruct s as [|x r].
  - cbn [split_where] in *. rewrite E. cbn [filter nonempty app map cap concat]. rewrite !app_nil_r. reflexivity.
  - specialize (Hs x r eq_refl). cbn [split_where] in *. rewrite Hs in *. rewrite E. cbn [filter nonempty app map cap concat].
    rewrite !app_nil_r. rewrite <- app_assoc. reflexivity.
Qed.

Lemma word_split : forall s, exists w r, s = w ++ r /\ Forall (fun x => name_sep x = false) w /\ (forall x q, r = x :: q -> name_sep x = true).
Proof.
  induction s as [|c s (w & r & E & Hw & Hr)].
  - exists [], []. splits; auto. discriminate.
  - destruct (name_sep c) eqn:Hc.
    + exists [], (c :: s). splits; auto. intros x q [= <- <-]. exact Hc.
    + exists (c :: w), r. subst s. splits; auto.
Qed.

Lemma pascal_is : forall s, pascal_of up s (pascal up s).
Proof.
  intros s. remember (List.length s) as n eqn:En. assert (Hn : List.length s <= n) by lia. clear En.
  revert s Hn. induction n as [|n IH]; intros s Hn.
  - destruct s; [constructor|cbn in Hn; lia].
  - destruct s as [|c s]; [constructor|]. cbn [List.length] in Hn. destruct (name_sep c) eqn:Hc.
    + rewrite pascal_sep by exact Hc. apply PO_sep; [apply name_sep_iff, Hc|apply IH; lia].
    + destruct (word_split s) as (w & r & -> & Hw & Hr). rewrite pascal_word; auto.
      rewrite app_length in Hn. apply PO_word; [| |apply IH; apply le_S_n in Hn; eapply Nat.le_trans; [apply Nat.le_add_l|exact Hn]].
      * constructor; [apply name_sep_not, Hc|]. revert Hw. apply Forall_impl. intros a. apply name_sep_not.
      * intros x q E. apply name_sep_iff. eauto.
Qed.

Lemma pascal_only : forall s t, pascal_of up s t -> t = pascal up s.
Proof.
  induction 1 as [|c s t Hc H IH|c w s t Hw Hs H IH].
  - reflexivity.
  - rewrite pascal_sep; [exact IH|]. apply name_sep_iff, Hc.
  - rewrite pascal_word, <- IH; [reflexivity| |].
    + revert Hw. apply Forall_impl. intros a. apply name_sep_not.
    + intros x r E. apply name_sep_iff. eauto.
Qed.

Lemma pascal_iff s t : pascal_of up s t <-> t = pascal up s.
Proof. split; [apply pascal_only|]. intros ->. apply pascal_is. Qed.

Hypothesis Hup : upper_ascii up.

Lemma up_letter_digit c : letter_digit c -> exists d, up c = [d] /\ letter_digit d.
Proof.
  intros [H|H].
  - exists (c - 32)%N. split; [apply (proj1 Hup), H|]. right. left. unfold lower_letter, upper_letter in *. lia.
  - exists c. split; [apply (proj2 Hup), H|]. right. exact H.
Qed.

Lemma pascal_letters : forall s t, pascal_of up s t -> Forall (fun x => letter_digit x \/ sep x) s -> Forall letter_digit t.
Proof.
  induction 1 as [|c s t Hc H IH|c w s t Hw Hs H IH]; intros HF.
  - constructor.
  - inversion HF; subst; auto.
  - change (c :: w ++ s) with ((c :: w) ++ s) in HF. apply Forall_app in HF. destruct HF as [H1 H2].
    assert (H3 : Forall letter_digit (c :: w)).
    { apply Forall_forall. intros x Hx. rewrite Forall_forall in H1, Hw. destruct (H1 x Hx); [assumption|]. destruct (Hw x Hx); assumption. }
    inversion H3 as [|? ? Hc Hw']; subst. destruct (up_letter_digit c Hc) as (d & -> & Hd). cbn [app]. constructor; [exact Hd|].
    apply Forall_app. split; [exact Hw'|auto].
Qed.

Lemma field_name_exported s t : field_name s -> pascal_of up s t -> exported t.
Proof.
  intros (c & r & -> & Hc & Hr) H. inversion H as [|? ? ? Hs|? w s t' Hw Hs H' E]; subst.
  - exfalso. unfold sep, lower_letter, upper_letter in *. lia.
  - apply Forall_app in Hr. destruct Hr as [Hr1 Hr2].
    assert (H3 : Forall letter_digit w).
    { inversion Hw as [|? ? _ Hw']; subst. apply Forall_forall. intros x Hx. rewrite Forall_forall in Hr1, Hw'.
      destruct (Hr1 x Hx); [assumption|]. destruct (Hw' x Hx); assumption. }
    pose proof (pascal_letters _ _ H' Hr2) as H4.
    destruct Hc as [Hc|Hc].
    + rewrite (proj1 Hup) by exact Hc. exists (c - 32)%N, (w ++ t'). split; [reflexivity|]. split.
      * unfold lower_letter, upper_letter in *. lia.
      * apply Forall_app. auto.
    + rewrite (proj2 Hup) by auto. exists c, (w ++ t'). splits; auto. apply Forall_app. auto.
Qed.

(** Names without separators that start with a small letter stay apart. *)
Lemma plain_names_apart a b t : pascal_of up a t -> pascal_of up b t ->
  (forall s, s = a \/ s = b -> exists c r, s = c :: r /\ lower_letter c /\ Forall (fun x => ~ sep x) r) -> a = b.
Proof.
  intros Ha Hb H.
  assert (Hone : forall s, pascal_of up s t -> (exists c r, s = c :: r /\ lower_letter c /\ Forall (fun x => ~ sep x) r) ->
            exists c r, s = c :: r /\ lower_letter c /\ t = (c - 32)%N :: r).
  { intros s Hs (c & r & -> & Hc & Hr). exists c, r. splits; auto. apply pascal_only in Hs. subst t.
    rewrite <- (app_nil_r r) at 1. rewrite pascal_word.
    - change (pascal up []) with (@nil char). rewrite (proj1 Hup) by exact Hc. cbn [app]. rewrite app_nil_r. reflexivity.
    - constructor; [|revert Hr; apply Forall_impl; intros x; apply name_sep_not].
      apply name_sep_not. unfold sep, lower_letter in *. lia.
    - discriminate. }
  destruct (Hone a Ha (H a (or_introl eq_refl))) as (c & r & -> & Hc & ->).
  destruct (Hone b Hb (H b (or_intror eq_refl))) as (d & q & -> & Hd & [= E ->]).
  unfold lower_letter in *. f_equal. lia.
Qed.
End Names.

(** ** Schemas *)
Definition leaf (F : Type) (s : schema F) : Prop :=
  match s with
  | SObject _ _ | SSeq _ _ | STuple _ _ | SMap _ _ | SOptional _ _ | SFlatten _ _ | SDefault _ _ _ | SDeprecated _ _ _ | SOneOf _ _ _ => False
  | _ => True
  end.
Section SchemaInd.
Variable F : Type.
Variable P : schema F -> Prop.
Hypothesis Hobj : forall fs, Forall (fun e => P (snd e)) fs -> P (SObject _ fs).
Hypothesis Hseq : forall s, P s -> P (SSeq _ s).
Hypothesis Htup : forall l, Forall P l -> P (STuple _ l).
Hypothesis Hmap : forall l, Forall P l -> P (SMap _ l).
Hypothesis Hopt : forall s, P s -> P (SOptional _ s).
Hypothesis Hfl : forall s, P s -> P (SFlatten _ s).
Hypothesis Hdef : forall d s, P s -> P (SDefault _ d s).
Hypothesis Hdep : forall d s, P s -> P (SDeprecated _ d s).
Hypothesis Hone : forall s l, P s -> P (SOneOf _ s l).
Hypothesis Hleaf : forall s, leaf F s -> P s.
Fixpoint schema_ind2 (s : schema F) : P s :=
  match s as s0 return P s0 with
  | SObject _ fs =>
    Hobj fs ((fix go (fs : list (obj_key * schema F)) : Forall (fun e => P (snd e)) fs :=
      match fs with [] => Forall_nil _ | e :: r => Forall_cons e (schema_ind2 (snd e)) (go r) end) fs)
  | SSeq _ i => Hseq i (schema_ind2 i)
  | STuple _ l =>
    Htup l ((fix go (l : list (schema F)) : Forall P l := match l with [] => Forall_nil _ | e :: r => Forall_cons e (schema_ind2 e) (go r) end) l)
  | SMap _ l =>
    Hmap l ((fix go (l : list (schema F)) : Forall P l := match l with [] => Forall_nil _ | e :: r => Forall_cons e (schema_ind2 e) (go r) end) l)
  | SOptional _ i => Hopt i (schema_ind2 i)
  | SFlatten _ i => Hfl i (schema_ind2 i)
  | SDefault _ d i => Hdef d i (schema_ind2 i)
  | SDeprecated _ d i => Hdep d i (schema_ind2 i)
  | SOneOf _ i l => Hone i l (schema_ind2 i)
  | s => Hleaf s I
  end.
End SchemaInd.

Section GoP.
Variable F : Type.
Variable up : char -> str.
Notation schema := (schema F).
Notation tget := (tget F).
Notation map_field := (map_field F up).
Notation map_fields := (map_fields F up).
Notation map_schema := (map_schema F up).
Notation type_name := (type_name F up).
Notation mk_field := (mk_field F up).
Notation peel := (peel F).

(** ** Texts of types *)
Lemma nilable_iff t : nilable t = true <-> has_nil t.
Proof.
  unfold nilable, starts, has_nil. rewrite !orb_true_iff, !starts_with_iff. split.
  - intros [[[u H]|[u H]]|[u H]]; exists u; tauto.
  - intros [u [H|[H|H]]]; eauto.
Qed.
Lemma opt_type_fun o t : opt_type o t (if o && negb (nilable t) then lit "*" ++ t else t).
Proof.
  destruct o; [|constructor]. cbn [andb]. destruct (nilable t) eqn:E; cbn [negb].
  - apply OT_nil, nilable_iff, E.
  - apply OT_star. rewrite <- nilable_iff. congruence.
Qed.

Lemma type_name_for : forall s, type_for F up s (type_name s).
Proof.
  induction s as [fs IH|s IH|l IH|l IH|s IH|s IH|d s IH|d s IH|s l IH|s Hl] using schema_ind2.
  - constructor.
  - constructor. exact IH.
  - destruct l as [|x l]; [constructor|]. inversion IH; subst. constructor. assumption.
  - destruct l as [|k [|v l]]; [constructor| |]; inversion IH as [|? ? H1 H2]; subst.
    + apply TF_map1. assumption.
    + inversion H2; subst. apply TF_map; assumption.
  - eapply TF_optional; [exact IH|]. cbn [GoModel.type_name]. pose proof (opt_type_fun true (type_name s)) as H.
    cbn [andb] in H. destruct (nilable (type_name s)); exact H.
  - constructor. exact IH.
  - constructor. exact IH.
  - constructor. exact IH.
  - constructor.
  - destruct s; try contradiction; try constructor. destruct name; constructor. apply pascal_is.
Qed.

(** ** What the fields are *)

Fixpoint pf (p n : str) (o : bool) (s : schema) : gofield F :=
  match s with
  | SDefault _ _ i => pf p n o i
  | SOptional _ i => pf p n true i
  | SObject _ _ => mk_field n (p ++ pascal up n) o None
  | _ => mk_field n (type_name s) o (constraints F s)
  end.
Fixpoint pfields (p : str) (fs : list (obj_key * schema)) : list (gofield F) :=
  match fs with
  | [] => []
  | (k, x) :: r => match k_value k with Some n => pf p n false x :: pfields p r | None => pfields p r end
  end.
Fixpoint pt (p : str) (s : schema) : gotype F :=
  match s with
  | SObject _ fs => GStruct (pfields p fs)
  | SEnum _ vs => GEnum (map fst vs)
  | SOptional _ i => GPrim (lit "*" ++ type_name i)
  | SDefault _ _ i | SFlatten _ i | SDeprecated _ _ i => pt p i
  | _ => GPrim (type_name s)
  end.

Lemma map_field_object p n o fs tm : map_field p n o (SObject _ fs) tm =
  match tget (p ++ pascal up n) tm with
  | Some _ => (mk_field n (p ++ pascal up n) o None, tm)
  | None => let '(l, tm1) := map_fields (p ++ pascal up n) fs tm in
            (mk_field n (p ++ pascal up n) o None, tput F (p ++ pascal up n) (GStruct l) tm1)
  end.
Proof.
  cbn [GoModel.map_field]. destruct (tget (p ++ pascal up n) tm); [reflexivity|].
  match goal with |- (let '(l, tm1) := ?g fs tm in _) = _ => assert (E : forall fs tm, g fs tm = map_fields (p ++ pascal up n) fs tm) end.
  { induction fs0 as [|[k x] r IH]; intros tm0; cbn [GoModel.map_fields]; [reflexivity|]. destruct (k_value k); [|apply IH].
    destruct (map_field _ _ _ _ _) as [f tm1]. rewrite <- IH. reflexivity. }
  rewrite E. reflexivity.
Qed.

Lemma map_field_pf : forall s p n o tm, fst (map_field p n o s tm) = pf p n o s.
Proof.
  induction s as [fs IH|s IH|l IH|l IH|s IH|s IH|d s IH|d s IH|s l IH|s Hl] using schema_ind2; intros p n o tm;
    try reflexivity; try (apply IH).
  - rewrite map_field_object. destruct (tget _ tm); [reflexivity|]. destruct (map_fields _ _ _). reflexivity.
  - destruct s; try contradiction; reflexivity.
Qed.
Lemma map_fields_pf : forall fs p tm, fst (map_fields p fs tm) = pfields p fs.
Proof.
  induction fs as [|[k x] r IH]; intros p tm; [reflexivity|]. cbn [GoModel.map_fields pfields].
  destruct (k_value k) as [n|]; [|apply IH].
  pose proof (map_field_pf x p n false tm) as E. destruct (map_field p n false x tm) as [f tm1]. cbn [fst] in E. subst f.
  specialize (IH p tm1). destruct (map_fields p r tm1) as [l tm2]. cbn [fst] in *. congruence.
Qed.
Lemma map_schema_pt : forall s p tm, fst (map_schema p s tm) = pt p s.
Proof.
  induction s as [fs IH|s IH|l IH|l IH|s IH|s IH|d s IH|d s IH|s l IH|s Hl] using schema_ind2; intros p tm;
    try reflexivity; try (apply IH).
  - cbn [GoModel.map_schema pt]. pose proof (map_fields_pf fs p tm) as E. destruct (map_fields p fs tm). cbn [fst] in *. congruence.
  - destruct s; try contradiction; reflexivity.
Qed.

(** ** The map *)
Lemma tget_app x a b : tget x (a ++ b) = match tget x a with Some t => Some t | None => tget x b end.
Proof. induction a as [|[k t] a IH]; cbn [app GoModel.tget]; [reflexivity|]. destruct (str_eqb k x); [reflexivity|exact IH]. Qed.
Lemma tget_del x n l : tget x (tdel F n l) = if str_eqb n x then None else tget x l.
Proof.
  induction l as [|[k t] l IH]; cbn [tdel GoModel.tget]; [destruct (str_eqb n x); reflexivity|].
  destruct (str_eqb_spec k n) as [->|Hk].
  - rewrite IH. destruct (str_eqb_spec n x); reflexivity.
  - cbn [GoModel.tget]. destruct (str_eqb_spec k x) as [->|Hx]; [|exact IH].
    destruct (str_eqb_spec n x); [congruence|reflexivity].
Qed.
Lemma tget_put x n t l : tget x (tput F n t l) = if str_eqb n x then Some t else tget x l.
Proof. unfold tput. cbn [GoModel.tget]. rewrite tget_del. destruct (str_eqb n x); reflexivity. Qed.
Lemma tget_in x t l : tget x l = Some t -> In (x, t) l.
Proof.
  induction l as [|[k u] l IH]; cbn [GoModel.tget]; [discriminate|]. destruct (str_eqb_spec k x) as [->|].
  - intros [= ->]. left. reflexivity.
  - right. auto.
Qed.
Lemma tget_none x l : tget x l = None <-> ~ In x (map fst l).
Proof.
  induction l as [|[k u] l IH]; cbn [GoModel.tget map fst In]; [tauto|]. destruct (str_eqb_spec k x) as [->|H].
  - split; [discriminate|tauto].
  - rewrite IH. tauto.
Qed.
Lemma in_tget x t l : NoDup (map fst l) -> In (x, t) l -> tget x l = Some t.
Proof.
  induction l as [|[k u] l IH]; cbn [map fst In GoModel.tget]; [tauto|]. intros H. inversion H as [|? ? H1 H2]; subst.
  intros [[= -> ->]|Hin]; [rewrite str_eqb_refl; reflexivity|]. destruct (str_eqb_spec k x) as [->|]; [|auto].
  exfalso. apply H1. apply (in_map fst) in Hin. exact Hin.
Qed.
Lemma tget_perm x l l' : NoDup (map fst l) -> Permutation l l' -> tget x l = tget x l'.
Proof.
  intros Hn Hp. destruct (tget x l') as [t|] eqn:E.
  - apply in_tget; [exact Hn|]. apply tget_in in E. eapply Permutation_in; [apply Permutation_sym, Hp|exact E].
  - apply tget_none. apply tget_none in E. intros Hin. apply E. eapply Permutation_in; [apply Permutation_map, Hp|exact Hin].
Qed.

(** ** What the declarations are *)
Fixpoint ndecl (p n : str) (s : schema) {struct s} : tmap F :=
  match s with
  | SDefault _ _ i | SOptional _ i => ndecl p n i
  | SObject _ fs =>
    (struct_path up p n, GStruct (pfields (struct_path up p n) fs)) ::
    (fix go (fs : list (obj_key * schema)) : tmap F :=
       match fs with
       | [] => []
       | (k, x) :: r => match k_value k with Some m => ndecl (struct_path up p n) m x | None => [] end ++ go r
       end) fs
  | _ => []
  end.
Fixpoint fdecl (p : str) (fs : list (obj_key * schema)) : tmap F :=
  match fs with
  | [] => []
  | (k, x) :: r => match k_value k with Some m => ndecl p m x | None => [] end ++ fdecl p r
  end.
Fixpoint idecl (p : str) (s : schema) : tmap F :=
  match s with
  | SObject _ fs => fdecl p fs
  | SDefault _ _ i | SFlatten _ i | SDeprecated _ _ i => idecl p i
  | _ => []
  end.
Definition edecl (e : option str * schema) : tmap F :=
  (reg_name (fst e), pt (reg_name (fst e)) (snd e)) :: idecl (reg_name (fst e)) (snd e).
Definition decls (sf : schema_file F) : tmap F := flat_map edecl sf.

Lemma ndecl_object p n fs : ndecl p n (SObject _ fs) = (struct_path up p n, GStruct (pfields (struct_path up p n) fs)) :: fdecl (struct_path up p n) fs.
Proof. cbn [ndecl]. f_equal. all: induction fs as [|[k x] r IH]; cbn [fdecl]; [reflexivity|]; rewrite <- IH; reflexivity. Qed.
Lemma nested_object p n fs : nested_names F up p n (SObject _ fs) = struct_path up p n :: fields_names F up (struct_path up p n) fs.
Proof. cbn [nested_names]. f_equal. all: induction fs as [|[k x] r IH]; cbn [fields_names]; [reflexivity|]; rewrite <- IH; reflexivity. Qed.

Lemma fdecl_names_of fs p : Forall (fun e => forall p n, map fst (ndecl p n (snd e)) = nested_names F up p n (snd e)) fs ->
  map fst (fdecl p fs) = fields_names F up p fs.
Proof.
  induction 1 as [|[k x] r Hx Hr IH]; [reflexivity|]. cbn [fdecl fields_names]. rewrite map_app, IH. f_equal.
  cbn [snd] in Hx. destruct (k_value k); [apply Hx|reflexivity].
Qed.
Lemma ndecl_names : forall s p n, map fst (ndecl p n s) = nested_names F up p n s.
Proof.
  induction s as [fs IH|s IH|l IH|l IH|s IH|s IH|d s IH|d s IH|s l IH|s Hl] using schema_ind2; intros p n;
    try reflexivity; try (apply IH).
  - rewrite ndecl_object, nested_object. cbn [map fst]. f_equal. apply fdecl_names_of, IH.
  - destruct s; try contradiction; reflexivity.
Qed.
Lemma fdecl_names fs p : map fst (fdecl p fs) = fields_names F up p fs.
Proof. apply fdecl_names_of. apply Forall_forall. intros e _. apply ndecl_names. Qed.
Lemma idecl_names : forall s p, map fst (idecl p s) = inner_names F up p s.
Proof.
  induction s as [fs IH|s IH|l IH|l IH|s IH|s IH|d s IH|d s IH|s l IH|s Hl] using schema_ind2; intros p;
    try reflexivity; try (apply IH).
  - apply fdecl_names.
  - destruct s; try contradiction; reflexivity.
Qed.
Lemma decls_names sf : map fst (decls sf) = all_names F up sf.
Proof.
  induction sf as [|[n s] r IH]; [reflexivity|]. cbn [decls all_names flat_map]. rewrite map_app. f_equal; [|exact IH].
  unfold edecl, type_names. cbn [map fst snd]. f_equal. apply idecl_names.
Qed.

(** The map after a step: the declarations before it and the new ones, if the names are new. *)
Definition apart (l : list str) (tm : tmap F) : Prop := NoDup l /\ forall x, In x l -> tget x tm = None.
Definition adds (d tm tm' : tmap F) : Prop := forall x, tget x tm' = tget x (d ++ tm).

Lemma apart_app_l a b tm : apart (a ++ b) tm -> apart a tm.
Proof.
  intros [H1 H2]. split; [|intros; apply H2; apply in_or_app; auto].
  clear H2. induction a as [|x a IH]; [constructor|]. cbn [app] in H1. inversion H1; subst. constructor; auto.
  rewrite in_app_iff in *. tauto.
Qed.
Lemma apart_app_r a b tm tm' d : apart (a ++ b) tm -> map fst d = a -> adds d tm tm' -> apart b tm'.
Proof.
  intros [H1 H2] Hd Ha. subst a. split.
  - clear H2. induction (map fst d); [exact H1|]. cbn [app] in H1. inversion H1; auto.
  - intros x Hx. rewrite (Ha x), tget_app. destruct (tget x d) eqn:E.
    + exfalso. apply tget_in in E. apply (in_map fst) in E. cbn [fst] in E. revert H1 E Hx. clear. induction (map fst d) as [|y m IH]; [tauto|].
      cbn [app In]. intros H. inversion H; subst. intros [->|E] Hx; [|auto]. apply H2, in_or_app. auto.
    + apply H2, in_or_app. auto.
Qed.
Lemma adds_app a b tm tm1 tm2 : apart (map fst a ++ map fst b) tm -> adds a tm tm1 -> adds b tm1 tm2 -> adds (a ++ b) tm tm2.
Proof.
  intros [H _] Ha Hb x. rewrite (Hb x), !tget_app, (Ha x), tget_app. destruct (tget x b) eqn:Eb; destruct (tget x a) eqn:Ea; auto.
  exfalso. apply tget_in, (in_map fst) in Ea. apply tget_in, (in_map fst) in Eb. cbn [fst] in *.
  revert H Ea Eb. clear. induction (map fst a) as [|y m IH]; [tauto|]. cbn [app In]. intros H. inversion H; subst.
  intros [->|E] Hx; [|auto]. apply H2, in_or_app. auto.
Qed.
Lemma adds_put n t d tm tm' : adds d tm tm' -> adds ((n, t) :: d) tm (tput F n t tm').
Proof. intros H x. rewrite tget_put. cbn [app GoModel.tget]. destruct (str_eqb n x); [reflexivity|apply H]. Qed.
Lemma adds_nil tm : adds [] tm tm.
Proof. intros x. reflexivity. Qed.

Lemma map_fields_adds_of fs : Forall (fun e => forall p n o tm, apart (nested_names F up p n (snd e)) tm ->
    adds (ndecl p n (snd e)) tm (snd (map_field p n o (snd e) tm))) fs ->
  forall p tm, apart (fields_names F up p fs) tm -> adds (fdecl p fs) tm (snd (map_fields p fs tm)).
Proof.
  induction 1 as [|[k x] r Hx Hr IH]; intros p tm Ha; [apply adds_nil|]. cbn [fdecl fields_names GoModel.map_fields] in *.
  cbn [snd] in Hx. destruct (k_value k) as [n|].
  - specialize (Hx p n false tm (apart_app_l _ _ _ Ha)). destruct (map_field p n false x tm) as [f tm1]. cbn [snd] in Hx.
    pose proof (apart_app_r _ _ _ tm1 _ Ha (ndecl_names x p n) Hx) as Ha1. specialize (IH p tm1 Ha1).
    destruct (map_fields p r tm1) as [l tm2]. cbn [snd] in *. eapply adds_app; [|exact Hx|exact IH].
    rewrite ndecl_names, fdecl_names. exact Ha.
  - cbn [app] in *. apply IH, Ha.
Qed.
Lemma map_field_adds : forall s p n o tm, apart (nested_names F up p n s) tm ->
  adds (ndecl p n s) tm (snd (map_field p n o s tm)).
Proof.
  induction s as [fs IH|s IH|l IH|l IH|s IH|s IH|d s IH|d s IH|s l IH|s Hl] using schema_ind2; intros p n o tm Ha;
    try apply adds_nil; try (apply IH, Ha).
  - rewrite map_field_object. rewrite ndecl_object. rewrite nested_object in Ha. unfold struct_path in *. set (q := p ++ pascal up n) in *.
    destruct Ha as [Hn Hg]. rewrite (Hg q (or_introl eq_refl)). pose proof (map_fields_pf fs q tm) as E.
    pose proof (map_fields_adds_of fs IH q tm) as H. destruct (map_fields q fs tm) as [l tm1]. cbn [fst snd] in *. subst l.
    apply adds_put. apply H. inversion Hn; subst. split; [assumption|]. intros x Hx. apply Hg. right. exact Hx.
  - destruct s; try contradiction; apply adds_nil.
Qed.
Lemma map_fields_adds fs p tm : apart (fields_names F up p fs) tm -> adds (fdecl p fs) tm (snd (map_fields p fs tm)).
Proof. apply map_fields_adds_of. apply Forall_forall. intros e _ q n o t. apply map_field_adds. Qed.
Lemma map_schema_adds : forall s p tm, apart (inner_names F up p s) tm -> adds (idecl p s) tm (snd (map_schema p s tm)).
Proof.
  induction s as [fs IH|s IH|l IH|l IH|s IH|s IH|d s IH|d s IH|s l IH|s Hl] using schema_ind2; intros p tm Ha;
    try apply adds_nil; try (apply IH, Ha).
  - cbn [GoModel.map_schema]. pose proof (map_fields_adds fs p tm Ha) as H. destruct (map_fields p fs tm). exact H.
  - destruct s; try contradiction; apply adds_nil.
Qed.

Lemma register_adds : forall sf tm, apart (all_names F up sf) tm -> adds (decls sf) tm (register F up sf tm).
Proof.
  induction sf as [|[n s] r IH]; intros tm Ha; [apply adds_nil|]. cbn [decls all_names flat_map register] in *.
  pose proof (map_schema_pt s (reg_name n) tm) as E. pose proof (map_schema_adds s (reg_name n) tm) as H.
  destruct (map_schema (reg_name n) s tm) as [t tm1]. cbn [fst snd] in *. subst t.
  assert (H1 : adds (edecl (n, s)) tm (tput F (reg_name n) (pt (reg_name n) s) tm1)).
  { unfold edecl. cbn [fst snd]. apply adds_put. apply H. apply apart_app_l in Ha. destruct Ha as [Hn Hg].
    unfold type_names in *. cbn [fst snd] in *. inversion Hn; subst. split; [assumption|]. intros x Hx. apply Hg. right. exact Hx. }
  assert (E : map fst (edecl (n, s)) = type_names F up (n, s)).
  { unfold edecl, type_names. cbn [map fst snd]. f_equal. apply idecl_names. }
  eapply adds_app; [|exact H1|].
  - rewrite E. change (flat_map edecl r) with (decls r). rewrite decls_names. exact Ha.
  - apply IH. eapply apart_app_r; [exact Ha|exact E|exact H1].
Qed.

Lemma go_types_decls sf : NoDup (all_names F up sf) -> forall x, tget x (go_types F up sf) = tget x (decls sf).
Proof.
  intros H x. unfold go_types. rewrite (register_adds sf [] (conj H (fun _ _ => eq_refl)) x), app_nil_r. reflexivity.
Qed.

Lemma decls_perm sf sf' : Permutation sf sf' -> Permutation (decls sf) (decls sf').
Proof.
  induction 1; cbn [decls flat_map].
  - constructor.
  - apply Permutation_app_head. exact IHPermutation.
  - rewrite !app_assoc. apply Permutation_app_tail, Permutation_app_comm.
  - eapply Permutation_trans; eassumption.
Qed.

Lemma go_types_order sf sf' : NoDup (all_names F up sf) -> Permutation sf sf' ->
  forall x, tget x (go_types F up sf) = tget x (go_types F up sf').
Proof.
  intros Hn Hp x. pose proof (decls_perm _ _ Hp) as Hd. rewrite <- decls_names in Hn.
  rewrite !go_types_decls.
  - apply tget_perm; assumption.
  - rewrite <- decls_names. eapply Permutation_NoDup; [apply Permutation_map, Hd|exact Hn].
  - rewrite <- decls_names. exact Hn.
Qed.

(** ** The structs are those of the objects *)
Fixpoint core (s : schema) : schema := match s with SDefault _ _ i | SOptional _ i => core i | _ => s end.
Fixpoint has_opt (s : schema) : bool := match s with SDefault _ _ i => has_opt i | SOptional _ _ => true | _ => false end.
Lemma peel_core : forall s, peel s (has_opt s) (core s).
Proof.
  induction s as [fs IH|s IH|l IH|l IH|s IH|s IH|d s IH|d s IH|s l IH|s Hl] using schema_ind2; try (apply PL_core; discriminate).
  - eapply PL_optional. exact IH.
  - apply PL_default. exact IH.
  - destruct s; try contradiction; apply PL_core; discriminate.
Qed.
Lemma peel_fun s o c : peel s o c -> o = has_opt s /\ c = core s.
Proof.
  induction 1 as [d s o c H [-> ->]|s o c H [-> ->]|s H1 H2]; auto.
  destruct s; auto; exfalso; [eapply H2|eapply H1]; reflexivity.
Qed.
Lemma pf_core : forall s p n o, pf p n o s = pf p n (o || has_opt s) (core s).
Proof.
  induction s as [fs IH|s IH|l IH|l IH|s IH|s IH|d s IH|d s IH|s l IH|s Hl] using schema_ind2; intros p n o;
    try (cbn [has_opt core]; rewrite orb_false_r; reflexivity).
  - cbn [pf has_opt core]. rewrite IH. rewrite orb_true_r. reflexivity.
  - cbn [pf has_opt core]. apply IH.
  - destruct s; try contradiction; cbn [has_opt core]; rewrite orb_false_r; reflexivity.
Qed.
Lemma core_fixed : forall s, (forall d i, core s <> SDefault _ d i) /\ (forall i, core s <> SOptional _ i).
Proof.
  induction s as [fs IH|s IH|l IH|l IH|s IH|s IH|d s IH|d s IH|s l IH|s Hl] using schema_ind2; try (split; discriminate); try exact IH.
  destruct s; try contradiction; split; discriminate.
Qed.
Lemma ndecl_core : forall s p n, ndecl p n s = ndecl p n (core s).
Proof.
  induction s as [fs IH|s IH|l IH|l IH|s IH|s IH|d s IH|d s IH|s l IH|s Hl] using schema_ind2; intros p n; try reflexivity; try (apply IH).
  destruct s; try contradiction; reflexivity.
Qed.

Section Structs.
Variable D : str -> option (gotype F).

Definition known (d : tmap F) : Prop := forall x t, In (x, t) d -> D x = Some t.

Lemma struct_of fs : Forall (fun e => forall p n, known (ndecl p n (snd e)) -> field_for F up D p n (snd e) (pf p n false (snd e))) fs ->
  forall p, known (fdecl p fs) -> struct_for F up D p fs (pfields p fs).
Proof.
  induction 1 as [|[k x] r Hx Hr IH]; intros p Hk; [constructor|]. cbn [pfields fdecl snd] in *.
  destruct (k_value k) as [n|] eqn:Ek.
  - eapply SF_field; [exact Ek| |].
    + apply Hx. intros y t Hy. apply Hk, in_or_app. auto.
    + apply IH. intros y t Hy. apply Hk, in_or_app. auto.
  - apply SF_skip; [exact Ek|]. apply IH, Hk.
Qed.

Lemma field_of_core s p n : match core s with
    | SObject _ fs => D (p ++ pascal up n) = Some (GStruct (pfields (p ++ pascal up n) fs)) /\
                      struct_for F up D (p ++ pascal up n) fs (pfields (p ++ pascal up n) fs)
    | _ => True end -> field_for F up D p n s (pf p n false s).
Proof.
  intros H. rewrite pf_core. cbn [orb]. pose proof (peel_core s) as Hp. destruct (core_fixed s) as [Hc1 Hc2].
  destruct (core s) eqn:Ec; try (exfalso; eapply Hc1; reflexivity); try (exfalso; eapply Hc2; reflexivity).
  all: try (cbn [pf]; unfold GoModel.mk_field; eapply FF_other; [exact Hp|discriminate|apply pascal_is|apply type_name_for|apply opt_type_fun]).
  cbn [pf]. unfold GoModel.mk_field. destruct H as [H1 H2]. eapply FF_object; [exact Hp|apply pascal_is|exact H1|exact H2|apply opt_type_fun].
Qed.

Lemma field_is : forall s p n, known (ndecl p n s) -> field_for F up D p n s (pf p n false s).
Proof.
  assert (Hcore : forall s, (forall p n, known (ndecl p n s) -> match core s with
    | SObject _ fs => D (p ++ pascal up n) = Some (GStruct (pfields (p ++ pascal up n) fs)) /\
                      struct_for F up D (p ++ pascal up n) fs (pfields (p ++ pascal up n) fs)
    | _ => True end)).
  { induction s as [fs IH|s IH|l IH|l IH|s IH|s IH|d s IH|d s IH|s l IH|s Hl] using schema_ind2; intros p n Hk; try exact I; try (apply IH, Hk).
    - cbn [core]. rewrite ndecl_object in Hk. unfold struct_path in Hk. split.
      + apply Hk. left. reflexivity.
      + apply struct_of; [|intros x t Hx; apply Hk; right; exact Hx].
        revert IH. apply Forall_impl. intros e He q m Hq. apply field_of_core. apply He, Hq.
    - destruct s; try contradiction; exact I. }
  intros s p n Hk. apply field_of_core, Hcore, Hk.
Qed.
Lemma struct_is fs p : known (fdecl p fs) -> struct_for F up D p fs (pfields p fs).
Proof. apply struct_of. apply Forall_forall. intros e _ q n. apply field_is. Qed.
End Structs.

Lemma strip_pt s c : strip F s c -> forall p, pt p s = pt p c /\ idecl p s = idecl p c.
Proof. induction 1; intros p; cbn [pt idecl]; auto. Qed.

Lemma go_structs sf n s fs : NoDup (all_names F up sf) -> In (n, s) sf -> strip F s (SObject _ fs) ->
  exists gl, tget (reg_name n) (go_types F up sf) = Some (GStruct gl) /\
    struct_for F up (fun x => tget x (go_types F up sf)) (reg_name n) fs gl.
Proof.
  intros Hn Hin Hs. exists (pfields (reg_name n) fs). destruct (strip_pt _ _ Hs (reg_name n)) as [E1 E2].
  assert (Hk : known (fun x => tget x (go_types F up sf)) (edecl (n, s))).
  { intros x t Hx. cbn beta. rewrite go_types_decls by exact Hn. apply in_tget; [rewrite decls_names; exact Hn|].
    unfold decls. apply in_flat_map. exists (n, s). auto. }
  unfold edecl in Hk. cbn [fst snd] in Hk. rewrite E1, E2 in Hk. cbn [pt idecl] in Hk. split.
  - apply Hk. left. reflexivity.
  - apply struct_is. intros x t Hx. apply Hk. right. exact Hx.
Qed.

Lemma go_enums sf n s vs : NoDup (all_names F up sf) -> In (n, s) sf -> strip F s (SEnum _ vs) ->
  tget (reg_name n) (go_types F up sf) = Some (GEnum (map fst vs)).
Proof.
  intros Hn Hin Hs. destruct (strip_pt _ _ Hs (reg_name n)) as [E1 _]. rewrite go_types_decls by exact Hn.
  apply in_tget; [rewrite decls_names; exact Hn|]. unfold decls. apply in_flat_map. exists (n, s). split; [exact Hin|].
  unfold edecl. cbn [fst snd]. rewrite E1. left. reflexivity.
Qed.

(** Nothing else is declared, whatever the names. *)
Definition within (l : list str) (tm tm' : tmap F) : Prop := forall x, tget x tm' <> None -> In x l \/ tget x tm <> None.
Lemma within_put n t l tm tm' : within l tm tm' -> within (n :: l) tm (tput F n t tm').
Proof.
  intros H x. rewrite tget_put. destruct (str_eqb_spec n x) as [->|]; [left; left; reflexivity|]. intros Hx.
  destruct (H x Hx); [left; right; assumption|auto].
Qed.
Lemma map_fields_within_of fs : Forall (fun e => forall p n o tm, within (nested_names F up p n (snd e)) tm (snd (map_field p n o (snd e) tm))) fs ->
  forall p tm, within (fields_names F up p fs) tm (snd (map_fields p fs tm)).
Proof.
  induction 1 as [|[k x] r Hx Hr IH]; intros p tm; [intros y; auto|]. cbn [fields_names GoModel.map_fields snd] in *.
  destruct (k_value k) as [n|]; [|exact (IH p tm)].
  specialize (Hx p n false tm). destruct (map_field p n false x tm) as [f tm1]. cbn [snd] in Hx. specialize (IH p tm1).
  destruct (map_fields p r tm1) as [l tm2]. cbn [snd] in *. intros y Hy. destruct (IH y Hy) as [H|H]; [left; apply in_or_app; auto|].
  destruct (Hx y H); [left; apply in_or_app; auto|auto].
Qed.
Lemma map_field_within : forall s p n o tm, within (nested_names F up p n s) tm (snd (map_field p n o s tm)).
Proof.
  induction s as [fs IH|s IH|l IH|l IH|s IH|s IH|d s IH|d s IH|s l IH|s Hl] using schema_ind2; intros p n o tm;
    try (intros x Hx; right; exact Hx); try (apply IH).
  - rewrite map_field_object, nested_object. unfold struct_path. destruct (tget (p ++ pascal up n) tm); [intros x Hx; auto|].
    pose proof (map_fields_within_of fs IH (p ++ pascal up n) tm) as H. destruct (map_fields (p ++ pascal up n) fs tm) as [l tm1]. cbn [snd] in *.
    apply within_put, H.
  - destruct s; try contradiction; intros x Hx; right; exact Hx.
Qed.
Lemma map_schema_within : forall s p tm, within (inner_names F up p s) tm (snd (map_schema p s tm)).
Proof.
  induction s as [fs IH|s IH|l IH|l IH|s IH|s IH|d s IH|d s IH|s l IH|s Hl] using schema_ind2; intros p tm;
    try (intros x Hx; right; exact Hx); try (apply IH).
  - cbn [GoModel.map_schema inner_names].
    assert (H : within (fields_names F up p fs) tm (snd (map_fields p fs tm))).
    { apply map_fields_within_of. apply Forall_forall. intros e _ q n o t. apply map_field_within. }
    destruct (map_fields p fs tm). exact H.
  - destruct s; try contradiction; intros x Hx; right; exact Hx.
Qed.
Lemma register_within : forall sf tm, within (all_names F up sf) tm (register F up sf tm).
Proof.
  induction sf as [|[n s] r IH]; intros tm; [intros x; auto|]. cbn [all_names flat_map register].
  pose proof (map_schema_within s (reg_name n) tm) as H. destruct (map_schema (reg_name n) s tm) as [t tm1]. cbn [snd] in H.
  intros x Hx. destruct (IH _ x Hx) as [H1|H1]; [left; apply in_or_app; auto|]. apply (within_put (reg_name n) t) in H.
  destruct (H x H1); [left; apply in_or_app; left; assumption|auto].
Qed.
Lemma go_types_within sf x t : tget x (go_types F up sf) = Some t -> In x (all_names F up sf).
Proof.
  intros H. destruct (register_within sf [] x) as [H1|H1]; [unfold go_types in H; congruence|exact H1|]. cbn in H1. congruence.
Qed.

(** ** Types are declared *)
Section Declared.
Variable T : str -> Prop.
Notation ready := (ready F up T).

Lemma gt_mono (P Q : str -> Prop) t : (forall x, P x -> Q x) -> go_type_text P t -> go_type_text Q t.
Proof. intros H. induction 1; [apply GT_basic|apply GT_unit|apply GT_any|apply GT_name|apply GT_slice|apply GT_star|apply GT_map]; auto. Qed.

Lemma key_text k : key_schema F k -> basic (type_name k).
Proof. intros [[c ->]|[[c ->]|[[c ->]|[->|[[vs ->]|[x ->]]]]]]; unfold basic; cbn; tauto. Qed.

Lemma ready_text : forall s, ready s -> go_type_text T (type_name s).
Proof.
  induction s as [fs IH|s IH|l IH|l IH|s IH|s IH|d s IH|d s IH|s l IH|s Hl] using schema_ind2; intros H.
  - apply (GT_map T (lit "string") (lit "interface{}")); [unfold basic; cbn; tauto|apply GT_any].
  - apply GT_slice. apply IH. inversion H; subst; assumption.
  - destruct l as [|x l]; [apply (GT_slice T (lit "interface{}")), GT_any|]. apply GT_slice. inversion IH as [|? ? IHx _]; subst.
    apply IHx. inversion H as [| | | | | | | |l' Hl| | | | | | | | | | |]; subst. apply Hl. left. reflexivity.
  - inversion H as [| | | | | | | | |l' Hl Hk| | | | | | | | | |]; subst.
    destruct l as [|k l]; [apply (GT_map T (lit "string") (lit "interface{}")); [unfold basic; cbn; tauto|apply GT_any]|].
    pose proof (key_text k (Hk k l eq_refl)) as Hb. cbn [GoModel.type_name]. apply GT_map; [exact Hb|].
    destruct l as [|v l]; [apply GT_any|]. inversion IH as [|? ? _ IH2]; subst. inversion IH2 as [|? ? IHv _]; subst.
    apply IHv, Hl. right. left. reflexivity.
  - cbn [GoModel.type_name]. assert (Hs : go_type_text T (type_name s)) by (apply IH; inversion H; subst; assumption).
    destruct (nilable (type_name s)); [exact Hs|]. apply GT_star. exact Hs.
  - apply IH. inversion H; subst; assumption.
  - apply IH. inversion H; subst; assumption.
  - apply IH. inversion H; subst; assumption.
  - apply GT_any.
  - destruct s; try contradiction; try (apply GT_basic; unfold basic; cbn; tauto); try apply GT_any; try apply GT_unit.
    destruct name as [n|]; [|apply GT_any]. cbn [GoModel.type_name]. inversion H as [| | | | | | | | | | | | | | | | | |n' Hn Hp|]; subst.
    apply pascal_only in Hp. rewrite <- Hp. apply GT_name. assumption.
Qed.

Definition has (tm : tmap F) (x : str) : Prop := tget x tm <> None.
Definition scope (tm : tmap F) (x : str) : Prop := T x \/ has tm x.
(** No primitives; fields of structs have types in scope. *)
Definition good_type (tm : tmap F) (t : gotype F) : Prop :=
  match t with
  | GPrim _ => False
  | GStruct l => Forall (fun f => go_type_text (scope tm) (f_type f)) l
  | GEnum _ => True
  end.
Definition good (tm : tmap F) : Prop := forall x t, tget x tm = Some t -> good_type tm t.
Definition grows (tm tm' : tmap F) : Prop := forall x, has tm x -> has tm' x.

Lemma grows_put n t tm : grows tm (tput F n t tm).
Proof. intros x H. unfold has in *. rewrite tget_put. destruct (str_eqb n x); [discriminate|exact H]. Qed.
Lemma good_type_grows tm tm' t : grows tm tm' -> good_type tm t -> good_type tm' t.
Proof.
  intros Hg. destruct t; cbn [good_type]; auto. apply Forall_impl. intros f. apply gt_mono.
  intros x [H|H]; [left; exact H|right; apply Hg, H].
Qed.
Lemma good_put n t tm : good tm -> good_type tm t -> good (tput F n t tm).
Proof.
  intros H Ht x u. rewrite tget_put. destruct (str_eqb n x).
  - intros [= <-]. eapply good_type_grows; [apply grows_put|exact Ht].
  - intros E. eapply good_type_grows; [apply grows_put|exact (H x u E)].
Qed.

Lemma opt_text (P : str -> Prop) o t : go_type_text P t -> go_type_text P (if o && negb (nilable t) then lit "*" ++ t else t).
Proof. intros H. destruct (o && negb (nilable t)); [apply GT_star|]; exact H. Qed.

Definition step_ok (tm tm' : tmap F) : Prop := grows tm tm' /\ (good tm -> good tm').

Lemma fields_good fs : Forall (fun e => forall p n o tm f tm', map_field p n o (snd e) tm = (f, tm') -> ready (snd e) ->
    step_ok tm tm' /\ go_type_text (scope tm') (f_type f)) fs ->
  forall p tm l tm', map_fields p fs tm = (l, tm') -> (forall k x, In (k, x) fs -> ready x) ->
    step_ok tm tm' /\ Forall (fun f => go_type_text (scope tm') (f_type f)) l.
Proof.
  induction 1 as [|[k x] r Hx Hr IH]; intros p tm l tm' E HR; cbn [GoModel.map_fields] in E.
  - injection E as <- <-. split; [split; [intros x H; exact H|auto]|constructor].
  - assert (HR' : forall k x, In (k, x) r -> ready x) by (intros k' x' Hin; apply (HR k' x'); right; exact Hin).
    destruct (k_value k) as [n|]; [|exact (IH p tm l tm' E HR')]. cbn [snd] in Hx.
    destruct (map_field p n false x tm) as [f tm1] eqn:E1. destruct (map_fields p r tm1) as [l2 tm2] eqn:E2. injection E as <- <-.
    destruct (Hx _ _ _ _ _ _ E1 (HR k x (or_introl eq_refl))) as [[G1 H1] Hf]. destruct (IH _ _ _ _ E2 HR') as [[G2 H2] Hl].
    split; [split; [intros y Hy; auto|auto]|]. constructor; [|exact Hl]. revert Hf. apply gt_mono. intros y [Hy|Hy]; [left; exact Hy|right; apply G2, Hy].
Qed.

Lemma field_good : forall s p n o tm f tm', map_field p n o s tm = (f, tm') -> ready s ->
  step_ok tm tm' /\ go_type_text (scope tm') (f_type f).
Proof.
  assert (Hother : forall s (p n : str) o tm f tm', ready s -> (mk_field n (type_name s) o (constraints F s), tm) = (f, tm') ->
            step_ok tm tm' /\ go_type_text (scope tm') (f_type f)).
  { intros s p n o tm f tm' HR [= <- <-]. split; [split; [intros x H; exact H|auto]|]. cbn [GoModel.mk_field f_type]. apply opt_text.
    apply (gt_mono T); [intros x Hx; left; exact Hx|]. apply ready_text, HR. }
  induction s as [fs IH|s IH|l IH|l IH|s IH|s IH|d s IH|d s IH|s l IH|s Hl] using schema_ind2; intros p n o tm f tm' E HR;
    try (apply (Hother _ p n o tm f tm' HR E)); try (inversion HR; subst; eapply IH; eassumption).
  - rewrite map_field_object in E. destruct (tget (p ++ pascal up n) tm) eqn:Eg.
    + injection E as <- <-. split; [split; [intros x H; exact H|auto]|]. cbn [GoModel.mk_field f_type]. apply opt_text, GT_name. right. unfold has. congruence.
    + destruct (map_fields (p ++ pascal up n) fs tm) as [l tm1] eqn:E1. injection E as <- <-.
      destruct (fields_good fs IH _ _ _ _ E1) as [[G1 H1] Hl]; [inversion HR; subst; assumption|]. split; [split|].
      * intros x Hx. apply grows_put, G1, Hx.
      * intros Hg. apply good_put; [auto|exact Hl].
      * cbn [GoModel.mk_field f_type]. apply opt_text, GT_name. right. unfold has. rewrite tget_put, str_eqb_refl. discriminate.
  - destruct s; try contradiction; apply (Hother _ p n o tm f tm' HR E).
Qed.

Lemma schema_good : forall s c, strip F s c -> forall p tm t tm', map_schema p s tm = (t, tm') -> ready s ->
  step_ok tm tm' /\ good_type tm' t.
Proof.
  induction 1 as [d s c H IH|s c H IH|d s c H IH|fs|vs]; intros p tm t tm' E HR; try (inversion HR; subst; eapply IH; eassumption).
  - cbn [GoModel.map_schema] in E. destruct (map_fields p fs tm) as [l tm1] eqn:E1. injection E as <- <-.
    eapply fields_good in E1; [exact E1| |inversion HR; subst; assumption].
    apply Forall_forall. intros e _ q n o tm2 f tm'. apply field_good.
  - injection E as <- <-. split; [split; [intros x Hx; exact Hx|auto]|exact I].
Qed.

Lemma register_good : forall sf tm, (forall n s, In (n, s) sf -> ready s /\ exists c, strip F s c) -> good tm ->
  good (register F up sf tm) /\ grows tm (register F up sf tm) /\ forall n s, In (n, s) sf -> has (register F up sf tm) (reg_name n).
Proof.
  induction sf as [|[n s] r IH]; intros tm HR Hg; [splits; [exact Hg|intros x H; exact H|intros ? ? []]|].
  cbn [register]. destruct (HR n s (or_introl eq_refl)) as [Hs [c Hc]].
  destruct (map_schema (reg_name n) s tm) as [t tm1] eqn:E. destruct (schema_good _ _ Hc _ _ _ _ E Hs) as [[G1 H1] Ht].
  destruct (IH (tput F (reg_name n) t tm1)) as (Ha & Hb & Hd).
  - intros n' s' Hin. apply (HR n' s'). right. exact Hin.
  - apply good_put; auto.
  - splits; [exact Ha| |].
    + intros x Hx. apply Hb, grows_put, G1, Hx.
    + intros n' s' [[= <- <-]|Hin]; [|eapply Hd; exact Hin]. apply Hb. unfold has. rewrite tget_put, str_eqb_refl. discriminate.
Qed.
End Declared.

Lemma go_declared sf : ready_file F up sf -> forall n l f, tget n (go_types F up sf) = Some (GStruct l) -> In f l ->
  go_type_text (declared F (go_types F up sf)) (f_type f).
Proof.
  intros HR n l f E Hf. set (T := fun m => In (Some m) (map fst sf)).
  destruct (register_good T sf [] HR) as (Hg & _ & Hh); [intros x t Hx; discriminate|].
  change (register F up sf []) with (go_types F up sf) in *. pose proof (Hg n _ E) as H. cbn [good_type] in H.
  rewrite Forall_forall in H. specialize (H f Hf). revert H. apply gt_mono. intros x Hx.
  assert (Hx' : has (go_types F up sf) x).
  { destruct Hx as [Hx|Hx]; [|exact Hx]. unfold T in Hx. apply in_map_iff in Hx. destruct Hx as ([m s] & Em & Hin). cbn [fst] in Em. subst m.
    exact (Hh (Some x) s Hin). }
  unfold has in Hx'. destruct (tget x (go_types F up sf)) as [t|] eqn:Et; [|congruence]. exists t. split; [exact Et|].
  intros y ->. exact (Hg x _ Et).
Qed.

(** ** The tests *)
Lemma show_usize_text n : usize n -> decimal (show_usize n) (N.of_nat n).
Proof. intros H. apply show_u64_spec. exact H. Qed.
Lemma show_i64_text z : i64 z -> int_text (show_i64 z) z.
Proof.
  intros H. unfold i64 in H. unfold show_i64. destruct (Z.ltb_spec z 0).
  - right. exists (show_u64 (Z.to_N (- z))), (Z.to_N (- z)). split; [reflexivity|]. split; [apply show_u64_spec; lia|lia].
  - left. exists (Z.to_N z). split; [apply show_u64_spec; lia|lia].
Qed.
Lemma as_i64_id z : i64 z -> as_i64 z = z.
Proof. intros H. unfold i64, as_i64 in *. rewrite Z.mod_small; lia. Qed.

Lemma decimal_fun d n m : decimal d n -> decimal d m -> n = m.
Proof. intros (_ & _ & H) (_ & _ & H'). congruence. Qed.
Lemma decimal_head d n : decimal d n -> exists c r, d = c :: r /\ is_digit c = true.
Proof. intros (H & HF & _). destruct d as [|c r]; [congruence|]. exists c, r. inversion HF; auto. Qed.
Lemma int_text_fun d z w : int_text d z -> int_text d w -> z = w.
Proof.
  intros [(n & H & ->)|(e & n & -> & H & ->)] [(m & H' & ->)|(e' & m & E & H' & ->)].
  - f_equal. eapply decimal_fun; eassumption.
  - subst d. destruct (decimal_head _ _ H) as (c & r & [= <- _] & Hc). discriminate.
  - destruct (decimal_head _ _ H') as (c & r & [= <- _] & Hc). discriminate.
  - injection E as ->. do 2 f_equal. eapply decimal_fun; eassumption.
Qed.

Section Checks.
Variable show_f64 : F -> str.
Notation bound_checks := (bound_checks F show_f64).

Lemma pf_peel s o c p n : peel s o c -> (forall fs, c <> SObject _ fs) -> pf p n false s = mk_field n (type_name c) o (constraints F c).
Proof.
  intros H Hno. destruct (peel_fun _ _ _ H) as [-> ->]. rewrite pf_core. cbn [orb]. destruct (core_fixed s) as [H1 H2].
  destruct (core s); try reflexivity; exfalso; [eapply Hno|eapply H2|eapply H1]; reflexivity.
Qed.

Lemma in_opt_list {A B} (o : option A) (g : A -> B) b : In b (opt_list o g) <-> exists a, o = Some a /\ b = g a.
Proof. destruct o as [z|]; cbn; split; [intros [<-|[]]; eauto|intros (a & [= <-] & ->); auto|tauto|intros (a & [=] & _)]. Qed.

Lemma is_valid_merge a b : is_valid (vmerge a b) = is_valid a && is_valid b.
Proof. destruct a as [[|x l] w], b as [[|y m] w']; reflexivity. Qed.
Lemma is_valid_if b path k sp : is_valid (if_err b path k sp) = negb b.
Proof. destruct b; reflexivity. Qed.
Lemma opt_test_true {A} (o : option A) f : opt_test o f = true <-> exists a, o = Some a /\ f a = true.
Proof. destruct o as [z|]; cbn; split; [eauto|intros (a' & [= <-] & H); exact H|discriminate|intros (a' & [=] & _)]. Qed.
Lemma two_tests b c path k k' sp : is_valid (vmerge (if_err b path k sp) (if_err c path k' sp)) = false <-> b = true \/ c = true.
Proof. rewrite is_valid_merge, !is_valid_if. destruct b, c; cbn; intuition congruence. Qed.

Lemma str_holds_lt x v d n : decimal d n -> str_holds x v (lit "len(" ++ x ++ lit ") < " ++ d) <-> (N.of_nat (blen v) < n)%N.
Proof.
  intros Hd. split; [|intros H; eapply SH_short; eassumption]. intros H. inversion H as [d' m Hm Hl E|d' m Hm Hl E]; apply app_inv_head in E.
  - injection E as E. subst d'. rewrite (decimal_fun _ _ _ Hd Hm). exact Hl.
  - discriminate.
Qed.
Lemma str_holds_gt x v d n : decimal d n -> str_holds x v (lit "len(" ++ x ++ lit ") > " ++ d) <-> (n < N.of_nat (blen v))%N.
Proof.
  intros Hd. split; [|intros H; eapply SH_long; eassumption]. intros H. inversion H as [d' m Hm Hl E|d' m Hm Hl E]; apply app_inv_head in E.
  - discriminate.
  - injection E as E. subst d'. rewrite (decimal_fun _ _ _ Hd Hm). exact Hl.
Qed.
Lemma int_holds_lt x v d z : int_text d z -> int_holds x v (x ++ lit " < " ++ d) <-> (v < z)%Z.
Proof.
  intros Hd. split; [|intros H; eapply IH_small; eassumption]. intros H. inversion H as [d' m Hm Hl E|d' m Hm Hl E]; apply app_inv_head in E.
  - injection E as E. subst d'. rewrite (int_text_fun _ _ _ Hd Hm). exact Hl.
  - discriminate.
Qed.
Lemma int_holds_gt x v d z : int_text d z -> int_holds x v (x ++ lit " > " ++ d) <-> (z < v)%Z.
Proof.
  intros Hd. split; [|intros H; eapply IH_big; eassumption]. intros H. inversion H as [d' m Hm Hl E|d' m Hm Hl E]; apply app_inv_head in E.
  - discriminate.
  - injection E as E. subst d'. rewrite (int_text_fun _ _ _ Hd Hm). exact Hl.
Qed.

Lemma string_checks s o c p n tm v t path :
  peel s o (SString _ (Some c)) -> scalar_text v = Some t -> opt_all usize (min_len c) -> opt_all usize (max_len c) ->
  let f := fst (map_field p n false s tm) in
  guard F f = (if o then Some (lit "v." ++ f_go f ++ lit " != nil") else None) /\
  exists k, f_cons f = Some k /\
    ((exists ck, In ck (bound_checks f k) /\ str_holds (field_expr o (f_go f)) t (ck_cond ck)) <->
     is_valid (validate_string v (Some c) path) = false).
Proof.
  intros Hp Hv H1 H2 f. assert (Ef : f = mk_field n (lit "string") o (constraints F (SString _ (Some c)))).
  { unfold f. rewrite map_field_pf, (pf_peel s o (SString _ (Some c))) by (auto; discriminate). reflexivity. }
  clearbody f. split; [rewrite Ef; destruct o; reflexivity|]. eexists. split; [rewrite Ef; reflexivity|].
  assert (Ex : star F f ++ lit "v." ++ f_go f = field_expr o (f_go f)) by (rewrite Ef; destruct o; reflexivity).
  unfold GoModel.bound_checks. cbv zeta. rewrite Ex. set (x := field_expr o (f_go f)). clearbody x. clear Ex Ef f.
  cbn [g_min_len g_max_len g_min_int g_max_int g_min_float g_max_float opt_list]. rewrite !app_nil_r.
  unfold validate_string. rewrite Hv, two_tests, !opt_test_true. split.
  - intros (ck & Hin & Hh). apply in_app_or in Hin. rewrite !in_opt_list in Hin. destruct Hin as [(m & Em & ->)|(m & Em & ->)]; cbn [ck_cond] in Hh.
    + left. exists m. split; [exact Em|]. rewrite (str_holds_lt x t _ _ (show_usize_text m (H1 m Em))) in Hh. apply Nat.ltb_lt. lia.
    + right. exists m. split; [exact Em|]. rewrite (str_holds_gt x t _ _ (show_usize_text m (H2 m Em))) in Hh. apply Nat.ltb_lt. lia.
  - intros [(m & Em & Hm)|(m & Em & Hm)]; apply Nat.ltb_lt in Hm; eexists; (split; [apply in_or_app|]).
    + left. apply in_opt_list. exists m. split; [exact Em|reflexivity].
    + cbn [ck_cond]. apply (str_holds_lt x t _ _ (show_usize_text m (H1 m Em))). lia.
    + right. apply in_opt_list. exists m. split; [exact Em|reflexivity].
    + cbn [ck_cond]. apply (str_holds_gt x t _ _ (show_usize_text m (H2 m Em))). lia.
Qed.

Lemma int_checks s o c p n tm v t z path :
  peel s o (SInt _ (Some c)) -> scalar_text v = Some t -> parse_i128 t = Some z -> opt_all i64 (i_min c) -> opt_all i64 (i_max c) ->
  let f := fst (map_field p n false s tm) in
  guard F f = (if o then Some (lit "v." ++ f_go f ++ lit " != nil") else None) /\
  exists k, f_cons f = Some k /\
    ((exists ck, In ck (bound_checks f k) /\ int_holds (field_expr o (f_go f)) z (ck_cond ck)) <->
     is_valid (validate_int v (Some c) path) = false).
Proof.
  intros Hp Hv Hz H1 H2 f. assert (Ef : f = mk_field n (lit "int64") o (constraints F (SInt _ (Some c)))).
  { unfold f. rewrite map_field_pf, (pf_peel s o (SInt _ (Some c))) by (auto; discriminate). reflexivity. }
  clearbody f. split; [rewrite Ef; destruct o; reflexivity|]. eexists. split; [rewrite Ef; reflexivity|].
  assert (Ex : star F f ++ lit "v." ++ f_go f = field_expr o (f_go f)) by (rewrite Ef; destruct o; reflexivity).
  unfold GoModel.bound_checks. cbv zeta. rewrite Ex. set (x := field_expr o (f_go f)). clearbody x. clear Ex Ef f.
  cbn [g_min_len g_max_len g_min_int g_max_int g_min_float g_max_float opt_list]. cbn [app]. rewrite !app_nil_r.
  unfold validate_int. rewrite Hv, Hz, two_tests, !opt_test_true. split.
  - intros (ck & Hin & Hh). apply in_app_or in Hin. rewrite !in_opt_list in Hin. destruct Hin as [(m & Em & ->)|(m & Em & ->)]; cbn [ck_cond] in Hh.
    + left. destruct (i_min c) as [a|]; [|discriminate]. injection Em as <-. exists a. split; [reflexivity|]. specialize (H1 a eq_refl).
      rewrite (as_i64_id a H1) in Hh. rewrite (int_holds_lt x z _ _ (show_i64_text a H1)) in Hh. apply Z.ltb_lt. lia.
    + right. destruct (i_max c) as [a|]; [|discriminate]. injection Em as <-. exists a. split; [reflexivity|]. specialize (H2 a eq_refl).
      rewrite (as_i64_id a H2) in Hh. rewrite (int_holds_gt x z _ _ (show_i64_text a H2)) in Hh. apply Z.ltb_lt. lia.
  - intros [(m & Em & Hm)|(m & Em & Hm)]; apply Z.ltb_lt in Hm; eexists; (split; [apply in_or_app|]).
    + left. apply in_opt_list. exists (as_i64 m). rewrite Em. split; reflexivity.
    + cbn [ck_cond]. specialize (H1 m Em). rewrite (as_i64_id m H1). apply (int_holds_lt x z _ _ (show_i64_text m H1)). lia.
    + right. apply in_opt_list. exists (as_i64 m). rewrite Em. split; reflexivity.
    + cbn [ck_cond]. specialize (H2 m Em). rewrite (as_i64_id m H2). apply (int_holds_gt x z _ _ (show_i64_text m H2)). lia.
Qed.

(** Floats, with a reading of what [{}] prints. *)
Variable reads : str -> F -> Prop.
Variable f_ltb : F -> F -> bool.
Variable parse_f64 : str -> option F.

Lemma float_checks s o c p n tm v t z path :
  peel s o (SFloat _ (Some c)) -> scalar_text v = Some t -> parse_f64 t = Some z ->
  (forall a, f_min _ c = Some a \/ f_max _ c = Some a -> forall b, reads (show_f64 a) b <-> b = a) ->
  let f := fst (map_field p n false s tm) in
  guard F f = (if o then Some (lit "v." ++ f_go f ++ lit " != nil") else None) /\
  exists k, f_cons f = Some k /\
    ((exists ck, In ck (bound_checks f k) /\ float_holds F reads f_ltb (field_expr o (f_go f)) z (ck_cond ck)) <->
     is_valid (validate_float F parse_f64 f_ltb v (Some c) path) = false).
Proof.
  intros Hp Hv Hz Hr f. assert (Ef : f = mk_field n (lit "float64") o (constraints F (SFloat _ (Some c)))).
  { unfold f. rewrite map_field_pf, (pf_peel s o (SFloat _ (Some c))) by (auto; discriminate). reflexivity. }
  clearbody f. split; [rewrite Ef; destruct o; reflexivity|]. eexists. split; [rewrite Ef; reflexivity|].
  assert (Ex : star F f ++ lit "v." ++ f_go f = field_expr o (f_go f)) by (rewrite Ef; destruct o; reflexivity).
  unfold GoModel.bound_checks. cbv zeta. rewrite Ex. set (x := field_expr o (f_go f)). clearbody x. clear Ex Ef f.
  cbn [g_min_len g_max_len g_min_int g_max_int g_min_float g_max_float opt_list]. cbn [app].
  unfold validate_float. rewrite Hv, Hz, two_tests, !opt_test_true. split.
  - intros (ck & Hin & Hh). apply in_app_or in Hin. rewrite !in_opt_list in Hin. destruct Hin as [(m & Em & ->)|(m & Em & ->)]; cbn [ck_cond] in Hh;
      inversion Hh as [d' b Hb Hl E|d' b Hb Hl E]; apply app_inv_head in E; try discriminate; injection E as E; subst d'.
    + left. exists m. split; [exact Em|]. apply Hr in Hb; [|auto]. subst b. exact Hl.
    + right. exists m. split; [exact Em|]. apply Hr in Hb; [|auto]. subst b. exact Hl.
  - intros [(m & Em & Hm)|(m & Em & Hm)]; eexists; (split; [apply in_or_app|]).
    + left. apply in_opt_list. exists m. split; [exact Em|reflexivity].
    + cbn [ck_cond]. eapply FH_small; [apply Hr; auto|exact Hm].
    + right. apply in_opt_list. exists m. split; [exact Em|reflexivity].
    + cbn [ck_cond]. eapply FH_big; [apply Hr; auto|exact Hm].
Qed.

(** Nothing else is tested. *)
Lemma only_limits s o c p n tm : peel s o c -> f_cons (fst (map_field p n false s tm)) <> None ->
  (exists k, c = SString _ (Some k)) \/ (exists k, c = SInt _ (Some k)) \/ (exists k, c = SFloat _ (Some k)).
Proof.
  intros H. destruct (peel_fun _ _ _ H) as [-> ->]. rewrite map_field_pf, pf_core.
  destruct (core_fixed s) as [H1 H2]. destruct (core s) as [[k|]|[k|]|[k|]| | | |fs|i|l|l|l|i|vs|i l|i|d i|d i|t|m]; cbn [pf GoModel.mk_field f_cons constraints];
    intros Hc; try congruence; eauto; exfalso; first [eapply H2; reflexivity|eapply H1; reflexivity].
Qed.

(** A test for a missing field is made for optional ones only. *)
Lemma star_type : forall s, starts (lit "*") (type_name s) = true -> wraps_optional F s \/
  exists n t, names_type F s n /\ pascal_of up n t /\ starts_with (lit "*") t = true.
Proof.
  induction s as [fs IH|s IH|l IH|l IH|s IH|s IH|d s IH|d s IH|s l IH|s Hl] using schema_ind2; intros H; try discriminate H.
  - destruct l; discriminate H.
  - left. apply WO_here.
  - destruct (IH H) as [Hw|(n & t & Hn & Ht)]; [left; apply WO_flatten, Hw|right; exists n, t; split; [apply NT_flatten, Hn|exact Ht]].
  - destruct (IH H) as [Hw|(n & t & Hn & Ht)]; [left; apply WO_default, Hw|right; exists n, t; split; [apply NT_default, Hn|exact Ht]].
  - destruct (IH H) as [Hw|(n & t & Hn & Ht)]; [left; apply WO_deprecated, Hw|right; exists n, t; split; [apply NT_deprecated, Hn|exact Ht]].
  - destruct s; try contradiction; try discriminate H. destruct name as [n|]; [|discriminate H]. right. exists n, (pascal up n).
    split; [apply NT_here|]. split; [apply pascal_is|exact H].
Qed.

Lemma required_optional s p n tm : starts_with (lit "*") (p ++ pascal up n) = false ->
  required_check F (fst (map_field p n false s tm)) <> None ->
  wraps_optional F s \/ exists n t, names_type F s n /\ pascal_of up n t /\ starts_with (lit "*") t = true.
Proof.
  intros Hs. rewrite map_field_pf. unfold required_check.
  assert (Hopt : forall s, f_opt (pf p n true s) = true).
  { induction s0 as [fs IH|s0 IH|l IH|l IH|s0 IH|s0 IH|d s0 IH|d s0 IH|s0 l IH|s0 Hl] using schema_ind2; try reflexivity; try exact IH.
    destruct s0; try contradiction; reflexivity. }
  assert (Hty : forall t k, starts (lit "*") (f_type (mk_field n t false k)) = starts (lit "*") t) by reflexivity.
  induction s as [fs IH|s IH|l IH|l IH|s IH|s IH|d s IH|d s IH|s l IH|s Hl] using schema_ind2; cbn [pf]; intros H;
    try (match type of H with context [f_type (mk_field n (type_name ?s) false ?k)] =>
      apply (star_type s); rewrite <- (Hty _ k); destruct (starts (lit "*") (f_type (mk_field n (type_name s) false k))); [reflexivity|]; exfalso; apply H; rewrite andb_false_r; reflexivity end).
  - exfalso. rewrite Hty in H. unfold starts in H. rewrite Hs, andb_false_r in H. congruence.
  - rewrite Hopt in H. cbn in H. congruence.
  - destruct (IH H) as [Hw|(m & t & Hn & Ht)]; [left; apply WO_default, Hw|right; exists m, t; split; [apply NT_default, Hn|exact Ht]].
  - destruct s; try contradiction; cbn [pf] in H;
    (match type of H with context [f_type (mk_field n (type_name ?s) false ?k)] =>
      apply (star_type s); rewrite <- (Hty _ k); destruct (starts (lit "*") (f_type (mk_field n (type_name s) false k))); [reflexivity|]; exfalso; apply H; rewrite andb_false_r; reflexivity end).
Qed.
End Checks.

End GoP.
