(** Proofs about the command line tool's helpers. *)
From Coq Require Import String.
From Verif Require Import Base BaseProofs TreeModel CliModel CliSpec.
Local Open Scope nat_scope.

(** ** Decimal numbers *)

Lemma dec_value_exact : forall s acc, Forall (fun c => is_digit c = true) s ->
  (fold_left (fun n c => (10 * n + (c - 48))%N) s acc < 18446744073709551616)%N ->
  dec_value acc s = Some (fold_left (fun n c => (10 * n + (c - 48))%N) s acc).
Proof.
  assert (Mono : forall s acc, (acc <= fold_left (fun n c => (10 * n + (c - 48))%N) s acc)%N).
  { induction s as [|c s IH]; intros acc; cbn [fold_left]; [lia|]. specialize (IH (10 * acc + (c - 48))%N). lia. }
  induction s as [|c s IH]; intros acc Hd Hlt; cbn [fold_left dec_value] in *; [auto|].
  apply Forall_cons_iff in Hd as [Hc Hd]. rewrite Hc.
  replace (acc * 10 + (c - 48))%N with (10 * acc + (c - 48))%N by lia.
  pose proof (Mono s (10 * acc + (c - 48))%N).
  destruct (N.ltb_spec (10 * acc + (c - 48)) 18446744073709551616); [|lia]. auto.
Qed.

Lemma dec_value_inv : forall s acc n, dec_value acc s = Some n ->
  Forall (fun c => is_digit c = true) s /\ n = fold_left (fun n c => (10 * n + (c - 48))%N) s acc /\
  (s <> [] -> n < 18446744073709551616)%N.
Proof.
  induction s as [|c s IH]; intros acc n H; cbn [dec_value fold_left] in *.
  - injection H as <-. splits; auto. congruence.
  - destruct (is_digit c) eqn:Ed; [|discriminate].
    replace (acc * 10 + (c - 48))%N with (10 * acc + (c - 48))%N in H by lia.
    destruct (N.ltb_spec (10 * acc + (c - 48)) 18446744073709551616) as [Hlt|]; [|discriminate].
    destruct (IH _ _ H) as (A & B & C). splits; auto. intros _.
    destruct s; [cbn in B; subst; auto|apply C; discriminate].
Qed.

Lemma parse_u64_decimal : forall s n, decimal s n -> (n < 18446744073709551616)%N -> parse_u64 s = Some n.
Proof.
  intros [|c s] n (Hne & Hd & Hv) Hlt; [congruence|]. unfold parse_u64.
  assert (Hc : (c =? 43)%N = false).
  { apply Forall_cons_iff in Hd as [Hc _]. unfold is_digit, in_range in Hc. apply andb_true_iff in Hc as [A B].
    apply N.leb_le in A. apply N.eqb_neq. lia. }
  rewrite Hc. unfold digits_value in Hv. rewrite dec_value_exact by (auto; rewrite Hv; auto). rewrite Hv. auto.
Qed.

Lemma parse_u64_inv : forall s n, parse_u64 s = Some n ->
  (n < 18446744073709551616)%N /\ exists t, (s = t \/ s = 43%N :: t) /\ decimal t n.
Proof.
  intros [|c s] n H; [discriminate|]. unfold parse_u64 in H.
  destruct (N.eqb_spec c 43) as [->|Hc].
  - destruct s as [|d s]; [discriminate|]. destruct (dec_value_inv _ _ _ H) as (A & B & C).
    split; [apply C; discriminate|]. exists (d :: s). split; auto. unfold decimal. splits; auto. discriminate.
  - destruct (dec_value_inv _ _ _ H) as (A & B & C). split; [apply C; discriminate|].
    exists (c :: s). split; auto. unfold decimal. splits; auto. discriminate.
Qed.

Lemma dec_digits_spec : forall fuel n acc, (n < 10 ^ N.of_nat fuel)%N -> fuel <> 0 ->
  exists d, dec_digits fuel n acc = d ++ acc /\ d <> [] /\ Forall (fun c => is_digit c = true) d /\
    digits_value d = n /\ canonical d /\ (n <> 0%N -> match d with c :: _ => c <> 48%N | [] => True end).
Proof.
  assert (Hdig : forall x, (x < 10)%N -> is_digit (48 + x)%N = true).
  { intros x Hx. unfold is_digit, in_range. apply andb_true_iff. split; apply N.leb_le; lia. }
  induction fuel as [|f IH]; intros n acc Hlt Hf; [congruence|]. cbn [dec_digits].
  destruct (N.ltb_spec n 10) as [Hs|Hb].
  - exists [(48 + n)%N]. splits; auto.
    + discriminate.
    + unfold digits_value. cbn [fold_left]. lia.
    + cbn. auto.
    + lia.
  - assert (Hd10 : (n / 10 < 10 ^ N.of_nat f)%N).
    { apply N.div_lt_upper_bound; [lia|]. rewrite Nat2N.inj_succ, N.pow_succ_r' in Hlt. lia. }
    assert (Hf0 : f <> 0).
    { intros ->. cbn in Hd10. assert (1 <= n / 10)%N by (apply N.div_le_lower_bound; lia). lia. }
    destruct (IH (n / 10)%N ((48 + n mod 10) :: acc)%N Hd10 Hf0) as (d & E & Hne & Hdd & Hv & Hc & Hz).
    exists (d ++ [48 + n mod 10])%N. rewrite E, <- app_assoc. splits; auto.
    + destruct d; discriminate.
    + apply Forall_app. split; [auto|]. constructor; [|constructor]. apply Hdig. apply N.mod_lt. lia.
    + unfold digits_value in *. rewrite fold_left_app, Hv. cbn [fold_left].
      pose proof (N.div_mod n 10). lia.
    + assert (Hn : (n / 10 <> 0)%N).
      { assert (1 <= n / 10)%N by (apply N.div_le_lower_bound; lia). lia. }
      specialize (Hz Hn). destruct d as [|c [|c' d]]; [congruence| |]; cbn; auto.
    + intros _. assert (Hn : (n / 10 <> 0)%N).
      { assert (1 <= n / 10)%N by (apply N.div_le_lower_bound; lia). lia. }
      specialize (Hz Hn). destruct d as [|c d]; [congruence|]. auto.
Qed.

Lemma show_u64_spec : forall n, (n < 18446744073709551616)%N -> decimal (show_u64 n) n /\ canonical (show_u64 n).
Proof.
  intros n Hn. unfold show_u64.
  destruct (dec_digits_spec 20 n []) as (d & E & Hne & Hd & Hv & Hc & _); [cbn; lia|discriminate|].
  rewrite E, app_nil_r. unfold decimal. splits; auto.
Qed.

Lemma digits_no_dot : forall s, Forall (fun c => is_digit c = true) s -> ~ In cDOT s.
Proof. intros s H Hi. rewrite Forall_forall in H. apply H in Hi. discriminate Hi. Qed.

Lemma split_dots_app : forall a b cur, ~ In cDOT a -> split_dots (a ++ cDOT :: b) cur = (rev cur ++ a) :: split_dots b [].
Proof.
  induction a as [|c a IH]; intros b cur H; cbn [app split_dots].
  - rewrite N.eqb_refl, app_nil_r. auto.
  - destruct (N.eqb_spec c cDOT) as [->|_]; [exfalso; apply H; left; auto|].
    rewrite IH by (intros Hi; apply H; right; auto). cbn [rev]. rewrite <- app_assoc. auto.
Qed.
Lemma split_dots_last : forall a cur, ~ In cDOT a -> split_dots a cur = [rev cur ++ a].
Proof.
  induction a as [|c a IH]; intros cur H; cbn [split_dots].
  - rewrite app_nil_r. auto.
  - destruct (N.eqb_spec c cDOT) as [->|_]; [exfalso; apply H; left; auto|].
    rewrite IH by (intros Hi; apply H; right; auto). cbn [rev]. rewrite <- app_assoc. auto.
Qed.
Lemma split_dots_join : forall s cur, match split_dots s cur with
  | [] => False
  | x :: r => rev cur ++ s = x ++ flat_map (cons cDOT) r
  end.
Proof.
  induction s as [|c s IH]; intros cur; cbn [split_dots].
  - cbn. auto.
  - destruct (N.eqb_spec c cDOT) as [->|_].
    + specialize (IH []). revert IH. destruct (split_dots s []) as [|x r]; [intros []|]. intros IH. cbn [flat_map rev app] in *. rewrite IH. auto.
    + specialize (IH (c :: cur)). revert IH. destruct (split_dots s (c :: cur)) as [|x r]; [intros []|]. intros IH.
      cbn [rev] in IH. rewrite <- app_assoc in IH. auto.
Qed.

Definition next_version (v : version) (c : changes) : version :=
  let '(a, b, d) := v in
  match breaking c, additive c with
  | _ :: _, _ => if (a =? 0)%N then (0, succ_u64 b, 0)%N else (succ_u64 a, 0, 0)%N
  | [], _ :: _ => (a, succ_u64 b, 0)%N
  | [], [] => (a, b, succ_u64 d)
  end.

Lemma succ_u64_lt : forall n, (succ_u64 n < 18446744073709551616)%N.
Proof. intros. unfold succ_u64. apply N.mod_lt. lia. Qed.

Lemma calculate_some : forall v current c,
  version_text v current ->
  (let '(x, y, z) := v in x < 18446744073709551616 /\ y < 18446744073709551616 /\ z < 18446744073709551616)%N ->
  exists s, calculate_next_version current c = Some s /\ version_canonical (next_version v c) s.
Proof.
  intros [[a b] d] current c (x & y & z & -> & Hx & Hy & Hz) (Ha & Hb & Hd).
  unfold calculate_next_version. cbn [app].
  rewrite split_dots_app by (apply digits_no_dot; apply Hx).
  rewrite split_dots_app by (apply digits_no_dot; apply Hy).
  rewrite split_dots_last by (apply digits_no_dot; apply Hz). cbn [rev app].
  rewrite (parse_u64_decimal x a), (parse_u64_decimal y b), (parse_u64_decimal z d) by auto.
  assert (Hfin : forall p q r, (p < 18446744073709551616)%N -> (q < 18446744073709551616)%N -> (r < 18446744073709551616)%N ->
    exists s, Some (show_u64 p ++ cDOT :: show_u64 q ++ cDOT :: show_u64 r) = Some s /\ version_canonical (p, q, r) s).
  { intros p q r Hp Hq Hr. eexists. split; [reflexivity|].
    exists (show_u64 p), (show_u64 q), (show_u64 r). splits; auto; apply show_u64_spec; auto. }
  pose proof succ_u64_lt. unfold next_version.
  destruct (breaking c); [destruct (additive c)|destruct (a =? 0)%N]; cbn [app]; apply Hfin; auto; lia.
Qed.

(** ** JSON *)

Fixpoint json_get (k : str) (m : list (str * json)) : option json :=
  match m with
  | [] => None
  | (k', v) :: r => if str_eqb k k' then Some v else json_get k r
  end.

Lemma json_get_insert : forall po k v m k', json_get k' (json_insert po k v m) =
  if str_eqb k' k then Some v else json_get k' m.
Proof.
  intros po k v m k'. induction m as [|[k2 v2] m IH]; cbn [json_insert json_get]; [auto|].
  destruct (str_eqb k k2) eqn:E.
  - apply str_eqb_eq in E as <-. cbn [json_get]. destruct (str_eqb k' k); auto.
  - destruct (negb po && str_ltb k k2); cbn [json_get]; [auto|].
    rewrite IH. destruct (str_eqb k' k2) eqn:E2; [|auto].
    apply str_eqb_eq in E2 as ->. destruct (str_eqb k2 k) eqn:E3; [|auto].
    apply str_eqb_eq in E3 as ->. rewrite str_eqb_refl in E. discriminate.
Qed.

Section Inj.
Variable po : bool.
Variable debug : value -> str.

Definition entry_step (m : list (str * json)) (e : entry) : list (str * json) :=
  match e with Ent k v _ => json_insert po (json_key debug k) (value_to_json po debug v) m end.

Definition id_text (id : option str) : str := match id with None => [cAT] | Some t => t end.

Lemma json_key_id : forall k id, key_id k = Some id -> json_key debug k = id_text id.
Proof.
  intros [t p s] id. destruct t; [discriminate|]. destruct p; intros [= <-]; reflexivity.
Qed.

(** What the map built from an object answers. *)
Lemma entries_get : forall es m k,
  plain_entries es -> k <> Some [cAT] ->
  json_get (id_text k) (fold_left entry_step es m) =
    match entry_for k es with
    | Some v => Some (value_to_json po debug v)
    | None => json_get (id_text k) m
    end.
Proof.
  induction es as [|[k0 v0 d0] es IH]; intros m k Hp Hk; [reflexivity|].
  inversion Hp as [|? ? ? ? id Hid Hat Htag Hd Hv Hes]; subst.
  cbn [fold_left]. rewrite IH by auto. cbn [entry_step entry_for]. rewrite (json_key_id _ _ Hid), Hid.
  assert (Hnone : id = k -> entry_for k es = None).
  { intros ->. clear IH Hp Hes. induction es as [|[k1 v1 d1] es IH]; [auto|]. cbn [entry_for].
    assert (H1 := Hd k1 v1 d1 (or_introl eq_refl)).
    assert (IH' : entry_for k es = None) by (apply IH; intros; eapply Hd; right; eauto).
    destruct (key_id k1) as [[t|]|] eqn:Ek1; destruct k as [t'|]; auto.
    - destruct (str_eqb t t') eqn:E; [|auto]. apply str_eqb_eq in E as ->. exfalso; apply H1; reflexivity.
    - exfalso; apply H1; reflexivity. }
  rewrite json_get_insert.
  destruct (entry_for k es) as [v|] eqn:Ek.
  - destruct id as [t|]; destruct k as [t'|]; auto.
    + destruct (str_eqb t t') eqn:E; [|auto]. apply str_eqb_eq in E as ->. specialize (Hnone eq_refl). discriminate.
    + specialize (Hnone eq_refl). discriminate.
  - destruct id as [t|]; destruct k as [t'|]; cbn [id_text].
    + destruct (str_eqb t t') eqn:E.
      * apply str_eqb_eq in E as ->. rewrite str_eqb_refl. auto.
      * destruct (str_eqb t' t) eqn:E2; [|auto]. apply str_eqb_eq in E2 as ->. rewrite str_eqb_refl in E. discriminate.
    + destruct (str_eqb [cAT] t) eqn:E; [|auto]. apply str_eqb_eq in E as <-. elim Hat. reflexivity.
    + destruct (str_eqb t' [cAT]) eqn:E; [|auto]. apply str_eqb_eq in E as ->. elim Hk. reflexivity.
    + rewrite str_eqb_refl. auto.
Qed.

Lemma entry_for_special : forall es, plain_entries es ->
  entry_for (Some [cAT]) es = None /\ entry_for (Some (lit "$tag")) es = None.
Proof.
  induction 1 as [|k v d es id Hid H1 H2 H3 Hv Hes IH]; [auto|]. cbn [entry_for]. rewrite Hid.
  destruct id as [t|]; [|auto]. split.
  - destruct (str_eqb t [cAT]) eqn:E; [apply str_eqb_eq in E as ->; elim H1; reflexivity|apply IH].
  - destruct (str_eqb t (lit "$tag")) eqn:E; [apply str_eqb_eq in E as ->; elim H2; reflexivity|apply IH].
Qed.

Lemma entry_for_in : forall k es v, entry_for k es = Some v -> exists k' d, In (Ent k' v d) es.
Proof.
  induction es as [|[k' v' d'] es IH]; intros v H; [discriminate|]. cbn [entry_for] in H.
  destruct (key_id k') as [[t|]|]; destruct k as [t'|]; try (destruct (str_eqb t t'));
    try (injection H as <-; exists k', d'; left; auto; fail);
    destruct (IH v H) as (k2 & d2 & Hin); exists k2, d2; right; auto.
Qed.

Lemma plain_in : forall es k v d, plain_entries es -> In (Ent k v d) es -> plain v.
Proof.
  induction 1 as [|k0 v0 d0 es id Hid H1 H2 H3 Hv Hes IH]; intros Hin; [destruct Hin|].
  destruct Hin as [E|Hin]; [injection E as -> -> ->; auto|auto].
Qed.

Lemma tagged_get : forall nm sp p s, exists m,
  value_to_json po debug (Val (Some (nm, sp)) p s) = JObj m /\ json_get (lit "$tag") m = Some (JStr nm) /\
  json_get (lit "$payload") m = match p with PNone => None | _ => Some (payload_to_json po debug p) end.
Proof.
  intros nm sp p s. cbn [value_to_json]. eexists. split; [reflexivity|].
  destruct p; rewrite ?json_get_insert; split; reflexivity.
Qed.

(** Sizes, for induction. *)
Fixpoint vsize (v : value) : nat := match v with Val _ p _ => S (psize p) end
with psize (p : payload) : nat :=
  match p with
  | PNone | PScalar _ _ _ => 0
  | PSeq l _ => list_sum (map vsize l)
  | PObj es _ => list_sum (map (fun e => match e with Ent _ v _ => vsize v end) es)
  end.

Lemma size_in : forall es k v d, In (Ent k v d) es -> vsize v <= list_sum (map (fun e => match e with Ent _ v _ => vsize v end) es).
Proof.
  induction es as [|e es IH]; intros k v d Hin; [destruct Hin|]. cbn [map list_sum fold_right].
  change (list_sum (?a :: ?b)) with (a + list_sum b).
  destruct Hin as [->|Hin]; cbn; [|specialize (IH _ _ _ Hin); unfold list_sum in IH]; lia.
Qed.

Lemma same_of_json : forall n a b, vsize a <= n -> plain a -> plain b ->
  value_to_json po debug a = value_to_json po debug b -> same a b.
Proof.
  induction n as [|n IH]; intros [t p s] [t' p' s'] Hn Ha Hb E; [cbn in Hn; lia|].
  inversion Ha as [? ? ? Hp]; inversion Hb as [? ? ? Hp']; subst.
  cbn [vsize] in Hn.
  (* payloads *)
  assert (P : forall p p', psize p <= n -> plain_payload p -> plain_payload p' ->
    payload_to_json po debug p = payload_to_json po debug p' -> same_payload p p').
  { clear E Hp Hp' Hn Ha Hb p p'. intros p p' Hn Hp Hp' E.
    destruct p as [|x k sp|l sp|es sp]; destruct p' as [|x' k' sp'|l' sp'|es' sp']; try discriminate E.
    - constructor.
    - cbn in E. injection E as ->. constructor.
    - cbn in E. injection E as E. constructor. cbn [psize] in Hn.
      inversion Hp as [| |? ? Hl|]; inversion Hp' as [| |? ? Hl'|]; subst.
      clear Hp Hp'. revert l' E Hl'. induction Hl as [|v l Hv Hl IHl]; intros l' E Hl'.
      + destruct l'; [constructor|discriminate].
      + destruct l' as [|v' l']; [discriminate|]. cbn [map] in E. injection E as E E'.
        cbn [map] in Hn. change (list_sum (?a :: ?b)) with (a + list_sum b) in Hn.
        inversion Hl'; subst. constructor; [apply IH; auto; lia|apply IHl; auto; lia].
    - cbn in E. injection E as E. cbn [psize] in Hn.
      inversion Hp as [| | |? ? He]; inversion Hp' as [| | |? ? He']; subst.
      change (fold_left entry_step es [] = fold_left entry_step es' []) in E.
      assert (G : forall k, k <> Some [cAT] ->
        match entry_for k es with Some v => Some (value_to_json po debug v) | None => None end =
        match entry_for k es' with Some v => Some (value_to_json po debug v) | None => None end).
      { intros k Hk. pose proof (entries_get es [] k He Hk) as A. pose proof (entries_get es' [] k He' Hk) as B.
        rewrite E in A. rewrite A in B. exact B. }
      constructor.
      + intros k v Hk. assert (Hne : k <> Some [cAT]) by (intros ->; rewrite (proj1 (entry_for_special es He)) in Hk; discriminate).
        specialize (G k Hne). rewrite Hk in G. destruct (entry_for k es') as [v'|] eqn:Ek'; [|discriminate].
        exists v'. split; [auto|]. injection G as G.
        destruct (entry_for_in _ _ _ Hk) as (k1 & d1 & Hin). destruct (entry_for_in _ _ _ Ek') as (k2 & d2 & Hin').
        apply IH; [|exact (plain_in _ _ _ _ He Hin)|exact (plain_in _ _ _ _ He' Hin')|auto].
        pose proof (size_in _ _ _ _ Hin). lia.
      + intros k v' Hk. assert (Hne : k <> Some [cAT]) by (intros ->; rewrite (proj1 (entry_for_special es' He')) in Hk; discriminate).
        specialize (G k Hne). rewrite Hk in G. destruct (entry_for k es) as [v|] eqn:Ek'; [|discriminate].
        exists v. split; [auto|]. injection G as G.
        destruct (entry_for_in _ _ _ Ek') as (k1 & d1 & Hin). destruct (entry_for_in _ _ _ Hk) as (k2 & d2 & Hin').
        apply IH; [|exact (plain_in _ _ _ _ He Hin)|exact (plain_in _ _ _ _ He' Hin')|auto].
        pose proof (size_in _ _ _ _ Hin). lia. }
  (* an untagged value is never taken for a tagged one *)
  assert (Untag : forall nm sp p p', plain_payload p' ->
    value_to_json po debug (Val (Some (nm, sp)) p None) = payload_to_json po debug p' -> False).
  { clear. intros nm sp p p' Hp' E. destruct p' as [|x' k' sp'|l' sp'|es' sp']; try discriminate E.
    inversion Hp' as [| | |? ? He]; subst. change (payload_to_json po debug (PObj es' sp')) with (JObj (fold_left entry_step es' [])) in E.
    assert (G : json_get (lit "$tag") (fold_left entry_step es' []) = None).
    { pose proof (entries_get es' [] (Some (lit "$tag")) He) as A.
      rewrite (proj2 (entry_for_special es' He)) in A. apply A. discriminate. }
    destruct (tagged_get nm sp p None) as (m & Em & G1 & _). rewrite Em in E. injection E as ->. rewrite G1 in G. discriminate. }
  destruct t as [[nm sp]|]; destruct t' as [[nm' sp']|].
  - destruct (tagged_get nm sp p s) as (m & Em & G1 & G2). destruct (tagged_get nm' sp' p' s') as (m' & Em' & G1' & G2').
    rewrite Em, Em' in E. injection E as <-. rewrite G1 in G1'. injection G1' as <-. rewrite G2 in G2'.
    constructor; [auto|]. apply P; auto; [lia|]. destruct p; destruct p'; try discriminate; try reflexivity;
      apply (f_equal (fun o => match o with Some x => x | None => JNull end)) in G2'; exact G2'.
  - exfalso. apply (Untag nm sp p p' Hp'). exact E.
  - exfalso. symmetry in E. apply (Untag nm' sp' p' p Hp). exact E.
  - constructor; [auto|]. apply P; auto. lia.
Qed.
End Inj.
