(** Lemmas about values, objects and path lookup. *)
From Verif Require Import Base BaseProofs TokModel LexModel ParseModel ParseSpec TreeModel TreeSpec.

(** ** Objects as ordered maps *)

Lemma key_is_iff k e : key_is k e = true <-> as_str (e_key e) = Some k.
Proof.
  unfold key_is. destruct (as_str (e_key e)) as [s|]; [|split; discriminate].
  rewrite str_eqb_eq. split; congruence.
Qed.

Lemma find_val_cut p es : match find_val p es with
  | Some v => exists a e b, es = a ++ e :: b /\ p e = true /\ e_val e = v /\ Forall (fun x => p x = false) a
  | None => Forall (fun x => p x = false) es
  end.
Proof.
  induction es as [|e es IH]; cbn; [constructor|]. destruct (p e) eqn:E.
  - exists [], e, es. auto.
  - destruct (find_val p es) as [v|].
    + destruct IH as (a & x & b & -> & H1 & H2 & H3). exists (e :: a), x, b. splits; auto.
    + auto.
Qed.

Lemma find_mut_cut p es : match find_mut p es with
  | Some (v, put) => exists a e b, es = a ++ e :: b /\ p e = true /\ e_val e = v /\ Forall (fun x => p x = false) a /\
      forall x, put x = a ++ Ent (e_key e) x (e_doc e) :: b
  | None => Forall (fun x => p x = false) es
  end.
Proof.
  induction es as [|e es IH]; cbn; [constructor|]. destruct (p e) eqn:E.
  - exists [], e, es. splits; auto.
  - destruct (find_mut p es) as [[v put]|].
    + destruct IH as (a & x & b & -> & H1 & H2 & H3 & H4). exists (e :: a), x, b. splits; auto.
      intros y. now rewrite H4.
    + auto.
Qed.

Lemma find_val_app p a e b : Forall (fun x => p x = false) a -> p e = true -> find_val p (a ++ e :: b) = Some (e_val e).
Proof. induction 1 as [|x a H _ IH]; cbn; intros E; [now rewrite E|]. rewrite H. auto. Qed.

Lemma find_mut_val p es : find_val p es = option_map fst (find_mut p es).
Proof.
  pose proof (find_mut_cut p es) as H. destruct (find_mut p es) as [[v put]|].
  - destruct H as (a & e & b & -> & H1 & <- & H3 & _). now apply find_val_app.
  - pose proof (find_val_cut p es) as H'. destruct (find_val p es) as [v|]; [|reflexivity].
    destruct H' as (a & e & b & -> & H1 & _). apply Forall_app in H. destruct H as [_ H]. inversion_clear H. congruence.
Qed.

Lemma not_keys k a : Forall (fun x => key_is k x = false) a <-> ~ In (Some k) (text_keys a).
Proof.
  unfold text_keys. rewrite Forall_forall, in_map_iff. split.
  - intros H (x & E & Hx). apply key_is_iff in E. rewrite (H x Hx) in E. discriminate.
  - intros H x Hx. destruct (key_is k x) eqn:E; [|reflexivity]. exfalso. apply H. exists x. split; [|exact Hx]. now apply key_is_iff.
Qed.

Lemma app_first_unique {A} (p : A -> bool) (a : list A) x b a' x' b' : a ++ x :: b = a' ++ x' :: b' ->
  Forall (fun y => p y = false) a -> Forall (fun y => p y = false) a' -> p x = true -> p x' = true -> a = a' /\ x = x' /\ b = b'.
Proof.
  revert a'. induction a as [|y a IH]; intros [|y' a'] E H H' Hx Hx'; cbn in E.
  - injection E as -> ->. auto.
  - injection E as -> _. inversion_clear H'. congruence.
  - injection E as <- _. inversion_clear H. congruence.
  - injection E as <- E. inversion_clear H. inversion_clear H'. destruct (IH a' E) as (-> & -> & ->); auto.
Qed.

Lemma obj_get_iff es k v : obj_get k es = Some v <-> maps_to es k v.
Proof.
  unfold obj_get, maps_to. split.
  - intros E. pose proof (find_val_cut (key_is k) es) as H. rewrite E in H. destruct H as (a & e & b & -> & H1 & <- & H3).
    exists a, e, b. splits; auto; [now apply key_is_iff|now apply not_keys].
  - intros (a & e & b & -> & H1 & <- & H3). apply find_val_app; [now apply not_keys|now apply key_is_iff].
Qed.

Lemma obj_get_none es k : obj_get k es = None <-> ~ In (Some k) (text_keys es).
Proof.
  unfold obj_get. pose proof (find_val_cut (key_is k) es) as H. destruct (find_val (key_is k) es) as [v|].
  - split; [discriminate|]. intros Hn. apply not_keys in Hn. destruct H as (a & e & b & -> & H1 & _).
    apply Forall_app in Hn. destruct Hn as [_ Hn]. inversion_clear Hn. congruence.
  - apply not_keys in H. tauto.
Qed.

(** Replacing the value at one place, or adding at the end. *)
Lemma insert_cut k v es :
  (exists a e b, es = a ++ e :: b /\ as_str (e_key e) = Some k /\ ~ In (Some k) (text_keys a) /\
     insert k v es = a ++ Ent (e_key e) v (e_doc e) :: b) \/
  (~ In (Some k) (text_keys es) /\ insert k v es = es ++ [Ent (scalar_value k) v None]).
Proof.
  unfold insert. pose proof (find_mut_cut (key_is k) es) as H. destruct (find_mut (key_is k) es) as [[w put]|].
  - left. destruct H as (a & e & b & -> & H1 & H2 & H3 & H4). exists a, e, b. rewrite H4. splits; auto; [now apply key_is_iff|now apply not_keys].
  - right. split; [now apply not_keys|reflexivity].
Qed.

Lemma insert_unit_cut v es :
  (exists a e b, es = a ++ e :: b /\ is_unit (e_key e) = true /\ Forall (fun x => is_unit (e_key x) = false) a /\
     insert_unit v es = a ++ Ent (e_key e) v (e_doc e) :: b) \/
  (Forall (fun x => is_unit (e_key x) = false) es /\ insert_unit v es = es ++ [Ent unit_value v None]).
Proof.
  unfold insert_unit. pose proof (find_mut_cut (fun e => is_unit (e_key e)) es) as H. destruct (find_mut _ es) as [[w put]|].
  - left. destruct H as (a & e & b & -> & H1 & H2 & H3 & H4). exists a, e, b. rewrite H4. splits; auto.
  - right. split; [exact H|reflexivity].
Qed.

Lemma text_keys_app a b : text_keys (a ++ b) = text_keys a ++ text_keys b.
Proof. apply map_app. Qed.

Lemma insert_get_same k v es : maps_to (insert k v es) k v.
Proof.
  destruct (insert_cut k v es) as [(a & e & b & -> & H1 & H2 & ->)|[H ->]].
  - exists a, (Ent (e_key e) v (e_doc e)), b. auto.
  - exists es, (Ent (scalar_value k) v None), []. auto.
Qed.

Lemma maps_to_cases es k : (exists v, maps_to es k v) \/ ~ In (Some k) (text_keys es).
Proof.
  destruct (obj_get k es) as [v|] eqn:E; [left|right].
  - exists v. now apply obj_get_iff.
  - now apply obj_get_none.
Qed.

Lemma find_val_ext p a e e' b : p e = p e' -> p e = false \/ e_val e = e_val e' -> find_val p (a ++ e :: b) = find_val p (a ++ e' :: b).
Proof.
  intros E H. induction a as [|x a IH]; cbn; [|now rewrite IH]. rewrite <- E. destruct (p e); [|reflexivity].
  destruct H as [H| ->]; [discriminate|reflexivity].
Qed.

Lemma find_val_snoc p a e : p e = false -> find_val p (a ++ [e]) = find_val p a.
Proof. intros E. induction a as [|x a IH]; cbn; [now rewrite E|now rewrite IH]. Qed.

Lemma insert_get_other k v es k' : k' <> k -> obj_get k' (insert k v es) = obj_get k' es.
Proof.
  intros Hk. destruct (insert_cut k v es) as [(a & e & b & -> & H1 & H2 & ->)|[H ->]].
  - apply find_val_ext.
    + reflexivity.
    + left. unfold key_is. cbn. rewrite H1. apply str_eqb_neq. congruence.
  - apply find_val_snoc. unfold key_is. cbn. apply str_eqb_neq. congruence.
Qed.

Lemma insert_keys k v es : text_keys (insert k v es) = text_keys es \/
  ~ In (Some k) (text_keys es) /\ text_keys (insert k v es) = text_keys es ++ [Some k].
Proof.
  destruct (insert_cut k v es) as [(a & e & b & -> & H1 & H2 & ->)|[H ->]].
  - left. rewrite !text_keys_app. reflexivity.
  - right. split; [exact H|]. now rewrite text_keys_app.
Qed.

Lemma insert_unit_get v es : obj_get_unit (insert_unit v es) = Some v.
Proof.
  destruct (insert_unit_cut v es) as [(a & e & b & -> & H1 & H2 & ->)|[H ->]].
  - now apply (find_val_app (fun e => is_unit (e_key e)) a (Ent (e_key e) v (e_doc e)) b).
  - now apply (find_val_app (fun e => is_unit (e_key e)) es (Ent unit_value v None) []).
Qed.

Lemma is_unit_not_text e k : is_unit (e_key e) = true -> key_is k e = false.
Proof. unfold key_is. destruct (e_key e) as [[t|] [| | |] ?]; cbn; congruence. Qed.

Lemma insert_unit_get_other v es k : obj_get k (insert_unit v es) = obj_get k es.
Proof.
  destruct (insert_unit_cut v es) as [(a & e & b & -> & H1 & H2 & ->)|[H ->]].
  - apply find_val_ext; [reflexivity|left]. now apply is_unit_not_text.
  - now apply find_val_snoc.
Qed.

Lemma contains_key_iff k es : contains_key k es = true <-> exists v, maps_to es k v.
Proof.
  unfold contains_key. rewrite existsb_exists. split.
  - intros (e & He & E). destruct (maps_to_cases es k) as [H|H]; [exact H|]. exfalso. apply H. apply key_is_iff in E.
    rewrite <- E. apply in_map_iff. eauto.
  - intros (v & a & e & b & -> & E & _). exists e. split; [rewrite in_app_iff; cbn; auto|]. now apply key_is_iff.
Qed.

(** ** Paths *)

Lemma cut_at_some c s a b : cut_at c s = Some (a, b) <-> s = a ++ c :: b /\ ~ In c a.
Proof.
  revert a b. induction s as [|x s IH]; intros a b; cbn [cut_at].
  - split; [discriminate|]. intros [E _]. destruct a; discriminate.
  - destruct (N.eqb_spec x c) as [->|E].
    + split.
      * intros [= <- <-]. cbn. auto.
      * intros [E H]. destruct a as [|y a]; cbn in E; inversion E; subst; [reflexivity|]. cbn in H. tauto.
    + split.
      * destruct (cut_at c s) as [[a' b']|]; [|discriminate]. intros [= <- <-].
        destruct (proj1 (IH a' b') eq_refl) as [-> H]. cbn. split; [reflexivity|]. intros [?|?]; auto.
      * intros [Es H]. destruct a as [|y a]; cbn in Es; inversion Es; subst; [congruence|].
        cbn in H. rewrite (proj2 (IH a b)); [reflexivity|]. auto.
Qed.

Lemma cut_at_none c s : cut_at c s = None <-> ~ In c s.
Proof.
  destruct (cut_at c s) as [[a b]|] eqn:E.
  - apply cut_at_some in E. destruct E as [-> _]. split; [discriminate|]. rewrite in_app_iff. cbn. tauto.
  - split; [|reflexivity]. intros _ H. apply in_split in H. destruct H as (a & b & ->).
    revert E. clear. induction a as [|x a IH]; cbn; [now rewrite N.eqb_refl|]. destruct (x =? c)%N; [discriminate|].
    destruct (cut_at c (a ++ c :: b)) as [[? ?]|]; [discriminate|auto].
Qed.

Lemma cut_at_app c k s : ~ In c k -> cut_at c (k ++ s) = match cut_at c s with Some (a, b) => Some (k ++ a, b) | None => None end.
Proof.
  intros H. induction k as [|x k IH]; cbn; [now destruct (cut_at c s) as [[? ?]|]|].
  cbn in H. destruct (N.eqb_spec x c); [tauto|]. rewrite IH by tauto. now destruct (cut_at c s) as [[? ?]|].
Qed.

Lemma digits_dec f : forall n acc, N.to_nat n < f -> (n < 18446744073709551616)%N ->
  dec_value 0 (digits_fuel f n acc) = dec_value n acc.
Proof.
  induction f as [|f IH]; intros n acc Hf Hn; [lia|]. cbn [digits_fuel].
  pose proof (N.div_mod' n 10) as Hd. pose proof (N.mod_lt n 10 ltac:(discriminate)) as Hm.
  assert (Hdig : is_digit (48 + n mod 10)%N = true).
  { unfold is_digit, in_range. apply andb_true_intro. split; apply N.leb_le; lia. }
  destruct (N.ltb_spec n 10) as [Hlt|Hge].
  - cbn [dec_value]. rewrite Hdig. rewrite N.mod_small by exact Hlt.
    replace (0 * 10 + (48 + n - 48))%N with n by lia. rewrite (proj2 (N.ltb_lt n _) Hn). reflexivity.
  - rewrite IH by (try lia; (assert (n / 10 < n)%N by (apply N.div_lt; lia); lia)).
    cbn [dec_value]. rewrite Hdig. replace (n / 10 * 10 + (48 + n mod 10 - 48))%N with n by lia.
    rewrite (proj2 (N.ltb_lt n _) Hn). reflexivity.
Qed.

Lemma digits_head f n acc : exists d r, digits_fuel (S f) n acc = d :: r /\ is_digit d = true.
Proof.
  revert n acc. induction f as [|f IH]; intros n acc; cbn [digits_fuel].
  - assert (Hdig : is_digit (48 + n mod 10)%N = true).
    { pose proof (N.mod_lt n 10 ltac:(discriminate)). unfold is_digit, in_range. apply andb_true_intro. split; apply N.leb_le; lia. }
    destruct (n <? 10)%N; eauto.
  - assert (Hdig : is_digit (48 + n mod 10)%N = true).
    { pose proof (N.mod_lt n 10 ltac:(discriminate)). unfold is_digit, in_range. apply andb_true_intro. split; apply N.leb_le; lia. }
    destruct (n <? 10)%N; [eauto|]. exact (IH (n / 10)%N _).
Qed.

Lemma digits_all f : forall n acc, Forall (fun c => is_digit c = true) acc -> Forall (fun c => is_digit c = true) (digits_fuel f n acc).
Proof.
  induction f as [|f IH]; intros n acc H; [exact H|]. cbn [digits_fuel].
  assert (Hdig : is_digit (48 + n mod 10)%N = true).
  { pose proof (N.mod_lt n 10 ltac:(discriminate)). unfold is_digit, in_range. apply andb_true_intro. split; apply N.leb_le; lia. }
  destruct (n <? 10)%N; auto.
Qed.

Lemma digit_not c d : is_digit c = true -> is_digit d = false -> c <> d.
Proof. congruence. Qed.

Lemma decimal_ok n : (N.of_nat n < 18446744073709551616)%N -> parse_usize (decimal n) = Some n.
Proof.
  intros H. unfold decimal. pose proof (digits_dec (S n) (N.of_nat n) []) as E.
  destruct (digits_head n (N.of_nat n) []) as (d & r & Ed & Hd). rewrite Ed in *.
  unfold parse_usize. destruct (N.eqb_spec d 43) as [->|_]; [discriminate|]. rewrite E; [|lia|exact H].
  cbn. now rewrite Nat2N.id.
Qed.

Lemma decimal_not n c : is_digit c = false -> ~ In c (decimal n).
Proof.
  intros H Hin. pose proof (digits_all (S n) (N.of_nat n) [] ltac:(constructor)) as Hf. rewrite Forall_forall in Hf.
  specialize (Hf c Hin). congruence.
Qed.

Definition step_text (s : step) : str := match s with SKey k => k | SIdx n => cLSQ :: decimal n ++ [cRSQ] end.

Lemma split_key k r : step_ok (SKey k) -> split_path (k ++ path_text false r) = (k, path_text true r).
Proof.
  intros (H0 & Hd & Hb).
  assert (split_path (k ++ path_text false r) = split_plain (k ++ path_text false r)) as ->.
  { destruct k as [|c k]; [congruence|]. cbn. destruct (N.eqb_spec c cLSQ) as [->|_]; [|reflexivity]. exfalso. apply Hb. now left. }
  unfold split_plain. rewrite !cut_at_app by assumption. destruct r as [|[k2|n] r]; cbn [path_text app].
  - now rewrite app_nil_r.
  - cbn [cut_at]. rewrite N.eqb_refl, app_nil_r. change (cDOT =? cLSQ)%N with false. cbn iota.
    destruct (cut_at cLSQ (k2 ++ path_text false r)) as [[a b]|]; [|reflexivity].
    rewrite app_length. cbn [length]. destruct (_ <? _) eqn:E; [apply Nat.ltb_lt in E; unfold char in *; lia|reflexivity].
  - cbn [cut_at]. rewrite N.eqb_refl, app_nil_r. change (cLSQ =? cDOT)%N with false. cbn iota.
    destruct (cut_at cDOT (decimal n ++ cRSQ :: path_text false r)) as [[a b]|]; [|reflexivity].
    rewrite app_length. cbn [length]. destruct (_ <? _) eqn:E; [reflexivity|apply Nat.ltb_ge in E; unfold char in *; lia].
Qed.

Lemma split_idx n r : split_path (cLSQ :: decimal n ++ cRSQ :: path_text false r) = (cLSQ :: decimal n ++ [cRSQ], path_text true r).
Proof.
  unfold split_path. cbn [N.eqb Pos.eqb cLSQ].
  change (cLSQ :: decimal n ++ cRSQ :: path_text false r) with ((cLSQ :: decimal n) ++ cRSQ :: path_text false r).
  rewrite cut_at_app.
  - cbn [cut_at]. rewrite N.eqb_refl, app_nil_r. change (cLSQ =? cLSQ)%N with true. cbn iota. f_equal.
    destruct r as [|[k|m] r]; reflexivity.
  - intros [E|E]; [discriminate|]. now apply decimal_not in E.
Qed.

Lemma split_step s r : step_ok s -> split_path (path_text true (s :: r)) = (step_text s, path_text true r).
Proof. destruct s; cbn [path_text app]; intros H; [now apply split_key|apply split_idx]. Qed.

Lemma text_nil l : Forall step_ok l -> path_text true l = [] -> l = [].
Proof.
  destruct l as [|[k|n] l]; [reflexivity| |discriminate]. intros H. inversion_clear H as [|? ? Hs _]. destruct Hs as [Hk _]. cbn.
  destruct k; [congruence|discriminate].
Qed.

Lemma text_length s l : step_ok s -> length (path_text true l) < length (path_text true (s :: l)).
Proof.
  assert (length (path_text true l) <= length (path_text false l)).
  { destruct l as [|[k|n] l]; cbn; lia. }
  destruct s as [k|n]; cbn [path_text]; intros Hs.
  - destruct Hs as [Hk _]. destruct k; [congruence|]. cbn. rewrite app_length. unfold char in *. lia.
  - cbn. rewrite app_length. cbn. unfold char in *. lia.
Qed.

Lemma seg_index_idx n : (N.of_nat n < 18446744073709551616)%N -> seg_index (cLSQ :: decimal n ++ [cRSQ]) = Some n.
Proof.
  intros H. unfold seg_index. rewrite rev_app_distr. cbn [rev app]. rewrite rev_involutive.
  change ((cLSQ =? cLSQ)%N && (cRSQ =? cRSQ)%N) with true. now apply decimal_ok.
Qed.

Lemma seg_index_key k : step_ok (SKey k) -> seg_index k = None.
Proof.
  intros (H0 & _ & Hb). unfold seg_index. destruct k as [|c k]; [reflexivity|]. destruct (rev k) as [|d m]; [reflexivity|].
  destruct (N.eqb_spec c cLSQ) as [->|_]; [|reflexivity]. exfalso. apply Hb. now left.
Qed.

Lemma maps_to_fun es k v w : maps_to es k v -> maps_to es k w -> v = w.
Proof. rewrite <- !obj_get_iff. congruence. Qed.

Lemma child_fun v s w u : child v s w -> child v s u -> w = u.
Proof.
  intros [t es osp sp k x H|t items ssp sp n x H] H2; inversion H2; subst; [eapply maps_to_fun; eauto|congruence].
Qed.

Lemma reaches_get l : forall v u f, Forall step_ok l -> reaches v l u -> length (path_text true l) <= f ->
  get_fuel f v (path_text true l) = Some u.
Proof.
  induction l as [|s l IH]; intros v u f Hl Hr Hf.
  - inversion Hr. subst. cbn. destruct f; reflexivity.
  - inversion_clear Hl as [|? ? Hs Hl']. pose proof (text_length s l Hs) as Hlen.
    destruct (path_text true (s :: l)) as [|c p] eqn:Ep; [apply text_nil in Ep; [discriminate|auto]|].
    destruct f as [|f]; [cbn in Hf; lia|]. cbn [get_fuel]. rewrite <- Ep, split_step by exact Hs.
    inversion Hr as [|? ? w ? ? Hc Hr']. subst.
    assert (Hgo : match path_text true l with [] => Some w | _ :: _ => get_fuel f w (path_text true l) end = Some u).
    { assert (E : get_fuel f w (path_text true l) = Some u) by (apply IH; auto; cbn in *; lia).
      destruct (path_text true l) eqn:El; [|exact E]. destruct f; exact E. }
    destruct Hc as [t es osp sp k w Hm|t items ssp sp n w Hn]; cbn [v_payload step_text].
    + apply obj_get_iff in Hm. now rewrite Hm.
    + rewrite seg_index_idx by exact Hs. now rewrite Hn.
Qed.

Lemma get_reaches l : forall v u f, Forall step_ok l -> no_bracket_keys v -> get_fuel f v (path_text true l) = Some u -> reaches v l u.
Proof.
  induction l as [|s l IH]; intros v u f Hl Hv E.
  - assert (E' : Some v = Some u) by (destruct f; exact E). injection E' as <-. constructor.
  - inversion_clear Hl as [|? ? Hs Hl'].
    destruct (path_text true (s :: l)) as [|c p] eqn:Ep; [apply text_nil in Ep; [discriminate|auto]|].
    destruct f as [|f]; [discriminate|]. cbn [get_fuel] in E. rewrite <- Ep, split_step in E by exact Hs.
    assert (Hgo : forall w, no_bracket_keys w -> match path_text true l with [] => Some w | _ :: _ => get_fuel f w (path_text true l) end = Some u -> reaches w l u).
    { intros w Hw E'. apply (IH w u f); auto. destruct (path_text true l) eqn:El; [|exact E']. destruct f; exact E'. }
    destruct v as [t p' sp]. inversion_clear Hv as [? ? ? Hobj Hseq]. cbn [v_payload] in E. destruct p' as [| |items ssp|es osp]; try discriminate.
    + destruct s as [k|n]; cbn [step_text] in E.
      * rewrite seg_index_key in E by exact Hs. discriminate.
      * rewrite seg_index_idx in E by exact Hs. destruct (nth_error items n) as [w|] eqn:En; [|discriminate].
        econstructor; [constructor; exact En|]. apply Hgo; auto. specialize (Hseq _ _ eq_refl). rewrite Forall_forall in Hseq.
        apply Hseq. eapply nth_error_In; eauto.
    + destruct (obj_get (step_text s) es) as [w|] eqn:Eg; [|discriminate]. apply obj_get_iff in Eg.
      specialize (Hobj _ _ eq_refl). rewrite Forall_forall in Hobj. pose proof Eg as Eg'. destruct Eg' as (a & e & b & Ees & Ek & Ev & _).
      assert (Hin : In e es) by (rewrite Ees, in_app_iff; cbn; auto).
      destruct (Hobj e Hin) as [Hk Hw]. rewrite Ev in Hw.
      destruct s as [k|n]; cbn [step_text] in *; [|exfalso; eapply Hk; exact Ek].
      econstructor; [constructor; exact Eg|]. auto.
Qed.

(** ** Writing through a path *)

Lemma nth_mut_cut n l : match nth_mut n l with
  | Some (w, put) => exists a b, l = a ++ w :: b /\ length a = n /\ forall x, put x = a ++ x :: b
  | None => nth_error l n = None
  end.
Proof.
  revert n. induction l as [|v l IH]; intros n; [destruct n; reflexivity|]. destruct n as [|n]; cbn.
  - exists [], l. auto.
  - specialize (IH n). destruct (nth_mut n l) as [[w put]|]; [|exact IH].
    destruct IH as (a & b & -> & <- & H). exists (v :: a), b. splits; auto. intros x. now rewrite H.
Qed.

Lemma nth_error_cut {A} (a : list A) x b : nth_error (a ++ x :: b) (length a) = Some x.
Proof. induction a; auto. Qed.

Lemma get_mut_get f : forall v path, match get_mut_fuel f v path with
  | Some (w, put) => get_fuel f v path = Some w /\ put w = v /\ forall x, get_fuel f (put x) path = Some x
  | None => get_fuel f v path = None
  end.
Proof.
  induction f as [|f IH]; intros v path; [destruct path; cbn; auto|].
  destruct path as [|c p]; [cbn; auto|]. cbn [get_mut_fuel get_fuel]. destruct (split_path (c :: p)) as [seg rest].
  destruct v as [t p' sp]. cbn [v_payload]. destruct p' as [| |items ssp|es osp]; auto.
  - destruct (seg_index seg) as [i|]; [|reflexivity]. pose proof (nth_mut_cut i items) as H.
    destruct (nth_mut i items) as [[w put]|]; [|now rewrite H]. destruct H as (a & b & -> & <- & Hput).
    rewrite nth_error_cut. destruct rest as [|c' r].
    + splits; auto; [now rewrite Hput|]. intros x. cbn. now rewrite Hput, nth_error_cut.
    + specialize (IH w (c' :: r)). destruct (get_mut_fuel f w (c' :: r)) as [[u put']|]; [|exact IH].
      destruct IH as (H1 & H2 & H3). splits; auto; [now rewrite H2, Hput|]. intros x. cbn [v_payload]. now rewrite Hput, nth_error_cut.
  - unfold obj_get. pose proof (find_mut_cut (key_is seg) es) as H. rewrite find_mut_val.
    destruct (find_mut (key_is seg) es) as [[w put]|]; [|reflexivity]. cbn [option_map fst].
    destruct H as (a & e & b & Ees & He & Hw & Ha & Hput).
    assert (Hfind : forall x, find_val (key_is seg) (put x) = Some x).
    { intros x. rewrite Hput. now apply (find_val_app (key_is seg) a (Ent (e_key e) x (e_doc e)) b). }
    assert (Hid : put w = es) by (rewrite Hput, Ees, <- Hw; now destruct e).
    destruct rest as [|c' r].
    + splits; auto; [now rewrite Hid|]. intros x. cbn. now rewrite Hfind.
    + specialize (IH w (c' :: r)). destruct (get_mut_fuel f w (c' :: r)) as [[u put']|]; [|exact IH].
      destruct IH as (H1 & H2 & H3). splits; auto; [now rewrite H2, Hid|]. intros x. cbn [v_payload]. now rewrite Hfind.
Qed.

Lemma reaches_cons_iff v s l u : reaches v (s :: l) u <-> exists w, child v s w /\ reaches w l u.
Proof. split; [intros H; inversion H; subst; eauto|intros (w & H1 & H2); econstructor; eauto]. Qed.

Lemma child_obj_key t es osp sp k w : child (Val t (PObj es osp) sp) (SKey k) w <-> maps_to es k w.
Proof. split; [intros H; now inversion H|now constructor]. Qed.
Lemma child_seq_idx t items ssp sp n w : child (Val t (PSeq items ssp) sp) (SIdx n) w <-> nth_error items n = Some w.
Proof. split; [intros H; now inversion H|now constructor]. Qed.

Lemma mut_elsewhere l : forall f v u put q, Forall step_ok l -> Forall step_ok q -> diverge l q ->
  get_mut_fuel f v (path_text true l) = Some (u, put) -> forall x z, reaches (put x) q z <-> reaches v q z.
Proof.
  induction l as [|s l IH]; intros f v u put q Hl Hq (c & s1 & s2 & l1 & q1 & El & Eq & Hne) E x z.
  { destruct c; discriminate. }
  inversion_clear Hl as [|? ? Hs Hl'].
  destruct (path_text true (s :: l)) as [|ch p] eqn:Ep; [apply text_nil in Ep; [discriminate|auto]|].
  destruct f as [|f]; [discriminate|]. cbn [get_mut_fuel] in E. rewrite <- Ep, split_step in E by exact Hs.
  destruct v as [t p' sp]. destruct p' as [| |items ssp|es osp]; try discriminate.
  - destruct s as [k|n]; cbn [step_text] in E; [rewrite seg_index_key in E by exact Hs; discriminate|].
    rewrite seg_index_idx in E by exact Hs. pose proof (nth_mut_cut n items) as H.
    destruct (nth_mut n items) as [[w put1]|]; [|discriminate]. destruct H as (a & b & -> & Hn & Hput).
    set (here := fun x => Val t (PSeq (put1 x) ssp) sp) in E.
    destruct c as [|c0 c].
    + injection El as <- <-. cbn in Eq. subst q. inversion_clear Hq as [|? ? Hs2 _].
      assert (Hsame : forall x' w', child (here x') s2 w' <-> child (Val t (PSeq (a ++ w :: b) ssp) sp) s2 w').
      { intros x' w'. unfold here. destruct s2 as [k|m]; [split; intros H; inversion H|]. rewrite !child_seq_idx, Hput.
        assert (Hm : m <> length a) by congruence. clear - Hm. revert m Hm. induction a as [|y a IH]; intros [|m] Hm; cbn in *; try tauto.
        apply IH. lia. }
      destruct (path_text true l); [injection E as <- <-|destruct (get_mut_fuel f w _) as [[u' put']|]; [injection E as <- <-|discriminate]];
        rewrite !reaches_cons_iff; split; intros (w' & Hw1 & Hw2); exists w'; split; auto; eapply Hsame; eauto.
    + injection El as <- ->. cbn in Eq. subst q. inversion_clear Hq as [|? ? _ Hq'].
      assert (Hd : diverge (c ++ s1 :: l1) (c ++ s2 :: q1)) by (exists c, s1, s2, l1, q1; auto).
      destruct (path_text true (c ++ s1 :: l1)) eqn:El; [apply text_nil in El; [destruct c; discriminate|auto]|]. rewrite <- El in *.
      destruct (get_mut_fuel f w _) as [[u' put']|] eqn:Em; [injection E as <- <-|discriminate].
      specialize (IH f w u' put' _ Hl' Hq' Hd Em x z).
      rewrite !reaches_cons_iff. unfold here. rewrite Hput. split.
      * intros (w' & Hc & Hr). rewrite child_seq_idx, <- Hn, nth_error_cut in Hc. injection Hc as <-.
        exists w. rewrite child_seq_idx, <- Hn, nth_error_cut. split; [reflexivity|]. now apply IH.
      * intros (w' & Hc & Hr). rewrite child_seq_idx, <- Hn, nth_error_cut in Hc. injection Hc as <-.
        exists (put' x). rewrite child_seq_idx, <- Hn, nth_error_cut. split; [reflexivity|]. now apply IH.
  - pose proof (find_mut_cut (key_is (step_text s)) es) as H.
    destruct (find_mut (key_is (step_text s)) es) as [[w put1]|]; [|discriminate]. destruct H as (a & e & b & -> & He & Hw & Ha & Hput).
    set (here := fun x => Val t (PObj (put1 x) osp) sp) in E. apply key_is_iff in He as Hek.
    destruct c as [|c0 c].
    + injection El as <- <-. cbn in Eq. subst q. inversion_clear Hq as [|? ? Hs2 _].
      assert (Hsame : forall x' w', child (here x') s2 w' <-> child (Val t (PObj (a ++ e :: b) osp) sp) s2 w').
      { intros x' w'. unfold here. destruct s2 as [k|m]; [|split; intros H; inversion H]. rewrite !child_obj_key, Hput, <- !obj_get_iff.
        unfold obj_get. rewrite (find_val_ext (key_is k) a (Ent (e_key e) x' (e_doc e)) e b); [reflexivity|reflexivity|left].
        destruct (key_is k _) eqn:Ek; [|reflexivity]. apply key_is_iff in Ek. cbn in Ek. exfalso. rewrite Hek in Ek. injection Ek as Ek.
        destruct s as [k'|n]; cbn in Ek; [congruence|]. subst k. destruct Hs2 as (_ & _ & Hb). apply Hb. now left. }
      destruct (path_text true l); [injection E as <- <-|destruct (get_mut_fuel f w _) as [[u' put']|]; [injection E as <- <-|discriminate]];
        rewrite !reaches_cons_iff; split; intros (w' & Hw1 & Hw2); exists w'; split; auto; eapply Hsame; eauto.
    + injection El as <- ->. cbn in Eq. subst q. inversion_clear Hq as [|? ? _ Hq'].
      assert (Hd : diverge (c ++ s1 :: l1) (c ++ s2 :: q1)) by (exists c, s1, s2, l1, q1; auto).
      destruct (path_text true (c ++ s1 :: l1)) eqn:El; [apply text_nil in El; [destruct c; discriminate|auto]|]. rewrite <- El in *.
      destruct (get_mut_fuel f w _) as [[u' put']|] eqn:Em; [injection E as <- <-|discriminate].
      specialize (IH f w u' put' _ Hl' Hq' Hd Em x z).
      rewrite !reaches_cons_iff. unfold here. destruct s as [k|m].
      2:{ split; intros (w' & Hc & _); inversion Hc. }
      cbn [step_text] in *.
      assert (Hch : forall y, obj_get k (put1 y) = Some y).
      { intros y. rewrite Hput. unfold obj_get. now rewrite (find_val_app (key_is k) a (Ent (e_key e) y (e_doc e)) b). }
      assert (Hcw : obj_get k (a ++ e :: b) = Some w).
      { unfold obj_get. rewrite (find_val_app (key_is k) a e b); auto. congruence. }
      split.
      * intros (w' & Hc & Hr). rewrite child_obj_key, <- obj_get_iff, Hch in Hc. injection Hc as <-.
        exists w. rewrite child_obj_key, <- obj_get_iff. split; [exact Hcw|]. now apply IH.
      * intros (w' & Hc & Hr). rewrite child_obj_key, <- obj_get_iff, Hcw in Hc. injection Hc as <-.
        exists (put' x). rewrite child_obj_key, <- obj_get_iff. split; [apply Hch|]. now apply IH.
Qed.

(** ** Histories *)

Lemma mem_key_iff k l : mem_key k l = true <-> In (Some k) l.
Proof.
  unfold mem_key. rewrite existsb_exists. split.
  - intros ([s|] & H & E); [|discriminate]. apply str_eqb_eq in E. now subst.
  - intros H. exists (Some k). split; [exact H|]. now apply str_eqb_eq.
Qed.

Lemma inserts_keys h : forall es, text_keys (inserts h es) = text_keys es ++ map Some (fresh (text_keys es) (map fst h)).
Proof.
  induction h as [|[k v] h IH]; intros es; [now rewrite app_nil_r|]. cbn [inserts fold_left]. fold (inserts h (insert k v es)). rewrite IH.
  cbn [map fst snd fresh]. destruct (mem_key k (text_keys es)) eqn:E.
  - apply mem_key_iff in E. destruct (insert_keys k v es) as [->|[H _]]; [reflexivity|contradiction].
  - destruct (insert_cut k v es) as [(a & e & b & -> & H1 & H2 & _)|[H Hi]].
    + exfalso. assert (mem_key k (text_keys (a ++ e :: b)) = true); [|congruence]. apply mem_key_iff. rewrite text_keys_app. apply in_or_app. right. left. exact H1.
    + rewrite Hi, text_keys_app. cbn [text_keys map e_key]. change (as_str (scalar_value k)) with (Some k). now rewrite <- app_assoc.
Qed.

Lemma inserts_unchanged h k : forall es, (forall v, ~ In (k, v) h) -> obj_get k (inserts h es) = obj_get k es.
Proof.
  induction h as [|[k' v'] h IH]; intros es H; [reflexivity|]. cbn [inserts fold_left]. fold (inserts h (insert k' v' es)). cbn [fst snd].
  rewrite IH; [|intros v Hv; apply (H v); now right]. apply insert_get_other. intros ->. apply (H v'). now left.
Qed.

Lemma inserts_last h k v es : last_assigned h k v -> obj_get k (inserts h es) = Some v.
Proof.
  intros (a & b & -> & H). unfold inserts. rewrite fold_left_app. cbn [fold_left fst snd].
  fold (inserts b (insert k v (fold_left (fun es x => insert (fst x) (snd x) es) a es))). rewrite inserts_unchanged by exact H.
  apply obj_get_iff, insert_get_same.
Qed.

Lemma fresh_spec seen ks : NoDup (fresh seen ks) /\ forall k, In k (fresh seen ks) <-> In k ks /\ ~ In (Some k) seen.
Proof.
  revert seen. induction ks as [|k ks IH]; intros seen; [split; [constructor|cbn; tauto]|]. cbn [fresh]. destruct (mem_key k seen) eqn:E.
  - apply mem_key_iff in E. destruct (IH seen) as [H1 H2]. split; [exact H1|]. intros k'. rewrite H2. cbn. split; [tauto|]. intros [[<-|H] Hn]; tauto.
  - assert (Hn : ~ In (Some k) seen) by (intros H; apply mem_key_iff in H; congruence). destruct (IH (seen ++ [Some k])) as [H1 H2]. split.
    + constructor; [|exact H1]. rewrite H2. intros [_ H]. apply H, in_or_app. right. now left.
    + intros k'. cbn [In]. rewrite H2, in_app_iff. cbn [In]. split.
      * intros [<-|[H H']]; [tauto|]. tauto.
      * intros [[->|H] Hs]; [tauto|]. destruct (list_eq_dec N.eq_dec k k') as [->|Hne]; [tauto|]. right. split; [exact H|]. intros [?|[[=]|[]]]; tauto.
Qed.
