(** Lemmas about the vocabulary of Base.v. *)
From Verif Require Import Base.

(** [repeat split] that does not unfold definitions. *)
Ltac splits := repeat match goal with |- _ /\ _ => split end.

Lemma clen_pos c : 1 <= clen c.
Proof. unfold clen. repeat (destruct (_ <? _)%N; try lia). Qed.

Lemma clen_ascii c : (c < 128)%N -> clen c = 1.
Proof. intros H. unfold clen. destruct (c <? 128)%N eqn:E; lia. Qed.

Lemma blen_app a b : blen (a ++ b) = blen a + blen b.
Proof. induction a as [|c a IH]; cbn [blen app]; lia. Qed.

Lemma blen_ge a : length a <= blen a.
Proof. induction a as [|c a IH]; cbn [blen length]; [lia|]. pose proof (clen_pos c). lia. Qed.

Lemma blen_nil_iff a : blen a = 0 <-> a = [].
Proof.
  split; [|intros ->; reflexivity].
  intros H. destruct a as [|c a]; [reflexivity|]. cbn [blen] in H. pose proof (clen_pos c). lia.
Qed.

Lemma drop_bytes_0 s : drop_bytes 0 s = Some s.
Proof. destruct s; reflexivity. Qed.
Lemma take_bytes_0 s : take_bytes 0 s = Some [].
Proof. destruct s; reflexivity. Qed.

Lemma drop_bytes_cons n c r : 
  drop_bytes (clen c + n) (c :: r) = drop_bytes n r.
Proof.
  pose proof (clen_pos c) as Hp.
  destruct (clen c + n) as [|m] eqn:E; [lia|].
  cbn [drop_bytes]. rewrite <- E.
  replace (clen c <=? clen c + n) with true by (symmetry; apply Nat.leb_le; lia).
  f_equal. lia.
Qed.

Lemma take_bytes_cons n c r : 
  take_bytes (clen c + n) (c :: r) = option_map (cons c) (take_bytes n r).
Proof.
  pose proof (clen_pos c) as Hp.
  destruct (clen c + n) as [|m] eqn:E; [lia|].
  cbn [take_bytes]. rewrite <- E.
  replace (clen c <=? clen c + n) with true by (symmetry; apply Nat.leb_le; lia).
  f_equal. f_equal. lia.
Qed.

Lemma drop_bytes_app a b : drop_bytes (blen a) (a ++ b) = Some b.
Proof.
  induction a as [|c a IH]; cbn [blen app]; [apply drop_bytes_0|].
  rewrite drop_bytes_cons. exact IH.
Qed.

Lemma take_bytes_app a b : take_bytes (blen a) (a ++ b) = Some a.
Proof.
  induction a as [|c a IH]; cbn [blen app]; [apply take_bytes_0|].
  rewrite take_bytes_cons, IH. reflexivity.
Qed.

Lemma drop_bytes_some n s r : drop_bytes n s = Some r -> exists a, s = a ++ r /\ blen a = n.
Proof.
  revert n r. induction s as [|c s IH]; intros n r H.
  - destruct n; cbn in H; [|discriminate]. injection H as <-. exists []. split; reflexivity.
  - destruct n as [|n].
    + cbn in H. injection H as <-. exists []. split; reflexivity.
    + cbn [drop_bytes] in H. destruct (clen c <=? S n) eqn:E; [|discriminate].
      apply IH in H. destruct H as (a & -> & Ha). exists (c :: a). cbn [blen app].
      split; [reflexivity|]. apply Nat.leb_le in E. lia.
Qed.

Lemma take_bytes_some n s r : take_bytes n s = Some r -> exists b, s = r ++ b /\ blen r = n.
Proof.
  revert n r. induction s as [|c s IH]; intros n r H.
  - destruct n; cbn in H; [|discriminate]. injection H as <-. exists []. split; reflexivity.
  - destruct n as [|n].
    + cbn in H. injection H as <-. exists (c :: s). split; reflexivity.
    + cbn [take_bytes] in H. destruct (clen c <=? S n) eqn:E; [|discriminate].
      destruct (take_bytes (S n - clen c) s) as [q|] eqn:Eq; [|discriminate].
      cbn in H. injection H as <-. apply IH in Eq. destruct Eq as (b & -> & Hb).
      exists b. cbn [blen app]. split; [reflexivity|]. apply Nat.leb_le in E. lia.
Qed.

Lemma slice_app a b c : slice (a ++ b ++ c) (blen a) (blen a + blen b) = Some b.
Proof.
  unfold slice. replace (blen a <=? blen a + blen b) with true by (symmetry; apply Nat.leb_le; lia).
  rewrite drop_bytes_app. replace (blen a + blen b - blen a) with (blen b) by lia.
  apply take_bytes_app.
Qed.

Lemma slice_some s i j r : slice s i j = Some r ->
  exists a c, s = a ++ r ++ c /\ blen a = i /\ i + blen r = j.
Proof.
  unfold slice. destruct (i <=? j) eqn:E; [|discriminate]. intros H.
  destruct (drop_bytes i s) as [q|] eqn:Eq; [|discriminate].
  apply drop_bytes_some in Eq. destruct Eq as (a & -> & Ha).
  apply take_bytes_some in H. destruct H as (c & -> & Hc).
  exists a, c. apply Nat.leb_le in E. repeat split; lia.
Qed.

Lemma span_while_app p s a b : span_while p s = (a, b) -> s = a ++ b.
Proof.
  revert a b. induction s as [|c s IH]; cbn [span_while]; intros a b H.
  - injection H as <- <-. reflexivity.
  - destruct (p c).
    + destruct (span_while p s) as [a' b']. injection H as <- <-. cbn. f_equal. now apply IH.
    + injection H as <- <-. reflexivity.
Qed.

Lemma span_while_all p s a b : span_while p s = (a, b) -> forallb p a = true.
Proof.
  revert a b. induction s as [|c s IH]; cbn [span_while]; intros a b H.
  - injection H as <- <-. reflexivity.
  - destruct (p c) eqn:E.
    + destruct (span_while p s) as [a' b']. injection H as <- <-. cbn. rewrite E. cbn. now apply (IH a' b').
    + injection H as <- <-. reflexivity.
Qed.

Lemma span_while_stop p s a b : span_while p s = (a, b) ->
  match b with [] => True | c :: _ => p c = false end.
Proof.
  revert a b. induction s as [|c s IH]; cbn [span_while]; intros a b H.
  - injection H as <- <-. exact I.
  - destruct (p c) eqn:E.
    + destruct (span_while p s) as [a' b']. injection H as <- <-. now apply (IH a' b').
    + injection H as <- <-. exact E.
Qed.

Lemma span_while_intro p a b : forallb p a = true ->
  match b with [] => True | c :: _ => p c = false end -> span_while p (a ++ b) = (a, b).
Proof.
  intros Ha Hb. induction a as [|c a IH]; cbn [app].
  - destruct b as [|c b]; cbn; [reflexivity|]. now rewrite Hb.
  - cbn in Ha. apply andb_prop in Ha as [Hc Ha]. cbn [span_while]. rewrite Hc, IH by exact Ha. reflexivity.
Qed.

Lemma str_eqb_eq a b : str_eqb a b = true <-> a = b.
Proof.
  revert b. induction a as [|x a IH]; destruct b as [|y b]; cbn; split; intros H; try congruence; try discriminate.
  - apply andb_prop in H as [H1 H2]. apply N.eqb_eq in H1. apply IH in H2. now subst.
  - injection H as -> ->. rewrite N.eqb_refl. cbn. now apply IH.
Qed.

Lemma str_eqb_refl a : str_eqb a a = true.
Proof. now apply str_eqb_eq. Qed.

Lemma str_eqb_neq a b : str_eqb a b = false <-> a <> b.
Proof.
  split; intros H.
  - intros ->. now rewrite str_eqb_refl in H.
  - destruct (str_eqb a b) eqn:E; [|reflexivity]. apply str_eqb_eq in E. contradiction.
Qed.

Lemma str_eqb_spec a b : reflect (a = b) (str_eqb a b).
Proof. destruct (str_eqb a b) eqn:E; constructor; [now apply str_eqb_eq | now apply str_eqb_neq]. Qed.

Lemma strip_prefix_some p s r : strip_prefix p s = Some r <-> s = p ++ r.
Proof.
  revert s. induction p as [|x p IH]; cbn; intros s.
  - split; [now injection 1|now intros ->].
  - destruct s as [|y s]; [split; discriminate|].
    destruct (N.eqb_spec x y) as [->|Hn].
    + rewrite IH. split; [now intros ->|now injection 1].
    + split; [discriminate|]. injection 1. congruence.
Qed.

Lemma strip_prefix_app p r : strip_prefix p (p ++ r) = Some r.
Proof. now apply strip_prefix_some. Qed.

Lemma starts_with_iff p s : starts_with p s = true <-> exists r, s = p ++ r.
Proof.
  unfold starts_with. destruct (strip_prefix p s) as [r|] eqn:E.
  - apply strip_prefix_some in E. split; eauto.
  - split; [discriminate|]. intros (r & ->). now rewrite strip_prefix_app in E.
Qed.

Lemma starts_with_false p s : starts_with p s = false <-> forall r, s <> p ++ r.
Proof.
  split.
  - intros H r ->. rewrite (proj2 (starts_with_iff p (p ++ r))) in H by eauto. discriminate.
  - intros H. destruct (starts_with p s) eqn:E; [|reflexivity].
    apply starts_with_iff in E as (r & E). now apply H in E.
Qed.

Lemma opt_is_peek p r : opt_is p (peek r) = true -> exists c r', r = c :: r' /\ p c = true.
Proof. destruct r as [|c r]; [discriminate|]. cbn. intros H. eauto. Qed.

Lemma opt_is_peek_eqb x r : opt_is (N.eqb x) (peek r) = true -> exists r', r = x :: r'.
Proof. intros H. apply opt_is_peek in H as (c & r' & -> & H). apply N.eqb_eq in H as <-. eauto. Qed.
