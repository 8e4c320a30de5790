(** Proofs about the file-writing code. *)
From Coq Require Import String FinFun.
From Verif Require Import Base BaseProofs FsModel FsSpec.
Local Open Scope nat_scope.

Lemma cpath_eqb_iff : forall p q, cpath_eqb p q = true <-> p = q.
Proof.
  intros [a x] [b y]. unfold cpath_eqb. cbn. rewrite andb_true_iff, str_eqb_eq, N.eqb_eq.
  split; [intros [-> ->]; auto|intros [=]; auto].
Qed.
Lemma put_same : forall d p c, put cpath_eqb d p c p = c.
Proof. intros. unfold put. rewrite (proj2 (cpath_eqb_iff p p) eq_refl). auto. Qed.
Lemma put_other : forall d p c q, q <> p -> put cpath_eqb d p c q = d q.
Proof.
  intros. unfold put. destruct (cpath_eqb q p) eqn:E; [|auto]. apply cpath_eqb_iff in E. congruence.
Qed.

(** Invert the run in the context. *)
Ltac step := match goal with H : runs _ _ _ _ _ |- _ => inversion H; subst; clear H end.

Section Cache.
Variable h : str -> N.

(** What one call can do. *)
Lemma cache_runs : forall d name content d' e,
  runs cpath_eqb d (cache_embedded_schema h name content) d' e ->
  let p := embedded_cache_path h name content in
  (forall q, q <> p -> d' q = d q) /\
  (match d p with
   | Some t => d' p = Some t /\ (e = Killed \/ e = Done (Some p))
   | None =>
       d' p = None /\ (e = Killed \/ e = Done None) \/
       (exists a b, content = a ++ b /\ d' p = Some a /\ (e = Killed \/ e = Done None)) \/
       d' p = Some content /\ (e = Killed \/ e = Done (Some p))
   end).
Proof.
  intros d name content d' e H p. unfold cache_embedded_schema in H. fold p in H.
  clearbody p. step.
  { split; [auto|]. destruct (d' p) eqn:E; auto. }
  destruct (d p) as [t|] eqn:Ep.
  { step; split; auto. }
  step.
  { split; [auto|]. left. auto. }
  destruct ok; cbn [negb] in *.
  2:{ step; split; auto. }
  step.
  { split; [auto|]. auto. }
  2:{ cbn [negb] in *. step; split; auto. }
  cbn [negb] in *.
  assert (Hoth : forall d c c' q, q <> p ->
    put cpath_eqb (put cpath_eqb d p c) p c' q = d q) by (intros; rewrite !put_other; auto).
  step.
  - (* killed after the creation *)
    split; [intros q Hq; rewrite put_other by auto; auto|]. rewrite put_same.
    right. left. exists [], content. auto.
  - cbn [negb] in *. step; (split; [auto|]); rewrite put_same; right; right; auto.
  - cbn [negb] in *. step; (split; [auto|]); rewrite put_same; right; left; exists a, b; auto.
  - split; [auto|]. rewrite put_same. right. left. exists a, b; auto.
Qed.

(** Without killed or failed calls every file is the content of a call that names it. *)
Lemma history_files : forall d l, history h d l ->
  Forall (fun x => finished (snd x)) l ->
  forall p t, d p = Some t -> exists name e, In (name, t, e) l /\ p = embedded_cache_path h name t.
Proof.
  induction 1 as [|d l name content d' e Hh IH Hr]; intros Hf p t Hp; [discriminate|].
  apply Forall_app in Hf as [Hf He]. apply Forall_cons_iff in He as [[q He] _]. cbn in He. subst e.
  apply cache_runs in Hr as [Ho Hp']. cbv zeta in *.
  set (p0 := embedded_cache_path h name content) in *.
  assert (Hdec : p = p0 \/ p <> p0).
  { destruct (cpath_eqb p p0) eqn:E; [left; apply cpath_eqb_iff; auto|].
    right. intros ->. rewrite (proj2 (cpath_eqb_iff p0 p0) eq_refl) in E. discriminate. }
  destruct Hdec as [->|Hne].
  - destruct (d p0) as [t0|] eqn:E0.
    + destruct Hp' as [E1 _]. rewrite E1 in Hp. injection Hp as <-.
      destruct (IH Hf p0 t0 E0) as (n & e & Hin & Hn). exists n, e. split; [apply in_app_iff; auto|auto].
    + destruct Hp' as [[_ [?|?]]|[(a & b & _ & _ & [?|?])|[E1 _]]]; try discriminate.
      rewrite E1 in Hp. injection Hp as <-. exists name, (Done (Some q)). split; [|auto].
      apply in_app_iff. right. left. auto.
  - rewrite Ho in Hp by auto. destruct (IH Hf p t Hp) as (n & e & Hin & Hn).
    exists n, e. split; [apply in_app_iff; auto|auto].
Qed.

(** Without that assumption: the files are prefixes of contents. *)
Lemma history_prefixes : forall d l, history h d l ->
  forall p t, d p = Some t -> exists name content e r, In (name, content, e) l /\
    p = embedded_cache_path h name content /\ content = t ++ r.
Proof.
  induction 1 as [|d l name content d' e Hh IH Hr]; intros p t Hp; [discriminate|].
  apply cache_runs in Hr as [Ho Hp']. cbv zeta in *.
  set (p0 := embedded_cache_path h name content) in *.
  assert (Hdec : p = p0 \/ p <> p0).
  { destruct (cpath_eqb p p0) eqn:E; [left; apply cpath_eqb_iff; auto|].
    right. intros ->. rewrite (proj2 (cpath_eqb_iff p0 p0) eq_refl) in E. discriminate. }
  assert (Hold : d p = Some t -> exists name0 content0 e0 r,
     In (name0, content0, e0) (l ++ [(name, content, e)]) /\ p = embedded_cache_path h name0 content0 /\
     content0 = t ++ r).
  { intros Hd. destruct (IH p t Hd) as (n & c & e0 & r & Hin & Hn & Hc). exists n, c, e0, r.
    splits; auto. apply in_app_iff; auto. }
  destruct Hdec as [->|Hne].
  - destruct (d p0) as [t0|] eqn:E0.
    + destruct Hp' as [E1 _]. rewrite E1 in Hp. apply Hold. auto.
    + assert (Hnew : In (name, content, e) (l ++ [(name, content, e)])) by (apply in_app_iff; right; left; auto).
      destruct Hp' as [[E1 _]|[(a & b & Hc & E1 & _)|[E1 _]]]; rewrite E1 in Hp; [discriminate| |].
      * injection Hp as <-. exists name, content, e, b. auto.
      * injection Hp as <-. exists name, content, e, []. rewrite app_nil_r. auto.
  - rewrite Ho in Hp by auto. auto.
Qed.
End Cache.

(** ** In-place formatting *)
Section InPlace.
Variable path : Type.
Variable path_eqb : path -> path -> bool.
Hypothesis path_eqb_refl : forall p, path_eqb p p = true.
Variable parse_ok validate_ok : str -> bool.
Variable format_source : str -> str.

Lemma in_place_runs : forall validate d p d' e source,
  d p = Some source ->
  runs path_eqb d (run_in_place path parse_ok validate_ok format_source validate p) d' e ->
  (forall q, path_eqb q p = false -> d' q = d q) /\
  (d' p = Some source /\ e <> Done true \/
   parse_ok source = true /\ (validate = true -> validate_ok source = true) /\
   exists a b, format_source source = a ++ b /\ d' p = Some a /\ (e = Done true -> b = [])).
Proof.
  intros validate d p d' e source Hd H. unfold run_in_place in H. step.
  { split; [auto|]. left. split; [auto|discriminate]. }
  2:{ step; split; auto; left; split; auto; discriminate. }
  rewrite Hd in *. cbv beta iota in *.
  destruct (parse_ok source) eqn:Epar; cbn [negb] in *.
  2:{ step; split; auto; left; split; auto; discriminate. }
  destruct (validate && negb (validate_ok source)) eqn:Ev.
  { step; split; auto; left; split; auto; discriminate. }
  assert (Hv : validate = true -> validate_ok source = true).
  { intros ->. cbn [andb] in Ev. destruct (validate_ok source); auto. }
  unfold fs_write in *.
  assert (Hput : forall d c, put path_eqb d p c p = c) by (intros; unfold put; rewrite path_eqb_refl; auto).
  assert (Hoth : forall d c q, path_eqb q p = false -> put path_eqb d p c q = d q) by (intros ? ? ? E; unfold put; rewrite E; auto).
  step.
  - split; [auto|]. left. split; [auto|discriminate].
  - step.
    + split; [intros; rewrite Hoth; auto|]. right. splits; auto.
      exists [], (format_source source). splits; auto. discriminate.
    + step; (split; [intros; rewrite !Hoth; auto|]); right; splits; auto;
        exists (format_source source), []; rewrite app_nil_r, Hput; auto.
    + step; (split; [intros; rewrite !Hoth; auto|]); right; splits; auto;
        exists a, b; rewrite Hput; splits; auto; discriminate.
    + split; [intros; rewrite !Hoth; auto|]. right. splits; auto.
      exists a, b. rewrite Hput. splits; auto. discriminate.
  - step; split; auto; left; split; auto; discriminate.
Qed.
End InPlace.

(** ** Path texts *)
Lemma components_app : forall a b cur,
  components (a ++ cSLASH :: b) cur = components a cur ++ components b [].
Proof.
  induction a as [|c a IH]; intros b cur; cbn [app components].
  - rewrite N.eqb_refl. auto.
  - destruct (c =? cSLASH)%N; rewrite IH; auto.
Qed.

Lemma resolve_app : forall a b at_, resolve (a ++ b) at_ = resolve b (resolve a at_).
Proof.
  induction a as [|x a IH]; intros b at_; cbn [app resolve]; [auto|].
  destruct (str_eqb x [] || str_eqb x (lit ".")); [auto|]. destruct (str_eqb x (lit "..")); auto.
Qed.

Definition no_parent (l : list str) : Prop := ~ In (lit "..") l.

Lemma resolve_down : forall l at_, no_parent l -> exists more, resolve l at_ = more ++ at_.
Proof.
  induction l as [|x l IH]; intros at_ H; cbn [resolve]; [exists []; auto|].
  assert (Hl : no_parent l) by (intros Hi; apply H; right; auto).
  destruct (str_eqb x [] || str_eqb x (lit ".")); [auto|].
  destruct (str_eqb x (lit "..")) eqn:E; [exfalso; apply H; left; apply str_eqb_eq; auto|].
  destruct (IH (x :: at_) Hl) as [more ->]. exists (more ++ [x]). rewrite <- app_assoc. auto.
Qed.

(** Joining a relative path. *)
Lemma resolve_join : forall a b at_, starts_with [cSLASH] b = false ->
  resolve (components (path_join a b) []) at_ =
  resolve (components b []) (resolve (components a []) at_).
Proof.
  intros a b at_ Hb. unfold path_join. rewrite Hb.
  destruct (rev a) as [|c r] eqn:Er.
  - apply (f_equal (@rev N)) in Er. rewrite rev_involutive in Er. subst a. cbn. auto.
  - apply (f_equal (@rev N)) in Er. rewrite rev_involutive in Er. cbn [rev] in Er. subst a.
    destruct (N.eqb_spec c cSLASH) as [->|Hn].
    + rewrite <- app_assoc. cbn [app]. rewrite !components_app. rewrite !resolve_app. cbn [components].
      cbn [rev]. auto.
    + cbn [app]. rewrite components_app, resolve_app. auto.
Qed.

Lemma no_slash_components : forall h, ~ In cSLASH h -> components h [] = [h].
Proof.
  assert (G : forall h cur, ~ In cSLASH h -> components h cur = [rev cur ++ h]).
  { induction h as [|c h IH]; intros cur H; cbn [components].
    - rewrite app_nil_r. auto.
    - destruct (N.eqb_spec c cSLASH) as [->|_]; [exfalso; apply H; left; auto|].
      rewrite IH by (intros Hi; apply H; right; auto). cbn [rev]. rewrite <- app_assoc. auto. }
  intros h H. apply (G h [] H).
Qed.

(** ** Two contents with the same hash *)
Lemma pigeon : forall (l : list N) (b : N), NoDup l -> (forall x, In x l -> (x < b)%N) -> (N.of_nat (List.length l) <= b)%N.
Proof.
  intros l b Hnd Hb.
  assert (H : List.length (map N.to_nat l) <= List.length (seq 0 (N.to_nat b)) \/ (N.to_nat b < List.length l)) by
    (rewrite map_length, seq_length; lia).
  assert (G : List.length (map N.to_nat l) <= List.length (seq 0 (N.to_nat b))).
  { apply NoDup_incl_length.
    - apply FinFun.Injective_map_NoDup; [intros x y; apply N2Nat.inj|auto].
    - intros x Hx. apply in_map_iff in Hx as (y & <- & Hy). apply in_seq. apply Hb in Hy. lia. }
  rewrite map_length, seq_length in G. lia.
Qed.

Lemma not_nodup : forall l : list N, ~ NoDup l -> exists i j a, i < j /\ nth_error l i = Some a /\ nth_error l j = Some a.
Proof.
  induction l as [|x l IH]; intros H; [exfalso; apply H; constructor|].
  destruct (in_dec N.eq_dec x l) as [Hi|Hn].
  - apply In_nth_error in Hi as [j Hj]. exists 0, (S j), x. splits; auto. lia.
  - destruct IH as (i & j & a & Hij & Hi & Hj); [intros Hd; apply H; constructor; auto|].
    exists (S i), (S j), a. splits; auto. lia.
Qed.

Lemma collision : forall (h : str -> N) b, (forall s, (h s < b)%N) -> exists x y, x <> y /\ h x = h y.
Proof.
  intros h b Hb. set (f := fun i => h (repeat 97%N i)).
  assert (H : forall n, b = N.of_nat n -> exists i j a, i < j /\ nth_error (map f (seq 0 (S n))) i = Some a /\
    nth_error (map f (seq 0 (S n))) j = Some a).
  { intros n Hn. apply not_nodup. intros Hd. apply pigeon with (b := b) in Hd.
    - rewrite map_length, seq_length in Hd. lia.
    - intros x Hx. apply in_map_iff in Hx as (i & <- & _). apply Hb. }
  destruct (H (N.to_nat b)) as (i & j & a & Hij & Hi & Hj); [lia|].
  assert (Hin : forall i a, nth_error (map f (seq 0 (S (N.to_nat b)))) i = Some a -> f i = a).
  { intros k c Hk. rewrite nth_error_map in Hk. destruct (nth_error (seq 0 (S (N.to_nat b))) k) eqn:E; [|discriminate].
    injection Hk as <-. assert (Hlt : k < S (N.to_nat b)).
    { rewrite <- (seq_length (S (N.to_nat b)) 0). apply nth_error_Some. congruence. }
    apply nth_error_nth with (d := 0) in E. rewrite seq_nth in E by auto. subst n. auto. }
  exists (repeat 97%N i), (repeat 97%N j). split.
  - intros E. apply (f_equal (@List.length N)) in E. rewrite !repeat_length in E. lia.
  - apply Hin in Hi. apply Hin in Hj. unfold f in *. congruence.
Qed.

(** A toy hash for examples. *)
Definition blen_hash (s : str) : N := N.of_nat (blen s).
