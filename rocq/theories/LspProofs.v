(** Proofs about the language server functions. *)
From Coq Require Import Permutation Sorted.
From Verif Require Import Base BaseProofs LspModel LspSpec.
Local Open Scope nat_scope.

(** ** Positions *)

(** Where a text ends when it starts at a position. *)
Fixpoint walk (s : str) (line col : nat) : position :=
  match s with
  | [] => mkpos line col
  | c :: r => if (c =? cLF)%N then walk r (line + 1) 0 else walk r line (col + 1)
  end.

Lemma offset_loop_walk : forall a b i line col,
  offset_to_position_loop (a ++ b) i (i + blen a) line col = walk a line col.
Proof.
  induction a as [|c a IH]; intros b i line col; cbn [app blen walk].
  - rewrite Nat.add_0_r. destruct b as [|c b]; cbn [offset_to_position_loop]; [auto|].
    rewrite Nat.leb_refl. auto.
  - cbn [offset_to_position_loop]. pose proof (clen_pos c).
    destruct (Nat.leb_spec (i + (clen c + blen a)) i); [lia|].
    rewrite Nat.add_assoc. destruct (c =? cLF)%N; apply IH.
Qed.

Lemma offset_walk : forall a b, offset_to_position (a ++ b) (blen a) = walk a 0 0.
Proof. intros. unfold offset_to_position. rewrite <- (offset_loop_walk a b 0). auto. Qed.

Lemma offset_loop_past : forall s i offset line col, i + blen s <= offset ->
  offset_to_position_loop s i offset line col = walk s line col.
Proof.
  induction s as [|c s IH]; intros i offset line col H; cbn [offset_to_position_loop walk blen] in *; [auto|].
  pose proof (clen_pos c). destruct (Nat.leb_spec offset i); [lia|].
  destruct (c =? cLF)%N; apply IH; lia.
Qed.

Lemma walk_app : forall a b line col,
  walk (a ++ b) line col = walk b (p_line (walk a line col)) (p_char (walk a line col)).
Proof.
  induction a as [|c a IH]; intros; cbn [app walk]; [auto|]. destruct (c =? cLF)%N; apply IH.
Qed.

Lemma lines_before_app : forall a b, lines_before (a ++ b) = lines_before a + lines_before b.
Proof. intros. unfold lines_before. apply count_occ_app. Qed.

Lemma lines_before_cons : forall c s,
  lines_before (c :: s) = (if (c =? cLF)%N then 1 else 0) + lines_before s.
Proof.
  intros. unfold lines_before. cbn [count_occ].
  destruct (N.eq_dec c cLF), (N.eqb_spec c cLF); try congruence; lia.
Qed.

Lemma no_lf_lines : forall t, ~ In cLF t -> lines_before t = 0.
Proof. intros t H. apply count_occ_not_In. auto. Qed.

Lemma walk_line : forall t line col, ~ In cLF t -> walk t line col = mkpos line (col + length t).
Proof.
  induction t as [|c t IH]; intros line col H; cbn [walk length].
  - rewrite Nat.add_0_r. auto.
  - destruct (N.eqb_spec c cLF) as [->|Hn]; [exfalso; apply H; left; auto|].
    rewrite IH by (intros Hi; apply H; right; auto). f_equal. lia.
Qed.

Lemma last_line_ex : forall s, exists t, last_line s t.
Proof.
  induction s as [|c s IH] using rev_ind.
  - exists []. split; [intros []|auto].
  - destruct IH as (t & Ht & Hs). destruct (N.eq_dec c cLF) as [->|Hn].
    + exists []. split; [intros []|right; exists s; auto].
    + exists (t ++ [c]). split.
      * rewrite in_app_iff. intros [H|[H|[]]]; [auto|congruence].
      * destruct Hs as [->|[p ->]]; [auto|]. right. exists p. rewrite <- app_assoc. auto.
Qed.

Lemma last_line_unique : forall s t t', last_line s t -> last_line s t' -> t = t'.
Proof.
  assert (H : forall p t t', ~ In cLF t -> ~ In cLF t' -> p ++ cLF :: t = t' -> False).
  { intros p t t' _ H <-. apply H. apply in_app_iff. right. left. auto. }
  assert (G : forall p t p' t', ~ In cLF t -> ~ In cLF t' ->
    p ++ cLF :: t = p' ++ cLF :: t' -> t = t').
  { induction p as [|x p IH]; intros t [|y p'] t' H1 H2 E; cbn in E.
    - injection E as E. auto.
    - injection E as _ E. exfalso. apply H1. rewrite E. apply in_app_iff. right. left. auto.
    - injection E as _ E. exfalso. apply H2. rewrite <- E. apply in_app_iff. right. left. auto.
    - injection E as _ E. eapply IH; eauto. }
  intros s t t' [H1 [E1|[p1 E1]]] [H2 [E2|[p2 E2]]].
  - congruence.
  - exfalso. eapply (H p2 t' t); eauto. congruence.
  - exfalso. eapply (H p1 t t'); eauto. congruence.
  - rewrite E1 in E2. eapply G; eauto.
Qed.

Lemma walk_place : forall a, place_of a (walk a 0 0).
Proof.
  intros a. destruct (last_line_ex a) as (t & Ht & Hs). unfold place_of.
  assert (G : forall s line col, p_line (walk s line col) = line + lines_before s).
  { induction s as [|c s IH]; intros; cbn [walk]; [cbn; lia|].
    rewrite lines_before_cons. destruct (c =? cLF)%N; rewrite IH; lia. }
  split; [rewrite G; lia|]. exists t. split; [split; auto|].
  destruct Hs as [->|[p ->]].
  - rewrite walk_line by auto. auto.
  - rewrite walk_app. cbn [walk]. rewrite N.eqb_refl, walk_line by auto. auto.
Qed.

(** *** From positions to offsets *)
Lemma position_loop_skip : forall p rest i pos line col,
  line + lines_before p + 1 = p_line pos ->
  position_to_offset_loop (p ++ cLF :: rest) i pos line col =
  position_to_offset_loop rest (i + blen p + 1) pos (p_line pos) 0.
Proof.
  induction p as [|c p IH]; intros rest i pos line col H.
  - cbn [app position_to_offset_loop blen]. cbn in H.
    destruct (Nat.eqb_spec line (p_line pos)); [lia|]. cbn [andb].
    rewrite N.eqb_refl, Nat.add_0_r. change (clen cLF) with 1. rewrite <- H. f_equal. lia.
  - rewrite lines_before_cons in H. cbn [app position_to_offset_loop blen].
    destruct (Nat.eqb_spec line (p_line pos)); [lia|]. cbn [andb].
    destruct (c =? cLF)%N; rewrite IH by lia; f_equal; lia.
Qed.

Definition loop_result (o : option nat) (d : nat) : nat := match o with Some k => k | None => d end.

Lemma position_loop_line : forall t r i pos col,
  ~ In cLF t -> (r = [] \/ exists r', r = cLF :: r') -> col <= p_char pos ->
  loop_result (position_to_offset_loop (t ++ r) i pos (p_line pos) col) (i + blen (t ++ r))
  = i + blen (firstn (p_char pos - col) t).
Proof.
  induction t as [|c t IH]; intros r i pos col Ht Hr Hc.
  - cbn [app]. rewrite firstn_nil. destruct Hr as [->|[r' ->]]; cbn [position_to_offset_loop].
    + cbn. auto.
    + rewrite Nat.eqb_refl. cbn [andb]. destruct (col =? p_char pos); cbn [loop_result]; [cbn; lia|].
      rewrite N.eqb_refl. cbn. lia.
  - cbn [app position_to_offset_loop]. rewrite Nat.eqb_refl. cbn [andb].
    destruct (Nat.eqb_spec col (p_char pos)) as [->|Hn].
    + rewrite Nat.sub_diag. cbn. lia.
    + destruct (N.eqb_spec c cLF) as [->|_]; [exfalso; apply Ht; left; auto|].
      replace (p_char pos - col) with (S (p_char pos - (col + 1))) by lia. cbn [firstn blen].
      rewrite !Nat.add_assoc. apply IH; [intros Hi; apply Ht; right; auto|auto|lia].
Qed.

Lemma position_to_offset_line : forall content n p t r pos,
  line_at content n p t r -> p_line pos = n ->
  position_to_offset content pos = blen p + blen (firstn (p_char pos) t).
Proof.
  intros content n p t r pos (-> & Hn & Hp & Ht & Hr) Hpos. unfold position_to_offset.
  assert (G : loop_result (position_to_offset_loop (p ++ t ++ r) 0 pos 0 0) (blen (p ++ t ++ r))
              = blen p + blen (firstn (p_char pos) t)).
  { destruct Hp as [->|[p' ->]].
    - cbn in Hn. subst n. cbn [app].
      pose proof (position_loop_line t r 0 pos 0 Ht Hr ltac:(lia)) as H.
      rewrite Hpos, Nat.sub_0_r in H. cbn [Nat.add] in H. rewrite H. auto.
    - rewrite <- !app_assoc. cbn [app]. rewrite position_loop_skip.
      + pose proof (position_loop_line t r (0 + blen p' + 1) pos 0 Ht Hr ltac:(lia)) as H.
        rewrite Nat.sub_0_r in H. rewrite !blen_app. cbn [blen]. change (clen cLF) with 1.
        rewrite !blen_app in H. cbn [Nat.add] in *. unfold loop_result in *.
        destruct (position_to_offset_loop _ _ _ _ _); rewrite ?blen_app; lia.
      + rewrite lines_before_app, lines_before_cons in Hn. cbn in Hn. lia. }
  exact G.
Qed.

Lemma position_loop_past : forall s i pos line col, line + lines_before s < p_line pos ->
  position_to_offset_loop s i pos line col = None.
Proof.
  induction s as [|c s IH]; intros i pos line col H; [auto|].
  rewrite lines_before_cons in H. cbn [position_to_offset_loop].
  destruct (Nat.eqb_spec line (p_line pos)); [lia|]. cbn [andb].
  destruct (c =? cLF)%N; apply IH; lia.
Qed.

Lemma position_past : forall content pos, lines_before content < p_line pos ->
  position_to_offset content pos = blen content.
Proof. intros. unfold position_to_offset. rewrite position_loop_past; auto. Qed.

(** Every line number up to the last has a line. *)
Lemma first_line : forall s, exists t r, s = t ++ r /\ ~ In cLF t /\ (r = [] \/ exists r', r = cLF :: r').
Proof.
  induction s as [|c s (t & r & -> & Ht & Hr)].
  - exists [], []. splits; auto.
  - destruct (N.eq_dec c cLF) as [->|Hn].
    + exists [], (cLF :: t ++ r). splits; eauto.
    + exists (c :: t), r. splits; auto. intros [H|H]; auto.
Qed.

Lemma line_at_ex : forall content n, n <= lines_before content ->
  exists p t r, line_at content n p t r.
Proof.
  intros content n. induction n as [|n IH]; intros Hn.
  - destruct (first_line content) as (t & r & -> & Ht & Hr). exists [], t, r. red. splits; auto.
  - destruct IH as (p & t & r & -> & Hl & Hp & Ht & Hr); [lia|].
    rewrite !lines_before_app, (no_lf_lines t), Hl in Hn by auto.
    destruct Hr as [->|[r' ->]]; [cbn in Hn; lia|].
    destruct (first_line r') as (t' & r'' & -> & Ht' & Hr').
    exists (p ++ t ++ [cLF]), t', r''. red. splits; auto.
    + rewrite <- !app_assoc. auto.
    + rewrite !lines_before_app, (no_lf_lines t), Hl by auto. cbn. lia.
    + right. exists (p ++ t). rewrite <- app_assoc. auto.
Qed.

Lemma boundary_ex : forall content pos, exists a b,
  content = a ++ b /\ blen a = position_to_offset content pos.
Proof.
  intros content pos. destruct (Nat.le_gt_cases (p_line pos) (lines_before content)) as [H|H].
  - destruct (line_at_ex content _ H) as (p & t & r & Hl).
    rewrite (position_to_offset_line _ _ _ _ _ _ Hl eq_refl). destruct Hl as (-> & _).
    exists (p ++ firstn (p_char pos) t), (skipn (p_char pos) t ++ r). split.
    + rewrite <- app_assoc, (app_assoc (firstn _ _)), firstn_skipn. auto.
    + apply blen_app.
  - exists content, []. rewrite app_nil_r, position_past by auto. auto.
Qed.

Lemma round_trip : forall a b,
  position_to_offset (a ++ b) (offset_to_position (a ++ b) (blen a)) = blen a.
Proof.
  intros a b. rewrite offset_walk. destruct (walk_place a) as [Hl (t & [Ht Hs] & Hc)].
  destruct (first_line b) as (t' & r & -> & Ht' & Hr).
  assert (exists p, a = p ++ t /\ (p = [] \/ exists p', p = p' ++ [cLF])) as (p & -> & Hp).
  { destruct Hs as [->|[p ->]]; [exists []; auto|]. exists (p ++ [cLF]). rewrite <- app_assoc. eauto. }
  rewrite (position_to_offset_line _ (lines_before p) p (t ++ t') r).
  - rewrite Hc, firstn_app, firstn_all, Nat.sub_diag. cbn. rewrite app_nil_r, blen_app. auto.
  - red. splits; auto; [rewrite <- !app_assoc; auto|]. rewrite in_app_iff. tauto.
  - rewrite Hl, lines_before_app, (no_lf_lines t) by auto. lia.
Qed.

(** *** Monotone *)
Lemma pos_le_trans : forall p q r, pos_le p q -> pos_le q r -> pos_le p r.
Proof. unfold pos_le. intros. lia. Qed.

Lemma walk_le : forall s line col, pos_le (mkpos line col) (walk s line col) /\
  (s <> [] -> ~ pos_le (walk s line col) (mkpos line col)).
Proof.
  induction s as [|c s IH]; intros line col; cbn [walk]; [split; [right; auto|congruence]|].
  unfold pos_le in *. cbn [p_line p_char] in *.
  destruct (c =? cLF)%N.
  - specialize (IH (line + 1) 0). cbn in IH. split; [lia|]. intros _. lia.
  - specialize (IH line (col + 1)). cbn in IH. split; [lia|]. intros _. lia.
Qed.

Lemma offset_mono : forall a b c,
  pos_le (offset_to_position (a ++ b ++ c) (blen a)) (offset_to_position (a ++ b ++ c) (blen a + blen b)) /\
  (b <> [] -> offset_to_position (a ++ b ++ c) (blen a)
              <> offset_to_position (a ++ b ++ c) (blen a + blen b)).
Proof.
  intros a b c. rewrite offset_walk, app_assoc, <- blen_app, offset_walk, walk_app.
  destruct (walk a 0 0) as [l k]. cbn [p_line p_char].
  destruct (walk_le b l k) as [H1 H2]. split; [auto|]. intros Hb E. apply (H2 Hb).
  rewrite <- E. red. cbn. lia.
Qed.

Lemma position_loop_ge : forall s i pos line col,
  i <= loop_result (position_to_offset_loop s i pos line col) (i + blen s).
Proof.
  induction s as [|c s IH]; intros i pos line col; cbn [position_to_offset_loop blen]; [cbn; lia|].
  destruct ((line =? p_line pos) && (col =? p_char pos)); [cbn; lia|].
  rewrite Nat.add_assoc.
  destruct (c =? cLF)%N.
  - destruct (line =? p_line pos); [cbn; lia|]. etransitivity; [|apply IH]. lia.
  - etransitivity; [|apply IH]. lia.
Qed.

Lemma position_loop_mono : forall s i p q line col,
  pos_le (mkpos line col) p -> pos_le p q ->
  loop_result (position_to_offset_loop s i p line col) (i + blen s) <=
  loop_result (position_to_offset_loop s i q line col) (i + blen s).
Proof.
  induction s as [|c s IH]; intros i p q line col Hc Hpq; cbn [position_to_offset_loop]; [auto|].
  unfold pos_le in *. cbn [p_line p_char] in *. cbn [blen]. rewrite Nat.add_assoc.
  pose proof (position_loop_ge (c :: s) i q line col) as Hge.
  cbn [position_to_offset_loop blen] in Hge. rewrite Nat.add_assoc in Hge.
  destruct (Nat.eqb_spec line (p_line p)) as [El|El], (Nat.eqb_spec col (p_char p)) as [Ec|Ec]; cbn [andb].
  - cbn [loop_result]. exact Hge.
  - destruct (c =? cLF)%N; [cbn [loop_result]; exact Hge|].
    destruct (Nat.eqb_spec line (p_line q)) as [El'|El'], (Nat.eqb_spec col (p_char q)) as [Ec'|Ec']; cbn [andb];
      [exfalso; lia| | |]; apply IH; cbn; lia.
  - destruct (c =? cLF)%N.
    + destruct (Nat.eqb_spec line (p_line q)); [exfalso; lia|]. cbn [andb]. apply IH; cbn; lia.
    + destruct (Nat.eqb_spec line (p_line q)); [exfalso; lia|]. cbn [andb]. apply IH; cbn; lia.
  - destruct (c =? cLF)%N.
    + destruct (Nat.eqb_spec line (p_line q)); [exfalso; lia|]. cbn [andb]. apply IH; cbn; lia.
    + destruct (Nat.eqb_spec line (p_line q)); [exfalso; lia|]. cbn [andb]. apply IH; cbn; lia.
Qed.

Lemma position_mono : forall content p q, pos_le p q ->
  position_to_offset content p <= position_to_offset content q.
Proof.
  intros content p q H. apply (position_loop_mono content 0 p q 0 0); auto.
  red. cbn. lia.
Qed.

(** ** The conversions of the extension host *)
Lemma lines_filter : forall s, length (filter (fun c => c =? cLF)%N s) = lines_before s.
Proof.
  induction s as [|c s IH]; [auto|]. rewrite lines_before_cons. cbn [filter].
  destruct (c =? cLF)%N; cbn [length]; lia.
Qed.

Lemma after_last_lf_line : forall t i acc, ~ In cLF t -> after_last_lf t i acc = acc.
Proof.
  induction t as [|c t IH]; intros i acc H; [auto|]. cbn [after_last_lf].
  destruct (N.eqb_spec c cLF) as [->|_]; [exfalso; apply H; left; auto|].
  apply IH. intros Hi; apply H; right; auto.
Qed.

Lemma after_last_lf_app : forall a b i acc,
  after_last_lf (a ++ b) i acc = after_last_lf b (i + blen a) (after_last_lf a i acc).
Proof.
  induction a as [|c a IH]; intros b i acc; cbn [app after_last_lf blen]; [f_equal; lia|].
  rewrite IH. f_equal. lia.
Qed.

Lemma slice_prefix : forall a b, slice (a ++ b) 0 (blen a) = Some a.
Proof. intros a b. exact (slice_app [] a b). Qed.
Lemma slice_suffix : forall a b, slice (a ++ b) (blen a) (blen (a ++ b)) = Some b.
Proof. intros a b. pose proof (slice_app a b []) as H. rewrite app_nil_r in H. rewrite blen_app. auto. Qed.

Lemma host_offset_eq : forall a b t, last_line a t ->
  host_offset_to_position (a ++ b) (blen a) = Ok (Some (mkpos (lines_before a) (blen t))).
Proof.
  intros a b t [Ht Hs]. unfold host_offset_to_position.
  destruct (Nat.ltb_spec (blen (a ++ b)) (blen a)); [rewrite blen_app in *; lia|].
  rewrite slice_prefix. cbn [of_opt bind]. rewrite lines_filter. do 3 f_equal.
  destruct Hs as [->|[p ->]].
  - rewrite after_last_lf_line by auto. lia.
  - rewrite after_last_lf_app. cbn [after_last_lf]. rewrite N.eqb_refl, after_last_lf_line by auto.
    rewrite !blen_app. cbn [blen]. change (clen cLF) with 1. lia.
Qed.

Lemma host_line_eq : forall t r k offset character,
  ~ In cLF t -> (r = [] \/ exists r', r = cLF :: r') -> k <= character ->
  host_line_loop (t ++ r) k offset character = offset + blen (firstn (character - k) t).
Proof.
  induction t as [|c t IH]; intros r k offset character Ht Hr Hk.
  - cbn [app]. rewrite firstn_nil. destruct Hr as [->|[r' ->]]; cbn [host_line_loop]; [cbn; lia|].
    rewrite N.eqb_refl. destruct (k =? character); cbn; lia.
  - cbn [app host_line_loop]. destruct (Nat.eqb_spec k character) as [->|Hn].
    + rewrite Nat.sub_diag. cbn. lia.
    + destruct (N.eqb_spec c cLF) as [->|_]; [exfalso; apply Ht; left; auto|].
      rewrite IH; [|intros Hi; apply Ht; right; auto|auto|lia].
      replace (character - k) with (S (character - (k + 1))) by lia. cbn [firstn blen]. lia.
Qed.

Lemma host_loop_skip : forall content p rest offset line pos,
  line + lines_before p + 1 = p_line pos ->
  host_position_to_offset_loop content (p ++ cLF :: rest) offset line pos =
  host_position_to_offset_loop content rest (offset + blen p + 1) (p_line pos) pos.
Proof.
  intros content. induction p as [|c p IH]; intros rest offset line pos H.
  - cbn [app host_position_to_offset_loop blen]. cbn in H.
    destruct (Nat.eqb_spec line (p_line pos)); [lia|].
    rewrite N.eqb_refl, Nat.add_0_r. change (clen cLF) with 1. rewrite <- H. f_equal. lia.
  - rewrite lines_before_cons in H. cbn [app host_position_to_offset_loop blen].
    destruct (Nat.eqb_spec line (p_line pos)); [lia|].
    destruct (c =? cLF)%N; rewrite IH by lia; f_equal; lia.
Qed.

Lemma host_position_eq : forall content n p t r pos,
  line_at content n p t r -> p_line pos = n ->
  host_position_to_offset content pos =
  Ok (match t ++ r with [] => None | _ => Some (position_to_offset content pos) end).
Proof.
  intros content n p t r pos Hl Hpos. pose proof (position_to_offset_line _ _ _ _ _ _ Hl Hpos) as E.
  destruct Hl as (-> & Hn & Hp & Ht & Hr). rewrite E. clear E. unfold host_position_to_offset.
  assert (Hhere : host_position_to_offset_loop (p ++ t ++ r) (t ++ r) (blen p) (p_line pos) pos =
    Ok match t ++ r with [] => None | _ => Some (blen p + blen (firstn (p_char pos) t)) end).
  { destruct (t ++ r) as [|c u] eqn:Eu; cbn [host_position_to_offset_loop]; [auto|].
    rewrite Nat.eqb_refl, slice_suffix. cbn [of_opt bind].
    rewrite <- Eu, host_line_eq by (auto; lia). rewrite Nat.sub_0_r. auto. }
  destruct Hp as [->|[p' ->]].
  - cbn in Hn. subst n. cbn [app blen] in *. rewrite Hpos in Hhere. auto.
  - rewrite <- !app_assoc in *. cbn [app] in *. rewrite host_loop_skip.
    + rewrite blen_app in Hhere. cbn [blen] in Hhere. change (clen cLF) with 1 in Hhere.
      rewrite blen_app. exact Hhere.
    + rewrite lines_before_app, lines_before_cons in Hn. cbn in Hn. lia.
Qed.

Lemma host_loop_past : forall content s offset line pos, line + lines_before s < p_line pos ->
  host_position_to_offset_loop content s offset line pos = Ok None.
Proof.
  intros content. induction s as [|c s IH]; intros offset line pos H; [auto|].
  rewrite lines_before_cons in H. cbn [host_position_to_offset_loop].
  destruct (Nat.eqb_spec line (p_line pos)); [lia|]. destruct (c =? cLF)%N; apply IH; lia.
Qed.

(** ** The word at the cursor *)
Lemma rfind_break_none : forall w i acc, forallb (fun c => negb (word_break c)) w = true ->
  rfind_break w i acc = acc.
Proof.
  induction w as [|c w IH]; intros i acc H; [auto|]. cbn [forallb rfind_break] in *.
  apply andb_true_iff in H as [Hc H]. destruct (word_break c); [discriminate|]. apply IH; auto.
Qed.

Lemma rfind_break_app : forall a b i acc,
  rfind_break (a ++ b) i acc = rfind_break b (i + blen a) (rfind_break a i acc).
Proof.
  induction a as [|c a IH]; intros b i acc; cbn [app rfind_break blen]; [f_equal; lia|].
  rewrite IH. f_equal. lia.
Qed.

Lemma break_split : forall s, exists u w, s = u ++ w /\
  forallb (fun c => negb (word_break c)) w = true /\
  (u = [] \/ exists u' z, u = u' ++ [z] /\ word_break z = true).
Proof.
  induction s as [|c s (u & w & -> & Hw & Hu)] using rev_ind.
  - exists [], []. splits; auto.
  - destruct (word_break c) eqn:E.
    + exists (u ++ w ++ [c]), []. splits; [rewrite app_nil_r, <- app_assoc; auto|auto|].
      right. exists (u ++ w), c. rewrite <- app_assoc. auto.
    + exists u, (w ++ [c]). splits; [rewrite <- app_assoc; auto| |auto].
      rewrite forallb_app, Hw. cbn. rewrite E. auto.
Qed.

Lemma slice_inside : forall u z w, 1 < clen z ->
  slice (u ++ z :: w) (blen u + 1) (blen (u ++ z :: w)) = None.
Proof.
  intros u z w Hz. unfold slice. rewrite blen_app. cbn [blen].
  destruct (Nat.leb_spec (blen u + 1) (blen u + (clen z + blen w))); [|auto].
  replace (drop_bytes (blen u + 1) (u ++ z :: w)) with (@None str); [auto|].
  symmetry. destruct (drop_bytes (blen u + 1) (u ++ z :: w)) as [r|] eqn:E; [|auto].
  apply drop_bytes_some in E as (a & E & Ha).
  exfalso. assert (Hcut : forall (u a : str), u ++ z :: w = a ++ r -> blen a = blen u + 1 -> False).
  { clear E Ha u a H. induction u as [|x u IH]; intros a E Ha; destruct a as [|y a]; cbn in *; try lia.
    - injection E as -> E. lia.
    - injection E as -> E. apply (IH a E). lia. }
  eapply Hcut; eauto.
Qed.

Lemma word_at_eq : forall u w b pos content,
  content = u ++ w ++ b -> position_to_offset content pos = blen (u ++ w) ->
  forallb (fun c => negb (word_break c)) w = true ->
  (u = [] \/ exists u' z, u = u' ++ [z] /\ word_break z = true) ->
  get_word_range_at_position content pos =
  if existsb (fun c => 1 <? clen c) (firstn 1 (rev u)) then Panic
  else Ok (match w with [] => None | _ => Some (w, (offset_to_position content (blen u), pos)) end).
Proof.
  intros u w b pos content Hc Hp Hw Hu. unfold get_word_range_at_position. rewrite Hp.
  destruct (Nat.eqb_spec (blen (u ++ w)) 0) as [E0|E0].
  { apply blen_nil_iff in E0. apply app_eq_nil in E0 as [-> ->]. cbn. auto. }
  assert (Hs : slice content 0 (blen (u ++ w)) = Some (u ++ w)).
  { rewrite Hc, app_assoc. apply slice_prefix. }
  rewrite Hs. cbn [of_opt bind]. cbv zeta. rewrite rfind_break_app, rfind_break_none with (w := w) by auto.
  destruct Hu as [->|(u' & z & -> & Hz)].
  - cbn [rfind_break app rev firstn existsb]. 
    change (slice w 0 (blen w)) with (slice ([] ++ w) (blen []) (blen ([] ++ w))).
    rewrite slice_suffix. cbn [of_opt bind blen].
    destruct w; auto.
  - rewrite rfind_break_app. cbn [rfind_break]. rewrite Hz. cbn [Nat.add].
    rewrite rev_app_distr. cbn [rev app firstn existsb]. rewrite orb_false_r.
    destruct (Nat.ltb_spec 1 (clen z)) as [Hl|Hl].
    + rewrite <- app_assoc. cbn [app]. rewrite slice_inside by auto. auto.
    + assert (clen z = 1) as E1 by (pose proof (clen_pos z); lia).
      assert (Eb : blen u' + 1 = blen (u' ++ [z])) by (rewrite blen_app; cbn [blen]; lia).
      rewrite Eb, slice_suffix. cbn [of_opt bind]. destruct w; auto.
Qed.

(** ** Edit distance *)

(** Alignments: the cost of turning [a] into [b] front to back. *)
Inductive ali : nat -> str -> str -> Prop :=
| ali_nil : ali 0 [] []
| ali_keep : forall n x a b, ali n a b -> ali n (x :: a) (x :: b)
| ali_sub : forall n x y a b, ali n a b -> ali (S n) (x :: a) (y :: b)
| ali_ins : forall n y a b, ali n a b -> ali (S n) a (y :: b)
| ali_del : forall n x a b, ali n a b -> ali (S n) (x :: a) b.

Lemma ali_refl : forall a, ali 0 a a.
Proof. induction a; constructor; auto. Qed.

Lemma ali_ins_first : forall n b c, ali n b c -> forall p x s, b = p ++ x :: s ->
  exists m, m <= S n /\ ali m (p ++ s) c.
Proof.
  induction 1 as [|n z a b H IH|n z y a b H IH|n y a b H IH|n z a b H IH]; intros p x s E.
  - destruct p; discriminate.
  - destruct p as [|z' p]; injection E as -> ->.
    + exists (S n). split; [lia|]. apply ali_ins. auto.
    + destruct (IH p x s eq_refl) as (m & Hm & Ha). exists m. split; [auto|]. apply ali_keep. auto.
  - destruct p as [|z' p]; injection E as -> ->.
    + exists (S n). split; [lia|]. apply ali_ins. auto.
    + destruct (IH p x s eq_refl) as (m & Hm & Ha). exists (S m). split; [lia|]. apply ali_sub. auto.
  - destruct (IH p x s E) as (m & Hm & Ha). exists (S m). split; [lia|]. apply ali_ins. auto.
  - destruct p as [|z' p]; injection E as -> ->.
    + exists n. split; [lia|]. auto.
    + destruct (IH p x s eq_refl) as (m & Hm & Ha). exists (S m). split; [lia|]. apply ali_del. auto.
Qed.

Lemma ali_del_first : forall n b c, ali n b c -> forall p x s, b = p ++ s ->
  exists m, m <= S n /\ ali m (p ++ x :: s) c.
Proof.
  assert (Hhere : forall n s c x, ali n s c -> exists m, m <= S n /\ ali m ([] ++ x :: s) c).
  { intros n s c x H. exists (S n). split; [lia|]. apply ali_del. auto. }
  induction 1 as [|n z a b H IH|n z y a b H IH|n y a b H IH|n z a b H IH]; intros p x s E.
  - destruct p; [|discriminate]. cbn in E. subst s. apply Hhere. constructor.
  - destruct p as [|z' p]; [cbn in E; subst s; apply Hhere; apply ali_keep; auto|].
    injection E as -> ->. destruct (IH p x s eq_refl) as (m & Hm & Ha). exists m. split; [auto|].
    apply ali_keep. auto.
  - destruct p as [|z' p]; [cbn in E; subst s; apply Hhere; apply ali_sub; auto|].
    injection E as -> ->. destruct (IH p x s eq_refl) as (m & Hm & Ha). exists (S m). split; [lia|].
    apply ali_sub. auto.
  - destruct (IH p x s E) as (m & Hm & Ha). exists (S m). split; [lia|]. apply ali_ins. auto.
  - destruct p as [|z' p]; [cbn in E; subst s; apply Hhere; apply ali_del; auto|].
    injection E as -> ->. destruct (IH p x s eq_refl) as (m & Hm & Ha). exists (S m). split; [lia|].
    apply ali_del. auto.
Qed.

Lemma ali_sub_first : forall n b c, ali n b c -> forall p x y s, b = p ++ y :: s ->
  exists m, m <= S n /\ ali m (p ++ x :: s) c.
Proof.
  induction 1 as [|n z a b H IH|n z w a b H IH|n w a b H IH|n z a b H IH]; intros p x y s E.
  - destruct p; discriminate.
  - destruct p as [|z' p]; injection E as -> ->.
    + exists (S n). split; [lia|]. apply ali_sub. auto.
    + destruct (IH p x y s eq_refl) as (m & Hm & Ha). exists m. split; [auto|]. apply ali_keep. auto.
  - destruct p as [|z' p]; injection E as -> ->.
    + exists (S n). split; [lia|]. apply ali_sub. auto.
    + destruct (IH p x y s eq_refl) as (m & Hm & Ha). exists (S m). split; [lia|]. apply ali_sub. auto.
  - destruct (IH p x y s E) as (m & Hm & Ha). exists (S m). split; [lia|]. apply ali_ins. auto.
  - destruct p as [|z' p]; injection E as -> ->.
    + exists (S n). split; [lia|]. apply ali_del. auto.
    + destruct (IH p x y s eq_refl) as (m & Hm & Ha). exists (S m). split; [lia|]. apply ali_del. auto.
Qed.

Lemma edits_ali : forall n a b, edits n a b -> exists m, m <= n /\ ali m a b.
Proof.
  induction 1 as [s|n a b c H1 H2 (m & Hm & Ha)].
  - exists 0. split; [auto|apply ali_refl].
  - inversion H1; subst.
    + destruct (ali_ins_first _ _ _ Ha p x s eq_refl) as (k & Hk & Hka). exists k. split; [lia|auto].
    + destruct (ali_del_first _ _ _ Ha p x s eq_refl) as (k & Hk & Hka). exists k. split; [lia|auto].
    + destruct (ali_sub_first _ _ _ Ha p x y s eq_refl) as (k & Hk & Hka). exists k. split; [lia|auto].
Qed.

Lemma edits_cons : forall n a b x, edits n a b -> edits n (x :: a) (x :: b).
Proof.
  induction 1 as [s|n a b c H1 H2 IH]; [constructor|].
  apply edits_more with (x :: b); [|auto].
  inversion H1; subst.
  - apply (edit_ins (x :: p)).
  - apply (edit_del (x :: p)).
  - apply (edit_sub (x :: p)).
Qed.

Lemma ali_edits : forall n a b, ali n a b -> edits n a b.
Proof.
  induction 1 as [|n x a b H IH|n x y a b H IH|n y a b H IH|n x a b H IH].
  - constructor.
  - apply edits_cons. auto.
  - apply edits_more with (y :: a); [apply (edit_sub [])|apply edits_cons; auto].
  - apply edits_more with (y :: a); [apply (edit_ins [])|apply edits_cons; auto].
  - apply edits_more with a; [apply (edit_del [])|auto].
Qed.

(** The recurrence. *)
Fixpoint lev (a : str) : str -> nat :=
  match a with
  | [] => fun b => length b
  | x :: a' =>
      fix go (b : str) : nat :=
        match b with
        | [] => S (length a')
        | y :: b' =>
            Nat.min (Nat.min (lev a' (y :: b') + 1) (go b' + 1))
                    (lev a' b' + if (x =? y)%N then 0 else 1)
        end
  end.

Lemma lev_nil_r : forall a, lev a [] = length a.
Proof. destruct a; auto. Qed.
Lemma lev_cons : forall x a y b,
  lev (x :: a) (y :: b) = Nat.min (Nat.min (lev a (y :: b) + 1) (lev (x :: a) b + 1))
                    (lev a b + if (x =? y)%N then 0 else 1).
Proof. reflexivity. Qed.

Lemma lev_ali : forall a b, ali (lev a b) a b.
Proof.
  induction a as [|x a IHa].
  - induction b as [|y b IHb]; cbn [lev length]; [constructor|]. apply ali_ins. auto.
  - induction b as [|y b IHb].
    + cbn [lev]. apply ali_del. specialize (IHa []). rewrite lev_nil_r in IHa. auto.
    + rewrite lev_cons.
      destruct (Nat.min_spec (Nat.min (lev a (y :: b) + 1) (lev (x :: a) b + 1))
                    (lev a b + if (x =? y)%N then 0 else 1)) as [[_ E]|[_ E]]; rewrite E.
      * destruct (Nat.min_spec (lev a (y :: b) + 1) (lev (x :: a) b + 1)) as [[_ E']|[_ E']]; rewrite E'.
        -- rewrite Nat.add_1_r. apply ali_del. auto.
        -- rewrite Nat.add_1_r. apply ali_ins. auto.
      * destruct (N.eqb_spec x y) as [->|Hn].
        -- rewrite Nat.add_0_r. apply ali_keep. auto.
        -- rewrite Nat.add_1_r. apply ali_sub. auto.
Qed.

Lemma lev_least : forall n a b, ali n a b -> lev a b <= n.
Proof.
  induction 1 as [|n x a b H IH|n x y a b H IH|n y a b H IH|n x a b H IH].
  - auto.
  - rewrite lev_cons, N.eqb_refl. lia.
  - rewrite lev_cons. destruct (x =? y)%N; lia.
  - destruct a as [|x a]; [cbn in *; lia|]. rewrite lev_cons. lia.
  - destruct b as [|y b]; [rewrite lev_nil_r in *; cbn [length]; lia|]. rewrite lev_cons. lia.
Qed.

Lemma lev_distance : forall a b, edit_distance a b (lev a b).
Proof.
  intros a b. split; [apply ali_edits, lev_ali|].
  intros m H. apply edits_ali in H as (k & Hk & Ha). apply lev_least in Ha. lia.
Qed.

Lemma edit_distance_unique : forall a b n m, edit_distance a b n -> edit_distance a b m -> n = m.
Proof. intros a b n m [H1 H2] [H3 H4]. pose proof (H2 _ H3). pose proof (H4 _ H1). lia. Qed.

(** Reversal. *)
Lemma ali_app : forall n a b m c d, ali n a b -> ali m c d -> ali (n + m) (a ++ c) (b ++ d).
Proof.
  induction 1; intros Hm; cbn [app Nat.add]; [auto| | | |]; constructor; auto.
Qed.
Lemma ali_rev : forall n a b, ali n a b -> ali n (rev a) (rev b).
Proof.
  induction 1 as [|n x a b H IH|n x y a b H IH|n y a b H IH|n x a b H IH]; cbn [rev].
  - constructor.
  - rewrite <- (Nat.add_0_r n). apply ali_app; [auto|apply ali_refl].
  - rewrite <- Nat.add_1_r. apply ali_app; [auto|]. apply ali_sub. constructor.
  - rewrite <- (app_nil_r (rev a)), <- Nat.add_1_r. apply ali_app; [auto|]. apply ali_ins. constructor.
  - rewrite <- (app_nil_r (rev b)), <- Nat.add_1_r. apply ali_app; [auto|]. apply ali_del. constructor.
Qed.
Lemma lev_rev : forall a b, lev (rev a) (rev b) = lev a b.
Proof.
  assert (H : forall a b, lev (rev a) (rev b) <= lev a b).
  { intros a b. apply lev_least, ali_rev, lev_ali. }
  intros a b. apply Nat.le_antisymm; [auto|].
  pose proof (H (rev a) (rev b)) as H'. rewrite !rev_involutive in H'. auto.
Qed.

(** Distance of prefixes, by their last characters. *)
Definition plev (a b : str) : nat := lev (rev a) (rev b).
Lemma plev_snoc : forall a x b y,
  plev (a ++ [x]) (b ++ [y]) = Nat.min (Nat.min (plev a (b ++ [y]) + 1) (plev (a ++ [x]) b + 1))
     (plev a b + if (x =? y)%N then 0 else 1).
Proof. intros. unfold plev. rewrite !rev_app_distr. cbn [rev app]. apply lev_cons. Qed.
Lemma plev_nil_l : forall b, plev [] b = length b.
Proof. intros. unfold plev. cbn. apply rev_length. Qed.
Lemma plev_nil_r : forall a, plev a [] = length a.
Proof. intros. unfold plev. cbn [rev]. rewrite lev_nil_r. apply rev_length. Qed.

(** Rows. *)
Lemma row_put_nth : forall row j v, j < length row ->
  exists row', row_put row j v = Some row' /\ length row' = length row /\
    forall k, nth_error row' k = if k =? j then Some v else nth_error row k.
Proof.
  induction row as [|x row IH]; intros j v Hj; [cbn in Hj; lia|].
  destruct j as [|j]; cbn [row_put].
  - eexists. splits; [reflexivity|auto|]. intros [|k]; auto.
  - cbn in Hj. destruct (IH j v) as (row' & -> & Hl & Hn); [lia|]. cbn [option_map].
    eexists. splits; [reflexivity|cbn; congruence|]. intros [|k]; [auto|]. cbn [nth_error Nat.eqb]. apply Hn.
Qed.

(** A row that is right up to column [j]. *)
Definition row_ok (a b : str) (row : list nat) (j : nat) : Prop :=
  length row = S (length b) /\
  forall k, k <= j -> k <= length b -> nth_error row k = Some (plev a (firstn k b)).

Lemma firstn_snoc : forall (b : str) j y r, skipn j b = y :: r -> firstn (S j) b = firstn j b ++ [y].
Proof.
  induction b as [|x b IH]; intros j y r H; destruct j; cbn [skipn firstn app] in *; try discriminate.
  - injection H as -> _. auto.
  - f_equal. eapply IH; eauto.
Qed.

Lemma skipn_cons_eq : forall (b : str) j y r, skipn j b = y :: r -> skipn (S j) b = r /\ j < length b.
Proof.
  induction b as [|x b IH]; intros j y r H; destruct j; cbn [skipn length] in *; try discriminate.
  - injection H as _ ->. split; [auto|lia].
  - apply IH in H as [H1 H2]. split; [exact H1|lia].
Qed.

Lemma step_row : forall a x b j y r prev curr,
  skipn j b = y :: r -> row_ok a b prev (length b) -> row_ok (a ++ [x]) b curr j ->
  exists p1 c0 p0 curr', row_get prev (j + 1) = Ok p1 /\ row_get curr j = Ok c0 /\ row_get prev j = Ok p0 /\
    row_set curr (j + 1) (Nat.min (Nat.min (p1 + 1) (c0 + 1)) (p0 + if (x =? y)%N then 0 else 1)) = Ok curr' /\
    row_ok (a ++ [x]) b curr' (j + 1).
Proof.
  intros a x b j y r prev curr Hs [Hpl Hp] [Hcl Hc].
  destruct (skipn_cons_eq _ _ _ _ Hs) as [_ Hj].
  unfold row_get, row_set.
  rewrite (Hp (j + 1)), (Hc j), (Hp j) by lia. cbn [of_opt].
  edestruct (row_put_nth curr (j + 1)) as (curr' & E & Hl & Hn); [lia|].
  do 4 eexists. splits; try reflexivity.
  - rewrite E. reflexivity.
  - split; [congruence|]. intros k Hk Hkb. rewrite Hn. destruct (Nat.eqb_spec k (j + 1)) as [->|Hne].
    + f_equal. rewrite (Nat.add_1_r j). rewrite (firstn_snoc b j y r Hs). symmetry. apply plev_snoc.
    + apply Hc; lia.
Qed.

Lemma lev_inner_ok : forall a x b r j prev curr,
  skipn j b = r -> row_ok a b prev (length b) -> row_ok (a ++ [x]) b curr j ->
  exists curr', lev_inner x r j prev curr = Ok curr' /\ row_ok (a ++ [x]) b curr' (length b).
Proof.
  intros a x b. induction r as [|y r IH]; intros j prev curr Hs Hp Hc; cbn [lev_inner].
  - exists curr. split; [auto|]. destruct Hc as [Hl Hc]. split; [auto|]. intros k Hk Hkb. apply Hc; [|auto].
    apply (f_equal (@length N)) in Hs. rewrite skipn_length in Hs. cbn in Hs. lia.
  - destruct (step_row a x b j y r prev curr Hs Hp Hc) as (p1 & c0 & p0 & curr' & -> & -> & -> & E & Hc').
    cbn [bind]. cbv zeta. rewrite E. cbn [bind]. apply IH; auto.
    rewrite Nat.add_1_r. apply (skipn_cons_eq _ _ _ _ Hs).
Qed.

Lemma first_column : forall a b row, length row = S (length b) ->
  exists row', row_set row 0 (length a) = Ok row' /\ row_ok a b row' 0.
Proof.
  intros a b row Hl. destruct (row_put_nth row 0 (length a)) as (row' & E & Hl' & Hn); [lia|].
  exists row'. unfold row_set. rewrite E. split; [auto|]. split; [congruence|].
  intros k Hk _. rewrite Hn. assert (k = 0) as -> by lia. cbn. rewrite plev_nil_r. auto.
Qed.

Lemma lev_outer_ok : forall b a2 a1 prev curr,
  row_ok a1 b prev (length b) -> length curr = S (length b) ->
  exists row, lev_outer a2 b (length a1) prev curr = Ok row /\ row_ok (a1 ++ a2) b row (length b).
Proof.
  intros b. induction a2 as [|x a2 IH]; intros a1 prev curr Hp Hc; cbn [lev_outer].
  - exists prev. rewrite app_nil_r. auto.
  - destruct (first_column (a1 ++ [x]) b curr Hc) as (c1 & E1 & H1).
    rewrite app_length in E1. cbn [length] in E1. rewrite E1. cbn [bind].
    destruct (lev_inner_ok a1 x b b 0 prev c1 eq_refl Hp H1) as (c2 & E2 & H2). rewrite E2. cbn [bind].
    specialize (IH (a1 ++ [x]) c2 prev H2). rewrite app_length in IH. cbn [length] in IH.
    destruct IH as (row & E & Hr); [apply Hp|]. exists row. rewrite E, <- app_assoc in *. auto.
Qed.

Lemma seq_nth_error : forall n s k, k < n -> nth_error (seq s n) k = Some (s + k).
Proof.
  induction n as [|n IH]; intros s k Hk; [lia|]. destruct k as [|k]; cbn [seq nth_error]; [f_equal; lia|].
  rewrite IH by lia. f_equal. lia.
Qed.

Lemma row_init : forall b, row_ok [] b (seq 0 (length b + 1)) (length b).
Proof.
  intros b. split; [rewrite seq_length; lia|]. intros k Hk _.
  rewrite seq_nth_error by lia. rewrite plev_nil_l, firstn_length. f_equal. lia.
Qed.

Lemma row_last : forall a b row, row_ok a b row (length b) -> row_get row (length b) = Ok (lev a b).
Proof.
  intros a b row [_ H]. unfold row_get. rewrite H by lia. rewrite firstn_all. unfold plev.
  rewrite lev_rev. auto.
Qed.

Lemma levenshtein_lev : forall a b, levenshtein a b = Ok (lev a b).
Proof.
  intros a b. unfold levenshtein. cbv zeta. destruct (Nat.eqb_spec (length a) 0) as [Ha|_].
  { destruct a; [auto|discriminate]. }
  destruct (Nat.eqb_spec (length b) 0) as [Hb|_].
  { destruct b; [|discriminate]. rewrite lev_nil_r. auto. }
  destruct (lev_outer_ok b a [] (seq 0 (length b + 1)) (repeat 0 (length b + 1)) (row_init b)) as (row & E & Hr).
  { rewrite repeat_length. lia. }
  cbn [length] in E. rewrite E. cbn [bind]. apply row_last. auto.
Qed.

(** The server's version. *)
Lemma lsp_inner_ok : forall a1 x a2 b n j prev curr,
  j + n = length b -> row_ok a1 b prev (length b) -> row_ok (a1 ++ [x]) b curr j ->
  exists curr', lsp_lev_inner (a1 ++ x :: a2) b (S (length a1)) (seq (S j) n) prev curr = Ok curr' /\
    row_ok (a1 ++ [x]) b curr' (length b).
Proof.
  intros a1 x a2 b. induction n as [|n IH]; intros j prev curr Hj Hp Hc; cbn [seq lsp_lev_inner].
  - exists curr. split; [auto|]. rewrite <- Hj, Nat.add_0_r. auto.
  - destruct (skipn j b) as [|y r] eqn:Es.
    { apply (f_equal (@length N)) in Es. rewrite skipn_length in Es. cbn in Es. lia. }
    replace (S (length a1) - 1) with (length a1) by lia. replace (S j - 1) with j by lia.
    rewrite nth_error_app2, Nat.sub_diag by lia. cbn [nth_error of_opt bind].
    assert (Ey : nth_error b j = Some y).
    { rewrite <- (firstn_skipn j b), Es, nth_error_app2 by (rewrite firstn_length; lia).
      rewrite firstn_length. replace (j - Nat.min j (length b)) with 0 by lia. auto. }
    rewrite Ey. cbn [of_opt bind]. cbv zeta.
    destruct (step_row a1 x b j y r prev curr Es Hp Hc) as (p1 & c0 & p0 & curr' & E1 & E2 & E3 & E4 & Hc').
    rewrite Nat.add_1_r in *. rewrite E1, E2, E3. cbn [bind]. rewrite E4. cbn [bind].
    apply IH; auto. lia.
Qed.

Lemma lsp_outer_ok : forall b a2 a1 prev curr,
  row_ok a1 b prev (length b) -> length curr = S (length b) ->
  exists row, lsp_lev_outer (a1 ++ a2) b (seq (S (length a1)) (length a2)) prev curr = Ok row /\
    row_ok (a1 ++ a2) b row (length b).
Proof.
  intros b. induction a2 as [|x a2 IH]; intros a1 prev curr Hp Hc; cbn [length seq lsp_lev_outer].
  - exists prev. rewrite app_nil_r. auto.
  - destruct (first_column (a1 ++ [x]) b curr Hc) as (c1 & E1 & H1).
    rewrite app_length in E1. cbn [length] in E1. rewrite Nat.add_1_r in E1. rewrite E1. cbn [bind].
    destruct (lsp_inner_ok a1 x a2 b (length b) 0 prev c1 eq_refl Hp H1) as (c2 & E2 & H2).
    rewrite E2. cbn [bind].
    specialize (IH (a1 ++ [x]) c2 prev H2). rewrite app_length, <- app_assoc in IH. cbn [length app] in IH.
    rewrite Nat.add_1_r in IH. apply IH. apply Hp.
Qed.

Lemma lsp_levenshtein_lev : forall a b, lsp_levenshtein a b = Ok (lev a b).
Proof.
  intros a b. unfold lsp_levenshtein. cbv zeta. destruct (Nat.eqb_spec (length a) 0) as [Ha|_].
  { destruct a; [auto|discriminate]. }
  destruct (Nat.eqb_spec (length b) 0) as [Hb|_].
  { destruct b; [|discriminate]. rewrite lev_nil_r. auto. }
  destruct (lsp_outer_ok b a [] (seq 0 (length b + 1)) (repeat 0 (length b + 1)) (row_init b)) as (row & E & Hr).
  { rewrite repeat_length. lia. }
  cbn [length app] in E. rewrite E. cbn [bind]. apply row_last. auto.
Qed.

(** The metric laws, from the specification. *)
Lemma edits_app : forall n a b m c, edits n a b -> edits m b c -> edits (n + m) a c.
Proof. induction 1; intros Hm; cbn [Nat.add]; [auto|]. econstructor; eauto. Qed.
Lemma one_edit_sym : forall a b, one_edit a b -> one_edit b a.
Proof. destruct 1; constructor. Qed.
Lemma edits_sym : forall n a b, edits n a b -> edits n b a.
Proof.
  induction 1 as [|n a b c H1 H2 IH]; [constructor|]. rewrite <- Nat.add_1_r.
  eapply edits_app; [exact IH|]. econstructor; [apply one_edit_sym; eauto|constructor].
Qed.

(** ** Suggestions *)
Section Suggest.
Variable lower : str -> str.

Lemma close_ones_ok : forall unknown valid, exists l,
  close_ones lower unknown valid = Ok l /\
  l = flat_map (fun v => let d := lev (lower unknown) (lower v) in
                 if (d <=? 2) && (d <? Nat.max (blen unknown) 1) then [(v, d)] else []) valid.
Proof.
  intros unknown. induction valid as [|v valid (l & E & Hl)]; cbn [close_ones]; [eauto|].
  rewrite levenshtein_lev. cbn [bind]. rewrite E. cbn [bind]. eexists. split; [reflexivity|].
  rewrite Hl. cbn [flat_map]. destruct (_ && _); reflexivity.
Qed.

(** The first of the least. *)
Lemma min_by_key_spec : forall l best, exists l1 l2, best :: l = l1 ++ min_by_key best l :: l2 /\
  Forall (fun x => snd (min_by_key best l) < snd x) l1 /\
  Forall (fun x => snd (min_by_key best l) <= snd x) l2.
Proof.
  induction l as [|x l IH]; intros best; cbn [min_by_key].
  - exists [], []. splits; auto.
  - destruct (Nat.ltb_spec (snd x) (snd best)) as [Hlt|Hge].
    + destruct (IH x) as (l1 & l2 & E & H1 & H2). exists (best :: l1), l2. splits; [cbn; congruence| |auto].
      constructor; [|auto]. destruct l1 as [|y l1]; cbn in E.
      * injection E as E _. rewrite <- E. auto.
      * injection E as E _. apply Forall_cons_iff in H1. rewrite <- E in H1. lia.
    + destruct (IH best) as (l1 & l2 & E & H1 & H2).
      destruct l1 as [|y l1]; cbn in E.
      * injection E as Eb El. exists [], (x :: l2). cbn. splits; [congruence|auto|].
        constructor; [congruence|auto].
      * injection E as <- E. exists (best :: x :: l1), l2. splits; [cbn; congruence| |auto].
        apply Forall_cons_iff in H1 as [Hy H1]. constructor; [auto|]. constructor; [lia|auto].
Qed.
End Suggest.

(** ** Semantic tokens *)
Lemma insert_raw_perm : forall x l, Permutation (x :: l) (insert_raw x l).
Proof.
  intros x. induction l as [|y l IH]; cbn [insert_raw]; [auto|].
  destruct (raw_le x y); [auto|]. rewrite perm_swap. constructor. auto.
Qed.
Lemma sort_raw_perm : forall l, Permutation l (sort_raw l).
Proof.
  induction l as [|x l IH]; cbn [sort_raw]; [auto|]. rewrite <- insert_raw_perm. constructor. auto.
Qed.
Lemma raw_le_spec : forall a b, raw_le a b = true <-> tok_le a b.
Proof.
  intros a b. unfold raw_le, tok_le.
  destruct (Nat.ltb_spec (r_line a) (r_line b)), (Nat.eqb_spec (r_line a) (r_line b)),
    (Nat.leb_spec (r_start a) (r_start b)); cbn; split; intros; try lia; auto; try discriminate.
Qed.
Lemma insert_raw_sorted : forall x l, StronglySorted tok_le l -> StronglySorted tok_le (insert_raw x l).
Proof.
  intros x. induction l as [|y l IH]; intros H; cbn [insert_raw]; [repeat constructor|].
  apply StronglySorted_inv in H as [Hs Hy].
  destruct (raw_le x y) eqn:E.
  - apply raw_le_spec in E. constructor; [constructor; auto|]. constructor; [auto|].
    eapply Forall_impl; [|exact Hy]. unfold tok_le in *. intros; lia.
  - constructor; [auto|].
    eapply Permutation_Forall; [apply insert_raw_perm|]. constructor; [|auto].
    assert (~ tok_le x y) by (intros Ht; apply raw_le_spec in Ht; congruence). unfold tok_le in *. lia.
Qed.
Lemma sort_raw_sorted : forall l, StronglySorted tok_le (sort_raw l).
Proof. induction l; cbn [sort_raw]; [constructor|]. apply insert_raw_sorted. auto. Qed.

Lemma encode_decode : forall l pl ps,
  StronglySorted tok_le l ->
  Forall (fun t => tok_le (mkraw pl ps 0 0 0) t) l ->
  exists e, encode_tokens_from pl ps l = Ok e /\ decode_from pl ps e = l.
Proof.
  induction l as [|t l IH]; intros pl ps Hs Hf; cbn [encode_tokens_from].
  - exists []. auto.
  - apply StronglySorted_inv in Hs as [Hs Ht]. apply Forall_cons_iff in Hf as [H0 _].
    unfold tok_le in H0. cbn in H0.
    destruct (IH (r_line t) (r_start t) Hs) as (e & E & D).
    { eapply Forall_impl; [|exact Ht]. unfold tok_le. cbn. auto. }
    unfold sub_u32. destruct (Nat.leb_spec pl (r_line t)); [|lia]. cbn [bind].
    destruct (Nat.eqb_spec (r_line t - pl) 0) as [Hz|Hz].
    + destruct (Nat.leb_spec ps (r_start t)); [|lia]. cbn [bind]. rewrite E. cbn [bind].
      eexists. split; [reflexivity|]. cbn [decode_from s_dline s_dstart s_len s_type s_mods].
      rewrite Hz. cbn [Nat.eqb]. cbv zeta.
      replace (pl + 0) with (r_line t) by lia. replace (ps + (r_start t - ps)) with (r_start t) by lia.
      rewrite D. destruct t; auto.
    + cbn [bind]. rewrite E. cbn [bind].
      eexists. split; [reflexivity|]. cbn [decode_from s_dline s_dstart s_len s_type s_mods].
      destruct (Nat.eqb_spec (r_line t - pl) 0); [lia|]. cbv zeta.
      replace (pl + (r_line t - pl)) with (r_line t) by lia. rewrite D. destruct t; auto.
Qed.

(** ** UTF-16 *)
Lemma utf16_bmp : forall s, Forall (fun c => c < 65536)%N s -> utf16_len s = length s.
Proof.
  induction s as [|c s IH]; intros H; [auto|]. apply Forall_cons_iff in H as [Hc H]. cbn [utf16_len length].
  destruct (N.ltb_spec c 65536); [|lia]. rewrite IH; auto.
Qed.
Lemma ascii_blen : forall s, Forall (fun c => c < 128)%N s -> blen s = length s.
Proof.
  induction s as [|c s IH]; intros H; [auto|]. apply Forall_cons_iff in H as [Hc H]. cbn [blen length].
  rewrite clen_ascii, IH; auto.
Qed.
