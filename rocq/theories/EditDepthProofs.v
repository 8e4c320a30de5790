(** The nesting depth at a cursor. *)
From Verif Require Import Base BaseProofs TokModel TokSpec CstModel CstSpec CstFmtModel CstShapeProofs HiProofs EditModel EditSpec.

(** Trees whose objects and sequences start and end with their brackets. *)
Inductive framed : cst -> Prop :=
| fr_leaf k t : framed (Leaf k t)
| fr_plain k cs : is_container k = false -> Forall framed cs -> framed (Node k cs)
| fr_box k ko kc a b cs : is_container k = true -> opening ko = true -> closing kc = true -> blen a = 1 -> blen b = 1 -> Forall framed cs ->
    framed (Node k (Leaf ko a :: cs ++ [Leaf kc b])).

Fixpoint around_all (o p : nat) (cs : list cst) : nat :=
  match cs with [] => 0 | c :: r => around o p c + around_all o (p + blen (node_text c)) r end.
Lemma around_node o p k cs : around o p (Node k cs) =
  (if is_container k && (p <? o) && (o <? p + blen (node_text (Node k cs))) then 1 else 0) + around_all o p cs.
Proof.
  rewrite node_text_leaves. change (text_of (leaves (Node k cs))) with (cst_text (Node k cs)). cbn [around]. f_equal; [destruct k; reflexivity|].
  revert p. induction cs as [|c cs IH]; intros p; [reflexivity|]. cbn [around_all]. rewrite node_text_leaves. now rewrite <- IH.
Qed.

Lemma leaves_at_app o a : forall p b, leaves_at o p (a ++ b) = leaves_at o p a ++ leaves_at o (p + blen (flat_map (fun x => snd (fst x)) a)) b.
Proof.
  induction a as [|[[k t] d] a IH]; intros p b; cbn [app leaves_at flat_map fst snd]; [now rewrite Nat.add_0_r|]. rewrite IH, <- app_assoc, blen_app. now rewrite Nat.add_assoc.
Qed.

Section CstInd.
Variable P : cst -> Prop.
Hypotheses (HL : forall k t, P (Leaf k t)) (HN : forall k cs, Forall P cs -> P (Node k cs)).
Fixpoint cst_nested (n : cst) : P n :=
  match n with
  | Leaf k t => HL k t
  | Node k cs => HN k cs ((fix go l : Forall P l := match l with [] => Forall_nil _ | c :: r => Forall_cons c (cst_nested c) (go r) end) cs)
  end.
End CstInd.

Lemma deep_text n : forall d, flat_map (fun x => snd (fst x)) (deep_leaves d n) = node_text n.
Proof.
  induction n as [k t|k cs IH] using cst_nested; intros d; [cbn; now rewrite app_nil_r|]. cbn [deep_leaves node_text]. generalize (if is_container k then S d else d) as d'. intros d'.
  induction IH as [|c cs Hc _ IHl]; [reflexivity|]. cbn [flat_map]. rewrite flat_map_app. f_equal; [apply Hc|apply IHl].
Qed.

Lemma deep_all_text d cs : flat_map (fun x => snd (fst x)) (flat_map (deep_leaves d) cs) = flat_map node_text cs.
Proof. induction cs as [|c cs IH]; [reflexivity|]. cbn [flat_map]. rewrite flat_map_app. f_equal; [apply deep_text|apply IH]. Qed.

(** What is read at the cursor. *)
Definition result (l : list (lkind * nat * nat)) (o : nat) : nat :=
  match l with
  | [] => 0
  | [(k, e, d)] => if is_closing k && (e =? o) then d - 1 else d
  | (k, _, d) :: (_, _, d') :: _ => if is_closing k then d' else d
  end.
Lemma depth_result n o : find_nesting_depth_cst n o = result (leaves_at o 0 (deep_leaves 0 n)) o.
Proof. reflexivity. Qed.

Definition bad (l : list (lkind * nat * nat)) : Prop := exists k e d k' e' d', l = [(k, e, d); (k', e', d')] /\ closing k = true /\ opening k' = true.

(** The state of affairs at byte [o] for leaves [l] of a piece of text from [p] to [q], at depth [d]; [n] is the number of containers around [o]. *)
Definition reading (o p q d n : nat) (l : list (lkind * nat * nat)) : Prop :=
  (o < p \/ q < o -> l = [] /\ n = 0) /\
  (p < o < q -> bad l \/ l <> [] /\ result l o = d + n) /\
  (p = q -> l = [] /\ n = 0) /\
  (o = p -> p < q -> n = 0 /\ exists k e dd, l = [(k, e, dd)] /\ o < e /\ (opening k = false -> dd = d)) /\
  (o = q -> p < q -> n = 0 /\ exists k dd, l = [(k, o, dd)] /\ (closing k = false -> dd = d) /\ dd <= S d).

Lemma closing_eq k : is_closing k = closing k.
Proof. destruct k as [[]|]; reflexivity. Qed.

Lemma reading_leaf o p d k t : reading o p (p + blen t) d 0 (leaves_at o p [(k, t, d)]).
Proof.
  unfold reading. cbn [leaves_at app]. rewrite app_nil_r. splits.
  - intros H. split; [|reflexivity]. destruct (0 <? blen t); [|reflexivity]. destruct (Nat.leb_spec p o), (Nat.leb_spec o (p + blen t)); try reflexivity. lia.
  - intros H. right. replace ((0 <? blen t) && (p <=? o) && (o <=? p + blen t)) with true by (symmetry; rewrite !andb_true_iff, Nat.ltb_lt, !Nat.leb_le; lia). split; [discriminate|]. cbn [result].
    replace (p + blen t =? o) with false by (symmetry; apply Nat.eqb_neq; lia). rewrite andb_false_r. lia.
  - intros H. replace (blen t) with 0 by lia. auto.
  - intros -> H. split; [reflexivity|]. replace ((0 <? blen t) && (p <=? p) && (p <=? p + blen t)) with true by (symmetry; rewrite !andb_true_iff, Nat.ltb_lt, !Nat.leb_le; lia). do 3 eexists. splits; [reflexivity|lia|auto].
  - intros -> H. split; [reflexivity|]. replace ((0 <? blen t) && (p <=? p + blen t) && (p + blen t <=? p + blen t)) with true by (symmetry; rewrite !andb_true_iff, Nat.ltb_lt, !Nat.leb_le; lia). do 2 eexists. splits; [reflexivity|auto|lia].
Qed.

Lemma reading_app o p q r d n m l l' : p <= q -> q <= r -> reading o p q d n l -> reading o q r d m l' -> reading o p r d (n + m) (l ++ l').
Proof.
  intros L1 L2 (A1 & A2 & A3 & A4 & A5) (B1 & B2 & B3 & B4 & B5).
  destruct (Nat.eq_dec p q) as [->|N1]; [destruct (A3 eq_refl) as [-> ->]; cbn; unfold reading; splits; auto|].
  destruct (Nat.eq_dec q r) as [->|N2]; [destruct (B3 eq_refl) as [-> ->]; rewrite app_nil_r, Nat.add_0_r; unfold reading; splits; auto|].
  unfold reading. splits.
  - intros H. destruct A1 as [-> ->]; [lia|]. destruct B1 as [-> ->]; [lia|]. auto.
  - intros H. destruct (Nat.lt_trichotomy o q) as [Hq|[Hq|Hq]].
    + destruct B1 as [-> ->]; [lia|]. rewrite app_nil_r, Nat.add_0_r. apply A2. lia.
    + destruct A5 as (-> & k & dd & -> & C1 & C2); [lia|lia|]. destruct B4 as (-> & k' & e & dd' & -> & C3 & C4); [lia|lia|]. cbn [app].
      destruct (closing k) eqn:Ek.
      * destruct (opening k') eqn:Ek'; [left; unfold bad; do 6 eexists; split; [reflexivity|auto]|]. right. split; [discriminate|]. cbn [result]. rewrite closing_eq, Ek. rewrite C4 by reflexivity. lia.
      * right. split; [discriminate|]. cbn [result]. rewrite closing_eq, Ek, C1 by reflexivity. lia.
    + destruct A1 as [-> ->]; [lia|]. cbn. apply B2. lia.
  - intros H. lia.
  - intros -> H. destruct A4 as (-> & k & e & dd & -> & C); [reflexivity|lia|]. destruct B1 as [-> ->]; [lia|]. split; [reflexivity|]. exists k, e, dd. split; [reflexivity|exact C].
  - intros -> H. destruct A1 as [-> ->]; [lia|]. destruct B5 as (-> & k & dd & -> & C); [reflexivity|lia|]. split; [reflexivity|]. exists k, dd. split; [reflexivity|exact C].
Qed.

Lemma reading_empty o p d : reading o p p d 0 [].
Proof. unfold reading. splits; auto; lia. Qed.

Lemma reading_node o n : framed n -> forall p d, reading o p (p + blen (node_text n)) d (around o p n) (leaves_at o p (deep_leaves d n)).
Proof.
  assert (LIST : forall cs, Forall (fun n => framed n -> forall p d, reading o p (p + blen (node_text n)) d (around o p n) (leaves_at o p (deep_leaves d n))) cs -> Forall framed cs ->
    forall p d, reading o p (p + blen (flat_map node_text cs)) d (around_all o p cs) (leaves_at o p (flat_map (deep_leaves d) cs))).
  { induction 1 as [|c cs Hc _ IH]; intros F p d; [cbn; rewrite Nat.add_0_r; apply reading_empty|]. inversion_clear F as [|? ? F1 F2]. cbn [flat_map around_all]. rewrite leaves_at_app, deep_text, blen_app.
    eapply reading_app; [| |apply Hc, F1|rewrite Nat.add_assoc; apply IH, F2]; lia. }
  induction n as [k t|k cs IH] using cst_nested; intros F p d; [apply reading_leaf|]. cbn [deep_leaves]. rewrite around_node. inversion F as [|? ? Ek Fc|? ko kc a b cs' Ek Eo Ec La Lb Fc]; subst.
  - rewrite Ek. cbn [andb]. apply LIST; assumption.
  - rewrite Ek. cbn [andb].
    assert (Fa : Forall framed (Leaf ko a :: cs' ++ [Leaf kc b])) by (constructor; [constructor|]; apply Forall_app; split; [exact Fc|repeat constructor]).
    pose proof (LIST _ IH Fa p (S d)) as R. change (flat_map node_text (Leaf ko a :: cs' ++ [Leaf kc b])) with (node_text (Node k (Leaf ko a :: cs' ++ [Leaf kc b]))) in R. set (len := blen (node_text _)) in *.
    assert (Hl : 2 <= len). { unfold len. cbn [node_text flat_map]. rewrite blen_app, flat_map_app, blen_app. cbn [flat_map node_text]. rewrite app_nil_r. lia. }
    set (l := leaves_at o p _) in *.
    assert (LF : o = p -> exists e, l = [(ko, e, S d)] /\ o < e).
    { intros ->. unfold l. cbn [flat_map deep_leaves app leaves_at]. replace ((0 <? blen a) && (p <=? p) && (p <=? p + blen a)) with true by (symmetry; rewrite !andb_true_iff, Nat.ltb_lt, !Nat.leb_le; lia).
      destruct R as (_ & _ & _ & R4 & _). unfold l in R4. cbn [flat_map deep_leaves app leaves_at] in R4. replace ((0 <? blen a) && (p <=? p) && (p <=? p + blen a)) with true in R4 by (symmetry; rewrite !andb_true_iff, Nat.ltb_lt, !Nat.leb_le; lia).
      destruct R4 as (_ & k0 & e & dd & E & Le & _); [reflexivity|lia|]. cbn [app] in *. injection E as _ _ _ ->. eexists. split; [reflexivity|]. lia. }
    destruct R as (A1 & A2 & A3 & A4 & A5). unfold reading. splits.
    + intros H. destruct A1 as [-> ->]; [exact H|]. split; [reflexivity|]. destruct (Nat.ltb_spec p o), (Nat.ltb_spec o (p + len)); try reflexivity; lia.
    + intros H. destruct A2 as [A2|[A2 E]]; [exact H|left; exact A2|]. right. split; [exact A2|]. rewrite E. replace ((p <? o) && (o <? p + len)) with true by (symmetry; rewrite andb_true_iff, !Nat.ltb_lt; lia). lia.
    + lia.
    + intros -> H. destruct A4 as (-> & _); [reflexivity|lia|]. split; [rewrite Nat.ltb_irrefl; reflexivity|]. destruct (LF eq_refl) as (e & E & Le). exists ko, e, (S d). splits; auto. congruence.
    + intros -> H. destruct A5 as (-> & k0 & dd & E & C1 & C2); [reflexivity|lia|]. split; [rewrite Nat.ltb_irrefl, andb_false_r; reflexivity|].
      assert (LL : exists l0, l = l0 ++ [(kc, p + len, S d)]).
      { unfold l. rewrite app_comm_cons, flat_map_app, leaves_at_app. eexists. f_equal. rewrite deep_all_text. cbn [flat_map deep_leaves app leaves_at].
        replace (p + len) with (p + blen (flat_map node_text (Leaf ko a :: cs')) + blen b) by (unfold len; cbn [node_text]; rewrite app_comm_cons, flat_map_app, blen_app; cbn [flat_map node_text]; rewrite app_nil_r; lia).
        cbn [flat_map]. match goal with |- (if ?c then _ else _) ++ _ = _ => replace c with true by (symmetry; rewrite !andb_true_iff, Nat.ltb_lt, !Nat.leb_le; lia) end. reflexivity. }
      destruct LL as [l0 LL]. rewrite LL in E. destruct l0 as [|x l0]; [|destruct l0; discriminate]. cbn in E. injection E as <- <-. exists kc, (S d). splits; auto. congruence.
Qed.

(** ** Seams *)
Lemma leaves_fst n : forall d, map fst (deep_leaves d n) = leaves n.
Proof.
  induction n as [k t|k cs IH] using cst_nested; intros d; [reflexivity|]. cbn [deep_leaves leaves]. generalize (if is_container k then S d else d) as d'. intros d'.
  induction IH as [|c cs Hc _ IHl]; [reflexivity|]. cbn [flat_map]. rewrite map_app, Hc. now rewrite <- IHl.
Qed.

Lemma at_start l : forall o x r, leaves_at o o l = x :: r -> exists t b, solid (map fst l) = (fst (fst x), t) :: b.
Proof.
  induction l as [|[[k t] d] l IH]; intros o x r H; [discriminate|]. cbn [leaves_at] in H. cbn [map fst solid filter snd]. destruct (Nat.eqb_spec (blen t) 0) as [E|E]; cbn [negb].
  - rewrite E, Nat.add_0_r in H. cbn in H. apply (IH _ _ _ H).
  - replace ((0 <? blen t) && (o <=? o) && (o <=? o + blen t)) with true in H by (symmetry; rewrite !andb_true_iff, Nat.ltb_lt, !Nat.leb_le; lia). cbn [app] in H. injection H as <- _. cbn. eauto.
Qed.

Lemma before_none l : forall o p, o < p -> leaves_at o p l = [].
Proof.
  induction l as [|[[k t] d] l IH]; intros o p L; [reflexivity|]. cbn [leaves_at]. rewrite IH by lia. destruct (Nat.leb_spec p o); [lia|]. now rewrite andb_false_r.
Qed.

Lemma pair_at l : forall o p k e d k' e' d', leaves_at o p l = [(k, e, d); (k', e', d')] ->
  exists a t t' b, solid (map fst l) = a ++ (k, t) :: (k', t') :: b /\ o = p + blen (text_of a) + blen t.
Proof.
  induction l as [|[[k0 t0] d0] l IH]; intros o p k e d k' e' d' H; [discriminate|]. cbn [leaves_at] in H. cbn [map fst solid filter snd]. destruct (Nat.eqb_spec (blen t0) 0) as [E|E]; cbn [negb].
  - rewrite E, Nat.add_0_r in H. cbn in H. apply (IH _ _ _ _ _ _ _ _ H).
  - destruct ((0 <? blen t0) && (p <=? o) && (o <=? p + blen t0)) eqn:C.
    + cbn [app] in H. injection H as <- _ <- H. apply andb_true_iff in C as [C C3]. apply andb_true_iff in C as [_ C2]. apply Nat.leb_le in C2, C3.
      assert (o = p + blen t0) as -> by (destruct (Nat.lt_ge_cases o (p + blen t0)) as [L|L]; [rewrite before_none in H by exact L; discriminate|lia]).
      destruct (at_start _ _ _ _ H) as (t' & b & Eb). exists [], t0, t', b. unfold solid in Eb. rewrite Eb. split; [reflexivity|]. cbn. lia.
    + cbn [app] in H. destruct (IH _ _ _ _ _ _ _ _ H) as (a & t & t' & b & Eb & Eo). exists ((k0, t0) :: a), t, t', b. unfold solid in Eb. rewrite Eb. split; [reflexivity|].
      unfold text_of in *. cbn [map concat snd]. rewrite blen_app. lia.
Qed.

Lemma bad_seam n o : bad (leaves_at o 0 (deep_leaves 0 n)) -> seam n o.
Proof.
  intros (k & e & d & k' & e' & d' & H & Hk & Hk'). destruct (pair_at _ _ _ _ _ _ _ _ _ H) as (a & t & t' & b & E & Eo). rewrite leaves_fst in E.
  exists (a ++ [(k, t)]), k', t', b. splits; auto.
  - now rewrite <- app_assoc.
  - unfold text_of in *. rewrite map_app, concat_app, blen_app. cbn. rewrite app_nil_r. lia.
  - right. exists a, k, t. auto.
Qed.

Lemma depth_framed n o : framed n -> o <= blen (node_text n) -> find_nesting_depth_cst n o = around o 0 n \/ seam n o.
Proof.
  intros F L. rewrite depth_result. pose proof (reading_node o n F 0 0) as (A1 & A2 & A3 & A4 & A5). cbn [Nat.add] in *. set (l := leaves_at o 0 (deep_leaves 0 n)) in *.
  destruct (Nat.eq_dec (blen (node_text n)) 0) as [Z|Z]; [destruct A3 as [-> ->]; [lia|]; left; reflexivity|].
  destruct (Nat.eq_dec o 0) as [E|E].
  - destruct A4 as (-> & k & e & dd & El & Le & Hk); [lia|lia|]. rewrite El. cbn [result]. replace (e =? o) with false by (symmetry; apply Nat.eqb_neq; lia). rewrite andb_false_r.
    destruct (opening k) eqn:Ek; [|left; auto]. right. unfold l in El. rewrite E in El. destruct (at_start _ _ _ _ El) as (t & b & Eb). rewrite leaves_fst in Eb. exists [], k, t, b. splits; auto.
  - destruct (Nat.eq_dec o (blen (node_text n))) as [E2|E2].
    + destruct A5 as (-> & k & dd & -> & H1 & H2); [exact E2|lia|]. left. cbn [result]. rewrite closing_eq, Nat.eqb_refl, andb_true_r. destruct (closing k); [lia|auto].
    + destruct A2 as [A2|[_ A2]]; [lia|right; now apply bad_seam|left; exact A2].
Qed.

(** ** The trees of texts without errors are framed *)
Lemma blanks_framed ws : Forall blank_leaf ws -> Forall framed ws.
Proof. intros H. eapply Forall_impl; [|exact H]. intros x [t ->]. constructor. Qed.

Lemma tag_framed m : forall s p, Forall framed p -> framed (tag_node s m p).
Proof.
  induction m as [|s' m IH]; intros s p H; cbn [tag_node]; apply fr_plain; try reflexivity; apply Forall_cons; try apply fr_leaf; [exact H|].
  apply Forall_cons; [|apply Forall_nil]. apply fr_plain; [reflexivity|]. apply Forall_cons; [apply fr_leaf|]. apply Forall_cons; [now apply IH|apply Forall_nil].
Qed.

Lemma shapes_framed :
  (forall a h l, atom a h l -> framed a) /\ (forall cs h l, items cs h l -> Forall framed cs) /\
  (forall e h l, entry e h l -> framed e) /\ (forall vs h l, vals vs h l -> Forall framed vs) /\
  (forall v h l, value v h l -> framed v) /\ (forall cs h l, attrs cs h l -> Forall framed cs) /\
  (forall x h l, attribute x h l -> framed x).
Proof.
  apply shapes_mut.
  - intros. apply fr_plain; [reflexivity|]. repeat constructor.
  - apply fr_plain; [reflexivity|]. repeat constructor.
  - intros cs l t x _ _ _ _ _ _ _ ->. apply fr_plain; [reflexivity|]. apply Forall_map. apply Forall_forall. intros. constructor.
  - intros. apply tag_framed. constructor.
  - intros. apply tag_framed. repeat constructor. assumption.
  - intros cs l _ IH. apply fr_box; auto.
  - intros cs l _ IH _. apply fr_box; auto.
  - constructor.
  - intros. constructor; [constructor|assumption].
  - intros. constructor; [constructor|assumption].
  - intros. repeat constructor. assumption.
  - intros. constructor; assumption.
  - apply fr_plain; [reflexivity|constructor].
  - intros. apply fr_plain; [reflexivity|]. repeat constructor. assumption.
  - intros a ws h l _ IH Hw. apply fr_plain; [reflexivity|]. constructor; [apply fr_plain; [reflexivity|repeat constructor; exact IH]|now apply blanks_framed].
  - intros a l ws vs h lv _ IH Hw _ IHv. apply fr_plain; [reflexivity|]. constructor; [apply fr_plain; [reflexivity|repeat constructor; exact IH]|]. apply Forall_app. split; [now apply blanks_framed|exact IHv].
  - intros v ws h l _ IH Hw. constructor; [apply fr_plain; [reflexivity|repeat constructor; exact IH]|now apply blanks_framed].
  - intros v ws l vs h lv _ IH Hw _ IHv. constructor; [apply fr_plain; [reflexivity|repeat constructor; exact IH]|]. apply Forall_app. split; [now apply blanks_framed|exact IHv].
  - auto.
  - intros. apply fr_plain; [reflexivity|assumption].
  - intros x ws h l _ IH Hw. constructor; [exact IH|now apply blanks_framed].
  - intros x ws l cs h l' _ IH Hw _ IHc. constructor; [exact IH|]. apply Forall_app. split; [now apply blanks_framed|exact IHc].
  - intros t a h l _ _ IH. apply fr_plain; [reflexivity|]. repeat constructor. exact IH.
Qed.

Lemma parse_framed src n : cst_parse src = Ok (n, []) -> framed n.
Proof.
  intros H. assert (exists ts, tokens src = Some ts) as [ts T].
  { unfold cst_parse, token_stream in H. destruct (tokens src) as [ts|]; [eauto|discriminate]. }
  destruct (cst_parse_shape _ _ _ H T) as (cs & h & -> & IT). apply fr_plain; [reflexivity|]. exact (proj1 (proj2 shapes_framed) _ _ _ IT).
Qed.
