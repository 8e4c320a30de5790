(** The warnings are the ones that belong. *)
From Verif Require Import Base BaseProofs TokModel CstModel CstFmtModel FmtModel HiModel HiProofs WarnModel WarnSpec.
Local Open Scope nat_scope.

Lemma width_nil : width [] = 0. Proof. reflexivity. Qed.
Lemma width_app a b : width (a ++ b) = width a + width b.
Proof. unfold width. now rewrite map_app, concat_app, blen_app. Qed.
Lemma width_one c : width [c] = blen (node_text c).
Proof. unfold width. cbn. now rewrite app_nil_r. Qed.
Lemma width_cons c a : width (c :: a) = blen (node_text c) + width a.
Proof. change (c :: a) with ([c] ++ a). now rewrite width_app, width_one. Qed.

Lemma in_each_at {A} (f : cst -> nat -> list A) cs : forall p w, In w (each_at f cs p) <-> exists a c b, cs = a ++ c :: b /\ In w (f c (p + width a)).
Proof.
  induction cs as [|c r IH]; intros p w; cbn [each_at]; [split; [intros []|intros ([|? ?] & ? & ? & [=] & _)]|]. rewrite in_app_iff, IH. split.
  - intros [H|(a & x & b & -> & H)]; [exists [], c, r; rewrite width_nil, Nat.add_0_r; auto|]. exists (c :: a), x, b. rewrite width_cons, Nat.add_assoc. auto.
  - intros ([|d a] & x & b & E & H); injection E as <- E; [left; subst; now rewrite width_nil, Nat.add_0_r in H|]. right. exists a, x, b. rewrite width_cons, Nat.add_assoc in H. auto.
Qed.

Lemma token_text k t s : scalar_token_text k t = Some s <-> token_says k t s.
Proof.
  split; [|intros []; reflexivity]. destruct k as [k|]; [|discriminate]. destruct k; cbn; try discriminate; intros [= <-]; constructor.
Qed.
Lemma leaf_scalar k t : scalar_leaf (Leaf k t) <-> scalar_token_text k t <> None.
Proof.
  split; [intros (k' & t' & s & [= <- <-] & H); apply token_text in H; congruence|]. intros H. destruct (scalar_token_text k t) as [s|] eqn:E; [|congruence]. apply token_text in E. now exists k, t, s.
Qed.
Lemma node_not_leaf k cs : ~ scalar_leaf (Node k cs).
Proof. intros (? & ? & ? & [=] & _). Qed.

Lemma scalar_content_says cs s : s <> [] -> (scalar_content cs = s <-> exists c k t d, cs = c ++ Leaf k t :: d /\ Forall (fun x => ~ scalar_leaf x) c /\ token_says k t s).
Proof.
  intros Hs. induction cs as [|[k t|k inner] r IH]; cbn [scalar_content].
  - split; [intros <-; now destruct Hs|intros ([|? ?] & ? & ? & ? & [=] & _)].
  - destruct (scalar_token_text k t) as [u|] eqn:E.
    + split; [intros ->; exists [], k, t, r; repeat split; [constructor|now apply token_text]|].
      intros ([|x c] & k' & t' & d & Ec & Hc & Ht); injection Ec as; subst; [apply token_text in Ht; congruence|].
      inversion_clear Hc as [|? ? Hx _]. destruct Hx. apply leaf_scalar. congruence.
    + rewrite IH. split.
      * intros (c & k' & t' & d & -> & Hc & Ht). exists (Leaf k t :: c), k', t', d. repeat split; auto. constructor; auto. rewrite leaf_scalar. congruence.
      * intros ([|x c] & k' & t' & d & Ec & Hc & Ht); injection Ec as; subst; [apply token_text in Ht; congruence|]. inversion_clear Hc. exists c, k', t', d. auto.
  - rewrite IH. split.
    + intros (c & k' & t' & d & -> & Hc & Ht). exists (Node k inner :: c), k', t', d. repeat split; auto. constructor; auto. apply node_not_leaf.
    + intros ([|x c] & k' & t' & d & Ec & Hc & Ht); injection Ec as; subst; [discriminate|]. inversion_clear Hc. exists c, k', t', d. auto.
Qed.

Lemma key_says_cons x cs s : says_nothing x -> (key_says (x :: cs) s <-> key_says cs s).
Proof.
  intros Hx. split.
  - intros H. inversion H as [a k t u b Ha Ht E Eu|a c k t u d b Ha Hc Ht E Eu]; subst.
    + destruct a as [|y a]; injection E as; subst; [destruct Hx as [[] _]; exists k, t, s; auto|]. inversion_clear Ha. now constructor.
    + destruct a as [|y a]; injection E as; subst; [destruct Hx as [_ Hx]; now destruct (Hx (c ++ Leaf k t :: d))|]. inversion_clear Ha. now constructor.
  - intros [a k t u b Ha Ht|a c k t u d b Ha Hc Ht]; [apply (ks_token (x :: a)); auto|apply (ks_scalar (x :: a)); auto].
Qed.

Lemma key_content_says cs s : s <> [] -> (key_content cs = s <-> key_says cs s).
Proof.
  intros Hs. induction cs as [|x r IH]; cbn [key_content].
  - split; [intros <-; now destruct Hs|]. intros H. inversion H as [a ? ? ? ? ? ? E|a ? ? ? ? ? ? ? ? ? E]; destruct a; discriminate E.
  - destruct x as [k t|k inner].
    + destruct (scalar_token_text k t) as [u|] eqn:E.
      * split; [intros ->; apply (ks_token []); [constructor|now apply token_text]|].
        intros H. inversion H as [a k' t' u' b Ha Ht Ec Eu|a c k' t' u' d b Ha Hc Ht Ec Eu]; subst; (destruct a as [|y a]; injection Ec as; subst).
        -- apply token_text in Ht. congruence.
        -- inversion_clear Ha as [|? ? [Hy _] _]. destruct Hy. apply leaf_scalar. congruence.
        -- discriminate.
        -- inversion_clear Ha as [|? ? [Hy _] _]. destruct Hy. apply leaf_scalar. congruence.
      * rewrite IH. symmetry. apply key_says_cons. split; [rewrite leaf_scalar; congruence|discriminate].
    + destruct (nkind_eqb k SCALAR) eqn:Ek.
      * destruct k; try discriminate. rewrite scalar_content_says by exact Hs. split.
        -- intros (c & k & t & d & -> & Hc & Ht). now apply (ks_scalar []).
        -- intros H. inversion H as [a k' t' u' b Ha Ht Ec Eu|a c k' t' u' d b Ha Hc Ht Ec Eu]; subst; (destruct a as [|y a]; injection Ec as; subst).
           ++ discriminate.
           ++ inversion_clear Ha as [|? ? [_ Hy] _]. now destruct (Hy inner).
           ++ eauto 8.
           ++ inversion_clear Ha as [|? ? [_ Hy] _]. now destruct (Hy inner).
      * replace (match k with SCALAR => scalar_content inner | _ => key_content r end) with (key_content r) by (destruct k; (reflexivity || discriminate)).
        rewrite IH. symmetry. apply key_says_cons. split; [apply node_not_leaf|]. intros cs [= -> ->]. discriminate.
Qed.

Lemma entry_key_found cs : forall p key q, entry_key cs p = Some (key, q) <->
  exists a ks b, cs = a ++ Node KEY ks :: b /\ Forall (fun c => forall cs, c <> Node KEY cs) a /\ key = Node KEY ks /\ q = p + width a.
Proof.
  induction cs as [|c r IH]; intros p key q; cbn [entry_key]; [split; [discriminate|intros ([|? ?] & ? & ? & [=] & _)]|]. destruct (is_node KEY c) eqn:E.
  - split.
    + intros [= <- <-]. destruct c as [|k ks]; [discriminate|]. destruct k; try discriminate. exists [], ks, r. rewrite width_nil, Nat.add_0_r. auto.
    + intros ([|x a] & ks & b & Ec & Ha & -> & ->); injection Ec as; subst; [now rewrite width_nil, Nat.add_0_r|].
      inversion_clear Ha as [|? ? Hx _]. destruct x as [|k xs]; [discriminate|]. destruct k; try discriminate. now destruct (Hx xs).
  - rewrite IH. split.
    + intros (a & ks & b & -> & Ha & -> & ->). exists (c :: a), ks, b. rewrite width_cons, Nat.add_assoc. repeat split; auto. constructor; auto. intros cs ->. discriminate.
    + intros ([|x a] & ks & b & Ec & Ha & -> & ->); injection Ec as; subst; [discriminate|]. inversion_clear Ha. exists a, ks, b. rewrite width_cons, Nat.add_assoc. auto.
Qed.

Lemma entry_says_iff es p from to s : s <> [] -> (entry_says (Node ENTRY es) p from to s <->
  exists key, entry_key es p = Some (key, from) /\ key_content (children key) = s /\ to = from + blen (node_text key)).
Proof.
  intros Hs. split.
  - intros (a & ks & b & [= ->] & Ha & Hk & -> & ->). exists (Node KEY ks). split; [apply entry_key_found; eauto 8|]. split; [now apply key_content_says|reflexivity].
  - intros (key & Hk & Hc & ->). apply entry_key_found in Hk as (a & ks & b & -> & Ha & -> & ->). exists a, ks, b. repeat split; auto. now apply key_content_says.
Qed.

(** [some_entry cs s]: an entry among [cs] has the key [s]. *)
Definition some_entry (cs : list cst) (s : str) : Prop := exists e p f t, In e cs /\ entry_says e p f t s.
Lemma entry_says_moves e p f t s p' : entry_says e p f t s -> exists f' t', entry_says e p' f' t' s.
Proof. intros (a & ks & b & -> & Ha & Hk & _). do 2 eexists. exists a, ks, b. repeat split; eauto. Qed.

Lemma seen_key k seen : existsb (str_eqb k) seen = true <-> In k seen.
Proof. rewrite existsb_exists. split; [intros (x & Hi & E); apply str_eqb_eq in E; now subst|]. intros H. exists k. split; [exact H|apply str_eqb_refl]. Qed.

Lemma duplicates_exact cs : forall seen p w, In w (duplicates seen cs p) <->
  exists a e c from to s, w = WDuplicate from to s /\ s <> [] /\ cs = a ++ e :: c /\ entry_says e (p + width a) from to s /\ (In s seen \/ some_entry a s).
Proof.
  induction cs as [|x r IH]; intros seen p w; [split; [intros []|intros ([|? ?] & ? & ? & ? & ? & ? & _ & _ & [=] & _)]|].
  (* a first child that gives no warning and of which [seen'] takes account *)
  assert (Hgo : forall seen', (forall s, s <> [] -> In s seen' <-> In s seen \/ some_entry [x] s) ->
    (In w (duplicates seen' r (p + blen (node_text x))) <->
     exists a e c from to s, w = WDuplicate from to s /\ s <> [] /\ x :: r = a ++ e :: c /\ entry_says e (p + width a) from to s /\ (In s seen \/ some_entry a s) /\ a <> [])).
  { intros seen' Hseen. rewrite IH. split.
    - intros (a & e & c & f & t & s & -> & Hs & -> & He & Hor). exists (x :: a), e, c, f, t, s. rewrite width_cons, Nat.add_assoc. repeat split; auto; [|discriminate].
      rewrite Hseen in Hor by exact Hs. destruct Hor as [[H|(y & p0 & f0 & t0 & [<- |[]] & H)]|(y & p0 & f0 & t0 & Hi & H)]; [now left|right; exists x, p0, f0, t0; split; [now left|exact H]|].
      right. exists y, p0, f0, t0. split; [now right|exact H].
    - intros ([|y a] & e & c & f & t & s & -> & Hs & E & He & Hor & Hne); [congruence|]. injection E as <- ->. exists a, e, c, f, t, s. rewrite width_cons, Nat.add_assoc in He. repeat split; auto.
      rewrite Hseen by exact Hs. destruct Hor as [H|(y & p0 & f0 & t0 & [<- |Hi] & H)]; [auto| |]; [left; right; exists x, p0, f0, t0; split; [now left|exact H]|]. right. exists y, p0, f0, t0. auto. }
  (* the warning for the first child *)
  assert (Hsplit : (exists a e c from to s, w = WDuplicate from to s /\ s <> [] /\ x :: r = a ++ e :: c /\ entry_says e (p + width a) from to s /\ (In s seen \/ some_entry a s)) <->
    (exists from to s, w = WDuplicate from to s /\ s <> [] /\ entry_says x p from to s /\ In s seen) \/
    (exists a e c from to s, w = WDuplicate from to s /\ s <> [] /\ x :: r = a ++ e :: c /\ entry_says e (p + width a) from to s /\ (In s seen \/ some_entry a s) /\ a <> [])).
  { split.
    - intros ([|y a] & e & c & f & t & s & -> & Hs & E & He & Hor).
      + injection E as <- <-. rewrite width_nil, Nat.add_0_r in He. left. exists f, t, s. repeat split; auto. destruct Hor as [H|(y & p0 & f0 & t0 & [] & _)]; exact H.
      + right. exists (y :: a), e, c, f, t, s. repeat split; auto. discriminate.
    - intros [(f & t & s & -> & Hs & He & Hi)|(a & e & c & f & t & s & -> & Hs & E & He & Hor & _)].
      + exists [], x, r, f, t, s. rewrite width_nil, Nat.add_0_r. auto 8.
      + exists a, e, c, f, t, s. auto 8. }
  rewrite Hsplit.
  assert (Hnone : (forall p0 f t s, s <> [] -> ~ entry_says x p0 f t s) -> In w (duplicates seen r (p + blen (node_text x))) <->
    (exists from to s, w = WDuplicate from to s /\ s <> [] /\ entry_says x p from to s /\ In s seen) \/
    (exists a e c from to s, w = WDuplicate from to s /\ s <> [] /\ x :: r = a ++ e :: c /\ entry_says e (p + width a) from to s /\ (In s seen \/ some_entry a s) /\ a <> [])).
  { intros Hno. rewrite Hgo; [|intros s Hs; split; [now left|intros [H|(y & p0 & f & t & [<- |[]] & H)]; [exact H|now destruct (Hno p0 f t s Hs)]]].
    split; [now right|]. intros [(f & t & s & _ & Hs & He & _)|H]; [now destruct (Hno p f t s Hs)|exact H]. }
  cbn [duplicates]. destruct x as [k t|k es]; [apply Hnone; intros ? ? ? ? _ (? & ? & ? & [=] & _)|].
  destruct (nkind_eqb k ENTRY) eqn:Ek.
  2: { replace (duplicates seen r (p + blen (node_text (Node k es)))) with (match k with ENTRY => duplicates seen r (p + blen (node_text (Node k es))) | _ => duplicates seen r (p + blen (node_text (Node k es))) end) by (destruct k; reflexivity).
       destruct k; try discriminate; (apply Hnone; intros ? ? ? ? _ (? & ? & ? & [=] & _)). }
  destruct k; try discriminate. destruct (entry_key es p) as [[key q]|] eqn:Ee.
  2: { apply Hnone. intros p0 f t s Hs H. apply (entry_says_moves _ _ _ _ _ p) in H as (f' & t' & H). apply entry_says_iff in H; [|exact Hs]. destruct H as (? & H & _). congruence. }
  assert (Huniq : forall p0 f t s, s <> [] -> entry_says (Node ENTRY es) p0 f t s -> s = key_content (children key)).
  { intros p0 f t s Hs H. apply (entry_says_moves _ _ _ _ _ p) in H as (f' & t' & H). apply entry_says_iff in H; [|exact Hs]. destruct H as (key' & H & <- & _). congruence. }
  destruct (key_content (children key)) as [|c0 k0] eqn:Ekey; [apply Hnone; intros p0 f t s Hs H; now apply Huniq in H|].
  assert (Hkey : entry_says (Node ENTRY es) p q (q + blen (node_text key)) (c0 :: k0)) by (apply entry_says_iff; [discriminate|exists key; auto]).
  set (s0 := c0 :: k0) in *. destruct (existsb (str_eqb s0) seen) eqn:Eseen.
  - apply seen_key in Eseen. cbn [In]. rewrite Hgo.
    + split; intros [H|H]; auto.
      * left. exists q, (q + blen (node_text key)), s0. repeat split; auto. discriminate.
      * destruct H as (f & t & s & -> & Hs & He & Hi). pose proof (Huniq _ _ _ _ Hs He) as ->. left.
        apply entry_says_iff in He; [|exact Hs]. destruct He as (key' & Hk & _ & ->). rewrite Ee in Hk. now injection Hk as <- <-.
    + intros s Hs. split; [now left|]. intros [H|(y & p0 & f & t & [<- |[]] & H)]; [exact H|]. now rewrite (Huniq _ _ _ _ Hs H).
  - rewrite Hgo.
    + split; [now right|]. intros [(f & t & s & -> & Hs & He & Hi)|H]; [|exact H]. rewrite (Huniq _ _ _ _ Hs He) in Hi. apply seen_key in Hi. congruence.
    + intros s Hs. cbn [In]. split; [intros [<- |H]; [right; exists (Node ENTRY es); do 3 eexists; split; [now left|exact Hkey]|now left]|].
      intros [H|(y & p0 & f & t & [<- |[]] & H)]; [now right|]. left. symmetry. now apply (Huniq _ _ _ _ Hs H).
Qed.

(** The warnings at one node. *)
Definition local (k : nkind) (cs : list cst) (p : nat) : list warning :=
  match k with
  | DOCUMENT => duplicates [] cs p
  | OBJECT => (if is_mixed cs then [WMixed p (p + blen (node_text (Node k cs)))] else []) ++ duplicates [] cs p
  | _ => []
  end.
Lemma sits_inv k cs p n q : sits (Node k cs) p n q <-> (n = Node k cs /\ q = p) \/ exists a c b, cs = a ++ c :: b /\ sits c (p + width a) n q.
Proof.
  split.
  - intros H. inversion H; subst; [now left|]. right. eauto 8.
  - intros [[-> ->]|(a & c & b & -> & H)]; [constructor|now constructor].
Qed.
Lemma validate_local n : forall p w, In w (validate_node n p) <-> exists k cs q, sits n p (Node k cs) q /\ In w (local k cs q).
Proof.
  induction n as [k t|k cs IH] using cst_ind'; intros p w; cbn [validate_node].
  - split; [intros []|]. intros (k' & cs & q & H & _). inversion H.
  - change (In w (local k cs p ++ each_at validate_node cs p) <-> exists k' cs' q, sits (Node k cs) p (Node k' cs') q /\ In w (local k' cs' q)).
    rewrite in_app_iff, in_each_at. split.
    + intros [H|(a & c & b & -> & H)]; [exists k, cs, p; split; [constructor|exact H]|].
      rewrite Forall_forall in IH. apply IH in H; [|apply in_elt]. destruct H as (k' & cs' & q & Hs & H). exists k', cs', q. split; [now constructor|exact H].
    + intros (k' & cs' & q & Hs & H). apply sits_inv in Hs as [[[= -> ->] ->]|(a & c & b & -> & Hs)]; [now left|]. right. exists a, c, b. split; [reflexivity|].
      rewrite Forall_forall in IH. apply IH; [apply in_elt|]. eauto.
Qed.

Lemma is_leaf_in k cs : existsb (is_leaf k) cs = true <-> exists x, In (Leaf (LTok k) x) cs.
Proof.
  rewrite existsb_exists. split.
  - intros ([[k'|] t|] & Hi & H); try discriminate. cbn in H. assert (k = k') as -> by (destruct k, k'; (reflexivity || discriminate)). eauto.
  - intros (x & Hi). exists (Leaf (LTok k) x). split; [exact Hi|]. cbn. now destruct k.
Qed.
Lemma mixed_local t from to : In (WMixed from to) (validate t) <-> mixed t from to.
Proof.
  unfold validate. rewrite validate_local. split.
  - intros (k & cs & q & Hs & H). destruct k; try contradiction.
    + apply duplicates_exact in H as (? & ? & ? & ? & ? & ? & [=] & _).
    + cbn [local] in H. apply in_app_or in H as [H|H]; [|apply duplicates_exact in H as (? & ? & ? & ? & ? & ? & [=] & _)].
      destruct (is_mixed cs) eqn:E; [|contradiction]. destruct H as [[= -> <-]|[]]. apply andb_prop in E as [E1 E2]. apply is_leaf_in in E1 as (x & E1). apply is_leaf_in in E2 as (y & E2).
      exists cs, x, y. auto.
  - intros (cs & x & y & Hs & -> & Hx & Hy). exists OBJECT, cs, from. split; [exact Hs|]. cbn [local]. apply in_or_app. left.
    assert (is_mixed cs = true) as -> by (apply andb_true_intro; split; apply is_leaf_in; eauto). now left.
Qed.
Lemma repeated_local t from to s : In (WDuplicate from to s) (validate t) <-> repeated t from to s.
Proof.
  unfold validate. rewrite validate_local. split.
  - intros (k & cs & q & Hs & H). assert (Hk : (k = DOCUMENT \/ k = OBJECT) /\ In (WDuplicate from to s) (duplicates [] cs q)).
    { destruct k; try contradiction; [now split; [left|]|]. cbn [local] in H. apply in_app_or in H as [H|H]; [destruct (is_mixed cs); [destruct H as [[=]|[]]|contradiction]|split; auto]. }
    destruct Hk as [Hk Hd]. apply duplicates_exact in Hd as (a & e & c & f & t' & s' & [= <- <- <-] & Hne & -> & He & [[]|(e0 & p0 & f0 & t0 & Hi & H0)]).
    split; [exact Hne|]. apply in_split in Hi as (a1 & a2 & ->). exists k, a1, e0, a2, e, c, q. rewrite <- app_assoc in Hs. cbn [app] in Hs. repeat split; eauto.
  - intros (Hne & k & a & e0 & b & e & c & q & Hk & Hs & (p0 & f0 & t0 & H0) & He). exists k, (a ++ e0 :: b ++ e :: c), q. split; [exact Hs|].
    assert (Hd : In (WDuplicate from to s) (duplicates [] (a ++ e0 :: b ++ e :: c) q)).
    { apply duplicates_exact. exists (a ++ e0 :: b), e, c, from, to, s. repeat split; auto; [now rewrite <- app_assoc|]. right. exists e0, p0, f0, t0. split; [apply in_elt|exact H0]. }
    destruct Hk as [-> | ->]; [exact Hd|]. cbn [local]. apply in_or_app. now right.
Qed.
