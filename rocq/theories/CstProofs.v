(** The syntax tree parser terminates and keeps every token. *)
From Verif Require Import BaseProofs TokModel TokSpec TokProofs CstModel CstSpec.

Lemma covers_app : forall a b la lb, covers a la -> covers b lb -> covers (a ++ b) (la ++ lb).
Proof.
  intros a b la lb H HB. induction H as [|t ts ls K H IH|t ts p ls K T X H IH|t ts ls K H IH]; cbn.
  - exact HB.
  - apply cov_token; assumption.
  - rewrite <- app_assoc. apply cov_tag; assumption.
  - apply cov_eof; assumption.
Qed.
Lemma covers_text : forall ts ls, covers ts ls -> Forall (fun t => tk_kind t = Eof -> tk_text t = []) ts ->
  text_of ls = texts ts.
Proof.
  intros ts ls H F. unfold text_of, texts in *. induction H as [|t ts ls K H IH|t ts p ls K T X H IH|t ts ls K H IH];
    try apply Forall_cons_iff in F as [F1 F]; cbn.
  - reflexivity.
  - f_equal. apply IH. assumption.
  - rewrite map_app, concat_app. f_equal; [exact X | apply IH; assumption].
  - rewrite (F1 K). apply IH. assumption.
Qed.

(** ** Tag tokens *)
Definition tag_ok (t : token) : Prop := tk_kind t = Tag ->
  exists s m, split_tag (tk_text t) = (cAT :: s, m) /\ Forall (fun x => match x with c :: _ => c <> cAT | [] => False end) m.
Definition ats (m : list str) : Prop := Forall (fun x => match x with c :: _ => c <> cAT | [] => False end) m.

Lemma split_tag_text : forall n s h t, length s <= n -> split_tag s = (h, t) -> s = h ++ concat (map (fun x => cSLASH :: cAT :: x) t).
Proof.
  induction n as [|n IH]; intros s h t L H; (destruct s as [|c r]; [injection H as <- <-; reflexivity|]); cbn in L; [lia|].
  cbn [split_tag] in H. destruct r as [|d r']; [injection H as <- <-; reflexivity|].
  destruct ((c =? cSLASH)%N && (d =? cAT)%N) eqn:E.
  - destruct (split_tag r') as [h' t'] eqn:S. injection H as <- <-. cbn in L. apply IH in S; [|lia].
    apply andb_true_iff in E as [E1 E2]. apply N.eqb_eq in E1, E2. subst c d. cbn. rewrite S at 1. reflexivity.
  - destruct (split_tag (d :: r')) as [h' t'] eqn:S. injection H as <- <-. apply IH in S; [|cbn in *; lia].
    cbn. rewrite S at 1. reflexivity.
Qed.
(** Splitting what [scan_tag] reads. *)
Lemma scan_tag_split : forall n s a b c, length s <= n -> scan_tag s = (a, b) -> c <> cSLASH ->
  exists h t, split_tag (c :: a) = (c :: h, t) /\ ats t.
Proof.
  induction n as [|n IH]; intros s a b c L H NC; destruct s as [|x r]; cbn in L; try lia;
    cbn [scan_tag] in H; try (injection H as <- <-; exists [], []; split; [reflexivity | constructor]).
  destruct ((x =? cr)%N && opt_is is_hash_or_dq (peek r)) eqn:E1.
  { injection H as <- <-. exists [], []. split; [reflexivity | constructor]. }
  destruct (is_tag_char x) eqn:E2.
  { destruct (scan_tag r) as [a' b'] eqn:S. injection H as <- <-.
    assert (NX : x <> cSLASH) by (intros ->; discriminate).
    destruct (IH r _ _ x ltac:(lia) S NX) as (h & t & Q & A). exists (x :: h), t. split; [|exact A].
    cbn [split_tag]. destruct (N.eqb_spec c cSLASH); [contradiction|]. cbn [andb]. cbn [split_tag] in Q. rewrite Q. reflexivity. }
  destruct (N.eqb_spec x cSLASH); [|injection H as <- <-; exists [], []; split; [reflexivity | constructor]].
  subst x. destruct r as [|d [|e r2]]; try (injection H as <- <-; exists [], []; split; [reflexivity | constructor]).
  destruct ((d =? cAT)%N && is_tag_start e) eqn:E3; [|injection H as <- <-; exists [], []; split; [reflexivity | constructor]].
  destruct (scan_tag r2) as [a' b'] eqn:S. injection H as <- <-. apply andb_true_iff in E3 as [E3 E4]. apply N.eqb_eq in E3. subst d.
  assert (NX : e <> cSLASH) by (intros ->; discriminate). cbn in L.
  destruct (IH r2 _ _ e ltac:(lia) S NX) as (h & t & Q & A). exists [], ((e :: h) :: t). split.
  - remember (e :: a') as ea. cbn [split_tag]. destruct (N.eqb_spec c cSLASH); [contradiction|]. cbn [andb N.eqb Pos.eqb]. rewrite Q. reflexivity.
  - constructor; [|exact A]. intros ->. discriminate.
Qed.
Lemma next_token_tag : forall st t st', next_token st = (t, st') -> tag_ok t.
Proof.
  intros st t st' H K. unfold next_token in H. destruct (ts_hd st) as [hs|].
  - unfold tok_heredoc_content in H. destruct (find_delim _ _); [injection H as <- <-; discriminate|].
    destruct (scan_heredoc _ _) as [[a b] [i|]]; [destruct a|]; injection H as <- <-; discriminate.
  - destruct (ts_rem st) as [|c r]; [injection H as <- <-; discriminate|].
    repeat match type of H with (if (?c =? ?x)%N then _ else _) = _ =>
      let E := fresh in destruct (N.eqb_spec c x) as [E|E]; [try (injection H as <- <-; discriminate) |] end.
    + subst c. unfold tok_at_or_tag in H. destruct r as [|d r]; [injection H as <- <-; discriminate|].
      destruct (is_tag_start d) eqn:T; [|injection H as <- <-; discriminate].
      destruct (scan_tag r) as [a b] eqn:S. injection H as <- <-. cbn [tk_text emit fst].
      assert (ND : d <> cSLASH) by (intros ->; discriminate).
      destruct (scan_tag_split _ _ _ _ d (le_n _) S ND) as (h & m & Q & A). exists (d :: h), m. split; [|exact A].
      remember (d :: a) as da. cbn [split_tag]. rewrite Heqda at 1. cbn [N.eqb andb Pos.eqb].
      rewrite Q. reflexivity.
    + unfold tok_quoted in H. destruct (scan_quoted r) as [[a b] [|]]; injection H as <- <-; discriminate.
    + destruct (starts_with _ _); [|destruct (starts_with _ _)];
        destruct (span_while _ _); injection H as <- <-; discriminate.
    + destruct (_ && _).
      { destruct r as [|d r']; [injection H as <- <-; discriminate|]. destruct (opt_is _ _); [|injection H as <- <-; discriminate].
        unfold tok_heredoc_start in H. destruct (span_while _ _) as [dl r1]. destruct (_ <? _); [injection H as <- <-; discriminate|].
        destruct (scan_lang _), (scan_eol _). injection H as <- <-. discriminate. }
      destruct (_ && _).
      { unfold tok_raw in H. destruct (span_while _ _) as [hs r1]. destruct r1 as [|q r2]; [injection H as <- <-; discriminate|].
        destruct (_ =? _)%N; [|injection H as <- <-; discriminate]. destruct (scan_raw _ _) as [[a b] [|]]; injection H as <- <-; discriminate. }
      destruct (is_blank c); [destruct (span_while _ _); injection H as <- <-; discriminate|].
      destruct (c =? cLF)%N; [injection H as <- <-; discriminate|].
      destruct (_ && _); [injection H as <- <-; discriminate|].
      destruct (is_bare_start c); [destruct (span_while _ _)|]; injection H as <- <-; discriminate.
Qed.
Lemma tokens_from_tags : forall fuel st ts, tokens_from fuel st = Some ts -> Forall tag_ok ts.
Proof.
  induction fuel as [|fuel IH]; intros st ts H; cbn in H; [discriminate|].
  destruct (next_token st) as [t st'] eqn:N. destruct (is_eof_kind _); [injection H as <-; constructor|].
  destruct (tokens_from fuel st') as [r|] eqn:R; [|discriminate]. injection H as <-.
  constructor; [eapply next_token_tag; exact N | eapply IH; exact R].
Qed.

Lemma tag_node_leaves : forall m s payload, ats m ->
  exists p, leaves (tag_node (cAT :: s) m payload) = p ++ flat_map leaves payload /\ tag_parts p /\
    text_of p = (cAT :: s) ++ concat (map (fun x => cSLASH :: cAT :: x) m).
Proof.
  assert (G : forall m s c payload, ats m -> (c = cAT /\ s = s) \/ c <> cAT -> 
    exists p, leaves (tag_node (c :: s) m payload) = p ++ flat_map leaves payload /\ tag_parts p /\
      text_of p = tag_text (c :: s) ++ concat (map (fun x => cSLASH :: cAT :: x) m)).
  { induction m as [|x m IH]; intros s c payload A HC.
    - exists [(LTok Tag, tag_text (c :: s))]. cbn [tag_node leaves flat_map]. split; [reflexivity|]. split.
      + unfold tag_text. destruct (N.eqb_spec c cAT); [subst|]; constructor.
      + unfold text_of. cbn. reflexivity.
    - apply Forall_cons_iff in A as [X A]. destruct x as [|c' x]; [contradiction|].
      destruct (IH x c' payload A (or_intror X)) as (p & L & TP & TX).
      exists ((LTok Tag, tag_text (c :: s)) :: (LSlash, [cSLASH]) :: p). split; [|split].
      + cbn [tag_node leaves flat_map]. cbn [app]. rewrite app_nil_r. cbn [leaves flat_map app]. f_equal. f_equal.
        rewrite app_nil_r. exact L.
      + unfold tag_text. destruct (N.eqb_spec c cAT); [subst|]; apply tp_more; exact TP.
      + unfold text_of in *. cbn [map snd concat]. rewrite TX. unfold tag_text at 2.
        destruct (N.eqb_spec c' cAT); [contradiction|]. reflexivity. }
  intros m s payload A. destruct (G m s cAT payload A (or_introl (conj eq_refl eq_refl))) as (p & L & TP & TX).
  exists p. split; [exact L|]. split; [exact TP|]. rewrite TX. reflexivity.
Qed.

(** ** The parse functions *)
Definition leaf_list (cs : list cst) : list leaf_of := flat_map leaves cs.
Lemma leaf_list_app : forall a b, leaf_list (a ++ b) = leaf_list a ++ leaf_list b.
Proof. intros. apply flat_map_app. Qed.

(** What every function does: it takes [used] off the tokens and adds exactly their leaves. *)
Definition takes (ts : list token) (c : list cst) (ts' : list token) : Prop :=
  exists used, ts = used ++ ts' /\ covers used (leaf_list c).
Lemma takes_nil : forall ts, takes ts [] ts.
Proof. intros ts. exists []. split; [reflexivity | constructor]. Qed.
Lemma takes_app : forall a b c x y, takes a x b -> takes b y c -> takes a (x ++ y) c.
Proof.
  intros a b c x y (u & -> & U) (v & -> & V). exists (u ++ v). split; [apply app_assoc|].
  rewrite leaf_list_app. apply covers_app; assumption.
Qed.
Lemma takes_node : forall a b x k, takes a x b -> takes a [Node k x] b.
Proof. intros a b x k (u & E & U). exists u. split; [exact E|]. cbn. rewrite app_nil_r. exact U. Qed.
Lemma takes_len : forall a b x, takes a x b -> length b <= length a.
Proof. intros a b x (u & -> & _). rewrite app_length. lia. Qed.
Lemma takes_tags : forall a b x, takes a x b -> Forall tag_ok a -> Forall tag_ok b.
Proof. intros a b x (u & -> & _) H. apply Forall_app in H. apply H. Qed.

Lemma tkind_eqb_eq : forall a b, tkind_eqb a b = true <-> a = b.
Proof. intros a b. split; [destruct a, b; cbn; congruence | intros ->; destruct b; reflexivity]. Qed.
Lemma takes_leaf : forall t r, tk_kind t <> Tag -> takes (t :: r) [leaf t] r.
Proof. intros t r K. exists [t]. split; [reflexivity|]. apply cov_token; [exact K | constructor]. Qed.
Lemma takes_bump : forall ts c ts', bump ts = (c, ts') -> peek_kind ts <> Tag -> takes ts c ts'.
Proof. intros [|t r] c ts' [= <- <-] K; [apply takes_nil | apply takes_leaf; exact K]. Qed.
Lemma bump_len : forall ts c ts', bump ts = (c, ts') -> ts <> [] -> length ts' < length ts.
Proof. intros [|t r] c ts' [= <- <-] K; [congruence | cbn; lia]. Qed.
Lemma takes_skip : forall p, p Tag = false -> forall ts c ts', skip p ts = (c, ts') -> takes ts c ts'.
Proof.
  intros p PT. induction ts as [|t r IH]; intros c ts' H; cbn in H; [injection H as <- <-; apply takes_nil|].
  destruct (p (tk_kind t)) eqn:E; [|injection H as <- <-; apply takes_nil].
  destruct (skip p r) as [c' r'] eqn:S. injection H as <- <-.
  change (leaf t :: c') with ([leaf t] ++ c'). eapply takes_app; [apply takes_leaf; congruence | apply IH; reflexivity].
Qed.
Lemma skip_head : forall p ts c ts', skip p ts = (c, ts') -> ts' = [] \/ p (peek_kind ts') = false.
Proof.
  intros p. induction ts as [|t r IH]; intros c ts' H; cbn in H; [injection H as <- <-; auto|].
  destruct (p (tk_kind t)) eqn:E; [|injection H as <- <-; auto].
  destruct (skip p r) as [c' r'] eqn:S. injection H as <- <-. eapply IH. reflexivity.
Qed.
Lemma takes_docs : forall ts c ts', skip_docs ts = (c, ts') -> takes ts c ts'.
Proof.
  intros ts c ts' H. unfold skip_docs in H. destruct (tkind_eqb _ _); [|injection H as <- <-; apply takes_nil].
  apply (takes_skip is_doc_run_kind); [reflexivity | exact H].
Qed.

Definition good (ts : list token) (r : res parsed) (progress : Prop) : Prop :=
  exists c e ts', r = Ok (c, e, ts') /\ takes ts c ts' /\ (progress -> length ts' < length ts).

Lemma not_eof_cons : forall ts, peek_kind ts <> Eof -> ts <> [].
Proof. intros [|] H; [elim H; reflexivity | discriminate]. Qed.
Lemma heredoc_good : forall ts, peek_kind ts = HeredocStart -> good ts (Ok (parse_heredoc ts)) True.
Proof.
  intros ts K. unfold parse_heredoc. destruct (bump ts) as [c1 ts1] eqn:B1.
  assert (T1 : takes ts c1 ts1) by (eapply takes_bump; [exact B1 | rewrite K; discriminate]).
  assert (L1 : length ts1 < length ts) by (eapply bump_len; [exact B1 | apply not_eof_cons; rewrite K; discriminate]).
  destruct (if tkind_eqb (peek_kind ts1) HeredocContent then bump ts1 else ([], ts1)) as [c2 ts2] eqn:B2.
  assert (T2 : takes ts1 c2 ts2).
  { destruct (tkind_eqb (peek_kind ts1) HeredocContent) eqn:E; [|injection B2 as <- <-; apply takes_nil].
    eapply takes_bump; [exact B2|]. apply tkind_eqb_eq in E. rewrite E. discriminate. }
  pose proof (takes_len _ _ _ T2). destruct (tkind_eqb (peek_kind ts2) HeredocEnd) eqn:E.
  - destruct (bump ts2) as [c3 ts3] eqn:B3. apply tkind_eqb_eq in E.
    assert (T3 : takes ts2 c3 ts3) by (eapply takes_bump; [exact B3 | rewrite E; discriminate]).
    pose proof (takes_len _ _ _ T3). do 3 eexists. split; [reflexivity|]. split; [|lia].
    apply takes_node. eapply takes_app; [exact T1|]. eapply takes_app; eassumption.
  - do 3 eexists. split; [reflexivity|]. split; [|lia]. apply takes_node. eapply takes_app; eassumption.
Qed.

(** An atom that is one token, or an error token. *)
Lemma single_good : forall ts k e, peek_kind ts <> Tag -> k = k ->
  good ts (let (c, ts1) := bump ts in Ok ([Node k c], e, ts1)) (ts <> []) /\
  good ts (let (c, ts1) := bump ts in Ok (c, e, ts1)) (ts <> []).
Proof.
  intros ts k e K _. destruct (bump ts) as [c ts1] eqn:B. pose proof (takes_bump _ _ _ B K) as T.
  split; do 3 eexists; (split; [reflexivity|]; split; [try apply takes_node; exact T | apply (bump_len _ _ _ B)]).
Qed.

Ltac use H :=
  let c := fresh "c" in let e := fresh "e" in let ts := fresh "ts" in let R := fresh "R" in
  let T := fresh "T" in let L := fresh "L" in
  destruct H as (c & e & ts & R & T & L); rewrite R; cbn [bind]; pose proof (takes_len _ _ _ T).
Ltac finish_takes := repeat (first [exact (takes_nil _) | eassumption | apply takes_node
  | eapply takes_app; [apply takes_node; eassumption|] | eapply takes_app; [apply takes_node; apply takes_node; eassumption|] | eapply takes_app; [eassumption|]]).
Ltac done_good := do 3 eexists; split; [reflexivity|]; split; [finish_takes | intros; try lia].

Lemma parse_good : forall n,
  (forall cl ts, cl <> Some Tag -> 8 * length ts + 8 <= n -> Forall tag_ok ts -> good ts (parse_entries n cl ts) False) /\
  (forall cl ts, cl <> Some Tag -> 8 * length ts + 7 <= n -> Forall tag_ok ts -> good ts (parse_entry n cl ts) (at_entry_end cl ts = false)) /\
  (forall cl k ts, cl <> Some Tag -> 8 * length ts + 6 <= n -> Forall tag_ok ts -> good ts (parse_values n cl k ts) False) /\
  (forall cl ts, cl <> Some Tag -> 8 * length ts + 5 <= n -> Forall tag_ok ts -> good ts (parse_attributes n cl ts) (at_attribute ts = true)) /\
  (forall ts, 8 * length ts + 4 <= n -> Forall tag_ok ts -> peek_kind ts = BareScalar -> good ts (parse_attribute n ts) True) /\
  (forall ts, 8 * length ts + 3 <= n -> Forall tag_ok ts -> good ts (parse_atom n ts) (ts <> [])) /\
  (forall ts, 8 * length ts + 5 <= n -> Forall tag_ok ts -> good ts (parse_elements n ts) False).
Proof.
  induction n as [|n (IHes & IHe & IHv & IHas & IHa & IHx & IHl)]; [repeat split; intros; exfalso; lia|].
  splits.
  - (* entries *)
    intros cl ts CL L TG. cbn [parse_entries].
    destruct (skip is_trivia_kind ts) as [c1 ts1] eqn:S1. assert (T1 := takes_skip _ eq_refl _ _ _ S1). pose proof (takes_len _ _ _ T1).
    destruct (skip_docs ts1) as [c2 ts2] eqn:S2. assert (T2 := takes_docs _ _ _ S2). pose proof (takes_len _ _ _ T2).
    destruct (tkind_eqb (peek_kind ts2) Eof || closes cl ts2) eqn:E; [done_good; try contradiction|].
    apply orb_false_iff in E as [E1 E2].
    assert (TG2 : Forall tag_ok ts2) by (eapply takes_tags; [exact T2|]; eapply takes_tags; eassumption).
    use (IHe cl ts2 CL ltac:(lia) TG2).
    destruct (skip is_blank_kind ts0) as [c4 ts4] eqn:S4. assert (T4 := takes_skip _ eq_refl _ _ _ S4). pose proof (takes_len _ _ _ T4).
    destruct (match peek_kind ts4 with Comma | Newline => bump ts4 | _ => ([], ts4) end) as [c5 ts5] eqn:S5.
    assert (T5 : takes ts4 c5 ts5).
    { destruct (peek_kind ts4) eqn:K4; try (injection S5 as <- <-; apply takes_nil); eapply takes_bump; try exact S5; rewrite K4; discriminate. }
    pose proof (takes_len _ _ _ T5).
    assert (TG5 : Forall tag_ok ts5) by (eapply takes_tags; [exact T5|]; eapply takes_tags; [exact T4|]; eapply takes_tags; eassumption).
    assert (LT : length ts5 < length ts).
    { destruct (at_entry_end cl ts2) eqn:EE; [|specialize (L0 eq_refl); lia].
      destruct (Nat.eq_dec (length ts5) (length ts)) as [Q|Q]; [exfalso|lia].
      (* nothing was consumed at all *)
      assert (SAME : forall a b x, takes a x b -> length b = length a -> a = b).
      { intros a b x (u & -> & _) Q'. rewrite app_length in Q'. destruct u; [reflexivity | cbn in Q'; lia]. }
      assert (ts = ts1) by (eapply SAME; [exact T1 | lia]). assert (ts1 = ts2) by (eapply SAME; [exact T2 | lia]).
      assert (ts2 = ts0) by (eapply SAME; [exact T | lia]). assert (ts0 = ts4) by (eapply SAME; [exact T4 | lia]).
      assert (ts4 = ts5) by (eapply SAME; [exact T5 | lia]). subst.
      apply skip_head in S1. unfold at_entry_end in EE. unfold closes in E2.
      destruct S1 as [->|S1]; [discriminate|].
      destruct (peek_kind ts5) eqn:K5; try discriminate;
        try (destruct cl; [cbn in E2, EE; congruence | discriminate]).
      destruct ts5; [discriminate|]. cbn in S5. injection S5 as _ S5. apply (f_equal (@length _)) in S5. cbn in S5. lia. }
    use (IHes cl ts5 CL ltac:(lia) TG5). done_good; try contradiction.
  - (* entry *)
    intros cl ts CL L TG. cbn [parse_entry]. destruct (at_attribute ts) eqn:A.
    + use (IHas cl ts CL ltac:(lia) TG). done_good; try (apply L0 in A; lia).
    + assert (G : exists ck ek ts1, (if at_entry_end cl ts then Ok ([], [], ts)
         else do (c, e, ts1) <- parse_atom n ts; Ok ([Node KEY c], e, ts1)) = Ok (ck, ek, ts1) /\ takes ts ck ts1 /\
           (at_entry_end cl ts = false -> length ts1 < length ts)).
      { destruct (at_entry_end cl ts) eqn:EE; [done_good; try discriminate|].
        use (IHx ts ltac:(lia) TG). done_good; try (apply L0; intros ->; discriminate). }
      use G. destruct (skip is_blank_kind ts0) as [cw ts2] eqn:S2. assert (T2 := takes_skip _ eq_refl _ _ _ S2). pose proof (takes_len _ _ _ T2).
      use (IHv cl 0 ts2 CL ltac:(lia) ltac:(eapply takes_tags; [exact T2|]; eapply takes_tags; eassumption)).
      done_good; try (match goal with Q : at_entry_end _ _ = false |- _ => apply L0 in Q end; lia).
  - (* values *)
    intros cl k ts CL L TG. cbn [parse_values]. destruct (at_entry_end cl ts) eqn:EE; [done_good; try contradiction|].
    assert (NE : ts <> []) by (intros ->; discriminate).
    assert (G : good ts (if at_attribute ts then
           do (c, e, ts1) <- parse_attributes n cl ts; Ok ([Node VALUE [Node ATTRIBUTES c]], e, ts1)
         else
           let e0 := if match cl with Some RBrace => true | _ => false end && (0 <? k) && at_atom_start ts
                     then [(current_pos ts, TooManyAtoms)] else [] in
           do (c, e, ts1) <- parse_atom n ts; Ok ([Node VALUE c], e0 ++ e, ts1)) True).
    { destruct (at_attribute ts) eqn:A.
      - use (IHas cl ts CL ltac:(lia) TG). done_good; try (apply L0 in A; lia).
      - cbv zeta. use (IHx ts ltac:(lia) TG). done_good; try (auto). }
    cbv zeta in G |- *. destruct G as (c & e & ts0 & R & T & L0). match goal with |- good _ (bind ?x _) _ => replace x with (Ok (c, e, ts0)) by (symmetry; exact R) end. cbn [bind]. pose proof (takes_len _ _ _ T). destruct (skip is_blank_kind ts0) as [cw ts2] eqn:S2. assert (T2 := takes_skip _ eq_refl _ _ _ S2). pose proof (takes_len _ _ _ T2).
    specialize (L0 Logic.I).
    use (IHv cl (S k) ts2 CL ltac:(lia) ltac:(eapply takes_tags; [exact T2|]; eapply takes_tags; eassumption)).
    done_good; try contradiction.
  - (* attributes *)
    intros cl ts CL L TG. cbn [parse_attributes]. destruct (at_attribute ts) eqn:A; [|done_good; try discriminate].
    assert (K : peek_kind ts = BareScalar).
    { destruct ts as [|t r]; [discriminate|]. cbn in A. apply andb_true_iff in A as [A _]. apply tkind_eqb_eq in A. exact A. }
    use (IHa ts ltac:(lia) TG K). specialize (L0 Logic.I).
    destruct (skip is_blank_kind ts0) as [cw ts2] eqn:S2. assert (T2 := takes_skip _ eq_refl _ _ _ S2). pose proof (takes_len _ _ _ T2).
    destruct (at_entry_end cl ts2); [done_good|].
    use (IHas cl ts2 CL ltac:(lia) ltac:(eapply takes_tags; [exact T2|]; eapply takes_tags; eassumption)). done_good.
  - (* attribute *)
    intros ts L TG K. cbn [parse_attribute]. destruct (bump ts) as [c1 ts1] eqn:B1.
    assert (T1 : takes ts c1 ts1) by (eapply takes_bump; [exact B1 | rewrite K; discriminate]).
    assert (L1 : length ts1 < length ts) by (eapply bump_len; [exact B1 | apply not_eof_cons; rewrite K; discriminate]).
    destruct (if tkind_eqb (peek_kind ts1) Gt then bump ts1 else ([], ts1)) as [c2 ts2] eqn:B2.
    assert (T2 : takes ts1 c2 ts2).
    { destruct (tkind_eqb (peek_kind ts1) Gt) eqn:E; [|injection B2 as <- <-; apply takes_nil].
      eapply takes_bump; [exact B2|]. apply tkind_eqb_eq in E. rewrite E. discriminate. }
    pose proof (takes_len _ _ _ T2). set (space := match peek_kind ts2 with Whitespace | Newline => true | _ => false end).
    destruct (if space then skip is_blank_kind ts2 else ([], ts2)) as [c3 ts3] eqn:B3.
    assert (T3 : takes ts2 c3 ts3).
    { destruct space; [|injection B3 as <- <-; apply takes_nil]. apply (takes_skip is_blank_kind); [reflexivity | exact B3]. }
    pose proof (takes_len _ _ _ T3).
    use (IHx ts3 ltac:(lia) ltac:(eapply takes_tags; [exact T3|]; eapply takes_tags; [exact T2|]; eapply takes_tags; eassumption)).
    cbv zeta. done_good.
  - (* atom *)
    intros ts L TG. cbn [parse_atom]. destruct (peek_kind ts) eqn:K;
      try (apply (single_good ts SCALAR []); [rewrite K; discriminate | reflexivity]);
      try (apply (single_good ts UNIT []); [rewrite K; discriminate | reflexivity]);
      try (apply (single_good ts UNIT [(current_pos ts, UnexpectedToken _)]); [rewrite K; discriminate | reflexivity]).
    + destruct (bump ts) as [c1 ts1] eqn:B1.
      assert (T1 : takes ts c1 ts1) by (eapply takes_bump; [exact B1 | rewrite K; discriminate]).
      assert (L1 : length ts1 < length ts) by (eapply bump_len; [exact B1 | apply not_eof_cons; rewrite K; discriminate]).
      use (IHes (Some RBrace) ts1 ltac:(discriminate) ltac:(lia) ltac:(eapply takes_tags; eassumption)).
      destruct (skip is_trivia_kind ts0) as [c3 ts3] eqn:S3. assert (T3 := takes_skip _ eq_refl _ _ _ S3). pose proof (takes_len _ _ _ T3).
      destruct (tkind_eqb (peek_kind ts3) RBrace) eqn:E; [|done_good].
      destruct (bump ts3) as [c4 ts4] eqn:B4. apply tkind_eqb_eq in E.
      assert (T4 : takes ts3 c4 ts4) by (eapply takes_bump; [exact B4 | rewrite E; discriminate]).
      pose proof (takes_len _ _ _ T4). done_good.
    + destruct (bump ts) as [c1 ts1] eqn:B1.
      assert (T1 : takes ts c1 ts1) by (eapply takes_bump; [exact B1 | rewrite K; discriminate]).
      assert (L1 : length ts1 < length ts) by (eapply bump_len; [exact B1 | apply not_eof_cons; rewrite K; discriminate]).
      use (IHl ts1 ltac:(lia) ltac:(eapply takes_tags; eassumption)).
      destruct (if tkind_eqb (peek_kind ts0) RParen then bump ts0 else ([], ts0)) as [c3 ts3] eqn:B3.
      assert (T3 : takes ts0 c3 ts3).
      { destruct (tkind_eqb (peek_kind ts0) RParen) eqn:E; [|injection B3 as <- <-; apply takes_nil].
        eapply takes_bump; [exact B3|]. apply tkind_eqb_eq in E. rewrite E. discriminate. }
      pose proof (takes_len _ _ _ T3). done_good.
    + destruct ts as [|t ts1]; [discriminate|]. cbn in K. apply Forall_cons_iff in TG as [TK TG].
      destruct (TK K) as (s & m & SP & AM). rewrite SP.
      assert (TXT := split_tag_text _ _ _ _ (le_n _) SP).
      destruct (payload_follows _ _).
      * use (IHx ts1 ltac:(cbn in L; lia) TG). destruct (tag_node_leaves m s [Node TAG_PAYLOAD c] AM) as (p & LV & TP & TX).
        do 3 eexists. split; [reflexivity|]. split; [|intros _; cbn; lia].
        destruct T as (u & -> & U). exists (t :: u). split; [reflexivity|]. cbn [leaf_list flat_map]. rewrite app_nil_r, LV.
        apply cov_tag; [exact K | exact TP | congruence|]. cbn. rewrite app_nil_r. exact U.
      * destruct (tag_node_leaves m s [] AM) as (p & LV & TP & TX).
        do 3 eexists. split; [reflexivity|]. split; [|intros _; cbn; lia].
        exists [t]. split; [reflexivity|]. cbn [leaf_list flat_map]. rewrite app_nil_r, LV.
        apply cov_tag; [exact K | exact TP | congruence | constructor].
    + destruct (heredoc_good ts K) as (c & e & ts' & R & T & P). exists c, e, ts'. split; [exact R|]. split; [exact T | auto].
  - (* elements *)
    intros ts L TG. cbn [parse_elements].
    destruct (skip is_trivia_kind ts) as [c1 ts1] eqn:S1. assert (T1 := takes_skip _ eq_refl _ _ _ S1). pose proof (takes_len _ _ _ T1).
    assert (G : good ts (do (c2, e2, ts2) <- parse_atom n ts1;
      let (c3, ts3) := skip is_blank_kind ts2 in
      do (c4, e4, ts4) <- parse_elements n ts3;
      Ok (c1 ++ [Node ENTRY [Node KEY c2]] ++ c3 ++ c4, e2 ++ e4, ts4)) False \/ ts1 = []).
    { destruct ts1 as [|t r]; [auto|]. left. assert (TG1 : Forall tag_ok (t :: r)) by (eapply takes_tags; eassumption).
      use (IHx (t :: r) ltac:(lia) TG1).
      specialize (L0 ltac:(discriminate)).
      destruct (skip is_blank_kind ts0) as [c3 ts3] eqn:S3. assert (T3 := takes_skip _ eq_refl _ _ _ S3). pose proof (takes_len _ _ _ T3).
      use (IHl ts3 ltac:(lia) ltac:(eapply takes_tags; [exact T3|]; eapply takes_tags; eassumption)).
      done_good; try contradiction. }
    destruct (peek_kind ts1) eqn:K1; try (done_good; try contradiction); (destruct G as [G|G]; [exact G | subst; discriminate]).
Qed.

Lemma entries_eof : forall n ts c e ts', parse_entries n None ts = Ok (c, e, ts') -> peek_kind ts' = Eof.
Proof.
  induction n as [|n IH]; intros ts c e ts' H; [discriminate|]. cbn [parse_entries] in H.
  destruct (skip is_trivia_kind ts) as [c1 ts1]. destruct (skip_docs ts1) as [c2 ts2].
  destruct (tkind_eqb (peek_kind ts2) Eof || closes None ts2) eqn:E.
  - injection H as <- <- <-. cbn [closes] in E. rewrite orb_false_r in E. apply tkind_eqb_eq. exact E.
  - destruct (parse_entry n None ts2) as [[[c3 e3] ts3]| |]; try discriminate. cbn [bind] in H.
    destruct (skip is_blank_kind ts3) as [c4 ts4].
    destruct (match peek_kind ts4 with Comma | Newline => bump ts4 | _ => ([], ts4) end) as [c5 ts5].
    destruct (parse_entries n None ts5) as [[[c6 e6] ts6]| |] eqn:R; try discriminate. cbn [bind] in H.
    injection H as <- <- <-. eapply IH. exact R.
Qed.

Theorem cst_parse_covers : forall src, exists ts tree errors,
  tokens src = Some ts /\ cst_parse src = Ok (tree, errors) /\ covers ts (filter (fun l => match fst l with LTok Eof => false | _ => true end) (leaves tree)) /\
  cst_text tree = src.
Proof.
  intros src. destruct (tokenize_lossless src) as (ts & T & TX & _). exists ts.
  unfold cst_parse, token_stream. rewrite T. cbn [option_map of_opt bind].
  set (eof := mktok Eof (mkspan (blen src) (blen src)) []).
  assert (NE : Forall (fun t => tk_kind t <> Eof) ts).
  { destruct (tokens_progress src) as (ts0 & T0 & _ & P). rewrite T in T0. injection T0 as <-.
    apply Forall_forall. intros t I. apply in_split in I as (a & b & ->). eapply P. reflexivity. }
  assert (TG : Forall tag_ok (ts ++ [eof])).
  { apply Forall_app. split; [eapply tokens_from_tags; exact T|]. constructor; [intros [=] | constructor]. }
  destruct (parse_good (8 * length (ts ++ [eof]) + 8)) as (P & _).
  destruct (P None (ts ++ [eof]) ltac:(discriminate) (le_n _) TG) as (c & e & ts' & R & (u & E & C) & _).
  rewrite R. cbn [bind]. exists (Node DOCUMENT c), e. apply entries_eof in R.
  split; [reflexivity|]. split; [reflexivity|].
  assert (U : u = ts \/ u = ts ++ [eof]).
  { destruct ts' as [|t r]; [right; rewrite app_nil_r in E; congruence|]. cbn in R. left.
    assert (r = []).
    { destruct r as [|x r]; [reflexivity|]. exfalso. rewrite (app_removelast_last eof (l := x :: r)) in E by discriminate.
      change (t :: removelast (x :: r) ++ [last (x :: r) eof]) with ((t :: removelast (x :: r)) ++ [last (x :: r) eof]) in E.
      rewrite app_assoc in E. apply app_inj_tail in E as [E _]. rewrite E in NE. apply Forall_app in NE as [_ NE].
      apply Forall_cons_iff in NE as [NE _]. contradiction. }
    subst r. apply app_inj_tail in E as [E _]. congruence. }
  assert (FC : forall ts ls, covers ts ls -> covers (filter (fun t => negb (tkind_eqb (tk_kind t) Eof)) ts)
             (filter (fun l => match fst l with LTok Eof => false | _ => true end) ls)).
  { clear. intros ts ls H. induction H as [|t ts ls K H IH|t ts p ls K TP X H IH|t ts ls K H IH].
    - constructor.
    - cbn. destruct (tk_kind t) eqn:E; cbn; try exact IH; rewrite <- E; apply cov_token; congruence.
    - cbn. rewrite K. cbn. rewrite filter_app.
      assert (F : filter (fun l : leaf_of => match fst l with LTok Eof => false | _ => true end) p = p).
      { clear - TP. induction TP as [t|t l TP IH]; cbn; [reflexivity | rewrite IH; reflexivity]. }
      replace (filter _ p) with p by (symmetry; exact F). apply cov_tag; assumption.
    - cbn. rewrite K. exact IH. }
  assert (FT : filter (fun t => negb (tkind_eqb (tk_kind t) Eof)) u = ts).
  { assert (F0 : filter (fun t => negb (tkind_eqb (tk_kind t) Eof)) ts = ts).
    { clear - NE. induction NE as [|t ts K _ IH]; [reflexivity|]. cbn. rewrite IH.
      destruct (tkind_eqb (tk_kind t) Eof) eqn:E; [apply tkind_eqb_eq in E; contradiction | reflexivity]. }
    destruct U as [->| ->]; [exact F0|]. rewrite filter_app, F0. cbn. apply app_nil_r. }
  split.
  - specialize (FC _ _ C). rewrite FT in FC. exact FC.
  - unfold cst_text. cbn [leaves]. fold (leaf_list c). rewrite (covers_text _ _ C).
    + destruct U as [->| ->]; [exact TX|]. unfold texts. rewrite map_app, concat_app. cbn. rewrite app_nil_r. exact TX.
    + assert (F0 : Forall (fun t => tk_kind t = Eof -> tk_text t = []) ts).
      { eapply Forall_impl; [|exact NE]. cbn. tauto. }
      destruct U as [->| ->]; [exact F0|]. apply Forall_app. split; [exact F0|]. repeat constructor.
Qed.

(** [at_attribute] slices the source where the model takes the following tokens. *)
Lemma tiles_end : forall x p e t r, tiles p (x ++ t :: r) e -> sp_end (tk_span t) = p + blen (texts (x ++ [t])).
Proof.
  unfold texts. induction x as [|y x IH]; intros p e t r H; cbn in H |- *.
  - rewrite app_nil_r. lia.
  - destruct H as (H1 & H2 & H3). apply IH in H3. rewrite H3, H2, blen_app. lia.
Qed.
Lemma rest_is_source : forall src ts x t r, tokens src = Some ts -> ts = x ++ t :: r ->
  drop_bytes (sp_end (tk_span t)) src = Some (concat (map tk_text r)).
Proof.
  intros src ts x t r T E. destruct (tokenize_lossless src) as (ts0 & T0 & TX & TL & _).
  rewrite T in T0. injection T0 as <-. subst ts. apply tiles_end in TL. rewrite TL. cbn [Nat.add].
  rewrite <- TX. replace (x ++ t :: r) with ((x ++ [t]) ++ r) by (rewrite <- app_assoc; reflexivity).
  unfold texts at 2. rewrite map_app, concat_app. apply drop_bytes_app.
Qed.
