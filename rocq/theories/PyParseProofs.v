(** The Python parser stops, unless braces are closed that were not opened. *)
From Verif Require Import Base BaseProofs PyModel PySpec PyProofs PyParseModel PyParseSpec.

Lemma balance_app a b : (balance (a ++ b) = balance a + balance b)%Z.
Proof. induction a as [|t a IH]; cbn [app balance]; lia. Qed.

Section parser.
Variable isupper : char -> bool.
Variable int16 : str -> option Z.
Hypothesis upper_letters : forall c, isupper c = true -> (65 <= c)%N.
Variable src : str.
Notation lexed := (lexed isupper int16 src).

Definition nonE (t : pytok) : bool := negb (kind_eqb (pt_kind t) KEof).
Definition cost (t : pytok) : nat := if nonE t then 1 else 0.
Definition lv (t : pytok) : list pytok := if nonE t then [t] else [].
Definition lvp (st : pst) : list pytok := match st_peeked st with Some t => lv t | None => [] end.
Definition live (st : pst) : list pytok := lv (st_cur st) ++ lvp st.
Definition w (st : pst) : nat := cost (st_cur st) + match st_peeked st with Some t => cost t | None => 0 end + length (st_rest st).

Definition Inv (st : pst) (c : list pytok) : Prop :=
  (exists s, lexed (c ++ live st) s /\ (st_rest st = s \/ st_rest st = []))
  /\ (nonE (st_cur st) = false -> st_rest st = [] /\ match st_peeked st with Some t => nonE t = false | None => True end)
  /\ (forall t, st_peeked st = Some t -> nonE t = false -> st_rest st = []).

Lemma lexed_prefix l s : lexed l s -> forall a b, l = a ++ b -> exists r, lexed a r.
Proof.
  intros R. induction R as [|l s t r R IH E N]; intros a b X.
  - destruct a; [|discriminate]. eexists. constructor.
  - destruct (list_eq_dec N.eq_dec [] []) as [_|]; [|congruence]. destruct b as [|x b].
    + rewrite app_nil_r in X. subst a. eexists. econstructor; eauto.
    + destruct (@exists_last _ (x :: b)) as (b' & y & Y); [discriminate|]. rewrite Y, app_assoc in X. apply app_inj_tail in X as [X _]. eauto.
Qed.
Lemma lexed_suffix l s : lexed l s -> exists p, src = p ++ s.
Proof.
  intros R. induction R as [|l s t r R (p & IH) E N]; [exists []; reflexivity|].
  pose proof (next_token_spec isupper int16 src upper_letters p s IH) as X. rewrite E in X. cbn in X.
  destruct X as [[(g & _ & _ & K & _) ->]|(g & lex & k & u & ws & nl & Es & _)]; [congruence|]. exists (p ++ g ++ lex). rewrite IH, Es. now rewrite <- !app_assoc.
Qed.

Notation fetch := (fetch isupper int16 src).
Lemma fetch_spec s s' l : lexed l s' -> s = s' \/ s = [] ->
  match fetch s with
  | VOk (t, r) => (nonE t = true /\ lexed (l ++ [t]) r /\ length r < length s) \/ (nonE t = false /\ r = [])
  | VFuel => False
  | _ => True
  end.
Proof.
  intros R E. unfold PyParseModel.fetch. destruct (list_eq_dec N.eq_dec s []) as [->|Ns]; [right; split; reflexivity|].
  destruct E as [<-|E]; [|congruence]. destruct (lexed_suffix _ _ R) as (q & E).
  pose proof (next_token_spec isupper int16 src upper_letters q s E) as N.
  destruct (next_token isupper int16 src s) as [[t r]|b e|] eqn:Et; cbn in N; auto.
  destruct N as [[(g & _ & _ & K & _) ->]|(g & lex & k & u & ws & nl & -> & -> & K & Lx & G & B & W & Ws & Nl)].
  - right. unfold nonE. rewrite K. auto.
  - left. splits.
    + unfold nonE. cbn. destruct k; try reflexivity. congruence.
    + econstructor; eauto.
    + rewrite !app_length. destruct lex; [congruence|]. cbn. lia.
Qed.

Definition good {A} (m : pm A) (st : pst) (c : list pytok) (Q : A -> pst -> list pytok -> Prop) : Prop :=
  match m st with VOk (a, st') => exists d, Inv st' (c ++ d) /\ Q a st' d | VFuel => False | _ => True end.

Lemma good_bind {A B} (m : pm A) (f : A -> pm B) st c Q1 Q :
  good m st c Q1 -> (forall a st' d, Inv st' (c ++ d) -> Q1 a st' d -> good (f a) st' (c ++ d) (fun b st'' d' => Q b st'' (d ++ d'))) ->
  good (pbind m f) st c Q.
Proof.
  unfold good, pbind. intros H1 H2. destruct (m st) as [[a st']| | |]; auto. destruct H1 as (d & I & Q1').
  specialize (H2 a st' d I Q1'). destruct (f a st') as [[b st'']| | |]; auto. destruct H2 as (d' & I' & Q'). exists (d ++ d'). now rewrite app_assoc.
Qed.
Lemma good_weaken {A} (m : pm A) st c (Q1 Q : A -> pst -> list pytok -> Prop) :
  good m st c Q1 -> (forall a st' d, Q1 a st' d -> Q a st' d) -> good m st c Q.
Proof. unfold good. intros H K. destruct (m st) as [[a st']| | |]; auto. destruct H as (d & I & X). eauto. Qed.
Lemma good_ret {A} (a : A) st c (Q : A -> pst -> list pytok -> Prop) : Inv st c -> Q a st [] -> good (ret a) st c Q.
Proof. intros I H. exists []. rewrite app_nil_r. auto. Qed.
Lemma good_fail {A} st c (Q : A -> pst -> list pytok -> Prop) : good fail st c Q.
Proof. exact I. Qed.
Lemma bind_check {B} ks (f : bool -> pm B) st c Q : good (f (existsb (kind_eqb (pt_kind (st_cur st))) ks)) st c Q -> good (pbind (check ks) f) st c Q.
Proof. exact (fun x => x). Qed.
Lemma bind_current {B} (f : pytok -> pm B) st c Q : good (f (st_cur st)) st c Q -> good (pbind current f) st c Q.
Proof. exact (fun x => x). Qed.

Notation advance := (advance isupper int16 src).
Notation look := (look isupper int16 src).
Notation expect := (expect isupper int16 src).

Lemma good_advance st c : Inv st c -> pt_kind (st_cur st) <> KEof ->
  good advance st c (fun t st' d => t = st_cur st /\ d = [st_cur st] /\ w st' < w st /\ (forall n, st_peeked st = Some n -> st_cur st' = n)).
Proof.
  intros ((q & R & E) & I1 & I2) K. assert (N : nonE (st_cur st) = true) by (unfold nonE; destruct (pt_kind (st_cur st)); try reflexivity; congruence).
  unfold good, PyParseModel.advance. unfold live, lvp, lv in R. rewrite N in R. unfold w. unfold cost at 3. rewrite N.
  destruct (st_peeked st) as [t|] eqn:P.
  - exists [st_cur st]. splits; auto; cbn; [|lia|intros n [= <-]; reflexivity]. split; [|split; [|discriminate]].
    + exists q. split; [|exact E]. unfold live, lvp, lv. cbn. rewrite app_nil_r, <- app_assoc. exact R.
    + intros X. split; [apply (I2 t); auto|exact Logic.I].
  - rewrite app_nil_r in R. pose proof (fetch_spec (st_rest st) q _ R E) as F. destruct (fetch (st_rest st)) as [[t r]| | |]; auto.
    destruct F as [(Nt & R' & L)|(Nt & ->)].
    + exists [st_cur st]. splits; auto; cbn; [|unfold cost; rewrite Nt; lia|discriminate]. split; [|split; [|discriminate]].
      * exists r. split; auto. unfold live, lvp, lv. cbn. rewrite Nt, app_nil_r. exact R'.
      * cbn. congruence.
    + exists [st_cur st]. splits; auto; cbn; [|unfold cost; rewrite Nt; lia|discriminate]. split; [|split; [|discriminate]]; cbn; auto.
      exists q. split; auto. unfold live, lvp, lv. cbn. now rewrite Nt, !app_nil_r.
Qed.
Lemma good_look st c : Inv st c ->
  good look st c (fun t st' d => d = [] /\ w st' <= w st /\ st_cur st' = st_cur st /\ st_peeked st' = Some t).
Proof.
  intros I. pose proof I as ((q & R & E) & I1 & I2). unfold good, PyParseModel.look. destruct (st_peeked st) as [t|] eqn:P.
  { exists []. rewrite app_nil_r. splits; auto. }
  pose proof (fetch_spec (st_rest st) q _ R E) as F. destruct (fetch (st_rest st)) as [[t r]| | |]; auto. exists []. rewrite app_nil_r.
  unfold live, lvp in R. rewrite P, app_nil_r in R. unfold live, lvp in F. rewrite P, app_nil_r in F.
  destruct F as [(Nt & R' & L)|(Nt & ->)]; (splits; auto; [|unfold w; cbn; rewrite P; unfold cost at 2; rewrite Nt; cbn; lia]); (split; [|split]); cbn.
  - exists r. split; auto. unfold live, lvp. cbn. unfold lv at 2. rewrite Nt. now rewrite app_assoc.
  - intros X. destruct (I1 X) as [X1 _]. rewrite X1 in L. cbn in L. lia.
  - intros n [= <-]. congruence.
  - exists q. split; auto. unfold live, lvp. cbn. unfold lv at 2. now rewrite Nt, app_nil_r.
  - auto.
  - auto.
Qed.
Lemma good_expect k st c : Inv st c -> k <> KEof ->
  good (expect k) st c (fun t st' d => t = st_cur st /\ pt_kind t = k /\ d = [t] /\ w st' < w st).
Proof.
  intros I K. unfold PyParseModel.expect. apply bind_check. cbn [existsb]. rewrite orb_false_r.
  destruct (kind_eqb (pt_kind (st_cur st)) k) eqn:E; [|exact Logic.I].
  assert (Ek : pt_kind (st_cur st) = k) by (destruct (pt_kind (st_cur st)), k; try discriminate; reflexivity).
  eapply good_weaken; [apply good_advance; auto; congruence|]. cbn. intros t st' d (-> & -> & H & _). auto.
Qed.

Lemma brace_other t : pt_kind t <> KLBrace -> pt_kind t <> KRBrace -> brace t = 0%Z.
Proof. unfold brace. destruct (pt_kind t); congruence. Qed.

Definition eats {A} (st : pst) : A -> pst -> list pytok -> Prop := fun _ st' d => balance d = 0%Z /\ w st' < w st.
Definition keeps {A} (st : pst) : A -> pst -> list pytok -> Prop := fun _ st' d => balance d = 0%Z /\ w st' <= w st.

Ltac bal := rewrite ?balance_app; cbn [balance app]; rewrite ?brace_other by congruence; unfold brace;
  repeat match goal with H : pt_kind _ = _ |- _ => rewrite H end; try lia.

Lemma good_scalar st c : Inv st c -> good (parse_scalar isupper int16 src) st c (eats st).
Proof.
  intros I. unfold parse_scalar. apply bind_current. destruct (pt_kind (st_cur st)) eqn:K; try exact Logic.I;
    (eapply good_bind; [apply good_advance; auto; congruence|]; cbn beta; intros t st' d I' (-> & -> & H & _); apply good_ret; auto; unfold eats;
     split; [bal|exact H]).
Qed.
Lemma good_commas : forall fuel st c, Inv st c -> w st < fuel ->
  good (skip_commas isupper int16 src fuel) st c
    (fun _ st' d => balance d = 0%Z /\ w st' <= w st /\ pt_kind (st_cur st') <> KComma /\ (pt_kind (st_cur st) = KComma -> w st' < w st)
                    /\ (pt_kind (st_cur st) <> KComma -> st' = st)).
Proof.
  induction fuel as [|f IH]; intros st c I F; [lia|]. cbn [skip_commas]. apply bind_check. cbn [existsb]. rewrite orb_false_r.
  destruct (kind_eqb (pt_kind (st_cur st)) KComma) eqn:E.
  - assert (K : pt_kind (st_cur st) = KComma) by (destruct (pt_kind (st_cur st)); try discriminate; reflexivity).
    eapply good_bind; [apply good_advance; auto; congruence|]. cbn beta. intros t st' d I' (-> & -> & H & _).
    eapply good_weaken; [apply IH; auto; lia|]. cbn beta. intros ? st'' d (B & L & X & _ & _). splits; auto; try lia; try congruence. bal.
  - apply good_ret; auto. assert (K : pt_kind (st_cur st) <> KComma) by (intros K; rewrite K in E; discriminate). splits; auto; congruence.
Qed.
Lemma good_skip_all : forall fuel st c, Inv st c -> w st < fuel -> good (skip_all isupper int16 src fuel) st c (fun _ _ _ => True).
Proof.
  induction fuel as [|f IH]; intros st c I F; [lia|]. cbn [skip_all]. apply bind_check. cbn [existsb]. rewrite orb_false_r.
  destruct (kind_eqb (pt_kind (st_cur st)) KEof) eqn:E; [apply good_ret; auto|].
  assert (K : pt_kind (st_cur st) <> KEof) by (intros K; rewrite K in E; discriminate).
  eapply good_bind; [apply good_advance; auto|]. cbn beta. intros t st' d I' (-> & -> & H & _). apply IH; auto; lia.
Qed.

Definition all_good (f : nat) : Prop :=
  (forall st c, Inv st c -> 10 * w st + 4 < f -> good (parse_value isupper int16 src f) st c (eats st))
  /\ (forall st c, Inv st c -> 10 * w st + 3 < f -> pt_kind (st_cur st) = KTag -> good (parse_tag_value isupper int16 src f) st c (eats st))
  /\ (forall st c, Inv st c -> 10 * w st + 4 < f -> good (parse_attribute_value isupper int16 src f) st c (eats st))
  /\ (forall st c acc, Inv st c -> 10 * w st + 1 < f -> good (parse_attributes isupper int16 src f acc) st c (keeps st))
  /\ (forall st c, Inv st c -> 10 * w st + 3 < f -> good (parse_object isupper int16 src f) st c (eats st))
  /\ (forall st c seen acc, Inv st c -> 10 * w st + 6 < f -> good (parse_entries isupper int16 src f seen acc) st c (keeps st))
  /\ (forall st c seen, Inv st c -> 10 * w st + 5 < f -> good (parse_entry_dup isupper int16 src f seen) st c
        (fun a st' d => keeps st a st' d /\ (pt_kind (st_cur st) <> KRBrace -> pt_kind (st_cur st) <> KEof -> w st' < w st)))
  /\ (forall st c, Inv st c -> 10 * w st + 3 < f -> good (parse_sequence isupper int16 src f) st c (eats st))
  /\ (forall st c acc, Inv st c -> 10 * w st + 5 < f -> good (parse_items isupper int16 src f acc) st c (keeps st)).

Lemma kind_eqb_eq a b : kind_eqb a b = true <-> a = b.
Proof. destruct a, b; split; (reflexivity || discriminate). Qed.
Lemma kind_in k ks : existsb (kind_eqb k) ks = true <-> In k ks.
Proof. rewrite existsb_exists. split; [intros (x & I & E); apply kind_eqb_eq in E; now subst|]. intros I. exists k. split; auto. now apply kind_eqb_eq. Qed.
Lemma kind_out k ks : existsb (kind_eqb k) ks = false <-> ~ In k ks.
Proof. rewrite <- kind_in. destruct (existsb (kind_eqb k) ks); split; congruence. Qed.

Ltac adv := eapply good_bind; [apply good_advance; [assumption|congruence]|]; cbn beta; intros ? ? ? ?I (-> & -> & ?H & ?P).
Ltac call H := eapply good_bind; [apply H; [assumption|lia..]|]; cbn beta; unfold eats, keeps; intros ? ? ? ?I (?B & ?L).
Ltac fin := apply good_ret; [assumption|]; unfold eats, keeps; cbn beta; split; [bal|lia].

Lemma all_good_all : forall f, all_good f.
Proof.
  induction f as [|f (Hv & Ht & Hav & Has & Ho & Hes & He & Hs & Hi)]; [unfold all_good; splits; intros; lia|].
  unfold all_good. splits.
  - (* value *) intros st c I F. cbn [parse_value]. apply bind_current. destruct (pt_kind (st_cur st)) eqn:K;
      try (apply good_scalar; assumption).
    + (* scalar *) adv. apply bind_current. destruct (kind_eqb (pt_kind (st_cur st')) KGt && negb (pt_ws (st_cur st'))) eqn:E; [|fin].
      apply andb_true_iff in E as [E _]. apply kind_eqb_eq in E.
      eapply good_bind; [apply good_look; assumption|]. cbn beta. intros m st2 d I2 (-> & L2 & C2 & P2).
      destruct (negb (pt_nl m) && negb (kind_eqb (pt_kind m) KEof)); [|fin].
      eapply good_bind; [apply good_expect; [assumption|discriminate]|]. cbn beta. intros ? st3 ? I3 (-> & K3 & -> & L3).
      call Hav. call Has. fin.
    + (* object *) call Ho. fin.
    + (* sequence *) call Hs. fin.
    + (* at *) adv. apply bind_current, bind_check. match goal with |- good (if ?b then _ else _) _ _ _ => destruct b end; [exact Logic.I|fin].
    + (* tag *) apply Ht; auto; lia.
  - (* tag *) intros st c I F K. cbn [parse_tag_value]. adv. apply bind_current. destruct (negb (pt_ws (st_cur st'))); [|fin].
    destruct (pt_kind (st_cur st')) eqn:K'; try exact Logic.I; try fin; try (call good_scalar; fin).
    + call Ho. fin.
    + call Hs. fin.
    + adv. fin.
  - (* attribute value *) intros st c I F. cbn [parse_attribute_value]. apply bind_current. destruct (pt_kind (st_cur st)) eqn:K;
      try (apply good_scalar; assumption).
    + call Ho. fin.
    + call Hs. fin.
    + adv. fin.
    + apply Ht; auto; lia.
  - (* attributes *) intros st c acc I F. cbn [parse_attributes]. apply bind_current.
    destruct (kind_eqb (pt_kind (st_cur st)) KScalar && negb (pt_nl (st_cur st))) eqn:E; [|fin].
    apply andb_true_iff in E as [E _]. apply kind_eqb_eq in E.
    eapply good_bind; [apply good_look; assumption|]. cbn beta. intros n st2 d I2 (-> & L2 & C2 & P2).
    destruct (negb (kind_eqb (pt_kind n) KGt) || pt_ws n) eqn:E2; [fin|]. apply orb_false_iff in E2 as [E2 _]. apply negb_false_iff, kind_eqb_eq in E2.
    rewrite <- C2 in E. adv. pose proof (P _ P2) as C3. rewrite <- C3 in E2. adv. call Hav.
    eapply good_weaken; [apply Has; [assumption|lia]|]. unfold keeps. cbn beta. intros ? ? ? (B' & L'). split; [bal|lia].
  - (* object *) intros st c I F. cbn [parse_object].
    eapply good_bind; [apply good_expect; [assumption|discriminate]|]. cbn beta. intros ? st3 ? I3 (-> & K3 & -> & L3).
    call Hes. apply bind_check. match goal with |- good (if ?b then _ else _) _ _ _ => destruct b end; [exact Logic.I|].
    eapply good_bind; [apply good_expect; [assumption|discriminate]|]. cbn beta. intros ? st4 ? I4 (-> & K4 & -> & L4). fin.
  - (* entries *) intros st c seen acc I F. cbn [parse_entries]. apply bind_check.
    destruct (existsb (kind_eqb (pt_kind (st_cur st))) [KRBrace; KEof]) eqn:E; [fin|]. apply kind_out in E. cbn in E.
    eapply good_bind; [apply He; [assumption|lia]|]. cbn beta. unfold keeps. intros [e seen'] st' d I' ((B & L) & X).
    assert (Lt : w st' < w st) by (apply X; intros Y; apply E; rewrite Y; auto).
    apply bind_check. destruct (existsb (kind_eqb (pt_kind (st_cur st'))) [KComma]) eqn:E2.
    + apply kind_in in E2. destruct E2 as [E2|[]]. symmetry in E2. adv. eapply good_weaken; [apply Hes; [assumption|lia]|].
      unfold keeps. cbn beta. intros ? ? ? (B' & L'). split; [bal|lia].
    + eapply good_weaken; [apply Hes; [assumption|lia]|]. unfold keeps. cbn beta. intros ? ? ? (B' & L'). split; [bal|lia].
  - (* entry *) intros st c seen I F. cbn [parse_entry_dup].
    eapply good_bind; [apply good_commas; [assumption|lia]|]. cbn beta. intros ? st1 d1 I1 (B1 & L1 & N1 & C1 & S1).
    apply bind_check. destruct (existsb (kind_eqb (pt_kind (st_cur st1))) [KGt]); [exact Logic.I|].
    apply bind_check. destruct (existsb (kind_eqb (pt_kind (st_cur st1))) [KEof; KRBrace]) eqn:E.
    { apply good_ret; [assumption|]. unfold keeps. split; [split; [bal|lia]|]. intros X Y. apply kind_in in E. cbn in E.
      destruct (kind_eqb (pt_kind (st_cur st)) KComma) eqn:Z; [apply kind_eqb_eq in Z; auto|].
      assert (st1 = st) as -> by (apply S1; intros W; rewrite W in Z; discriminate). destruct E as [E|[E|[]]]; congruence. }
    call Hv. rename a0 into key. rename st' into st2.
    destruct (is_obj key).
    + apply bind_current, bind_check. match goal with |- good (if ?b then _ else _) _ _ _ => destruct b end.
      * call Hv. apply good_ret; [assumption|]. unfold keeps. split; [split; [bal|lia]|lia].
      * apply good_ret; [assumption|]. unfold keeps. split; [split; [bal|lia]|lia].
    + destruct (path_key key) as [text|].
      * destruct (split_dots [] text) as [|s0 segs]; [exact Logic.I|]. destruct (existsb (str_eqb []) (s0 :: segs)); [exact Logic.I|].
        destruct (mem s0 seen); [exact Logic.I|]. call Hv. apply good_ret; [assumption|]. unfold keeps. split; [split; [bal|lia]|lia].
      * match goal with |- good (if ?b then _ else _) _ _ _ => destruct b end; [exact Logic.I|]. cbv zeta.
        destruct (negb (valid_key key)); [exact Logic.I|]. apply bind_current, bind_check.
        match goal with |- good (if ?b then _ else _) _ _ _ => destruct b end.
        -- apply good_ret; [assumption|]. unfold keeps. split; [split; [bal|lia]|lia].
        -- call Hv. apply good_ret; [assumption|]. unfold keeps. split; [split; [bal|lia]|lia].
  - (* sequence *) intros st c I F. cbn [parse_sequence].
    eapply good_bind; [apply good_expect; [assumption|discriminate]|]. cbn beta. intros ? st3 ? I3 (-> & K3 & -> & L3).
    call Hi. apply bind_check. match goal with |- good (if ?b then _ else _) _ _ _ => destruct b end; [exact Logic.I|].
    eapply good_bind; [apply good_expect; [assumption|discriminate]|]. cbn beta. intros ? st4 ? I4 (-> & K4 & -> & L4). fin.
  - (* items *) intros st c acc I F. cbn [parse_items]. apply bind_check.
    destruct (existsb (kind_eqb (pt_kind (st_cur st))) [KRParen; KEof]) eqn:E; [fin|].
    apply bind_check. destruct (existsb (kind_eqb (pt_kind (st_cur st))) [KComma]); [exact Logic.I|].
    call Hv. eapply good_weaken; [apply Hi; [assumption|lia]|]. unfold keeps. cbn beta. intros ? ? ? (B' & L'). split; [bal|lia].
Qed.

Definition value_good f := proj1 (all_good_all f).

(** ** The document *)
Lemma good_lift {A B} (o : option A) (f : A -> pm B) st c Q : (forall a, good (f a) st c Q) -> good (pbind (lift o) f) st c Q.
Proof. intros H. destruct o; [apply H|exact I]. Qed.
Lemma good_entry_path fuel ps st c : Inv st c -> 10 * w st + 4 < fuel ->
  good (parse_entry_path isupper int16 src fuel ps) st c
    (fun a st' d => keeps st a st' d /\ (pt_kind (st_cur st) <> KEof -> w st' < w st \/ pt_kind (st_cur st') = KRBrace)).
Proof.
  intros I F. unfold parse_entry_path.
  eapply good_bind; [apply good_commas; [assumption|lia]|]. cbn beta. intros ? st1 d1 I1 (B1 & L1 & N1 & C1 & S1).
  apply bind_check. destruct (existsb (kind_eqb (pt_kind (st_cur st1))) [KGt]); [exact Logic.I|].
  apply bind_check. destruct (existsb (kind_eqb (pt_kind (st_cur st1))) [KEof; KRBrace]) eqn:E.
  { apply good_ret; [assumption|]. unfold keeps. split; [split; [bal|lia]|]. intros X. apply kind_in in E. cbn in E.
    destruct (kind_eqb (pt_kind (st_cur st)) KComma) eqn:Z; [apply kind_eqb_eq in Z; auto|].
    assert (st1 = st) as -> by (apply S1; intros W; rewrite W in Z; discriminate). destruct E as [E|[E|[]]]; [congruence|now right]. }
  call (value_good fuel). rename a0 into key. rename st' into st2.
  destruct (is_obj key).
  - apply bind_current, bind_check. match goal with |- good (if ?b then _ else _) _ _ _ => destruct b end.
    + call (value_good fuel). apply good_ret; [assumption|]. unfold keeps. split; [split; [bal|lia]|lia].
    + apply good_ret; [assumption|]. unfold keeps. split; [split; [bal|lia]|lia].
  - destruct (path_key key) as [text|].
    + destruct (split_dots [] text) as [|s0 segs]; [exact Logic.I|]. destruct (existsb (str_eqb []) (s0 :: segs)); [exact Logic.I|].
      call (value_good fuel). apply good_lift. intros ps'. apply good_ret; [assumption|]. unfold keeps. split; [split; [bal|lia]|lia].
    + destruct (negb (valid_key key)); [exact Logic.I|]. apply bind_current, bind_check.
      match goal with |- good (if ?b then _ else _) _ _ _ => destruct b end.
      * destruct (key_text key); [apply good_lift; intros ps'|eapply good_bind; [apply good_ret with (Q := fun _ st' d => d = [] /\ st' = st2); auto|]; cbn beta;
          intros ps' ? ? ? (-> & ->)]; (apply good_ret; [assumption|]; unfold keeps; split; [split; [bal|lia]|lia]).
      * call (value_good fuel). destruct (key_text key); [apply good_lift; intros ps'|
          eapply good_bind; [apply good_ret with (Q := fun _ st'' d => d = [] /\ st'' = st'); auto|]; cbn beta; intros ps' ? ? ? (-> & ->)];
          (apply good_ret; [assumption|]; unfold keeps; split; [split; [bal|lia]|lia]).
Qed.

(** No sequence of tokens at the front of the source closes more braces than it opens. *)
Hypothesis closed : forall toks r, lexed toks r -> (0 <= balance toks)%Z.

Lemma not_brace st c : Inv st c -> balance c = 0%Z -> pt_kind (st_cur st) <> KRBrace.
Proof.
  intros ((q & R & _) & _) B K. unfold live, lv in R. replace (nonE (st_cur st)) with true in R by (unfold nonE; now rewrite K).
  cbn [app] in R. change (st_cur st :: lvp st) with ([st_cur st] ++ lvp st) in R. rewrite app_assoc in R.
  destruct (lexed_prefix _ _ R _ _ eq_refl) as (q' & R'). apply closed in R'. rewrite balance_app in R'. cbn in R'. unfold brace in R'. rewrite K, B in R'. lia.
Qed.

Lemma good_root : forall fuel ps acc st c, Inv st c -> balance c = 0%Z -> 10 * w st + 6 < fuel ->
  good (parse_root isupper int16 src fuel ps acc) st c (fun _ _ _ => True).
Proof.
  induction fuel as [|f IH]; intros ps acc st c I B F; [lia|]. cbn [parse_root]. apply bind_check.
  destruct (existsb (kind_eqb (pt_kind (st_cur st))) [KEof]) eqn:E; [apply good_ret; auto|]. apply kind_out in E. cbn in E.
  eapply good_bind; [apply good_entry_path; [assumption|lia]|]. cbn beta. unfold keeps. intros [e ps'] st' d I' ((Bd & L) & X).
  assert (B' : balance (c ++ d) = 0%Z) by (rewrite balance_app; lia).
  apply IH; auto. destruct X as [X|X]; [intros Y; apply E; auto|lia|]. exfalso. now apply (not_brace st' (c ++ d)).
Qed.

Lemma stops_closed : exists n, forall fuel, n <= fuel -> py_parse isupper int16 fuel src <> VFuel.
Proof.
  exists (10 * length src + 27). intros fuel F. unfold py_parse.
  pose proof (fetch_spec src src [] (lexed_nil _ _ _) (or_introl eq_refl)) as X.
  destruct (fetch src) as [[t r]| | |]; [|discriminate|discriminate|destruct X].
  assert (I : Inv (mkpst t None r) [] /\ w (mkpst t None r) <= S (length src)).
  { destruct X as [(N & R & L)|(N & ->)].
    - split; [|unfold w, cost; cbn; rewrite N; lia]. split; [|split; cbn; [congruence|discriminate]]. exists r. split; [|now left].
      unfold live, lvp, lv. cbn. rewrite N. exact R.
    - split; [|unfold w, cost; cbn; rewrite N; lia]. split; [|split; cbn; [auto|discriminate]]. exists src. split; [|now right].
      unfold live, lvp, lv. cbn. rewrite N. constructor. }
  destruct I as [I W]. assert (G : good (parse_doc isupper int16 src fuel) (mkpst t None r) [] (fun _ _ _ => True)).
  { unfold parse_doc. eapply good_bind; [apply good_commas; [assumption|lia]|]. cbn beta. intros ? st1 d1 I1 (B1 & L1 & _).
    apply bind_check. destruct (existsb (kind_eqb (pt_kind (st_cur st1))) [KLBrace]).
    - destruct (all_good_all fuel) as (_ & _ & _ & _ & Ho & _). call Ho.
      eapply good_bind; [apply good_commas; [assumption|lia]|]. cbn beta. intros ? st3 d3 I3 (B3 & L3 & _).
      apply bind_check. match goal with |- good (if ?b then _ else _) _ _ _ => destruct b end; [apply good_ret; auto|].
      eapply good_bind; [apply good_skip_all; [assumption|lia]|]. intros. exact Logic.I.
    - apply good_root; auto. lia. }
  unfold good in G. destruct (parse_doc isupper int16 src fuel (mkpst t None r)) as [[l st']| | |]; try discriminate. contradiction.
Qed.
End parser.

(** The tokens of a source that can be read are the ones the lexer lists. *)
Lemma lexed_listed isupper int16 src : forall fuel s l, lex_from isupper int16 src fuel s = Ok (POk l) -> forall l0 toks r,
  lexed isupper int16 src l0 s -> lexed isupper int16 src (l0 ++ toks) r -> exists more, l = toks ++ more.
Proof.
  assert (D : forall toks s r, lexed isupper int16 src toks s -> lexed isupper int16 src toks r -> s = r).
  { intros toks s r H. revert r. induction H as [|l s t q H IH E N]; intros r H'.
    - inversion H'; [reflexivity|]. destruct l; discriminate.
    - inversion H' as [X|l' s' t' r' H1 E' N' X]; [destruct l; discriminate|]. apply app_inj_tail in X as [-> ->]. apply IH in H1 as ->. congruence. }
  assert (P : forall toks r, lexed isupper int16 src toks r -> forall a b, toks = a ++ b -> exists q, lexed isupper int16 src a q).
  { intros toks r H. induction H as [|l s t q H IH E N]; intros a b X.
    - destruct a; [|discriminate]. eexists. constructor.
    - destruct b as [|x b]; [rewrite app_nil_r in X; subst a; eexists; econstructor; eauto|].
      destruct (@exists_last _ (x :: b)) as (b' & y & Y); [discriminate|]. rewrite Y, app_assoc in X. apply app_inj_tail in X as [X _]. eauto. }
  induction fuel as [|f IH]; intros s l E l0 toks r R0 R; [discriminate|]. destruct toks as [|t toks]; [exists l; reflexivity|].
  assert (S : exists q, next_token isupper int16 src s = POk (t, q) /\ pt_kind t <> KEof /\ lexed isupper int16 src (l0 ++ [t]) q).
  { replace (l0 ++ t :: toks) with ((l0 ++ [t]) ++ toks) in R by now rewrite <- app_assoc. destruct (P _ _ R _ _ eq_refl) as (q & Q). pose proof Q as Q'.
    inversion Q as [X|l' s' t' r' H1 E' N' X]; [destruct l0; discriminate|]. apply app_inj_tail in X as [-> ->]. apply (D _ _ _ R0) in H1 as <-. eauto. }
  destruct S as (q & En & K & Q). cbn [lex_from] in E. rewrite En in E.
  destruct (lex_from isupper int16 src f q) as [[l'|b e|]| |] eqn:El; try (destruct (pt_kind t); try discriminate; congruence).
  assert (l = t :: l') as -> by (destruct (pt_kind t); congruence).
  replace (l0 ++ t :: toks) with ((l0 ++ [t]) ++ toks) in R by now rewrite <- app_assoc.
  destruct (IH _ _ El _ _ _ Q R) as (more & ->). exists more. reflexivity.
Qed.
