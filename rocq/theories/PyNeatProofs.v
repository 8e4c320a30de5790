(** The Python parser returns neat trees only. *)
From Verif Require Import Base BaseProofs PyModel PySpec PyProofs PyParseModel PyParseSpec PyParseProofs PyNeatSpec.

Lemma mem_in s l : mem s l = true <-> In s l.
Proof.
  unfold mem. rewrite existsb_exists. split.
  - intros (x & Hx & E). apply str_eqb_eq in E. now subst.
  - intros H. exists s. split; [exact H|]. apply str_eqb_refl.
Qed.
Lemma key_text_names k : match key_text k with Some t => names_of k = [t] | None => names_of k = [] end.
Proof. destruct k as [[n|] [|kd s|l|l]]; reflexivity. Qed.
Lemma names_app a b : names (a ++ b) = names a ++ names b.
Proof. apply flat_map_app. Qed.

Section parser.
Variable isupper : char -> bool.
Variable int16 : str -> option Z.
Hypothesis upper_letters : forall c, isupper c = true -> (65 <= c)%N.
Variable src : str.
Notation gt := (In cGT src).

Definition token_ok (t : pytok) : Prop := pt_kind t = KGt -> gt.
Definition inv (st : pst) : Prop :=
  (exists p, src = p ++ st_rest st) /\ token_ok (st_cur st) /\ match st_peeked st with Some t => token_ok t | None => True end.
Lemma fetch_ok s t r : (exists p, src = p ++ s) -> fetch isupper int16 src s = VOk (t, r) -> token_ok t /\ exists p, src = p ++ r.
Proof.
  intros (p & E) F. unfold fetch in F. pose proof (next_token_spec isupper int16 src upper_letters p s E) as N.
  destruct (next_token isupper int16 src s) as [[t' r']|b e|]; try discriminate F. injection F as -> ->. cbn in N.
  destruct N as [[(g & _ & _ & K & _) ->]|(g & lex & k & u & ws & nl & -> & -> & K & Lx & G & B & W & _)].
  - split; [intros H; congruence|]. exists src. now rewrite app_nil_r.
  - split.
    + intros H. cbn in H. subst k. rewrite E. inversion W; subst; try discriminate. cbn in *. subst. apply in_or_app. right. apply in_or_app. right. now left.
    + exists (p ++ g ++ lex). rewrite E. now rewrite <- !app_assoc.
Qed.

(** What holds of a result if the parser gives one *)
Definition ok {A} (m : pm A) (Q : A -> Prop) : Prop := forall st x st', inv st -> m st = VOk (x, st') -> Q x /\ inv st'.
Lemma ok_bind {A B} (m : pm A) (f : A -> pm B) P Q : ok m P -> (forall x, P x -> ok (f x) Q) -> ok (pbind m f) Q.
Proof. intros M F st x st' I E. unfold pbind in E. destruct (m st) as [[a s]| | |] eqn:Em; try discriminate E. destruct (M _ _ _ I Em) as [Pa Is]. now apply (F a Pa s). Qed.
Lemma ok_ret {A} (a : A) (Q : A -> Prop) : Q a -> ok (ret a) Q.
Proof. intros H st x st' I [= <- <-]. auto. Qed.
Lemma ok_fail {A} (Q : A -> Prop) : ok fail Q.
Proof. intros st x st' _ [=]. Qed.
Lemma ok_none {A} (Q : A -> Prop) : ok (fun _ => VFuel) Q.
Proof. intros st x st' _ [=]. Qed.
Lemma ok_check ks : ok (check ks) (fun _ => True).
Proof. intros st x st' I [= <- <-]. auto. Qed.
Lemma ok_current : ok current token_ok.
Proof. intros st x st' I [= <- <-]. split; [apply I|exact I]. Qed.
Lemma ok_weaken {A} (m : pm A) (P Q : A -> Prop) : ok m P -> (forall x, P x -> Q x) -> ok m Q.
Proof. intros M H st x st' I E. destruct (M _ _ _ I E). auto. Qed.
Notation advance := (advance isupper int16 src).
Notation look := (look isupper int16 src).
Notation expect := (expect isupper int16 src).
Lemma ok_advance : ok advance token_ok.
Proof.
  intros st x st' (R & C & P) E. unfold PyParseModel.advance in E. destruct (st_peeked st) as [t|] eqn:Ep.
  - injection E as <- <-. split; [exact C|]. repeat split; auto.
  - destruct (fetch _ _ _ _) as [[t r]| | |] eqn:F; try discriminate E. injection E as <- <-. destruct (fetch_ok _ _ _ R F). split; [exact C|]. repeat split; auto.
Qed.
Lemma ok_look : ok look token_ok.
Proof.
  intros st x st' (R & C & P) E. unfold PyParseModel.look in E. destruct (st_peeked st) as [t|] eqn:Ep.
  - injection E as <- <-. split; [exact P|]. repeat split; auto. now rewrite Ep.
  - destruct (fetch _ _ _ _) as [[t r]| | |] eqn:F; try discriminate E. injection E as <- <-. destruct (fetch_ok _ _ _ R F). split; [assumption|]. repeat split; auto.
Qed.
Lemma ok_expect k : ok (expect k) (fun _ => True).
Proof. unfold PyParseModel.expect. apply (ok_bind _ _ _ _ (ok_check _)). intros [] _; [|apply ok_fail]. apply (ok_weaken _ _ _ ok_advance). auto. Qed.
Lemma ok_commas f : ok (skip_commas isupper int16 src f) (fun _ => True).
Proof.
  induction f as [|f IH]; [apply ok_none|]. cbn [skip_commas]. apply (ok_bind _ _ _ _ (ok_check _)). intros [] _; [|now apply ok_ret].
  apply (ok_bind _ _ _ _ ok_advance). intros _ _. exact IH.
Qed.
Lemma ok_scalar : ok (parse_scalar isupper int16 src) (fun v => exists k s, v = PV None (PPScalar k s) /\ In k [KScalar; KQuoted; KRaw; KHeredoc]).
Proof.
  unfold parse_scalar. apply (ok_bind _ _ _ _ ok_current). intros t _.
  destruct (pt_kind t); try apply ok_fail; (apply (ok_bind _ _ _ _ ok_advance); intros _ _; apply ok_ret; do 2 eexists; split; [reflexivity|cbn; auto 6]).
Qed.

Lemma scalar_kind st v st' : parse_scalar isupper int16 src st = VOk (v, st') -> exists s, v = PV None (PPScalar (pt_kind (st_cur st)) s).
Proof.
  unfold parse_scalar, pbind, current, ret. destruct (pt_kind (st_cur st)); try discriminate; destruct (advance st) as [[a q]| | |]; try discriminate; intros [= <- _]; eauto.
Qed.
Lemma NoDup_app_one {A} (l : list A) x : NoDup l -> ~ In x l -> NoDup (l ++ [x]).
Proof.
  intros N H. apply NoDup_rev in N. rewrite <- (rev_involutive (l ++ [x])). apply NoDup_rev. rewrite rev_app_distr. constructor; [|exact N]. now rewrite <- in_rev.
Qed.

Notation neat := (neat gt).
Definition entries_ok (l : list pyentry) : Prop := forall k v, In (k, v) l -> good_key k /\ neat k /\ neat v.
Definition attrs_ok (l : list pyentry) : Prop := forall k v, In (k, v) l -> (exists s, k = PV None (PPScalar KScalar s)) /\ neat v.
Definition entry_ok (seen : list str) (x : option pyentry * list str) : Prop :=
  incl seen (snd x) /\
  match fst x with
  | None => True
  | Some (k, v) => good_key k /\ neat k /\ neat v /\ (names_of k = [] \/ exists n, names_of k = [n] /\ ~ In n seen /\ In n (snd x))
  end.

Definition all_ok (f : nat) : Prop :=
  ok (parse_value isupper int16 src f) neat /\
  ok (parse_tag_value isupper int16 src f) neat /\
  ok (parse_attribute_value isupper int16 src f) neat /\
  (forall acc, gt -> attrs_ok acc -> ok (parse_attributes isupper int16 src f acc) attrs_ok) /\
  ok (parse_object isupper int16 src f) (fun l => entries_ok l /\ NoDup (names l)) /\
  (forall seen acc, entries_ok acc -> NoDup (names acc) -> incl (names acc) seen -> ok (parse_entries isupper int16 src f seen acc) (fun l => entries_ok l /\ NoDup (names l))) /\
  (forall seen, ok (parse_entry_dup isupper int16 src f seen) (entry_ok seen)) /\
  ok (parse_sequence isupper int16 src f) (fun l => forall v, In v l -> neat v) /\
  (forall acc, (forall v, In v acc -> neat v) -> ok (parse_items isupper int16 src f acc) (fun l => forall v, In v l -> neat v)).

Lemma neat_bare s : neat (bare_key s).
Proof. apply neat_scalar; [now left|congruence]. Qed.
Lemma neat_nest segs v : neat v -> neat (nest segs v).
Proof.
  intros V. induction segs as [|s segs IH]; [exact V|]. cbn [nest]. apply neat_obj.
  - intros k w [[= <- <-]|[]]. split; [discriminate|]. split; [apply neat_bare|exact IH].
  - cbn. constructor; [intros []|constructor].
Qed.
Lemma good_rest key : is_obj key = false -> valid_key key = true -> good_key key.
Proof. destruct key as [t [|k s|l|l]]; cbn; try discriminate; auto. destruct k; discriminate || congruence. Qed.
Lemma object_is v : is_obj v = true <-> object v.
Proof. unfold object. destruct v as [t [| | |l]]; cbn; split; try discriminate; eauto; intros (t' & l' & [=]). Qed.

Ltac bind L := apply (ok_bind _ _ _ _ L).
Lemma all_ok_all : forall f, all_ok f.
Proof.
  induction f as [|f (Vv & Vt & Va & As & Ob & Es & Ed & Sq & It)].
  { repeat split; intros; try (apply (ok_none _ _ _ _ H)); try (eapply ok_none; eauto; fail); cbn in *; discriminate. }
  assert (Tagged : forall t l, entries_ok l /\ NoDup (names l) -> neat (PV t (PPObj l))) by (intros t l [H1 H2]; now apply neat_obj).
  assert (Leaf : ok (parse_scalar isupper int16 src) neat).
  { apply (ok_weaken _ _ _ ok_scalar). intros v (k & s & -> & K). apply neat_scalar; [exact K|congruence]. }
  unfold all_ok. refine (conj _ (conj _ (conj _ (conj _ (conj _ (conj _ (conj _ (conj _ _)))))))).
  - cbn [parse_value]. bind ok_current. intros t Ht. destruct (pt_kind t) eqn:K; try exact Leaf.
    + bind ok_advance. intros u _. bind ok_current. intros n Hn. destruct (kind_eqb (pt_kind n) KGt && negb (pt_ws n)) eqn:G; [|apply ok_ret, neat_bare].
      bind ok_look. intros m _. destruct (negb (pt_nl m) && negb (kind_eqb (pt_kind m) KEof)); [|apply ok_ret, neat_bare].
      apply andb_prop in G as [G _]. apply kind_eqb_eq in G. specialize (Hn G).
      bind (ok_expect KGt). intros _ _. bind Va. intros v V. refine (ok_bind _ _ _ _ (As _ Hn _) _).
      * intros k w [[= <- <-]|[]]. split; [now eexists|exact V].
      * intros l L. apply ok_ret. now apply neat_attrs.
    + bind Ob. intros l L. apply ok_ret. auto.
    + bind Sq. intros l L. apply ok_ret. now apply neat_seq.
    + bind ok_advance. intros _ _. bind ok_current. intros n _. bind (ok_check [KEof; KRBrace; KRParen; KComma; KLBrace; KLParen]). intros b _.
      destruct (negb (pt_ws n) && negb b); [apply ok_fail|apply ok_ret; constructor].
    + exact Vt.
  - cbn [parse_tag_value]. bind ok_advance. intros t _ st x st' I E. unfold pbind in E at 1. unfold current in E at 1. revert E.
    destruct (negb (pt_ws (st_cur st))); [|apply ok_ret; [constructor|exact I]].
    assert (Quote : pt_kind (st_cur st) <> KScalar -> forall tag, (let! v := parse_scalar isupper int16 src in ret (PV tag (pv_payload v))) st = VOk (x, st') -> neat x /\ inv st').
    { intros K tag E. unfold pbind in E. destruct (parse_scalar isupper int16 src st) as [[v q]| | |] eqn:Ep; try discriminate E. injection E as <- <-.
      destruct (scalar_kind _ _ _ Ep) as (s & ->). destruct (ok_scalar _ _ _ I Ep) as [(k & s' & [= <- _] & Hk) Iq]. split; [|exact Iq]. cbn. apply neat_scalar; auto. }
    destruct (pt_kind (st_cur st)) eqn:K; try (apply Quote; discriminate); try (intros [= <- <-]; split; [constructor|exact I]); try (intros [=]; fail).
    + revert I. clear Quote K. revert st x st'. change (ok (let! l := parse_object isupper int16 src f in ret (PV (Some (pt_text t)) (PPObj l))) neat).
      bind Ob. intros l L. apply ok_ret. auto.
    + revert I. clear Quote K. revert st x st'. change (ok (let! l := parse_sequence isupper int16 src f in ret (PV (Some (pt_text t)) (PPSeq l))) neat).
      bind Sq. intros l L. apply ok_ret. now apply neat_seq.
    + revert I. clear Quote K. revert st x st'. change (ok (let! _ := advance in ret (PV (Some (pt_text t)) PPNone)) neat).
      bind ok_advance. intros _ _. apply ok_ret. constructor.
  - cbn [parse_attribute_value]. bind ok_current. intros t _. destruct (pt_kind t); try exact Leaf; try exact Vt.
    + bind Ob. intros l L. apply ok_ret. auto.
    + bind Sq. intros l L. apply ok_ret. now apply neat_seq.
    + bind ok_advance. intros _ _. apply ok_ret. constructor.
  - intros acc G A. cbn [parse_attributes]. bind ok_current. intros t _. destruct (kind_eqb (pt_kind t) KScalar && negb (pt_nl t)); [|now apply ok_ret].
    bind ok_look. intros n _. destruct (negb (kind_eqb (pt_kind n) KGt) || pt_ws n); [now apply ok_ret|].
    bind ok_advance. intros _ _. bind ok_advance. intros _ _. bind Va. intros v V. apply As; [exact G|].
    intros k w H. apply in_app_or in H as [H|[[= <- <-]|[]]]; [now apply A|]. split; [now eexists|exact V].
  - cbn [parse_object]. bind (ok_expect KLBrace). intros _ _. refine (ok_bind _ _ _ _ (Es [] [] _ _ _) _).
    + intros k v [].
    + constructor.
    + intros n [].
    + intros l L. bind (ok_check [KEof]). intros [] _; [apply ok_fail|]. bind (ok_expect KRBrace). intros _ _. now apply ok_ret.
  - intros seen acc A N I. cbn [parse_entries]. bind (ok_check [KRBrace; KEof]). intros [] _; [now apply ok_ret|].
    bind (Ed seen). intros [e seen'] [I' He]. cbn [fst snd] in I', He. bind (ok_check [KComma]). intros b _.
    assert (Next : let acc' := match e with Some e => acc ++ [e] | None => acc end in entries_ok acc' /\ NoDup (names acc') /\ incl (names acc') seen').
    { destruct e as [[k v]|]; cbn; [|splits; auto; intros n Hn; auto]. destruct He as (Gk & Nk & Nv & Hn). splits.
      - intros k' v' H. apply in_app_or in H as [H|[[= <- <-]|[]]]; auto.
      - rewrite names_app. cbn [names flat_map fst]. rewrite app_nil_r. destruct Hn as [->|(n & -> & Hn & _)]; [now rewrite app_nil_r|].
        apply NoDup_app_one; [exact N|]. intros H. apply Hn. auto.
      - rewrite names_app. cbn [names flat_map fst]. rewrite app_nil_r. intros n' H. apply in_app_or in H as [H|H]; [auto|].
        destruct Hn as [Hn|(n & Hn & _ & Hs)]; rewrite Hn in H; [destruct H|]. destruct H as [<-|[]]. exact Hs. }
    destruct Next as (N1 & N2 & N3). destruct b; [bind ok_advance; intros _ _|]; now apply Es.
  - intros seen. cbn [parse_entry_dup]. bind (ok_commas f). intros _ _. bind (ok_check [KGt]). intros [] _; [apply ok_fail|].
    bind (ok_check [KEof; KRBrace]). intros [] _; [apply ok_ret; split; [apply incl_refl|exact I]|].
    bind Vv. intros key Nk. destruct (is_obj key) eqn:Ok.
    { assert (entry_ok seen (Some (py_unit, key), seen)) as R by (split; [apply incl_refl|]; cbn; splits; auto; constructor).
      bind ok_current. intros n _. bind (ok_check [KEof; KRBrace; KComma]). intros b _. destruct (negb (pt_nl n) && negb b); [|now apply ok_ret].
      bind Vv. intros _ _. now apply ok_ret. }
    destruct (path_key key) as [text|].
    + destruct (split_dots [] text) as [|s0 segs]; [apply ok_fail|]. destruct (existsb (str_eqb []) (s0 :: segs)); [apply ok_fail|].
      destruct (mem s0 seen) eqn:M; [apply ok_fail|]. bind Vv. intros v Nv. apply ok_ret. split; [intros n Hn; now right|]. cbn [fst snd].
      splits; [discriminate|apply neat_bare|now apply neat_nest|]. right. exists s0. splits; [reflexivity| |now left]. intros H. apply mem_in in H. congruence.
    + destruct (match key_text key with Some t => mem t seen | None => false end) eqn:M; [apply ok_fail|]. destruct (valid_key key) eqn:Vk; [|apply ok_fail]. cbn [negb].
      assert (R : forall v, neat v -> entry_ok seen (Some (key, v), match key_text key with Some t => t :: seen | None => seen end)).
      { intros v V. pose proof (key_text_names key) as Kt. split.
        - destruct (key_text key); [intros n Hn; now right|apply incl_refl].
        - cbn [fst snd]. splits; [now apply good_rest|exact Nk|exact V|]. destruct (key_text key) as [t|]; [|now left]. right. exists t. splits; [exact Kt| |now left].
          intros H. apply mem_in in H. congruence. }
      bind ok_current. intros n _. bind (ok_check [KEof; KRBrace]). intros b _. destruct (pt_nl n || b); [apply ok_ret, R; constructor|].
      bind Vv. intros v V. apply ok_ret. now apply R.
  - cbn [parse_sequence]. bind (ok_expect KLParen). intros _ _. refine (ok_bind _ _ _ _ (It [] _) _).
    + intros v [].
    + intros l L. bind (ok_check [KEof]). intros [] _; [apply ok_fail|]. bind (ok_expect KRParen). intros _ _. now apply ok_ret.
  - intros acc A. cbn [parse_items]. bind (ok_check [KRParen; KEof]). intros [] _; [now apply ok_ret|]. bind (ok_check [KComma]). intros [] _; [apply ok_fail|].
    bind Vv. intros v V. apply It. intros w H. apply in_app_or in H as [H|[<-|[]]]; auto.
Qed.

(** ** The document *)
Lemma assigned_in n (l : list (str * bool)) b : In (n, b) l -> exists b', assigned n l = Some b'.
Proof.
  intros H. unfold assigned. destruct (find (fun e => str_eqb n (fst e)) l) as [[m c]|] eqn:F; [now exists c|].
  exfalso. pose proof (find_none _ _ F _ H) as X. cbn in X. now rewrite str_eqb_refl in X.
Qed.
Lemma assigned_new n b new old : (forall e, In e new -> assigned (fst e) old = None) -> assigned n old = Some b -> assigned n (new ++ old) = Some b.
Proof.
  intros H E. induction new as [|[m c] new IH]; [exact E|]. unfold assigned in *. cbn [app find fst]. destruct (str_eqb_spec n m) as [<-|Nm].
  - exfalso. specialize (H (n, c) (or_introl eq_refl)). cbn [fst] in H. congruence.
  - apply IH. intros e He. apply H. now right.
Qed.
Lemma update_ok s0 segs obj ps ps' : check_and_update (s0 :: segs) obj ps = Some ps' ->
  (forall n b, assigned n (ps_assigned ps) = Some b -> assigned n (ps_assigned ps') = Some b) /\
  (segs = [] -> assigned s0 (ps_assigned ps) = None /\ assigned s0 (ps_assigned ps') = Some obj) /\
  (segs <> [] -> assigned s0 (ps_assigned ps) <> Some false /\ exists b, assigned s0 (ps_assigned ps') = Some b).
Proof.
  unfold check_and_update. set (path := s0 :: segs). destruct (assigned (join_dots path) (ps_assigned ps)) eqn:A; [discriminate|].
  destruct (existsb _ (prefixes path 1 (length path))) eqn:X; [discriminate|]. intros [= <-]. cbn [ps_assigned].
  set (new := map (fun p => (p, true)) (filter _ _)).
  assert (New : forall e, In e new -> assigned (fst e) (ps_assigned ps) = None).
  { intros e He. unfold new in He. apply in_map_iff in He as (q & <- & Hq). apply filter_In in Hq as [_ Hq]. cbn. destruct (assigned q (ps_assigned ps)); [discriminate|reflexivity]. }
  assert (Grow : forall n b, assigned n (ps_assigned ps) = Some b -> assigned n ((join_dots path, obj) :: new ++ ps_assigned ps) = Some b).
  { intros n b E. apply (assigned_new n b ((join_dots path, obj) :: new)); [|exact E]. intros e [<-|He]; [exact A|now apply New]. }
  splits; [exact Grow| |].
  - intros ->. cbn in A. split; [exact A|]. unfold assigned. cbn. now rewrite str_eqb_refl.
  - intros Ns. assert (In s0 (prefixes path 1 (length path))) as Hp.
    { unfold prefixes. apply in_map_iff. exists 1. split; [reflexivity|]. apply in_seq. unfold path. destruct segs; [congruence|]. cbn [length]. lia. }
    assert (assigned s0 (ps_assigned ps) <> Some false) as Nf.
    { intros E. assert (existsb (fun p => mem p (ps_closed ps) || match assigned p (ps_assigned ps) with Some false => true | _ => false end) (prefixes path 1 (length path)) = true) as Y.
      { apply existsb_exists. exists s0. split; [exact Hp|]. rewrite E. apply orb_true_r. }
      congruence. }
    split; [exact Nf|]. destruct (assigned s0 (ps_assigned ps)) as [b|] eqn:E; [exists b; now apply Grow|].
    apply (assigned_in _ _ true). right. apply in_or_app. left. unfold new. apply in_map_iff. exists s0. split; [reflexivity|]. apply filter_In. split; [exact Hp|]. now rewrite E.
Qed.

Definition grows (ps ps' : pathst) : Prop := forall n b, assigned n (ps_assigned ps) = Some b -> assigned n (ps_assigned ps') = Some b.
Definition path_ok (ps : pathst) (x : option pyentry * pathst) : Prop :=
  grows ps (snd x) /\
  match fst x with
  | None => True
  | Some (k, v) => good_key k /\ neat k /\ neat v /\ forall n, In n (names_of k) ->
      (exists b, assigned n (ps_assigned (snd x)) = Some b /\ (object v \/ b = false)) /\
      (forall b, assigned n (ps_assigned ps) = Some b -> b = true /\ object v)
  end.
Lemma ok_lift {A} (o : option A) : ok (lift o) (fun a => o = Some a).
Proof. destruct o; [now apply ok_ret|apply ok_fail]. Qed.
Lemma ok_path f ps : ok (parse_entry_path isupper int16 src f ps) (path_ok ps).
Proof.
  pose proof (proj1 (all_ok_all f)) as Vv. unfold parse_entry_path. bind (ok_commas f). intros _ _. bind (ok_check [KGt]). intros [] _; [apply ok_fail|].
  bind (ok_check [KEof; KRBrace]). intros [] _; [apply ok_ret; split; [intros n b H; exact H|exact I]|].
  bind Vv. intros key Nk. destruct (is_obj key) eqn:Ok.
  { assert (path_ok ps (Some (py_unit, key), ps)) as R by (split; [intros n b H; exact H|]; cbn; splits; auto; [constructor|intros n []]).
    bind ok_current. intros n _. bind (ok_check [KEof; KRBrace; KComma]). intros b _. destruct (negb (pt_nl n) && negb b); [|now apply ok_ret].
    bind Vv. intros _ _. now apply ok_ret. }
  assert (Single : forall k n v ps', names_of k = [n] -> good_key k -> neat k -> neat v -> check_and_update [n] (is_obj v) ps = Some ps' -> path_ok ps (Some (k, v), ps')).
  { intros k n v ps' Kn Gk Nk' Nv U. apply update_ok in U as (G & U & _). destruct (U eq_refl) as [U1 U2]. split; [exact G|]. cbn [fst snd]. splits; auto.
    intros m Hm. rewrite Kn in Hm. destruct Hm as [<-|[]]. split; [|intros b E; congruence]. exists (is_obj v). split; [exact U2|].
    destruct (is_obj v) eqn:O; [left; now apply object_is|now right]. }
  destruct (path_key key) as [text|].
  - destruct (split_dots [] text) as [|s0 segs]; [apply ok_fail|]. destruct (existsb (str_eqb []) (s0 :: segs)); [apply ok_fail|].
    bind Vv. intros v Nv. bind (ok_lift (check_and_update (s0 :: segs) (is_obj v) ps)). intros ps' U. apply ok_ret. destruct segs as [|s1 segs].
    + apply (Single _ s0); auto; [discriminate|apply neat_bare].
    + apply update_ok in U as (G & _ & U). destruct (U ltac:(discriminate)) as [U1 (b & U2)]. assert (object (nest (s1 :: segs) v)) as O by (do 2 eexists; reflexivity).
      split; [exact G|]. cbn [fst snd]. splits; [discriminate|apply neat_bare|now apply neat_nest|]. intros n [<-|[]]. split; [eauto|].
      intros c E. split; [|exact O]. destruct c; congruence.
  - destruct (valid_key key) eqn:Vk; [|apply ok_fail]. cbn [negb]. pose proof (good_rest _ Ok Vk) as Gk.
    assert (R : forall v, neat v -> ok (let! ps' := match key_text key with Some t => lift (check_and_update [t] (is_obj v) ps) | None => ret ps end in ret (Some (key, v), ps')) (path_ok ps)).
    { intros v V. pose proof (key_text_names key) as Kt. destruct (key_text key) as [t|].
      - bind (ok_lift (check_and_update [t] (is_obj v) ps)). intros ps' U. apply ok_ret. now apply (Single _ t).
      - refine (ok_bind _ _ (fun x => x = ps) _ (ok_ret _ _ eq_refl) _). intros ps' ->. apply ok_ret. split; [intros n b H; exact H|]. cbn [fst snd]. splits; auto.
        intros n Hn. rewrite Kt in Hn. destruct Hn. }
    bind ok_current. intros n _. bind (ok_check [KEof; KRBrace]). intros b _. destruct (pt_nl n || b).
    + apply (R py_unit). constructor.
    + bind Vv. exact R.
Qed.

Definition root_ok (ps : pathst) (acc : list pyentry) : Prop :=
  neat_document gt acc /\ forall k v n, In (k, v) acc -> In n (names_of k) -> exists b, assigned n (ps_assigned ps) = Some b /\ (object v \/ b = false).
Lemma pairs_one {A} (R : A -> A -> Prop) l x : ForallOrdPairs R l -> (forall y, In y l -> R y x) -> ForallOrdPairs R (l ++ [x]).
Proof.
  induction 1 as [|y l Y _ IH]; intros H; cbn [app].
  - constructor; [constructor|constructor].
  - constructor.
    + apply Forall_forall. intros z Hz. apply in_app_or in Hz as [Hz|[<-|[]]]; [|apply H; now left]. rewrite Forall_forall in Y. auto.
    + apply IH. intros z Hz. apply H. now right.
Qed.
Lemma ok_root f : forall ps acc, root_ok ps acc -> ok (parse_root isupper int16 src f ps acc) (neat_document gt).
Proof.
  induction f as [|f IH]; intros ps acc R; [apply ok_none|]. cbn [parse_root]. bind (ok_check [KEof]). intros [] _; [apply ok_ret, R|].
  bind (ok_path f ps). intros [e ps'] [G He]. cbn [fst snd] in G, He. apply IH. destruct R as [[R1 R2] R3]. destruct e as [[k v]|].
  - destruct He as (Gk & Nk & Nv & Hn). split; [split|].
    + intros k' v' H. apply in_app_or in H as [H|[[= <- <-]|[]]]; auto.
    + apply pairs_one; [exact R2|]. intros [k' v'] H n H1 H2. cbn [fst snd] in *. destruct (R3 _ _ _ H H1) as (b & A & O). destruct (Hn _ H2) as [_ P]. destruct (P _ A) as [-> Ov].
      split; [|exact Ov]. destruct O; [assumption|discriminate].
    + intros k' v' n H1 H2. apply in_app_or in H1 as [H1|[[= <- <-]|[]]]; [|now apply Hn]. destruct (R3 _ _ _ H1 H2) as (b & A & O). exists b. split; [now apply G|exact O].
  - split; [now split|]. intros k v n H1 H2. destruct (R3 _ _ _ H1 H2) as (b & A & O). exists b. split; [now apply G|exact O].
Qed.
Lemma ok_skip_all f {A} (Q : A -> Prop) : ok (let! _ := skip_all isupper int16 src f in fail) Q.
Proof. intros st x st' _ E. unfold pbind in E. destruct (skip_all _ _ _ _ _) as [[]| | |]; discriminate E. Qed.
Lemma ok_doc f : ok (parse_doc isupper int16 src f) (neat_document gt).
Proof.
  unfold parse_doc. bind (ok_commas f). intros _ _. bind (ok_check [KLBrace]). intros [] _.
  - destruct (all_ok_all f) as (_ & _ & _ & _ & Ob & _). bind Ob. intros l [L1 L2]. bind (ok_commas f). intros _ _. bind (ok_check [KEof]). intros [] _; [|apply ok_skip_all].
    apply ok_ret. split.
    + intros k v [[= <- <-]|[]]. splits; [exact I|constructor|now apply neat_obj].
    + constructor; constructor.
  - apply ok_root. split; [split|]; [intros k v []|constructor|intros k v n []].
Qed.
Theorem parse_neat f l : py_parse isupper int16 f src = VOk l -> neat_document gt l.
Proof.
  unfold py_parse. destruct (fetch isupper int16 src src) as [[t r]| | |] eqn:F; try discriminate. destruct (fetch_ok src t r ltac:(now exists []) F) as [Ht Hr].
  destruct (parse_doc _ _ _ _ _) as [[l' st']| | |] eqn:E; try discriminate. intros [= <-]. apply ok_doc in E; [apply E|]. repeat split; auto.
Qed.
End parser.
