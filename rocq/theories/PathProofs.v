(** Lemmas about the tracking of dotted paths. *)
From Verif Require Import Base BaseProofs TokModel LexModel ParseModel PathSpec.

Lemma path_run_app segs h1 h2 : path_run segs (h1 ++ h2) =
  let (s1, e1) := path_run segs h1 in let (s2, e2) := path_run s1 h2 in (s2, e1 ++ e2).
Proof.
  revert segs. induction h1 as [|[[p sp] k] r IH]; intros segs; cbn [app path_run].
  - now destruct (path_run segs h2).
  - destruct (check_and_update segs p sp k) as [s1 e]. rewrite IH. destruct (path_run s1 r) as [s2 e2].
    now destruct (path_run s2 h2).
Qed.

(** ** What one check computes *)

Fixpoint news (path : list str) (sp : span) (vk : pvkind) : list pseg :=
  match path with
  | [] => []
  | k :: pr => mkseg k sp (match pr with [] => vk | _ => PVObject end) [] :: news pr sp vk
  end.

Lemma news_keys path sp vk : map sg_key (news path sp vk) = path.
Proof. induction path as [|k p IH]; cbn; congruence. Qed.

Lemma rev_snoc {A} (l : list A) x : rev (l ++ [x]) = x :: rev l.
Proof. now rewrite rev_app_distr. Qed.

Lemma push_fresh path sp vk : forall segs k kd, (path <> [] -> kd = PVObject) ->
  push_segs (segs ++ [mkseg k sp kd []]) path sp vk = (segs ++ mkseg k sp kd [] :: news path sp vk, None).
Proof.
  induction path as [|k' p IH]; intros segs k kd Hk; cbn [push_segs news].
  - reflexivity.
  - rewrite rev_snoc. cbn [sg_kind sg_closed closed_has]. rewrite (Hk ltac:(discriminate)). cbn [is_terminal].
    rewrite IH.
    + now rewrite <- app_assoc.
    + destruct p; [congruence|reflexivity].
Qed.

Lemma push_nil path sp vk : push_segs [] path sp vk = (news path sp vk, None).
Proof.
  destruct path as [|k p]; [reflexivity|]. cbn [push_segs rev news].
  apply (push_fresh p sp vk []). destruct p; [congruence|reflexivity].
Qed.

Lemma push_snoc s0 par k p sp vk : push_segs (s0 ++ [par]) (k :: p) sp vk =
  if is_terminal (sg_kind par) then (s0 ++ [par], Some (PENest (map sg_key (s0 ++ [par]))))
  else if closed_has k (sg_closed par) then (s0 ++ [par], Some (PEReopened (map sg_key (s0 ++ [par]) ++ [k])))
  else (s0 ++ par :: news (k :: p) sp vk, None).
Proof.
  cbn [push_segs]. rewrite rev_snoc. destruct (is_terminal _); [reflexivity|]. destruct (closed_has _ _); [reflexivity|].
  rewrite push_fresh; [|destruct p; [congruence|reflexivity]]. cbn [news]. now rewrite <- app_assoc.
Qed.

Lemma set_last_snoc s x vk : set_last_kind (s ++ [x]) vk = s ++ [mkseg (sg_key x) (sg_span x) vk (sg_closed x)].
Proof.
  induction s as [|y s IH]; [reflexivity|]. cbn [app set_last_kind]. rewrite IH. destruct s; reflexivity.
Qed.

Lemma news_snoc p k sp vk : exists s, news (p ++ [k]) sp vk = s ++ [mkseg k sp vk []].
Proof.
  induction p as [|x p IH]; cbn [app news]; [exists []; reflexivity|].
  destruct IH as [s ->]. eexists (_ :: s). reflexivity.
Qed.

Lemma set_last_news s p sp vk : p <> [] -> set_last_kind (s ++ news p sp vk) vk = s ++ news p sp vk.
Proof.
  intros H. destruct (exists_last H) as (p0 & k & ->). destruct (news_snoc p0 k sp vk) as [n ->].
  rewrite app_assoc, set_last_snoc. reflexivity.
Qed.

(** The current segments and the new path, split at their common prefix. *)
Lemma common_split segs path : exists a b c, segs = a ++ b /\ path = map sg_key a ++ c /\ length a = common_len segs path /\
  match b, c with s :: _, k :: _ => sg_key s <> k | _, _ => True end.
Proof.
  revert path. induction segs as [|s r IH]; intros path.
  - exists [], [], path. cbn. auto.
  - destruct path as [|k p]; [exists [], (s :: r), []; cbn; auto|]. cbn [common_len].
    destruct (str_eqb_spec (sg_key s) k) as [E|E].
    + destruct (IH p) as (a & b & c & -> & -> & E1 & H). exists (s :: a), b, c. cbn. splits; auto; congruence.
    + exists [], (s :: r), (k :: p). cbn. auto.
Qed.

Lemma truncate_split a b : truncate_segs (length a) (a ++ b) =
  match b with
  | [] => a
  | c :: _ => match rev a with x :: r => rev r ++ [add_closed c x] | [] => [] end
  end.
Proof.
  induction a as [|s a IH]; [destruct b; reflexivity|].
  cbn [length app truncate_segs]. destruct a as [|s2 a].
  - destruct b as [|c b]; reflexivity.
  - cbn [length app] in *. rewrite IH. destruct b as [|c b]; [reflexivity|].
    change (rev (s :: s2 :: a)) with (rev (s2 :: a) ++ [s]).
    destruct (rev (s2 :: a)) as [|x r] eqn:E.
    { apply (f_equal (@rev _)) in E. rewrite rev_involutive in E. discriminate. }
    cbn [app]. rewrite rev_snoc. reflexivity.
Qed.

Lemma list_snoc {A} (l : list A) : l = [] \/ exists a x, l = a ++ [x].
Proof.
  destruct l as [|x l]; [now left|]. right. destruct (@exists_last _ (x :: l)) as (a & y & E); [discriminate|eauto].
Qed.

Definition upd_kind (s : pseg) (vk : pvkind) : pseg := mkseg (sg_key s) (sg_span s) vk (sg_closed s).

(** [par] is the last common segment, [par'] the same with the left child recorded. *)
Definition leave (par : pseg) (b : list pseg) : pseg := match b with [] => par | c :: _ => add_closed c par end.

Inductive check_case (segs : list pseg) (path : list str) (sp : span) (vk : pvkind) : list pseg * option patherr -> Prop :=
| ck_new : (forall s r, segs = s :: r -> hd_error path <> Some (sg_key s)) -> path <> [] ->
    check_case segs path sp vk (news path sp vk, None)
| ck_dup a par : segs = a ++ [par] -> path = map sg_key segs -> check_case segs path sp vk (segs, Some (PEDuplicate (sg_span par)))
| ck_up a par c b : segs = a ++ par :: c :: b -> path = map sg_key (a ++ [par]) ->
    check_case segs path sp vk (a ++ [upd_kind (add_closed c par) vk], None)
| ck_nest a par b k p : segs = a ++ par :: b -> path = map sg_key (a ++ [par]) ++ k :: p -> sg_kind par = PVTerminal ->
    match b with c :: _ => sg_key c <> k | [] => True end ->
    check_case segs path sp vk (a ++ [leave par b], Some (PENest (map sg_key (a ++ [par]))))
| ck_reopen a par b k p : segs = a ++ par :: b -> path = map sg_key (a ++ [par]) ++ k :: p -> sg_kind par = PVObject ->
    match b with c :: _ => sg_key c <> k | [] => True end -> closed_has k (sg_closed par) = true ->
    check_case segs path sp vk (a ++ [leave par b], Some (PEReopened (map sg_key (a ++ [par]) ++ [k])))
| ck_push a par b k p : segs = a ++ par :: b -> path = map sg_key (a ++ [par]) ++ k :: p -> sg_kind par = PVObject ->
    match b with c :: _ => sg_key c <> k | [] => True end -> closed_has k (sg_closed par) = false ->
    check_case segs path sp vk (a ++ leave par b :: news (k :: p) sp vk, None).

Lemma leave_kind par b : sg_kind (leave par b) = sg_kind par.
Proof. destruct b; reflexivity. Qed.
Lemma leave_key par b : sg_key (leave par b) = sg_key par.
Proof. destruct b; reflexivity. Qed.
Lemma closed_has_iff k m : closed_has k m = true <-> In k (map fst m).
Proof.
  induction m as [|[k' s] m IH]; cbn; [split; [discriminate|intros []]|].
  rewrite orb_true_iff, str_eqb_eq, IH. reflexivity.
Qed.
Lemma leave_closed par b k : match b with c :: _ => sg_key c <> k | [] => True end ->
  closed_has k (sg_closed (leave par b)) = closed_has k (sg_closed par).
Proof.
  destruct b as [|c b]; [reflexivity|]. intros H. cbn. apply str_eqb_neq in H. now rewrite H.
Qed.

Lemma app_cons_snoc {A} (a : list A) x b : a ++ x :: b = (a ++ [x]) ++ b.
Proof. now rewrite <- app_assoc. Qed.

Lemma check_cases segs path sp vk : path <> [] -> check_case segs path sp vk (check_and_update segs path sp vk).
Proof.
  intros Hp. destruct (common_split segs path) as (a0 & b & c & E1 & E2 & E3 & H).
  destruct (list_snoc a0) as [->|(a & par & ->)].
  - cbn in E1, E2, E3. subst b c.
    assert (check_and_update segs path sp vk = (news path sp vk, None)) as ->.
    { unfold check_and_update. destruct path as [|k p]; [congruence|]. rewrite <- E3. cbn [Nat.eqb length andb skipn truncate_segs].
      replace (truncate_segs 0 segs) with (@nil pseg) by (destruct segs; reflexivity).
      rewrite push_nil. pose proof (set_last_news [] (k :: p) sp vk ltac:(discriminate)) as En. cbn [app] in En.
      destruct (rev segs); now rewrite En. }
    apply ck_new; auto. intros s r ->. destruct path; [congruence|]. cbn. congruence.
  - assert (Hs : rev segs <> []).
    { rewrite E1, rev_app_distr, rev_snoc. intros E. apply app_eq_nil in E. destruct E as [_ E]. discriminate. }
    assert (Hsk : skipn (length (a ++ [par])) path = c).
    { rewrite E2, <- (map_length sg_key (a ++ [par])). rewrite skipn_app, skipn_all, Nat.sub_diag. reflexivity. }
    assert (Htr : truncate_segs (length (a ++ [par])) segs = a ++ [leave par b]).
    { rewrite E1, truncate_split. destruct b; [reflexivity|]. rewrite rev_snoc, rev_involutive. reflexivity. }
    assert (check_and_update segs path sp vk =
      if (length (a ++ [par]) =? length path) && (length (a ++ [par]) =? length segs) then
        (segs, Some (PEDuplicate (sg_span (hd par (rev segs)))))
      else match push_segs (a ++ [leave par b]) c sp vk with
        | (s, Some e) => (s, Some e) | (s, None) => (set_last_kind s vk, None) end) as ->.
    { unfold check_and_update. destruct path as [|k p]; [congruence|]. rewrite <- E3, Htr, Hsk. 
      destruct (rev segs); [congruence|]. reflexivity. }
    destruct c as [|k p].
    + rewrite app_nil_r in E2. replace (length path) with (length (a ++ [par])) by now rewrite E2, map_length.
      rewrite Nat.eqb_refl. cbn [andb]. destruct b as [|c b].
      * rewrite app_nil_r in E1. subst segs. rewrite Nat.eqb_refl, rev_snoc. cbn [hd]. now apply (ck_dup _ _ _ _ a par).
      * replace (length (a ++ [par]) =? length segs) with false
          by (symmetry; apply Nat.eqb_neq; rewrite E1, (app_length (a ++ [par])); cbn; lia).
        cbn [push_segs]. rewrite set_last_snoc. cbn [leave]. rewrite <- app_assoc in E1. now apply (ck_up _ _ _ _ a par c b).
    + replace (length (a ++ [par]) =? length path) with false
        by (symmetry; apply Nat.eqb_neq; rewrite E2, (app_length (map sg_key (a ++ [par]))), map_length; cbn; lia).
      cbn [andb]. rewrite push_snoc, leave_kind. rewrite <- app_assoc in E1. cbn [app] in E1.
      assert (Hk : map sg_key (a ++ [leave par b]) = map sg_key (a ++ [par])).
      { rewrite !map_app. cbn. now rewrite leave_key. }
      rewrite Hk, leave_closed by exact H.
      destruct (sg_kind par) eqn:Ek; cbn [is_terminal].
      * destruct (closed_has k (sg_closed par)) eqn:Ec.
        -- eapply ck_reopen; eauto.
        -- rewrite (app_cons_snoc a), set_last_news by discriminate. rewrite <- app_cons_snoc. eapply ck_push; eauto.
      * eapply ck_nest; eauto.
Qed.

(** ** Every error is justified *)

Lemma prefix_refl p : prefix p p. Proof. exists []. now rewrite app_nil_r. Qed.
Lemma prefix_app p r : prefix p (p ++ r). Proof. now exists r. Qed.
Lemma prefix_trans a b c : prefix a b -> prefix b c -> prefix a c.
Proof. intros [r ->] [r' ->]. exists (r ++ r'). now rewrite app_assoc. Qed.

Definition left (h : list assign) (c : list str) : Prop :=
  exists h1 q1 h2 q2 h3, h = h1 ++ q1 :: h2 ++ q2 :: h3 /\ prefix c (as_path q1) /\ ~ prefix c (as_path q2).

Record seg_ok (h : list assign) (d : list str) (s : pseg) : Prop := {
  so_open : exists q, In q h /\ prefix d (as_path q) /\ sg_span s = as_span q;
  so_kind : sg_kind s = PVTerminal -> exists q, In q h /\ as_path q = d /\ as_kind q = PVTerminal;
  so_closed : forall k, closed_has k (sg_closed s) = true -> left h (d ++ [k])
}.

Fixpoint segs_ok (h : list assign) (pre : list str) (segs : list pseg) : Prop :=
  match segs with
  | [] => True
  | s :: r => seg_ok h (pre ++ [sg_key s]) s /\ segs_ok h (pre ++ [sg_key s]) r
  end.

Lemma segs_ok_app h pre a b : segs_ok h pre (a ++ b) <-> segs_ok h pre a /\ segs_ok h (pre ++ map sg_key a) b.
Proof.
  revert pre. induction a as [|s a IH]; intros pre; cbn.
  - rewrite app_nil_r. tauto.
  - rewrite IH, <- app_assoc. cbn. tauto.
Qed.

Lemma left_snoc h c a : left h c -> left (h ++ [a]) c.
Proof.
  intros (h1 & q1 & h2 & q2 & h3 & -> & H). exists h1, q1, h2, q2, (h3 ++ [a]). split; [|exact H].
  repeat (rewrite <- ?app_assoc; cbn [app]). reflexivity.
Qed.

Lemma seg_ok_snoc h d s a : seg_ok h d s -> seg_ok (h ++ [a]) d s.
Proof.
  intros [(q & H1 & H2) H3 H4]. constructor.
  - exists q. rewrite in_app_iff. auto.
  - intros E. destruct (H3 E) as (q' & ? & ?). exists q'. rewrite in_app_iff. auto.
  - intros k E. apply left_snoc, H4, E.
Qed.

Lemma segs_ok_snoc h pre segs a : segs_ok h pre segs -> segs_ok (h ++ [a]) pre segs.
Proof.
  revert pre. induction segs as [|s r IH]; intros pre; cbn; [auto|]. intros [H1 H2]. split; [now apply seg_ok_snoc|auto].
Qed.

Lemma news_ok h pre p sp vk : In (pre ++ p, sp, vk) h -> segs_ok h pre (news p sp vk).
Proof.
  revert pre. induction p as [|k p IH]; intros pre H; cbn; [auto|]. split.
  - constructor; cbn.
    + exists (pre ++ k :: p, sp, vk). splits; auto. cbn. exists p. now rewrite <- app_assoc.
    + destruct p; [|discriminate]. intros ->. exists (pre ++ [k], sp, PVTerminal). auto.
    + discriminate.
  - apply IH. now rewrite <- app_assoc.
Qed.

Lemma left_now h q c a : In q h -> prefix c (as_path q) -> ~ prefix c (as_path a) -> left (h ++ [a]) c.
Proof.
  intros (h1 & h2 & ->)%in_split H1 H2. exists h1, q, h2, a, []. split; [|auto]. now rewrite <- app_assoc.
Qed.

(** leaving the child [b] of [par] for the path of [a] *)
Lemma leave_ok h a pre par b c k : segs_ok h pre (par :: b) -> as_path a = pre ++ [sg_key par] ++ c ->
  match b, c with s :: _, k :: _ => sg_key s <> k | _, _ => True end ->
  closed_has k (sg_closed (leave par b)) = true -> left (h ++ [a]) ((pre ++ [sg_key par]) ++ [k]).
Proof.
  intros [Hp Hb] Ea Hc. destruct b as [|s b]; cbn [leave].
  - intros E. apply left_snoc. exact (so_closed _ _ _ Hp _ E).
  - cbn. destruct (str_eqb_spec (sg_key s) k) as [<-|E]; cbn [orb]; intros Ek.
    + destruct Hb as [[(q & Hq & Hpq & _) _ _] _]. apply (left_now h q); auto.
      rewrite Ea. intros [r Er]. rewrite <- !app_assoc in Er. apply app_inv_head in Er.
      cbn in Er. injection Er as Er. destruct c as [|k' c]; [discriminate|]. injection Er as -> _. congruence.
    + apply left_snoc. exact (so_closed _ _ _ Hp _ Ek).
Qed.

Lemma check_sound h segs p sp vk : p <> [] -> segs_ok h [] segs ->
  let '(segs', e) := check_and_update segs p sp vk in
  segs_ok (h ++ [(p, sp, vk)]) [] segs' /\ match e with Some x => error_ok h p x | None => True end.
Proof.
  intros Hp H. destruct (check_cases segs p sp vk Hp) as [H1 H2|a par E1 E2|a par c b E1 E2|a par b k r E1 E2 Hk Hb|a par b k r E1 E2 Hk Hb Hc|a par b k r E1 E2 Hk Hb Hc].
  - split; [|exact I]. apply news_ok. rewrite in_app_iff. cbn. auto.
  - split; [now apply segs_ok_snoc|]. rewrite E1 in H. apply segs_ok_app in H. destruct H as [_ [[(q & Hq & Hpq & Es) _ _] _]].
    cbn. exists q. splits; auto. rewrite E2, E1, map_app. exact Hpq.
  - split; [|exact I]. rewrite E1 in H. apply segs_ok_app in H. destruct H as [Ha Hr]. apply segs_ok_app.
    split; [now apply segs_ok_snoc|]. cbn. split; [|exact I]. destruct Hr as [Hp0 Hr].
    constructor; cbn.
    + destruct Hp0 as [(q & ? & ?) _ _]. exists q. rewrite in_app_iff. auto.
    + intros ->. exists (p, sp, PVTerminal). rewrite in_app_iff. cbn. splits; auto. cbn. rewrite E2, map_app. reflexivity.
    + intros k Ek. apply (leave_ok h (p, sp, vk) (map sg_key a) par (c :: b) [] k); auto; [now split|].
      cbn. now rewrite E2, map_app.
  - rewrite E1 in H. apply segs_ok_app in H. destruct H as [Ha Hr]. split.
    + apply segs_ok_app. split; [now apply segs_ok_snoc|]. cbn. split; [|exact I]. rewrite leave_key. constructor.
      * destruct Hr as [[(q & ? & ? & Es) _ _] _]. exists q. rewrite in_app_iff. splits; auto. now destruct b.
      * rewrite leave_kind. intros E. destruct Hr as [Hp0 _]. apply (seg_ok_snoc _ _ _ (p, sp, vk)) in Hp0. now apply (so_kind _ _ _ Hp0).
      * intros k' Ek. apply (leave_ok h (p, sp, vk) (map sg_key a) par b (k :: r) k'); auto.
        cbn. rewrite E2, map_app. now rewrite <- !app_assoc.
    + destruct Hr as [Hp0 _]. destruct (so_kind _ _ _ Hp0 Hk) as (q & Hq & Eq & Ek). split.
      * exists q. splits; auto. rewrite Eq, map_app. reflexivity.
      * exists (k :: r). split; [discriminate|exact E2].
  - rewrite E1 in H. apply segs_ok_app in H. destruct H as [Ha Hr]. split.
    + apply segs_ok_app. split; [now apply segs_ok_snoc|]. cbn. split; [|exact I]. rewrite leave_key. constructor.
      * destruct Hr as [[(q & ? & ? & Es) _ _] _]. exists q. rewrite in_app_iff. splits; auto. now destruct b.
      * rewrite leave_kind. congruence.
      * intros k' Ek. apply (leave_ok h (p, sp, vk) (map sg_key a) par b (k :: r) k'); auto.
        cbn. rewrite E2, map_app. now rewrite <- !app_assoc.
    + cbn [error_ok]. destruct Hr as [Hp0 _]. pose proof (so_closed _ _ _ Hp0 _ Hc) as Hl. split; [|split].
      * rewrite app_length, map_length, app_length. cbn. lia.
      * rewrite E2, (app_cons_snoc _ k r). apply prefix_app.
      * rewrite map_app. exact Hl.
  - rewrite E1 in H. apply segs_ok_app in H. destruct H as [Ha Hr]. split; [|exact I].
    apply segs_ok_app. split; [now apply segs_ok_snoc|]. cbn [segs_ok]. rewrite leave_key. split.
    + constructor.
      * destruct Hr as [[(q & ? & ? & Es) _ _] _]. exists q. rewrite in_app_iff. splits; auto. now destruct b.
      * rewrite leave_kind. congruence.
      * intros k' Ek. apply (leave_ok h (p, sp, vk) (map sg_key a) par b (k :: r) k'); auto.
        cbn. rewrite E2, map_app. now rewrite <- !app_assoc.
    + apply news_ok. rewrite in_app_iff. right. left. rewrite E2, map_app. reflexivity.
Qed.

Lemma run_sound h2 : forall h segs, Forall (fun a => as_path a <> []) h2 -> segs_ok h [] segs -> segs_ok (h ++ h2) [] (fst (path_run segs h2)).
Proof.
  induction h2 as [|[[p sp] k] r IH]; intros h segs Hf H; cbn [path_run].
  - now rewrite app_nil_r.
  - inversion_clear Hf as [|? ? Hp Hr]. pose proof (check_sound h segs p sp k Hp H) as Hs.
    destruct (check_and_update segs p sp k) as [s1 e]. destruct Hs as [Hs _]. specialize (IH _ _ Hr Hs).
    destruct (path_run s1 r) as [s2 es]. cbn in *. now rewrite <- app_assoc in IH.
Qed.

Lemma answer_sound h a e : Forall (fun a => as_path a <> []) (h ++ [a]) -> answer h a = Some e -> error_ok h (as_path a) e.
Proof.
  intros [Hf Ha]%Forall_app. inversion_clear Ha as [|? ? Hp _]. unfold answer. intros E.
  pose proof (run_sound h [] [] Hf I) as Hs. cbn in Hs. pose proof (check_sound h _ _ (as_span a) (as_kind a) Hp Hs) as H.
  destruct (check_and_update _ _ _ _) as [s x]. cbn in E. subst x. apply H.
Qed.

(** ** Within one root key, acceptance is exact *)

Record seg_exact (h : list assign) (segs : list pseg) : Prop := {
  se_last : exists h0 b, h = h0 ++ [b] /\ map sg_key segs = as_path b;
  se_obj : Forall (fun s => sg_kind s = PVObject) (removelast segs);
  se_term : forall q, In q h -> as_kind q = PVTerminal -> prefix (as_path q) (map sg_key segs) ->
    exists a s, segs = a ++ [s] /\ as_path q = map sg_key segs /\ sg_kind s = PVTerminal;
  se_closed : forall a s b k q, segs = a ++ s :: b -> In q h -> prefix (map sg_key (a ++ [s]) ++ [k]) (as_path q) ->
    closed_has k (sg_closed s) = true \/ exists t b', b = t :: b' /\ sg_key t = k;
  se_left : forall c, c <> [] -> left h c -> ~ prefix c (map sg_key segs)
}.

Lemma prefix_dec (c p : list str) : {prefix c p} + {~ prefix c p}.
Proof.
  revert p. induction c as [|x c IH]; intros p; [left; now exists p|].
  destruct p as [|y p]; [right; intros [r E]; discriminate|].
  destruct (str_eqb_spec x y) as [<-|E].
  - destruct (IH p) as [H|H]; [left|right].
    + destruct H as [r ->]. now exists r.
    + intros [r Er]. injection Er as Er. apply H. now exists r.
  - right. intros [r Er]. injection Er as Er _. congruence.
Qed.

Lemma prefix_cmp (c p : list str) r : prefix c (p ++ r) -> prefix c p \/ exists d, d <> [] /\ c = p ++ d /\ prefix d r.
Proof.
  revert p r. induction c as [|x c IH]; intros p r [t E]; [left; now exists p|].
  destruct p as [|y p].
  - right. exists (x :: c). splits; [discriminate|reflexivity|]. exists t. exact E.
  - injection E as -> E. destruct (IH p r) as [[u ->]|(d & Hd & -> & Hr)]; [now exists t|left|right].
    + now exists u.
    + exists d. auto.
Qed.

Lemma left_snoc_inv h a c : left (h ++ [a]) c -> left h c \/ ((exists q, In q h /\ prefix c (as_path q)) /\ ~ prefix c (as_path a)).
Proof.
  intros (h1 & q1 & h2 & q2 & h3 & E & H1 & H2). destruct (list_snoc h3) as [->|(h3' & x & ->)].
  - right. replace (h1 ++ q1 :: h2 ++ [q2]) with ((h1 ++ q1 :: h2) ++ [q2]) in E by (rewrite <- app_assoc; reflexivity).
    apply app_inj_tail in E. destruct E as [-> ->]. split; [|exact H2]. exists q1. rewrite in_app_iff. cbn. auto.
  - left. replace (h1 ++ q1 :: h2 ++ q2 :: h3' ++ [x]) with ((h1 ++ q1 :: h2 ++ q2 :: h3') ++ [x]) in E
      by (repeat (rewrite <- ?app_assoc; cbn [app]); reflexivity).
    apply app_inj_tail in E. destruct E as [-> _]. exists h1, q1, h2, q2, h3'. auto.
Qed.

Lemma app_len_inv {A} (a b c d : list A) : a ++ b = c ++ d -> length a = length c -> a = c /\ b = d.
Proof.
  revert c. induction a as [|x a IH]; intros [|y c] E H; try discriminate; cbn in *; [auto|].
  injection E as -> E. destruct (IH c E) as [-> ->]; auto.
Qed.

(** A prefix of the new path that an earlier entry has, too, is a prefix of the current path,
    if the new path goes on with a child that is not closed. *)
Lemma open_prefix h segs a par b k r c q : seg_exact h segs -> segs = a ++ par :: b ->
  match b with t :: _ => sg_key t <> k | [] => True end -> closed_has k (sg_closed par) = false ->
  In q h -> prefix c (as_path q) -> prefix c (map sg_key (a ++ [par]) ++ k :: r) -> prefix c (map sg_key (a ++ [par])).
Proof.
  intros Hx E Hb Hc Hq H1 H2. destruct (prefix_cmp _ _ _ H2) as [H|(d & Hd & -> & [t Et])]; [exact H|].
  destruct d as [|y d]; [congruence|]. injection Et as <- _.
  destruct (se_closed _ _ Hx a par b k q E Hq) as [H|(t' & b' & -> & Ek)]; [|congruence|congruence].
  eapply prefix_trans; [|exact H1]. exists d. now rewrite <- app_assoc.
Qed.

Lemma prefix_keys a par b : prefix (map sg_key (a ++ [par])) (map sg_key (a ++ par :: b)).
Proof. exists (map sg_key b). rewrite !map_app. cbn. now rewrite <- app_assoc. Qed.

Lemma same_root segs p : (forall s r, segs = s :: r -> hd_error p <> Some (sg_key s)) -> hd_error (map sg_key segs) = hd_error p ->
  p <> [] -> segs = [] /\ p = [] .
Proof.
  intros H E Hp. destruct segs as [|s r]; [destruct p; [auto|discriminate]|].
  exfalso. apply (H s r eq_refl). now rewrite <- E.
Qed.

Lemma prefix_length c p : prefix c p -> length c <= length p.
Proof. intros [r ->]. rewrite app_length. lia. Qed.

Lemma exact_iff h segs p sp vk : p <> [] -> segs_ok h [] segs -> seg_exact h segs -> hd_error (map sg_key segs) = hd_error p ->
  (snd (check_and_update segs p sp vk) = None <->
   map sg_key segs <> p /\ (forall t, ~ nests h p t) /\ (forall c, c <> [] -> ~ reopens h p c)).
Proof.
  intros Hp Hs Hx Hr. pose proof (check_sound h segs p sp vk Hp Hs) as Hsound.
  destruct (check_cases segs p sp vk Hp) as [H1 H2|a par E1 E2|a par c b E1 E2|a par b k r E1 E2 Hk Hb|a par b k r E1 E2 Hk Hb Hc|a par b k r E1 E2 Hk Hb Hc]; cbn [snd].
  - destruct (same_root _ _ H1 Hr Hp). congruence.
  - split; [discriminate|]. intros [H _]. congruence.
  - split; [intros _|reflexivity]. assert (Hpre : prefix p (map sg_key segs)) by (subst; apply prefix_keys).
    splits.
    + intros E. rewrite E1, E2 in E. apply (f_equal (@length _)) in E. rewrite !map_length, !app_length in E. cbn in E. lia.
    + intros t [(q & Hq & <- & Hk) (r & Hr0 & Er)].
      destruct (se_term _ _ Hx q Hq Hk) as (_ & _ & _ & Et & _).
      { eapply prefix_trans; [|exact Hpre]. rewrite Er. apply prefix_app. }
      apply prefix_length in Hpre. rewrite Er, Et, app_length in Hpre. destruct r; [congruence|]. cbn in Hpre. lia.
    + intros c0 Hc0 [Hcp Hl]. apply (se_left _ _ Hx c0 Hc0 Hl). eapply prefix_trans; eauto.
  - split; [discriminate|]. intros (_ & H & _). destruct Hsound as [_ He]. now apply H in He.
  - split; [discriminate|]. intros (_ & _ & H). destruct Hsound as [_ [_ He]]. apply H in He; [tauto|].
    destruct (map sg_key (a ++ [par])); discriminate.
  - split; [intros _|reflexivity].
    assert (Hop : forall c q, In q h -> prefix c (as_path q) -> prefix c p -> prefix c (map sg_key (a ++ [par]))).
    { intros c q Hq H1 H2. rewrite E2 in H2. eapply open_prefix; eauto. }
    splits.
    + rewrite E2, E1. intros E. rewrite (app_cons_snoc a), map_app in E. apply app_inv_head in E. destruct b; [discriminate|].
      injection E as E _. congruence.
    + intros t [(q & Hq & <- & Hkq) (r0 & Hr0 & Er)].
      assert (Ht : prefix (as_path q) (map sg_key (a ++ [par]))).
      { apply (Hop _ q Hq); [apply prefix_refl|]. rewrite Er. apply prefix_app. }
      destruct (se_term _ _ Hx q Hq Hkq) as (a' & s & Es & Et & Ek).
      { eapply prefix_trans; [exact Ht|]. rewrite E1. apply prefix_keys. }
      apply prefix_length in Ht. rewrite Et, Es, !map_length, !app_length in Ht. cbn in Ht.
      assert (El : length (a ++ par :: b) = length (a' ++ [s])) by congruence.
      rewrite !app_length in El. cbn in El. destruct b; [|cbn in El; lia].
      rewrite Es in E1. apply app_inj_tail in E1. destruct E1 as [-> ->]. congruence.
    + intros c Hc0 [Hcp Hl]. apply (se_left _ _ Hx c Hc0 Hl).
      destruct Hl as (h1 & q1 & h2 & q2 & h3 & Eh & Hq1 & _).
      eapply prefix_trans; [apply (Hop c q1); [rewrite Eh, in_app_iff; cbn; auto|exact Hq1|exact Hcp]|].
      rewrite E1. apply prefix_keys.
Qed.

Lemma news_obj p sp vk : Forall (fun s => sg_kind s = PVObject) (removelast (news p sp vk)).
Proof.
  induction p as [|k p IH]; [constructor|]. cbn [news]. destruct p as [|k2 p]; [constructor|].
  cbn [news removelast] in *. constructor; [reflexivity|exact IH].
Qed.

Lemma news_exact p sp vk : p <> [] -> seg_exact [(p, sp, vk)] (news p sp vk).
Proof.
  intros Hp. constructor.
  - exists [], (p, sp, vk). rewrite news_keys. auto.
  - apply news_obj.
  - intros q [<-|[]] Hk _. cbn in Hk. subst vk. destruct (exists_last Hp) as (p0 & k & ->).
    destruct (news_snoc p0 k sp PVTerminal) as [n En]. rewrite news_keys, En. exists n. eexists. splits; eauto.
  - intros a s b k q E [<-|[]]. cbn. intros [r Er]. right.
    rewrite <- (news_keys p sp vk), E, (app_cons_snoc a), map_app, <- app_assoc in Er. apply app_inv_head in Er.
    destruct b as [|t b]; [discriminate|]. injection Er as Er _. eauto.
  - intros c _ (h1 & q1 & h2 & q2 & h3 & E & _). exfalso.
    apply (f_equal (@length _)) in E. repeat (rewrite ?app_length in E; cbn in E). lia.
Qed.

Lemma removelast_cons {A} (x : A) l : l <> [] -> removelast (x :: l) = x :: removelast l.
Proof. destruct l; [congruence|reflexivity]. Qed.

(** The step from [a ++ par :: b] to the path [keys (a ++ [par]) ++ rest]. *)
Lemma exact_step h segs a par b par' rest p sp vk : seg_exact h segs -> segs = a ++ par :: b ->
  p = map sg_key (a ++ [par]) ++ rest -> map sg_key segs <> p ->
  sg_key par' = sg_key par -> sg_closed par' = sg_closed (leave par b) ->
  sg_kind par' = (match rest with [] => vk | _ => PVObject end) ->
  match rest with k :: _ => closed_has k (sg_closed par) = false /\ match b with t :: _ => sg_key t <> k | [] => True end | [] => True end ->
  (forall t, ~ nests h p t) -> (forall c, c <> [] -> ~ reopens h p c) ->
  seg_exact (h ++ [(p, sp, vk)]) (a ++ par' :: news rest sp vk).
Proof.
  intros Hx Es Ep Hne Ekey Ecl Ekd Hrest Hnest Hreop.
  assert (Hkeys : map sg_key (a ++ par' :: news rest sp vk) = p).
  { rewrite Ep, !map_app. cbn. now rewrite news_keys, Ekey, <- app_assoc. }
  assert (Hop : rest <> [] -> forall c q, In q h -> prefix c (as_path q) -> prefix c p -> prefix c (map sg_key (a ++ [par]))).
  { intros Hr c q Hq H1 H2. destruct rest as [|k r]; [congruence|]. rewrite Ep in H2. destruct Hrest. eapply open_prefix; eauto. }
  constructor.
  - exists h, (p, sp, vk). auto.
  - pose proof (se_obj _ _ Hx) as Ho. rewrite Es, removelast_app in Ho by discriminate. apply Forall_app in Ho. destruct Ho as [Ho _].
    rewrite removelast_app by discriminate. apply Forall_app. split; [exact Ho|].
    destruct rest as [|k r]; [constructor|]. rewrite removelast_cons by discriminate. constructor; [exact Ekd|]. apply news_obj.
  - rewrite Hkeys. intros q Hq Hkq Hpre. apply in_app_iff in Hq. destruct Hq as [Hq|[<-|[]]].
    + exfalso. destruct Hpre as [t Et].
      assert (Eq : as_path q = p).
      { destruct t as [|y t]; [now rewrite app_nil_r in Et|]. exfalso. apply (Hnest (as_path q)). split; [eauto|].
        exists (y :: t). split; [discriminate|exact Et]. }
      destruct rest as [|k r].
      * rewrite app_nil_r in Ep. destruct (se_term _ _ Hx q Hq Hkq) as (_ & _ & _ & E & _); [|congruence].
        rewrite Eq, Ep, Es. apply prefix_keys.
      * pose proof (Hop ltac:(discriminate) (as_path q) q Hq (prefix_refl _)) as H. rewrite Eq in H.
        specialize (H (prefix_refl _)). apply prefix_length in H. rewrite Ep, app_length in H. cbn in H. lia.
    + cbn in Hkq. subst vk. destruct (list_snoc rest) as [->|(r0 & k & ->)].
      * exists a, par'. auto.
      * destruct (news_snoc r0 k sp PVTerminal) as [n ->]. exists (a ++ par' :: n). eexists. split; [rewrite <- app_assoc; reflexivity|split; reflexivity].
  - intros a' s b' k q E Hq Hpre. apply in_app_iff in Hq. destruct Hq as [Hq|[<-|[]]].
    2:{ right. cbn in Hpre. rewrite <- Hkeys, E in Hpre. destruct Hpre as [r Er].
        rewrite (app_cons_snoc a'), map_app, <- app_assoc in Er. apply app_inv_head in Er.
        destruct b' as [|t b']; [discriminate|]. injection Er as Er _. eauto. }
    apply app_eq_app in E. destruct E as (l & [[Ea El]|[Ea El]]).
    + destruct l as [|s0 l]; cbn in El.
      * injection El as Epar _. rewrite Epar in *. rewrite app_nil_r in Ea. subst a'.
        destruct (se_closed _ _ Hx a par b k q Es Hq) as [H|(t & b0 & -> & Ek)].
        { rewrite map_app in *. cbn in *. now rewrite Ekey in Hpre. }
        -- left. rewrite Ecl. destruct b; cbn; [exact H|]. now rewrite H, orb_true_r.
        -- left. rewrite Ecl. cbn. now rewrite Ek, str_eqb_refl.
      * injection El as <- ->. subst a.
        destruct (se_closed _ _ Hx a' s (l ++ par :: b) k q) as [H|(t & b0 & E & Ek)]; auto.
        { rewrite Es, <- app_assoc. reflexivity. }
        right. destruct l as [|x l]; cbn in *; injection E as E1 _; [exists par'|exists x]; eexists; (split; [reflexivity|congruence]).
    + destruct l as [|s0 l]; cbn in El.
      * injection El as Epar _. rewrite <- Epar in *. rewrite app_nil_r in Ea. subst a'.
        destruct (se_closed _ _ Hx a par b k q Es Hq) as [H|(t & b0 & -> & Ek)].
        { rewrite map_app in *. cbn in *. now rewrite Ekey in Hpre. }
        -- left. rewrite Ecl. destruct b; cbn; [exact H|]. now rewrite H, orb_true_r.
        -- left. rewrite Ecl. cbn. now rewrite Ek, str_eqb_refl.
      * injection El as <- En. exfalso.
        assert (Hl : prefix (map sg_key (a' ++ [s])) (map sg_key (a ++ [par]))).
        { apply (Hop ltac:(destruct rest, l; discriminate) _ q Hq).
          - eapply prefix_trans; [|exact Hpre]. apply prefix_app.
          - rewrite <- Hkeys, En, Ea.
            replace (a ++ par' :: l ++ s :: b') with ((a ++ par' :: l) ++ s :: b') by now rewrite <- app_assoc.
            apply prefix_keys. }
        apply prefix_length in Hl. rewrite !map_length, Ea, !app_length in Hl. cbn in Hl. lia.
  - rewrite Hkeys. intros c Hc Hl. apply left_snoc_inv in Hl. destruct Hl as [Hl|[_ Hl]]; [|exact Hl].
    intros Hp. apply (Hreop c Hc). now split.
Qed.

Lemma check_exact h segs p sp vk : p <> [] -> segs_ok h [] segs -> seg_exact h segs -> hd_error (map sg_key segs) = hd_error p ->
  snd (check_and_update segs p sp vk) = None -> seg_exact (h ++ [(p, sp, vk)]) (fst (check_and_update segs p sp vk)).
Proof.
  intros Hp Hs Hx Hr Hn. apply (exact_iff h segs p sp vk Hp Hs Hx Hr) in Hn as Hv. destruct Hv as (V1 & V2 & V3). revert Hn.
  destruct (check_cases segs p sp vk Hp) as [H1 H2|a par E1 E2|a par c b E1 E2|a par b k r E1 E2 Hk Hb|a par b k r E1 E2 Hk Hb Hc|a par b k r E1 E2 Hk Hb Hc]; cbn [snd fst]; try discriminate; intros _.
  - destruct (same_root _ _ H1 Hr Hp). congruence.
  - eapply (exact_step h segs a par (c :: b) _ []); eauto. now rewrite app_nil_r.
  - eapply (exact_step h segs a par b _ (k :: r)); eauto; [apply leave_key|now rewrite leave_kind].
Qed.

(** ** Histories *)

Lemma check_root segs p sp vk : p <> [] -> hd_error (map sg_key (fst (check_and_update segs p sp vk))) = hd_error p.
Proof.
  intros Hp. destruct (check_cases segs p sp vk Hp) as [H1 H2|a par E1 E2|a par c b E1 E2|a par b k r E1 E2 Hk Hb|a par b k r E1 E2 Hk Hb Hc|a par b k r E1 E2 Hk Hb Hc]; cbn [fst].
  - now rewrite news_keys.
  - congruence.
  - rewrite E2, !map_app. reflexivity.
  - rewrite E2, !map_app. cbn. rewrite leave_key. now destruct a.
  - rewrite E2, !map_app. cbn. rewrite leave_key. now destruct a.
  - rewrite E2, !map_app. cbn. rewrite leave_key. now destruct a.
Qed.

Definition state (h : list assign) : list pseg := fst (path_run [] h).

Lemma state_snoc h a : state (h ++ [a]) = fst (check_and_update (state h) (as_path a) (as_span a) (as_kind a)).
Proof.
  unfold state. rewrite path_run_app. destruct (path_run [] h) as [s1 e1]. destruct a as [[p sp] k]. cbn.
  now destruct (check_and_update s1 p sp k).
Qed.

Lemma state_root h b : as_path b <> [] -> hd_error (map sg_key (state (h ++ [b]))) = root_key b.
Proof. intros Hb. rewrite state_snoc. now apply check_root. Qed.

Lemma check_other segs p sp vk : p <> [] -> hd_error (map sg_key segs) <> hd_error p ->
  check_and_update segs p sp vk = (news p sp vk, None).
Proof.
  intros Hp Hr. assert (forall s r, segs = s :: r -> hd_error p = Some (sg_key s) -> False).
  { intros s r -> E. apply Hr. now rewrite E. }
  destruct (check_cases segs p sp vk Hp) as [H1 H2|a par E1 E2|a par c b E1 E2|a par b k r E1 E2 Hk Hb|a par b k r E1 E2 Hk Hb Hc|a par b k r E1 E2 Hk Hb Hc]; [reflexivity|..];
    exfalso; apply Hr; subst segs; rewrite E2, ?map_app; destruct a; reflexivity.
Qed.

Lemma state_exact r h0 : (forall h b, h0 = h ++ [b] -> root_key b <> Some r) -> Forall (fun a => as_path a <> []) h0 ->
  forall h1, Forall (fun b => root_key b = Some r) h1 -> all_accepted h0 h1 -> h1 <> [] ->
  segs_ok h1 [] (state (h0 ++ h1)) /\ seg_exact h1 (state (h0 ++ h1)).
Proof.
  intros H0 Hf0. refine (rev_ind _ _ _); [congruence|]. intros [[p sp] vk] h1 IH Hf Ha _.
  apply Forall_app in Hf. destruct Hf as [Hf Hb]. inversion_clear Hb as [|? ? Hroot _]. cbn in Hroot.
  assert (Hp : p <> []) by (intros ->; discriminate).
  pose proof (Ha h1 _ [] eq_refl) as Hacc. unfold answer in Hacc. fold (state (h0 ++ h1)) in Hacc. cbn in Hacc.
  rewrite app_assoc, state_snoc. cbn [as_path as_span as_kind fst snd].
  destruct (list_snoc h1) as [->|(h2 & b & E1)].
  - rewrite app_nil_r in *. rewrite check_other; [|exact Hp|].
    + cbn. split; [apply news_ok; now left|now apply news_exact].
    + unfold root_key in Hroot. cbn in Hroot. rewrite Hroot. destruct (list_snoc h0) as [->|(h & b & E)]; [discriminate|].
      pose proof (H0 _ _ E) as Hb. subst h0. apply Forall_app in Hf0. destruct Hf0 as [_ Hfb]. inversion_clear Hfb.
      rewrite state_root by assumption. exact Hb.
  - destruct IH as [Hs Hx]; auto.
    + intros h3 b' h4 E. apply (Ha h3 b' (h4 ++ [(p, sp, vk)])). rewrite E, <- app_assoc. reflexivity.
    + subst h1. intros E. apply app_eq_nil in E. destruct E as [_ E]. discriminate.
    + assert (Hr : hd_error (map sg_key (state (h0 ++ h1))) = hd_error p).
      { subst h1. rewrite app_assoc, state_root.
        - apply Forall_app in Hf. destruct Hf as [_ Hb]. inversion_clear Hb as [|? ? Hb' _]. unfold root_key in Hroot. cbn in Hroot. congruence.
        - apply Forall_app in Hf. destruct Hf as [_ Hb]. inversion_clear Hb as [|? ? Hb' _]. intros E. unfold root_key in Hb'. rewrite E in Hb'. discriminate. }
      split.
      * pose proof (check_sound h1 _ p sp vk Hp Hs) as H. destruct (check_and_update _ _ _ _). apply H.
      * now apply check_exact.
Qed.

Lemma answer_exact r h0 h1 a : Forall (fun a => as_path a <> []) h0 -> current_root r h0 (h1 ++ [a]) -> all_accepted h0 h1 ->
  (answer (h0 ++ h1) a = None <->
   (forall h b, h1 = h ++ [b] -> as_path b <> as_path a) /\
   (forall t, ~ nests h1 (as_path a) t) /\ (forall c, c <> [] -> ~ reopens h1 (as_path a) c)).
Proof.
  intros Hf0 [H0 H1] Hacc. apply Forall_app in H1. destruct H1 as [H1 Ha]. inversion_clear Ha as [|? ? Hroot _].
  destruct a as [[p sp] vk]. assert (Hp : p <> []) by (intros ->; discriminate).
  unfold answer. fold (state (h0 ++ h1)). cbn [as_path as_span as_kind fst snd]. unfold root_key in Hroot. cbn in Hroot.
  destruct (list_snoc h1) as [->|(h & b & E)].
  - rewrite app_nil_r. rewrite check_other; [|exact Hp|].
    + split; [intros _|reflexivity]. splits.
      * intros h b E. destruct h; discriminate.
      * intros t [(q & [] & _) _].
      * intros c _ [_ (h1 & q1 & h2 & q2 & h3 & E & _)]. destruct h1; discriminate.
    + rewrite Hroot. destruct (list_snoc h0) as [->|(h & b & E)]; [discriminate|].
      pose proof (H0 _ _ E) as Hb. subst h0. apply Forall_app in Hf0. destruct Hf0 as [_ Hfb]. inversion_clear Hfb.
      rewrite state_root by assumption. exact Hb.
  - destruct (state_exact r h0 H0 Hf0 h1 H1 Hacc) as [Hs Hx].
    { subst h1. intros E. apply app_eq_nil in E. destruct E as [_ E]. discriminate. }
    assert (Hb : root_key b = Some r).
    { subst h1. apply Forall_app in H1. destruct H1 as [_ H1]. now inversion_clear H1. }
    assert (Hr : hd_error (map sg_key (state (h0 ++ h1))) = hd_error p).
    { subst h1. rewrite app_assoc, state_root; [congruence|]. intros E. unfold root_key in Hb. rewrite E in Hb. discriminate. }
    rewrite (exact_iff h1 _ p sp vk Hp Hs Hx Hr). destruct (se_last _ _ Hx) as (h' & b' & Eh & Ek).
    rewrite E in Eh. apply app_inj_tail in Eh. destruct Eh as [<- <-]. rewrite Ek.
    split; intros (V1 & V2 & V3); splits; auto.
    + intros h'' b'' E''. rewrite E in E''. apply app_inj_tail in E''. destruct E'' as [<- <-]. exact V1.
    + eapply V1; eauto.
Qed.

Lemma exists_last_or {A} (l : list A) : l = [] \/ exists l' x, l = l' ++ [x].
Proof. destruct l as [|a l]; [now left|right]. destruct (exists_last (l := a :: l)) as (l' & x & E); [discriminate|eauto]. Qed.
Lemma run_accepted h : Forall (fun e => e = None) (snd (path_run [] h)) <-> all_accepted [] h.
Proof.
  unfold all_accepted. induction h as [|a h IH] using rev_ind; [split; [intros _ [|? ?] ? ? E; discriminate|constructor]|].
  rewrite path_run_app. pose proof (eq_refl (answer h a)) as Ea. unfold answer at 2 in Ea. destruct (path_run [] h) as [s1 e1]. cbn [fst snd] in *.
  destruct a as [[p sp] k]. cbn [path_run as_path as_span as_kind fst snd] in *. destruct (check_and_update s1 p sp k) as [s2 e]. cbn [snd] in *. rewrite Forall_app, IH. split.
  - intros [H He] h2 b h3 E. inversion_clear He as [|? ? He' _]. destruct (exists_last_or h3) as [-> | (h4 & x & ->)].
    + apply app_inj_tail in E as [<- <-]. cbn [app]. now rewrite Ea.
    + rewrite app_comm_cons, app_assoc in E. apply app_inj_tail in E as [-> _]. now apply (H h2 b h4).
  - intros H. split; [|constructor; [|constructor]].
    + intros h2 b h3 ->. apply (H h2 b (h3 ++ [(p, sp, k)])). now rewrite <- app_assoc.
    + rewrite <- Ea. exact (H h (p, sp, k) [] eq_refl).
Qed.

(** The entries directly before the end that have root key [r]. *)
Lemma current_split r h : exists h0 h1, h = h0 ++ h1 /\ (forall g b, h0 = g ++ [b] -> root_key b <> Some r) /\ Forall (fun b => root_key b = Some r) h1.
Proof.
  induction h as [|b h (h0 & h1 & -> & H0 & H1)] using rev_ind; [exists [], []; repeat split; [intros [|? ?] b E; discriminate|constructor]|].
  destruct (root_key b) as [q|] eqn:E; [destruct (str_eqb q r) eqn:Eq; [apply str_eqb_eq in Eq; subst q|]|].
  - exists h0, (h1 ++ [b]). rewrite app_assoc. repeat split; auto. apply Forall_app. auto.
  - exists ((h0 ++ h1) ++ [b]), []. rewrite app_nil_r. repeat split; [|constructor]. intros g c Ec. apply app_inj_tail in Ec as [_ <-]. rewrite E. intros [= ->]. now rewrite str_eqb_refl in Eq.
  - exists ((h0 ++ h1) ++ [b]), []. rewrite app_nil_r. repeat split; [|constructor]. intros g c Ec. apply app_inj_tail in Ec as [_ <-]. now rewrite E.
Qed.

Lemma accepted_fine h : Forall (fun a => as_path a <> []) h -> (Forall (fun e => e = None) (snd (path_run [] h)) <-> paths_fine h).
Proof.
  intros Hp. rewrite run_accepted. split.
  - intros H h0 h1 a h2 r -> Hc. apply Forall_app in Hp as [Hp0 _]. apply (answer_exact r h0 h1 a Hp0 Hc).
    + intros g b g' ->. apply (H (h0 ++ g) b (g' ++ a :: h2)). now rewrite <- !app_assoc.
    + apply (H (h0 ++ h1) a h2). now rewrite <- app_assoc.
  - intros H h2. remember (length h2) as n eqn:Hn. revert h2 Hn. induction n as [n IH] using (well_founded_induction lt_wf). intros h2 -> b h3 E.
    assert (Hb : exists r, root_key b = Some r). { rewrite E in Hp. apply Forall_app in Hp as [_ Hp]. inversion_clear Hp as [|? ? Hb _]. unfold root_key. destruct (as_path b); [contradiction|cbn; eauto]. }
    destruct Hb as (r & Hb). destruct (current_split r h2) as (h0 & h1 & -> & H0 & H1). cbn [app].
    assert (Hc : current_root r h0 (h1 ++ [b])) by (split; [exact H0|apply Forall_app; auto]).
    rewrite E, <- app_assoc in Hp. apply Forall_app in Hp as [Hp0 _]. apply (answer_exact r h0 h1 b Hp0 Hc).
    + intros g c g' ->. refine (IH (length (h0 ++ g)) _ (h0 ++ g) eq_refl c (g' ++ b :: h3) _); [rewrite !app_length; cbn; lia|rewrite E, <- !app_assoc; reflexivity].
    + apply (H h0 h1 b h3 r); [now rewrite app_assoc|exact Hc].
Qed.
