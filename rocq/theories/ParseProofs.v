(** Lemmas about the event parser: totality, spans, nesting. *)
From Verif Require Import Base BaseProofs TokModel TokProofs LexModel LexSpec EscapeProofs LexProofs ParseModel ParseSpec.

(** ** Induction over atoms *)

Section AtomInd.
Variable P : atom -> Prop.
Hypothesis Hscalar : forall sp v k, P (AScalar sp v k).
Hypothesis Hunit : forall sp, P (AUnit sp).
Hypothesis Htag0 : forall sp n i e, P (ATag sp n None i e).
Hypothesis Htag : forall sp n p i e, P p -> P (ATag sp n (Some p) i e).
Hypothesis Hobj : forall sp es ds dg u,
  Forall (fun x : oentry => P (fst (fst (fst x))) /\ P (snd (fst (fst x)))) es -> P (AObject sp es ds dg u).
Hypothesis Hseq : forall sp es u cs, Forall P es -> P (ASeq sp es u cs).
Hypothesis Hattrs : forall sp es, Forall (fun x : str * span * atom => P (snd x)) es -> P (AAttrs sp es).
Hypothesis Hinv : forall sp r, P (AInvEsc sp r).
Hypothesis Herr : forall sp m, P (AError sp m).

Fixpoint atom_ind' (a : atom) : P a :=
  match a with
  | AScalar sp v k => Hscalar sp v k
  | AUnit sp => Hunit sp
  | ATag sp n None i e => Htag0 sp n i e
  | ATag sp n (Some p) i e => Htag sp n p i e (atom_ind' p)
  | AObject sp es ds dg u =>
    Hobj sp es ds dg u
      ((fix go (l : list oentry) : Forall (fun x : oentry => P (fst (fst (fst x))) /\ P (snd (fst (fst x)))) l :=
          match l with
          | [] => Forall_nil _
          | x :: r => Forall_cons x
                        (match x as y return P (fst (fst (fst y))) /\ P (snd (fst (fst y))) with
                         | (k, v, _, _) => conj (atom_ind' k) (atom_ind' v)
                         end) (go r)
          end) es)
  | ASeq sp es u cs =>
    Hseq sp es u cs ((fix go (l : list atom) : Forall P l :=
                        match l with [] => Forall_nil _ | x :: r => Forall_cons x (atom_ind' x) (go r) end) es)
  | AAttrs sp es =>
    Hattrs sp es
      ((fix go (l : list (str * span * atom)) : Forall (fun x : str * span * atom => P (snd x)) l :=
          match l with
          | [] => Forall_nil _
          | x :: r => Forall_cons x (match x as y return P (snd y) with (_, v) => atom_ind' v end) (go r)
          end) es)
  | AInvEsc sp r => Hinv sp r
  | AError sp m => Herr sp m
  end.
End AtomInd.

(** ** Keys *)

Section KeyInd.
Variable P : keyval -> Prop.
Hypothesis H1 : forall s, P (KScalar s).
Hypothesis H2 : P KUnit.
Hypothesis H3 : forall n, P (KTagged n None).
Hypothesis H4 : forall n k, P k -> P (KTagged n (Some k)).
Fixpoint keyval_ind' (k : keyval) : P k :=
  match k with
  | KScalar s => H1 s
  | KUnit => H2
  | KTagged n None => H3 n
  | KTagged n (Some x) => H4 n x (keyval_ind' x)
  end.
End KeyInd.

Lemma keyval_eqb_eq a b : keyval_eqb a b = true <-> a = b.
Proof.
  revert b. induction a as [s| |n|n k IH] using keyval_ind'; intros [s'| |n' [k'|]]; cbn [keyval_eqb];
    try (split; [discriminate|congruence]).
  - rewrite str_eqb_eq. split; congruence.
  - split; congruence.
  - rewrite andb_false_r. split; [discriminate|congruence].
  - rewrite andb_true_r, str_eqb_eq. split; congruence.
  - rewrite andb_true_iff, str_eqb_eq, IH. split; [intros [-> ->]; reflexivity|]. intros [= -> ->]. auto.
  - rewrite andb_false_r. split; [discriminate|congruence].
Qed.

Lemma seen_get_spec k m o : seen_get k m = Some o <-> first_at m k o.
Proof.
  induction m as [|[k' o'] m IH]; cbn [seen_get].
  - split; [discriminate|]. intros (a & b & E & _). destruct a; discriminate.
  - destruct (keyval_eqb k' k) eqn:E.
    + apply keyval_eqb_eq in E as ->. split.
      * intros [= ->]. exists [], m. split; [reflexivity|]. intros o' [].
      * intros (a & b & E & Hn). destruct a as [|x a]; cbn in E; [injection E as -> ->; reflexivity|].
        injection E as <- E. elim (Hn o'). now left.
    + assert (k' <> k) as Hk by (intros ->; rewrite (proj2 (keyval_eqb_eq k k) eq_refl) in E; discriminate).
      rewrite IH. split.
      * intros (a & b & -> & Hn). exists ((k', o') :: a), b. split; [reflexivity|].
        intros o'' [E'|Hin]; [congruence|now apply (Hn o'')].
      * intros (a & b & E' & Hn). destruct a as [|x a]; cbn in E'; [congruence|].
        injection E' as <- ->. exists a, b. split; [reflexivity|]. intros o'' Hin. apply (Hn o''). now right.
Qed.

Lemma seen_get_none k m : seen_get k m = None <-> forall o, ~ In (k, o) m.
Proof.
  induction m as [|[k' o'] m IH]; cbn [seen_get].
  - split; [intros _ o []|reflexivity].
  - destruct (keyval_eqb k' k) eqn:E.
    + apply keyval_eqb_eq in E as ->. split; [discriminate|]. intros H. elim (H o'). now left.
    + rewrite IH. split.
      * intros H o [E'|Hin]; [|now apply (H o)]. injection E' as -> ->.
        rewrite (proj2 (keyval_eqb_eq k k) eq_refl) in E. discriminate.
      * intros H o Hin. apply (H o). now right.
Qed.

(** The seen map holds the first occurrences of the keys [ks]. *)
Definition seen_inv (ks : list (keyval * span)) (m : seen_map) : Prop :=
  forall k, match seen_get k m with
            | Some o => first_at ks k o
            | None => forall o, ~ In (k, o) ks
            end.

Lemma seen_inv_nil : seen_inv [] [].
Proof. intros k. cbn. intros o []. Qed.

Lemma first_at_app {K} (ks : list (K * span)) k o x : first_at ks k o -> first_at (ks ++ x) k o.
Proof. intros (a & b & -> & H). exists a, (b ++ x). now rewrite <- app_assoc. Qed.

Lemma seen_inv_dup ks m k s o : seen_inv ks m -> seen_get k m = Some o -> seen_inv (ks ++ [(k, s)]) m.
Proof.
  intros H E k'. specialize (H k'). destruct (seen_get k' m) as [o'|] eqn:E'; [now apply first_at_app|].
  intros o' Hin. apply in_app_iff in Hin as [Hin|[Hin|[]]]; [now apply (H o')|]. injection Hin as <- <-. congruence.
Qed.

Lemma seen_inv_new ks m k s : seen_inv ks m -> seen_get k m = None -> seen_inv (ks ++ [(k, s)]) (seen_insert k s m).
Proof.
  intros H E k'. cbn. destruct (keyval_eqb k k') eqn:Ek.
  - apply keyval_eqb_eq in Ek as <-. exists ks, []. split; [reflexivity|]. specialize (H k). now rewrite E in H.
  - specialize (H k'). destruct (seen_get k' m) as [o'|] eqn:E'; [now apply first_at_app|].
    intros o' Hin. apply in_app_iff in Hin as [Hin|[Hin|[]]]; [now apply (H o')|]. injection Hin as <- <-.
    rewrite (proj2 (keyval_eqb_eq k k) eq_refl) in Ek. discriminate.
Qed.

(** ** The lexeme source as a list *)

Definition items (s : lsrc) : list lexeme :=
  match src_pending s with
  | Some LxEof => []
  | Some l => l :: src_rest s
  | None => src_rest s
  end.

(** [lo] is a position before which everything was consumed. *)
Record sok (input : str) (lo : nat) (s : lsrc) : Prop := {
  so_eof : src_pending s = Some LxEof -> src_rest s = [];
  so_noeof : ~ In LxEof (src_rest s);
  so_ok : Forall (lexeme_ok input) (items s);
  so_ord : lex_ordered lo (items s) (blen input)
}.

Lemma src_size_items input lo s : sok input lo s -> src_size s = length (items s).
Proof.
  intros [H _ _ _]. unfold src_size, items. destruct (src_pending s) as [l|]; [|lia].
  destruct l; cbn [length]; try lia. rewrite H by reflexivity. reflexivity.
Qed.

Lemma lex_ordered_le ls p e : lex_ordered p ls e -> p <= e.
Proof.
  revert p. induction ls as [|l ls IH]; intros p H; cbn in H; [exact H|].
  destruct H as (H1 & H2 & H3). apply IH in H3. lia.
Qed.

Lemma lex_ordered_weaken ls p q e : lex_ordered p ls e -> q <= p -> lex_ordered q ls e.
Proof. destruct ls; cbn; [lia|]. intros (H1 & H2 & H3) H. splits; auto. lia. Qed.

Lemma sok_weaken input lo lo' s : sok input lo s -> lo' <= lo -> sok input lo' s.
Proof. intros [H1 H2 H3 H4] H. split; auto. now apply (lex_ordered_weaken _ lo). Qed.

Lemma sok_le input lo s : sok input lo s -> lo <= blen input.
Proof. intros [_ _ _ H]. now apply lex_ordered_le in H. Qed.

(** What a lexeme taken from the source looks like; [lo'] is the position after it. *)
Definition taken (input : str) (lo : nat) (l : lexeme) (lo' : nat) : Prop :=
  (l = LxEof /\ lo' = blen input /\ lo <= blen input) \/
  (l <> LxEof /\ lexeme_ok input l /\ lo <= sp_start (lx_span l) /\ sp_start (lx_span l) <= sp_end (lx_span l)
   /\ sp_end (lx_span l) = lo' /\ lo' <= blen input).

Lemma src_next_spec input lo s l s1 : sok input lo s -> src_next s = (l, s1) ->
  src_pending s1 = None /\
  exists lo', taken input lo l lo' /\ sok input lo' s1 /\
  ((l = LxEof /\ items s = [] /\ items s1 = []) \/ (l <> LxEof /\ items s = l :: items s1)).
Proof.
  intros Hs E. pose proof Hs as [H1 H2 H3 H4]. unfold src_next in E.
  assert (forall l r, items s = l :: r -> l <> LxEof -> ~ In LxEof r -> 
     exists lo', taken input lo l lo' /\ sok input lo' (mksrc r None) /\
       ((l = LxEof /\ items s = [] /\ r = []) \/ (l <> LxEof /\ items s = l :: r))) as Key.
  { intros l0 r E0 Hl Hr. rewrite E0 in H3, H4. cbn in H4. destruct H4 as (O1 & O2 & O3).
    inversion H3; subst. exists (sp_end (lx_span l0)). split; [right; splits; auto; now apply lex_ordered_le in O3|].
    split; [|now right]. split; cbn; auto; discriminate. }
  destruct (src_pending s) as [l0|] eqn:Ep.
  - injection E as <- <-. cbn [src_pending]. split; [reflexivity|].
    unfold items in *. rewrite Ep in *. destruct l0; try (apply Key; [reflexivity|discriminate|assumption]).
    rewrite H1 in * by reflexivity. exists (blen input). cbn in H4. split; [left; auto|].
    split; [|now left]. split; cbn; auto; discriminate.
  - unfold items in *. rewrite Ep in *. destruct (src_rest s) as [|l0 r] eqn:Er.
    + injection E as <- <-. rewrite Ep. split; [reflexivity|]. exists (blen input). cbn in H4.
      split; [left; auto|]. split; [|left; unfold items; rewrite ?Ep, ?Er; auto].
      split; try rewrite Ep; try rewrite Er; auto; try discriminate.
      * unfold items. now rewrite ?Ep, ?Er.
      * unfold items. rewrite ?Ep, ?Er. cbn. lia.
    + injection E as <- <-. cbn [src_pending]. split; [reflexivity|].
      assert (l0 <> LxEof) as Hl by (intros ->; apply H2; now left).
      apply Key; [reflexivity|exact Hl|]. intros Hin. apply H2. now right.
Qed.

(** Putting back what was just taken. *)
Lemma src_stash_spec input lo s l s1 : sok input lo s -> src_next s = (l, s1) ->
  exists s2, src_stash l s1 = Ok s2 /\ sok input lo s2 /\ items s2 = items s.
Proof.
  intros Hs E. destruct (src_next_spec _ _ _ _ _ Hs E) as (Hp & lo' & Ht & Hs1 & Hc).
  unfold src_stash. rewrite Hp. eexists. split; [reflexivity|].
  destruct Hs1 as [H1 H2 H3 H4]. destruct Hs as [G1 G2 G3 G4].
  assert (items (mksrc (src_rest s1) (Some l)) = items s) as Ei.
  { destruct Hc as [(-> & -> & _)|(Hl & ->)]; [reflexivity|]. unfold items. rewrite Hp. cbn [src_pending src_rest].
    destruct l; try reflexivity. congruence. }
  split; [|exact Ei]. split.
  - cbn. intros [= ->]. destruct Hc as [(_ & _ & E1)|[? _]]; [|congruence]. unfold items in E1. now rewrite Hp in E1.
  - exact H2.
  - rewrite Ei. exact G3.
  - rewrite Ei. exact G4.
Qed.

(** ** Well-formed atoms *)

(** An attribute object never stands at the place of the key it belongs to. *)
Definition apart (ksp : span) (v : atom) : Prop :=
  match v with AAttrs sp _ => sp <> ksp | _ => True end.

Definition All {A} (P : A -> Prop) : list A -> Prop :=
  fix go (l : list A) : Prop := match l with [] => True | x :: r => P x /\ go r end.

Lemma All_app {A} (P : A -> Prop) a b : All P (a ++ b) <-> All P a /\ All P b.
Proof. induction a as [|x a IH]; cbn; [tauto|]. rewrite IH. tauto. Qed.

Lemma All_Forall {A} (P : A -> Prop) l : All P l <-> Forall P l.
Proof. induction l as [|x l IH]; cbn; [split; auto|]. rewrite IH, Forall_cons_iff. tauto. Qed.

Definition ospan_in (n : nat) (o : option span) : Prop := match o with Some sp => span_in n sp | None => True end.
Definition odoc_in (n : nat) (o : option (span * list str)) : Prop :=
  match o with Some d => span_in n (fst d) | None => True end.

Definition entry_keys (es : list oentry) : list (keyval * span) :=
  map (fun x : oentry => (key_of_atom (fst (fst (fst x))), a_span (fst (fst (fst x))))) es.

Fixpoint atom_ok (input : str) (a : atom) : Prop :=
  span_in (blen input) (a_span a) /\
  match a with
  | AScalar sp v k => lexeme_ok input (LxScalar sp v k)
  | AUnit _ => True
  | ATag _ _ p _ esp => ospan_in (blen input) esp /\ match p with Some x => atom_ok input x | None => True end
  | AObject _ es ds dg _ =>
    All (fun x : oentry => match x with (k, v, doc, tm) =>
           atom_ok input k /\ atom_ok input v /\ odoc_in (blen input) doc /\ ospan_in (blen input) tm
           /\ apart (a_span k) v end) es
    /\ slice input (sp_start (a_span a)) (sp_start (a_span a) + 1) = Some [cLB] /\ sp_start (a_span a) < sp_end (a_span a)
    /\ dups_spec [] (entry_keys es) ds /\ Forall (span_in (blen input)) dg
  | ASeq _ es _ cs => All (atom_ok input) es /\ Forall (span_in (blen input)) cs
  | AAttrs _ es => All (fun x : str * span * atom => match x with (_, ksp, v) =>
                          span_in (blen input) ksp /\ atom_ok input v /\ apart ksp v end) es
    /\ sp_start (a_span a) < sp_end (a_span a)
    /\ slice input (sp_start (a_span a)) (sp_start (a_span a) + 1) <> Some [cLB]
  | AInvEsc sp raw => slice input (sp_start sp) (sp_end sp) = Some (cDQ :: raw ++ [cDQ]) /\ forall v, ~ decodes raw v
  | AError _ _ => True
  end.

Lemma atom_ok_span input a : atom_ok input a -> span_in (blen input) (a_span a).
Proof. destruct a; cbn [atom_ok]; tauto. Qed.

(** Events pushed while atoms are being read. *)
Definition plain_ev (n : nat) (e : event) : Prop :=
  span_in n (ev_span e) /\
  match ev_kind e with EvComment _ | EvDoc _ | EvError EMissingWs => True | _ => False end.

(** ** Tag chains *)

Lemma split_sub2_nonempty a b s : split_sub2 a b s <> [].
Proof.
  destruct s as [|c [|d r]]; cbn [split_sub2]; try discriminate.
  destruct (_ && _); [discriminate|]. destruct (match r with [] => _ | _ => _ end); discriminate.
Qed.

Lemma split_sub2_len n : forall s, length s <= n ->
  fold_right (fun x acc => blen x + 2 + acc) 0 (split_sub2 cSLASH cAT s) = blen s + 2.
Proof.
  induction n as [|n IH]; intros s Hl.
  { destruct s; [reflexivity|cbn in Hl; lia]. }
  destruct s as [|c s]; [reflexivity|]. destruct s as [|d r].
  { cbn. lia. }
  cbn [split_sub2]. destruct ((c =? cSLASH)%N && (d =? cAT)%N) eqn:E.
  - apply andb_prop in E as [E1 E2]. apply N.eqb_eq in E1 as ->. apply N.eqb_eq in E2 as ->.
    cbn [fold_right blen]. rewrite IH by (cbn in Hl; lia). reflexivity.
  - specialize (IH (d :: r) ltac:(cbn in Hl |- *; lia)).
    destruct (split_sub2 cSLASH cAT (d :: r)) as [|p ps] eqn:Es; [now apply split_sub2_nonempty in Es|].
    cbn [split_sub2] in Es. rewrite Es. cbn [fold_right blen] in *. lia.
Qed.

(** The segments of a chain stand one after the other between [lo] and [hi]. *)
Fixpoint chain_in (lo : nat) (segs : list (str * span)) (hi : nat) : Prop :=
  match segs with
  | [] => lo <= hi + 1
  | (_, sp) :: r => sp_start sp = lo /\ lo <= sp_end sp /\ sp_end sp <= hi /\ chain_in (sp_end sp + 1) r hi
  end.

Lemma chain_spans_in segs start : segs <> [] ->
  chain_in start (chain_spans start segs) (start + fold_right (fun x acc => blen x + 2 + acc) 0 segs - 1).
Proof.
  revert start. induction segs as [|s r IH]; intros start H; [congruence|].
  cbn [chain_spans chain_in fold_right sp_start sp_end]. splits; [lia|lia|lia|].
  destruct r as [|s2 r].
  - cbn. lia.
  - specialize (IH (start + 1 + blen s + 1) ltac:(discriminate)).
    cbn [fold_right] in IH |- *.
    replace (start + (blen s + 2 + (blen s2 + 2 + fold_right (fun x acc => blen x + 2 + acc) 0 r)) - 1)
      with (start + 1 + blen s + 1 + (blen s2 + 2 + fold_right (fun x acc => blen x + 2 + acc) 0 r) - 1) by lia.
    exact IH.
Qed.

Lemma split_chain_in name start : chain_in start (split_chain name start) (start + 1 + blen name) /\ split_chain name start <> [].
Proof.
  unfold split_chain. split.
  - pose proof (chain_spans_in (split_sub2 cSLASH cAT name) start (split_sub2_nonempty _ _ _)) as H.
    rewrite (split_sub2_len (length name) name (le_n _)) in H.
    replace (start + (blen name + 2) - 1) with (start + 1 + blen name) in H by lia. exact H.
  - destruct (split_sub2 cSLASH cAT name) eqn:E; [now apply split_sub2_nonempty in E|]. discriminate.
Qed.

Lemma build_chain_ok input segs lo mid hi payload : segs <> [] -> chain_in lo segs mid -> mid <= hi -> hi <= blen input ->
  match payload with
  | Some p => atom_ok input p /\ mid <= sp_start (a_span p) /\ sp_end (a_span p) <= hi
  | None => True
  end ->
  exists a, build_chain segs payload = Ok a /\ atom_ok input a /\ sp_start (a_span a) = lo /\ sp_end (a_span a) <= hi.
Proof.
  revert lo. induction segs as [|[name sp] r IH]; intros lo Hn Hc Hmid Hhi Hp; [congruence|].
  cbn [chain_in] in Hc. destruct Hc as (C1 & C2 & C3 & C4). cbn [build_chain].
  assert (forall p, match p with Some a => atom_ok input a /\ sp_end sp <= sp_start (a_span a) /\ sp_end (a_span a) <= hi
                            | None => True end ->
    exists a, (let e := match p with Some a => sp_end (a_span a) | None => sp_end sp end in
               let invalid := negb (is_valid_tag_name name) in
               Ok (ATag (mkspan (sp_start sp) e) name p invalid (if invalid then Some sp else None))) = Ok a /\
      atom_ok input a /\ sp_start (a_span a) = lo /\ sp_end (a_span a) <= hi) as Fin.
  { intros p Hp'. eexists. split; [reflexivity|].
    assert (ospan_in (blen input) (if negb (is_valid_tag_name name) then Some sp else None)).
    { destruct (negb _); cbn; [split; lia|exact I]. }
    destruct p as [p|].
    - destruct Hp' as (A1 & A2 & A3). pose proof (atom_ok_span _ _ A1) as [B1 B2].
      cbn [atom_ok a_span sp_start sp_end]. splits; auto; try lia. split; cbn; lia.
    - cbn [atom_ok a_span sp_start sp_end]. splits; auto; try lia. split; cbn; lia. }
  destruct r as [|s2 r].
  - cbn [bind]. apply (Fin payload). destruct payload as [p|]; [|exact I]. destruct Hp as (P1 & P2 & P3). splits; auto. lia.
  - destruct (IH (sp_end sp + 1) ltac:(discriminate) C4 Hmid Hhi Hp) as (a & Ea & A1 & A2 & A3).
    destruct s2. cbn [build_chain] in Ea. cbn [build_chain]. rewrite Ea. cbn [bind]. apply (Fin (Some a)). splits; auto. lia.
Qed.

(** ** Reading atoms *)

Lemma dups_snoc_none {K} (prev ks : list (K * span)) ds k s : dups_spec prev ks ds -> (forall o, ~ In (k, o) (prev ++ ks)) ->
  dups_spec prev (ks ++ [(k, s)]) ds.
Proof.
  revert prev ds. induction ks as [|[k' s'] r IH]; intros prev ds H Hn; cbn [dups_spec app] in *.
  - subst ds. right. split; [|reflexivity]. intros o Hin. apply (Hn o). rewrite app_nil_r. exact Hin.
  - assert (forall o, ~ In (k, o) ((prev ++ [(k', s')]) ++ r)) as Hn' by (intros o; rewrite <- app_assoc; apply Hn).
    destruct H as [(o & ds' & H1 & -> & H2)|[H1 H2]]; [left|right]; eauto 6.
Qed.

Lemma dups_snoc_dup {K} (prev ks : list (K * span)) ds k s o : dups_spec prev ks ds -> first_at (prev ++ ks) k o ->
  dups_spec prev (ks ++ [(k, s)]) (ds ++ [(o, s)]).
Proof.
  revert prev ds. induction ks as [|[k' s'] r IH]; intros prev ds H Hn; cbn [dups_spec app] in *.
  - subst ds. left. exists o, []. rewrite app_nil_r in Hn. auto.
  - assert (first_at ((prev ++ [(k', s')]) ++ r) k o) as Hn' by (rewrite <- app_assoc; apply Hn).
    destruct H as [(o' & ds' & H1 & -> & H2)|[H1 H2]]; [left|right].
    + exists o', (ds' ++ [(o, s)]). auto.
    + auto.
Qed.

Definition entry_ok (input : str) (x : oentry) : Prop :=
  match x with (k, v, doc, tm) =>
    atom_ok input k /\ atom_ok input v /\ odoc_in (blen input) doc /\ ospan_in (blen input) tm
    /\ apart (a_span k) v end.

Definition obj_inv (input : str) (entries : list oentry) (seen : seen_map) (dups : list (span * span)) : Prop :=
  All (entry_ok input) entries /\ seen_inv (entry_keys entries) seen /\ dups_spec [] (entry_keys entries) dups.

Lemma entry_keys_snoc es k v d t : entry_keys (es ++ [(k, v, d, t)]) = entry_keys es ++ [(key_of_atom k, a_span k)].
Proof. unfold entry_keys. rewrite map_app. reflexivity. Qed.

Lemma add_entry_inv input atoms doc entries seen dups e' s' d' :
  obj_inv input entries seen dups -> Forall (atom_ok input) atoms -> odoc_in (blen input) doc ->
  match atoms with key :: rest => Forall (apart (a_span key)) rest | [] => True end ->
  add_entry atoms doc entries seen dups = (e', s', d') -> obj_inv input e' s' d'.
Proof.
  intros (H1 & H2 & H3) Ha Hd Hap E. unfold add_entry in E. destruct atoms as [|key rest].
  { injection E as <- <- <-. unfold obj_inv. auto. }
  inversion Ha as [|? ? Hk Hr]; subst.
  set (vt := match rest with [] => _ | _ => _ end) in E.
  assert (apart (a_span key) (fst vt)) as Hapv.
  { subst vt. destruct rest as [|v [|x y]]; cbn [fst]; [exact I|now inversion Hap|now inversion Hap]. }
  assert (atom_ok input (fst vt) /\ ospan_in (blen input) (snd vt)) as [Hv Ht].
  { subst vt. destruct rest as [|v [|x y]]; cbn [fst snd].
    - split; [|exact I]. split; [exact (atom_ok_span _ _ Hk)|exact I].
    - inversion Hr; subst. split; [assumption|exact I].
    - inversion Hr as [|? ? Hv Hr']; subst. inversion Hr'; subst. split; [assumption|]. cbn. now apply atom_ok_span. }
  destruct vt as [value tm]. cbn [fst snd] in *.
  assert (All (entry_ok input) (entries ++ [(key, value, doc, tm)])) as HA.
  { apply All_app. split; [assumption|]. cbn. splits; auto. }
  pose proof (H2 (key_of_atom key)) as Hs.
  destruct (seen_get (key_of_atom key) seen) as [o|] eqn:Es; injection E as <- <- <-; unfold obj_inv;
    rewrite entry_keys_snoc.
  - splits; auto; [now apply (seen_inv_dup _ _ _ _ o)|]. now apply dups_snoc_dup.
  - splits; auto; [now apply seen_inv_new|]. now apply dups_snoc_none.
Qed.

Definition pend_ok (input : str) (lo : nat) (pend : list (span * str)) : Prop :=
  Forall (fun x => span_in (blen input) (fst x) /\ sp_end (fst x) <= lo /\
                   sp_start (fst_span pend (fst x)) <= sp_end (fst x)) pend.

Lemma pend_ok_nil input lo : pend_ok input lo [].
Proof. constructor. Qed.

Lemma pend_ok_weaken input lo lo' pend : pend_ok input lo pend -> lo <= lo' -> pend_ok input lo' pend.
Proof. intros H Hle. eapply Forall_impl; [|exact H]. cbn. intros x (H1 & H2 & H3). splits; auto. lia. Qed.

Lemma pend_ok_snoc input lo pend sp t : pend_ok input lo pend -> span_in (blen input) sp -> lo <= sp_start sp ->
  pend_ok input (sp_end sp) (pend ++ [(sp, t)]).
Proof.
  intros H Hs Hlo. destruct Hs as [Hs1 Hs2]. unfold pend_ok. destruct pend as [|[s0 t0] r].
  - cbn. constructor; [|constructor]. cbn. splits; auto; try lia. split; auto.
  - cbn [app fst_span] in *. unfold pend_ok in H. cbn [fst_span fst] in H. inversion H as [|? ? H0 Hr]; subst. cbn in H0.
    destruct H0 as ([A1 A2] & A3 & A4).
    constructor; [cbn; splits; auto; try lia; split; auto|].
    apply Forall_app. split.
    + eapply Forall_impl; [|exact Hr]. cbn. intros x ([B1 B2] & B3 & B4). splits; auto; try lia. split; auto.
    + constructor; [|constructor]. cbn. splits; try lia. split; auto.
Qed.

Lemma pend_ok_spans input lo pend : pend_ok input lo pend -> Forall (span_in (blen input)) (map fst pend).
Proof. unfold pend_ok. rewrite !Forall_forall. intros H x Hx. apply in_map_iff in Hx as (y & <- & Hy). now apply H. Qed.

Lemma take_docs_ok input lo pend : pend_ok input lo pend -> odoc_in (blen input) (take_docs pend).
Proof.
  intros H. unfold take_docs. destruct pend as [|[s1 t1] r]; [exact I|].
  destruct (rev ((s1, t1) :: r)) as [|[s2 t2] q] eqn:E; [exact I|]. cbn.
  assert (In (s2, t2) ((s1, t1) :: r)) as Hin.
  { apply in_rev. rewrite E. now left. }
  unfold pend_ok in H. rewrite Forall_forall in H. apply H in Hin. cbn in Hin. destruct Hin as ([A1 A2] & A3 & A4).
  split; cbn; lia.
Qed.

Lemma taken_le input lo l lo' : taken input lo l lo' -> lo <= lo'.
Proof. intros [(-> & -> & H)|(H & H1 & H2 & H3 & H4 & H5)]; lia. Qed.

Lemma taken_some input lo l lo' : taken input lo l lo' -> l <> LxEof ->
  lexeme_ok input l /\ lo <= sp_start (lx_span l) /\ span_in (blen input) (lx_span l) /\ sp_end (lx_span l) = lo'.
Proof. intros [(-> & _)|(H & H1 & H2 & H3 & H4 & H5)] Hl; [congruence|]. splits; auto. split; lia. Qed.

Lemma taken_weaken input lo lo0 l lo' : taken input lo l lo' -> lo0 <= lo -> taken input lo0 l lo'.
Proof. intros [(-> & -> & H)|(H & H1 & H2 & H3 & H4 & H5)] Hle; [left|right]; splits; auto; lia. Qed.

Section Reading.
Variable input : str.

Definition atom_res (lo : nat) (s : lsrc) (r : res (atom * list event * lsrc)) : Prop :=
  exists a ev s' hi, r = Ok (a, ev, s') /\ atom_ok input a /\ lo <= sp_start (a_span a) /\ sp_end (a_span a) <= hi /\
    sok input hi s' /\ length (items s') <= length (items s) /\ Forall (plain_ev (blen input)) ev.

Definition PA (f : nat) : Prop := forall l s lo lo', taken input lo l lo' -> sok input lo' s ->
  (2 * length (items s) + 2 <= f \/ (l = LxEof /\ 1 <= f)) -> atom_res lo s (parse_atom input f l s).

Definition CL (f : nat) : Prop := forall fe fb acc s lo, sok input lo s -> 2 * length (items s) + 1 <= f ->
  exists more ev s' hi, collect_loop input f fe fb acc s = Ok (acc ++ more, ev, s') /\ Forall (atom_ok input) more /\
    Forall (fun b => lo <= sp_start (a_span b)) more /\ lo <= hi /\ sok input hi s' /\ length (items s') <= length (items s) /\ Forall (plain_ev (blen input)) ev.

Definition OL (f : nat) : Prop := forall start entries seen dups pend s lo,
  sok input lo s -> slice input (sp_start start) (sp_end start) = Some [cLB] -> sp_end start <= lo -> obj_inv input entries seen dups ->
  pend_ok input lo pend -> 2 * length (items s) + 1 <= f ->
  atom_res (sp_start start) s (obj_loop input f start entries seen dups pend s).

Definition SL (f : nat) : Prop := forall start elems commas s lo,
  sok input lo s -> sp_start start <= sp_end start -> sp_end start <= lo -> Forall (atom_ok input) elems ->
  Forall (span_in (blen input)) commas -> 2 * length (items s) + 1 <= f ->
  atom_res (sp_start start) s (seq_loop input f start elems commas s).

Definition AL (f : nat) : Prop := forall first attrs s lo,
  sok input lo s -> span_in (blen input) first -> sp_end first <= lo ->
  All (fun x : str * span * atom => match x with (_, ksp, v) => span_in (blen input) ksp /\ atom_ok input v /\ apart ksp v end) attrs ->
  Forall (fun x : str * span * atom => sp_end first <= sp_start (a_span (snd x)) /\ sp_end (a_span (snd x)) <= lo) attrs ->
  sp_start first < sp_end first -> slice input (sp_start first) (sp_start first + 1) <> Some [cLB] ->
  2 * length (items s) + 1 <= f ->
  atom_res (sp_start first) s (attr_loop input f first attrs s).

Lemma plain_intro sp k : span_in (blen input) sp ->
  match k with EvComment _ | EvDoc _ | EvError EMissingWs => True | _ => False end -> plain_ev (blen input) (mkev sp k).
Proof. intros H1 H2. split; assumption. Qed.

Lemma atom_res_leaf lo hi s a : atom_ok input a -> lo <= sp_start (a_span a) -> sp_end (a_span a) <= hi ->
  sok input hi s -> atom_res lo s (Ok (a, [], s)).
Proof. intros H1 H2 H3 H4. exists a, [], s, hi. splits; auto. Qed.

(** A stashed lexeme: nothing consumed. *)
Lemma stash_res lo lo' s l s1 (k : lsrc -> res (atom * list event * lsrc)) :
  sok input lo' s -> src_next s = (l, s1) ->
  (forall s2, sok input lo' s2 -> items s2 = items s -> atom_res lo s (k s2)) ->
  atom_res lo s (do s2 <- src_stash l s1; k s2).
Proof. intros H E Hk. destruct (src_stash_spec _ _ _ _ _ H E) as (s2 & -> & H2 & Hi). cbn [bind]. now apply Hk. Qed.

Lemma apart_after ksp v : atom_ok input v -> sp_end ksp <= sp_start (a_span v) -> sp_start ksp <= sp_end ksp -> apart ksp v.
Proof. destruct v; cbn; auto. intros (_ & _ & H & _) H1 H2 ->. lia. Qed.

Lemma apart_all ksp l lo : Forall (atom_ok input) l -> Forall (fun b => lo <= sp_start (a_span b)) l ->
  sp_start ksp <= sp_end ksp -> sp_end ksp <= lo -> Forall (apart ksp) l.
Proof.
  rewrite !Forall_forall. intros H1 H2 H3 H4 x Hx. apply apart_after; auto. apply H2 in Hx. cbn in Hx. lia.
Qed.

Lemma key_span_pos ksp key : slice input (sp_start ksp) (sp_end ksp) = Some key -> key <> [] -> sp_start ksp < sp_end ksp.
Proof.
  intros H Hn. apply slice_some in H as (a & b & _ & H1 & H2). destruct key as [|c k]; [congruence|].
  cbn [blen] in H2. pose proof (clen_pos c). lia.
Qed.

(** A bare text does not start with a brace. *)
Lemma key_not_brace ksp key : slice input (sp_start ksp) (sp_end ksp) = Some key -> key <> [] ->
  forallb is_bare_char key = true -> slice input (sp_start ksp) (sp_start ksp + 1) <> Some [cLB].
Proof.
  intros H Hn Hb E. apply slice_some in H as (a & b & E1 & H1 & H2).
  apply slice_some in E as (a' & b' & E2 & H3 & _). rewrite E1 in E2.
  destruct key as [|c k]; [congruence|]. cbn in Hb. apply andb_prop in Hb as [Hb _].
  assert (a = a' /\ c = cLB) as [_ ->]; [|discriminate Hb].
  clear - E2 H1 H3. assert (blen a = blen a') as H by congruence. clear H1 H3. revert a' E2 H.
  induction a as [|x a IH]; intros a' E H.
  - destruct a' as [|y a']; [cbn in E; injection E as -> _; auto|]. cbn in H. pose proof (clen_pos y). lia.
  - destruct a' as [|y a']; [cbn in H; pose proof (clen_pos x); lia|]. cbn in E. injection E as -> E.
    destruct (IH a' E) as [-> ->]; [cbn in H; lia|auto].
Qed.

Lemma PA_step f : PA f -> OL f -> SL f -> AL f -> PA (S f).
Proof.
  intros HPA HOL HSL HAL l s lo lo' Ht Hs Hf. pose proof (taken_le _ _ _ _ Ht) as Hle. pose proof (sok_le _ _ _ Hs) as Hmax.
  destruct l; cbn [parse_atom]; fold (obj_loop input) (seq_loop input) (attr_loop input).
  - (* scalar *)
    destruct (taken_some _ _ _ _ Ht ltac:(discriminate)) as (Hok & H1 & H2 & H3). cbn [lx_span] in *.
    apply (atom_res_leaf _ lo'); cbn [a_span]; auto; [|lia]. cbn [atom_ok a_span]. auto.
  - (* unit *)
    destruct (taken_some _ _ _ _ Ht ltac:(discriminate)) as (Hok & H1 & H2 & H3). cbn [lx_span] in *.
    destruct (src_next s) as [nx s1] eqn:En.
    assert (atom_res lo s (do s2 <- src_stash nx s1; Ok (AUnit sp, [], s2))) as Hst.
    { apply (stash_res _ lo'); auto. intros s2 Hs2 Hi. exists (AUnit sp), [], s2, lo'. cbn [a_span].
      splits; auto; try lia. cbn. auto. rewrite Hi; auto. }
    destruct nx; try exact Hst. destruct k; try exact Hst.
    destruct (sp_start sp0 =? sp_end sp) eqn:Eq; [|exact Hst].
    destruct (src_next_spec _ _ _ _ _ Hs En) as (Hp & lo1 & Ht1 & Hs1 & Hc).
    destruct (taken_some _ _ _ _ Ht1 ltac:(discriminate)) as (Hok1 & G1 & G2 & G3). cbn [lx_span] in *.
    destruct H2, G2. eexists _, _, s1, lo1. split; [reflexivity|]. cbn [a_span sp_start sp_end atom_ok].
    splits; auto; try lia; try (split; cbn; lia).
    destruct Hc as [(? & _)|(_ & ->)]; [discriminate|]. cbn. lia.
  - (* tag *)
    destruct (taken_some _ _ _ _ Ht ltac:(discriminate)) as (Hok & H1 & H2 & H3). cbn [lx_span] in *.
    destruct (split_chain_in name (sp_start sp)) as [Hch Hne].
    assert (sp_start sp + 1 + blen name = sp_end sp) as Hlen.
    { destruct Hok as (t & Htx & -> & _). unfold lexeme_text in Htx. cbn [lx_span] in Htx.
      apply slice_some in Htx as (x & y & _ & _ & E). cbn in E. lia. }
    rewrite Hlen in Hch. destruct H2 as [H2a H2b].
    destruct (src_next s) as [nx s1] eqn:En.
    destruct (src_next_spec _ _ _ _ _ Hs En) as (Hp & lo1 & Ht1 & Hs1 & Hc).
    assert (length (items s1) <= length (items s)) as Hlen1.
    { destruct Hc as [(_ & Ea & Eb)|(_ & Ea)]; [rewrite Ea, Eb|rewrite Ea]; cbn; lia. }
    assert (atom_res lo s (do s2 <- src_stash nx s1;
              do a <- build_chain (split_chain name (sp_start sp)) None; Ok (a, [], s2))) as Hst.
    { apply (stash_res _ lo'); auto. intros s2 Hs2 Hi.
      destruct (build_chain_ok input _ _ _ (sp_end sp) None Hne Hch ltac:(lia) ltac:(lia) I) as (a & -> & A1 & A2 & A3).
      cbn [bind]. exists a, [], s2, lo'. splits; auto; try lia. rewrite Hi; auto. }
    assert (atom_res lo s (do (p, ev, s2) <- parse_atom input f nx s1;
              do a <- build_chain (split_chain name (sp_start sp)) (Some p); Ok (a, ev, s2))) as Hpay.
    { destruct (HPA nx s1 lo' lo1 Ht1 Hs1) as (p & ev & s2 & hi & -> & P1 & P2 & P3 & P4 & P5 & P6).
      { destruct Hf as [Hf|[? _]]; [|discriminate].
        destruct Hc as [(-> & Hi & _)|(_ & Hi)]; [right; split; [reflexivity|cbn in Hf; lia]|].
        left. rewrite Hi in Hf. cbn [length] in Hf. lia. }
      cbn [bind]. pose proof (atom_ok_span _ _ P1) as [Q1 Q2].
      destruct (build_chain_ok input _ _ _ hi (Some p) Hne Hch) as (a & -> & A1 & A2 & A3).
      { lia. } { apply (sok_le _ _ _ P4). } { splits; auto. lia. }
      cbn [bind]. exists a, ev, s2, hi. splits; auto; try lia. }
    destruct (negb has_payload && negb (1 <? length (split_chain name (sp_start sp)))).
    + destruct nx; try exact Hst. destruct k; try exact Hst.
      destruct (_ && starts_with_char _ _) eqn:Ed; [|exact Hst].
      apply andb_prop in Ed as [Ed _]. apply Nat.eqb_eq in Ed.
      destruct (taken_some _ _ _ _ Ht1 ltac:(discriminate)) as (Hok1 & G1 & G2 & G3). cbn [lx_span] in *. destruct G2.
      eexists _, _, s1, lo1. split; [reflexivity|]. cbn [a_span sp_start sp_end atom_ok ospan_in].
      splits; auto; try lia; split; cbn; lia.
    + destruct (1 <? _); [|exact Hpay]. destruct (_ && can_be_payload nx); [exact Hpay|exact Hst].
  - (* object *)
    destruct (taken_some _ _ _ _ Ht ltac:(discriminate)) as (Hok & H1 & H2 & H3). cbn [lx_span] in *. destruct H2.
    destruct (HOL sp [] [] [] [] s lo' Hs) as (a & ev & s' & hi & E & A1 & A2 & A3 & A4 & A5 & A6).
    { destruct Hok as (t & Ht' & ->). exact Ht'. } { lia. } { unfold obj_inv. cbn. splits; auto. apply seen_inv_nil. } { apply pend_ok_nil. }
    { destruct Hf as [Hf|[? _]]; [lia|discriminate]. }
    exists a, ev, s', hi. splits; auto. lia.
  - (* object end *)
    destruct (taken_some _ _ _ _ Ht ltac:(discriminate)) as (Hok & H1 & H2 & H3). cbn [lx_span] in *.
    apply (atom_res_leaf _ lo'); cbn [a_span]; auto; [cbn; auto|lia].
  - (* sequence *)
    destruct (taken_some _ _ _ _ Ht ltac:(discriminate)) as (Hok & H1 & H2 & H3). cbn [lx_span] in *. destruct H2.
    destruct (HSL sp [] [] s lo' Hs) as (a & ev & s' & hi & E & A1 & A2 & A3 & A4 & A5 & A6); auto; try lia.
    { destruct Hf as [Hf|[? _]]; [lia|discriminate]. }
    exists a, ev, s', hi. splits; auto. lia.
  - destruct (taken_some _ _ _ _ Ht ltac:(discriminate)) as (Hok & H1 & H2 & H3). cbn [lx_span] in *.
    apply (atom_res_leaf _ lo'); cbn [a_span]; auto; [cbn; auto|lia].
  - (* attribute *)
    destruct (taken_some _ _ _ _ Ht ltac:(discriminate)) as (Hok & H1 & H2 & H3). cbn [lx_span] in *. destruct H2 as [H2a H2b].
    destruct Hok as (t & Htx & Et & Hkn & Hkb & Hksl & Hks & Hke).
    assert (span_in (blen input) ksp) as Hksp.
    { apply slice_some in Hksl as (x & y & _ & _ & E). split; lia. }
    destruct (src_next s) as [nx s1] eqn:En.
    destruct (src_next_spec _ _ _ _ _ Hs En) as (Hp & lo1 & Ht1 & Hs1 & Hc).
    destruct (HPA nx s1 lo' lo1 Ht1 Hs1) as (p & ev & s2 & hi & -> & P1 & P2 & P3 & P4 & P5 & P6).
    { destruct Hf as [Hf|[? _]]; [|discriminate].
      destruct Hc as [(-> & Hi & _)|(_ & Hi)]; [right; split; [reflexivity|cbn in Hf; lia]|].
      left. rewrite Hi in Hf. cbn [length] in Hf. lia. }
    cbn [bind]. pose proof (atom_ok_span _ _ P1) as [Q1 Q2].
    assert (length (items s2) <= length (items s)) as Hlen2.
    { destruct Hc as [(_ & -> & E)|(_ & ->)]; [rewrite E in P5|]; cbn in *; lia. }
    destruct (HAL ksp [(key, ksp, p)] s2 hi P4 Hksp) as (a & ev2 & s3 & hi2 & -> & A1 & A2 & A3 & A4 & A5 & A6).
    { lia. } { cbn. splits; auto. apply apart_after; auto; destruct Hksp; lia. }
    { constructor; [|constructor]. cbn. destruct Hksp. lia. }
    { apply (key_span_pos _ _ Hksl Hkn). } { now apply (key_not_brace ksp key). }
    { destruct Hf as [Hf|[? _]]; [lia|discriminate]. }
    cbn [bind]. exists a, (ev ++ ev2), s3, hi2. splits; auto; try lia. apply Forall_app. auto.
  - destruct (taken_some _ _ _ _ Ht ltac:(discriminate)) as (Hok & H1 & H2 & H3). cbn [lx_span] in *.
    apply (atom_res_leaf _ lo'); cbn [a_span]; auto; [cbn; auto|lia].
  - destruct (taken_some _ _ _ _ Ht ltac:(discriminate)) as (Hok & H1 & H2 & H3). cbn [lx_span] in *.
    apply (atom_res_leaf _ lo'); cbn [a_span]; auto; [cbn; auto|lia].
  - destruct (taken_some _ _ _ _ Ht ltac:(discriminate)) as (Hok & H1 & H2 & H3). cbn [lx_span] in *.
    apply (atom_res_leaf _ lo'); cbn [a_span]; auto; [cbn; auto|lia].
  - destruct (taken_some _ _ _ _ Ht ltac:(discriminate)) as (Hok & H1 & H2 & H3). cbn [lx_span] in *.
    apply (atom_res_leaf _ lo'); cbn [a_span]; auto; [cbn; auto|lia].
  - (* end of input *)
    destruct Ht as [(_ & -> & Hlo)|(Hx & _)]; [|congruence].
    apply (atom_res_leaf _ (blen input)); cbn [a_span sp_start sp_end atom_ok]; auto; try lia. split; [|exact I]. split; cbn; lia.
  - (* error *)
    destruct (taken_some _ _ _ _ Ht ltac:(discriminate)) as (Hok & H1 & H2 & H3). cbn [lx_span] in *.
    destruct (msg_has_escape m) eqn:Em.
    + assert (exists a, slice input (sp_start sp) (sp_end sp) = Some (cDQ :: a ++ [cDQ]) /\ forall v, ~ decodes a v) as (a & Hsl & Hnd).
      { destruct Hok as (t & Htx & Hx). unfold lexeme_text in Htx. cbn [lx_span] in Htx.
        destruct m; try discriminate; destruct Hx as (a & -> & Hd); eauto. }
      rewrite Hsl. cbn [of_opt bind].
      assert (starts_with_char cDQ (cDQ :: a ++ [cDQ]) && ends_with_char cDQ (cDQ :: a ++ [cDQ]) = true) as ->.
      { unfold starts_with_char, ends_with_char. rewrite N.eqb_refl. cbn [andb].
        change (cDQ :: a ++ [cDQ]) with ((cDQ :: a) ++ [cDQ]). rewrite rev_app_distr. reflexivity. }
      rewrite quoted_inner. cbn [of_opt bind].
      apply (atom_res_leaf _ lo'); cbn [a_span]; auto; [cbn; auto|lia].
    + apply (atom_res_leaf _ lo'); cbn [a_span]; auto; [cbn; auto|lia].
Qed.

Lemma atom_hi lo a hi : atom_ok input a -> lo <= sp_start (a_span a) -> sp_end (a_span a) <= hi -> lo <= hi.
Proof. intros H. apply atom_ok_span in H as [H _]. lia. Qed.

Lemma next_len lo s l s1 : sok input lo s -> src_next s = (l, s1) -> l <> LxEof -> length (items s) = S (length (items s1)).
Proof. intros H E Hl. destruct (src_next_spec _ _ _ _ _ H E) as (_ & _ & _ & _ & [(? & _)|(_ & ->)]); [congruence|reflexivity]. Qed.

Lemma CL_step f : PA f -> CL f -> CL (S f).
Proof.
  intros HPA HCL fe fb acc s lo Hs Hf. cbn [collect_loop]. fold (parse_atom input).
  destruct (src_next s) as [l s1] eqn:En.
  destruct (src_next_spec _ _ _ _ _ Hs En) as (Hp & lo1 & Ht & Hs1 & Hc).
  pose proof (taken_le _ _ _ _ Ht) as Hle.
  assert (exists more ev s' hi, (do s2 <- src_stash l s1; Ok (acc, [], s2)) = Ok (acc ++ more, ev, s') /\
    Forall (atom_ok input) more /\ Forall (fun b => lo <= sp_start (a_span b)) more /\
    lo <= hi /\ sok input hi s' /\ length (items s') <= length (items s) /\
    Forall (plain_ev (blen input)) ev) as Hst.
  { destruct (src_stash_spec _ _ _ _ _ Hs En) as (s2 & -> & H2 & Hi). cbn [bind].
    exists [], [], s2, lo. rewrite app_nil_r, Hi. splits; auto. }
  assert (l <> LxEof -> forall ev0, Forall (plain_ev (blen input)) ev0 ->
    exists more ev s' hi, (do (a, ev, s2) <- parse_atom input f l s1;
      do (r, ev2, s3) <- collect_loop input f fe fb (acc ++ [a]) s2; Ok (r, ev0 ++ ev ++ ev2, s3)) = Ok (acc ++ more, ev, s') /\
    Forall (atom_ok input) more /\ Forall (fun b => lo <= sp_start (a_span b)) more /\
    lo <= hi /\ sok input hi s' /\ length (items s') <= length (items s) /\
    Forall (plain_ev (blen input)) ev) as Hgo.
  { intros Hl ev0 Hev0. pose proof (next_len _ _ _ _ Hs En Hl) as Hn.
    destruct (HPA l s1 lo lo1 Ht Hs1) as (a & ev & s2 & hi & -> & A1 & A2 & A3 & A4 & A5 & A6); [left; lia|].
    cbn [bind]. destruct (HCL fe fb (acc ++ [a]) s2 hi A4) as (more & ev2 & s3 & hi2 & -> & B1 & B0 & B2 & B3 & B4 & B5); [lia|].
    cbn [bind]. pose proof (atom_hi _ _ _ A1 A2 A3).
    exists (a :: more), (ev0 ++ ev ++ ev2), s3, hi2. rewrite <- app_assoc. splits; auto; try lia.
    { constructor; [exact A2|]. eapply Forall_impl; [|exact B0]. cbn. intros x. lia. }
    rewrite !Forall_app. auto. }
  assert (l <> LxEof -> forall sp t k, lx_span l = sp -> k = EvComment t \/ k = EvDoc [t] ->
    exists more ev s' hi, Ok (acc, [mkev sp k], s1) = Ok (acc ++ more, ev, s') /\
    Forall (atom_ok input) more /\ Forall (fun b => lo <= sp_start (a_span b)) more /\
    lo <= hi /\ sok input hi s' /\ length (items s') <= length (items s) /\
    Forall (plain_ev (blen input)) ev) as Hcm.
  { intros Hl sp t k Esp Hk. pose proof (next_len _ _ _ _ Hs En Hl) as Hn.
    destruct (taken_some _ _ _ _ Ht Hl) as (_ & H1 & H2 & H3).
    exists [], [mkev sp k], s1, lo1. rewrite app_nil_r. splits; auto; try lia.
    constructor; [|constructor]. subst sp. split; [exact H2|]. destruct Hk as [-> | ->]; exact I. }
  assert (forall sp, span_in (blen input) sp -> Forall (plain_ev (blen input))
      (if (length acc =? 1) && fb && (fe =? sp_start sp) then [mkev sp (EvError EMissingWs)] else [])) as Hms.
  { intros sp Hsp. destruct (_ && _); [|constructor]. constructor; [split; [exact Hsp|exact I]|constructor]. }
  destruct l; try exact Hst; try (apply (Hgo ltac:(discriminate) []); constructor).
  - apply Hgo; [discriminate|]. apply Hms. now apply (taken_some _ _ _ _ Ht).
  - apply Hgo; [discriminate|]. apply Hms. now apply (taken_some _ _ _ _ Ht).
  - eapply Hcm; [discriminate|reflexivity|left; reflexivity].
  - eapply Hcm; [discriminate|reflexivity|right; reflexivity].
Qed.

Lemma atom_res_cont lo s1 s r : atom_res lo s1 r -> length (items s1) <= length (items s) -> atom_res lo s r.
Proof. intros (a & ev & s' & hi & E & A1 & A2 & A3 & A4 & A5 & A6) H. exists a, ev, s', hi. splits; auto. lia. Qed.

Lemma OL_step f : PA f -> CL f -> OL f -> OL (S f).
Proof.
  intros HPA HCL HOL start entries seen dups pend s lo Hs Hst1 Hst2 Hinv Hpe Hf. cbn [obj_loop].
  fold (parse_atom input) (collect_loop input).
  destruct (src_next s) as [l s1] eqn:En.
  destruct (src_next_spec _ _ _ _ _ Hs En) as (Hp & lo1 & Ht & Hs1 & Hc).
  pose proof (taken_le _ _ _ _ Ht) as Hle. pose proof (sok_le _ _ _ Hs1) as Hmax.
  assert (l <> LxEof -> length (items s) = S (length (items s1))) as Hn by (apply (next_len _ _ _ _ Hs En)).
  assert (sp_end start = sp_start start + 1) as Hlen1.
  { apply slice_some in Hst1 as (? & ? & _ & _ & E). cbn in E. lia. }
  assert (forall e u, sp_end start <= e -> e <= lo1 -> length (items s1) <= length (items s) ->
    atom_res (sp_start start) s (Ok (AObject (mkspan (sp_start start) e) entries dups (map fst pend) u, [], s1))) as Hfin.
  { intros e u H1 H2 Hi. destruct Hinv as (I1 & I2 & I3). eexists _, _, s1, lo1. split; [reflexivity|].
    cbn [atom_ok a_span sp_start sp_end]. rewrite <- Hlen1. splits; auto; try (split; cbn; lia); try lia.
    now apply (pend_ok_spans _ lo). }
  assert (l <> LxEof -> forall pend', pend_ok input lo1 pend' ->
    atom_res (sp_start start) s (obj_loop input f start entries seen dups pend' s1)) as Hskip.
  { intros Hl pend' Hpe'. specialize (Hn Hl). apply (atom_res_cont _ s1); [|lia]. apply (HOL _ _ _ _ _ _ lo1); auto; lia. }
  assert (l <> LxEof -> atom_res (sp_start start) s
     (let doc := take_docs pend in
      do (a, ev, s2) <- parse_atom input f l s1;
      do (atoms, ev2, s3) <-
        collect_loop input f (sp_end (a_span a)) (match a with AScalar _ _ Bare => true | _ => false end) [a] s2;
      let '(entries', seen', dups') := add_entry atoms doc entries seen dups in
      do (r, ev3, s4) <- obj_loop input f start entries' seen' dups' [] s3;
      Ok (r, ev ++ ev2 ++ ev3, s4))) as Hgo.
  { intros Hl. specialize (Hn Hl). cbn zeta.
    destruct (HPA l s1 lo lo1 Ht Hs1) as (a & ev & s2 & hi & -> & A1 & A2 & A3 & A4 & A5 & A6); [left; lia|].
    cbn [bind]. destruct (HCL (sp_end (a_span a)) (match a with AScalar _ _ Bare => true | _ => false end) [a] s2 hi A4)
      as (more & ev2 & s3 & hi2 & -> & B1 & B0 & B2 & B3 & B4 & B5); [lia|].
    cbn [bind]. pose proof (atom_hi _ _ _ A1 A2 A3).
    destruct (add_entry ([a] ++ more) (take_docs pend) entries seen dups) as [[e' m'] d'] eqn:Ea.
    apply add_entry_inv with (input := input) in Ea; auto.
    2: { constructor; auto. } 2: { now apply (take_docs_ok _ lo). }
    2: { cbn [app]. apply (apart_all _ _ hi); auto. apply (atom_ok_span _ _ A1). }
    destruct (HOL start e' m' d' [] s3 hi2) as (r & ev3 & s4 & hi3 & -> & C1 & C2 & C3 & C4 & C5 & C6); auto; try lia.
    { apply pend_ok_nil. }
    cbn [bind]. exists r, (ev ++ ev2 ++ ev3), s4, hi3. splits; auto; try lia. rewrite !Forall_app. auto. }
  assert (pend_ok input lo1 pend) as Hpe1 by (now apply (pend_ok_weaken _ lo)).
  destruct l; try (apply Hgo; discriminate); try (apply Hskip; [discriminate|exact Hpe1]).
  - destruct (taken_some _ _ _ _ Ht ltac:(discriminate)) as (_ & H1 & [H2 H2'] & H3). cbn [lx_span] in *.
    apply Hfin; try lia. rewrite Hn by discriminate. lia.
  - destruct (taken_some _ _ _ _ Ht ltac:(discriminate)) as (_ & H1 & H2 & H3). cbn [lx_span] in *.
    apply Hskip; [discriminate|]. rewrite <- H3. now apply (pend_ok_snoc _ lo).
  - apply Hfin; try lia. destruct Hc as [(_ & -> & ->)|[? _]]; [lia|congruence].
Qed.

Lemma SL_step f : PA f -> SL f -> SL (S f).
Proof.
  intros HPA HSL start elems commas s lo Hs Hst1 Hst2 Hel Hco Hf. cbn [seq_loop].
  fold (parse_atom input).
  destruct (src_next s) as [l s1] eqn:En.
  destruct (src_next_spec _ _ _ _ _ Hs En) as (Hp & lo1 & Ht & Hs1 & Hc).
  pose proof (taken_le _ _ _ _ Ht) as Hle. pose proof (sok_le _ _ _ Hs1) as Hmax.
  assert (l <> LxEof -> length (items s) = S (length (items s1))) as Hn by (apply (next_len _ _ _ _ Hs En)).
  assert (forall e u, sp_start start <= e -> e <= lo1 -> length (items s1) <= length (items s) ->
    atom_res (sp_start start) s (Ok (ASeq (mkspan (sp_start start) e) elems u commas, [], s1))) as Hfin.
  { intros e u H1 H2 Hi. eexists _, _, s1, lo1. split; [reflexivity|].
    cbn [atom_ok a_span sp_start sp_end]. splits; auto; try (split; cbn; lia). now apply All_Forall. }
  assert (l <> LxEof -> forall commas', Forall (span_in (blen input)) commas' ->
    atom_res (sp_start start) s (seq_loop input f start elems commas' s1)) as Hskip.
  { intros Hl c' Hc'. specialize (Hn Hl). apply (atom_res_cont _ s1); [|lia]. apply (HSL _ _ _ _ lo1); auto; lia. }
  assert (l <> LxEof -> atom_res (sp_start start) s
     (do (a, ev, s2) <- parse_atom input f l s1;
      do (r, ev2, s3) <- seq_loop input f start (elems ++ [a]) commas s2;
      Ok (r, ev ++ ev2, s3))) as Hgo.
  { intros Hl. specialize (Hn Hl).
    destruct (HPA l s1 lo lo1 Ht Hs1) as (a & ev & s2 & hi & -> & A1 & A2 & A3 & A4 & A5 & A6); [left; lia|].
    cbn [bind]. pose proof (atom_hi _ _ _ A1 A2 A3).
    destruct (HSL start (elems ++ [a]) commas s2 hi) as (r & ev3 & s4 & hi3 & -> & C1 & C2 & C3 & C4 & C5 & C6); auto; try lia.
    { apply Forall_app. auto. }
    cbn [bind]. exists r, (ev ++ ev3), s4, hi3. splits; auto; try lia. rewrite !Forall_app. auto. }
  destruct l; try (apply Hgo; discriminate); try (apply Hskip; [discriminate|exact Hco]).
  - destruct (taken_some _ _ _ _ Ht ltac:(discriminate)) as (_ & H1 & [H2 H2'] & H3). cbn [lx_span] in *.
    apply Hfin; try lia. rewrite Hn by discriminate. lia.
  - destruct (taken_some _ _ _ _ Ht ltac:(discriminate)) as (_ & H1 & H2 & H3). cbn [lx_span] in *.
    apply Hskip; [discriminate|]. apply Forall_app. auto.
  - apply Hfin; try lia. destruct Hc as [(_ & -> & ->)|[? _]]; [lia|congruence].
Qed.

Lemma AL_step f : PA f -> AL f -> AL (S f).
Proof.
  intros HPA HAL first attrs s lo Hs Hf1 Hf2 Hat Hsp Hlt Hnb Hf. cbn [attr_loop].
  fold (parse_atom input).
  destruct (src_next s) as [l s1] eqn:En.
  destruct (src_next_spec _ _ _ _ _ Hs En) as (Hp & lo1 & Ht & Hs1 & Hc).
  pose proof (taken_le _ _ _ _ Ht) as Hle. pose proof (sok_le _ _ _ Hs) as Hmax0. pose proof (sok_le _ _ _ Hs1) as Hmax.
  assert (l <> LxEof -> length (items s) = S (length (items s1))) as Hn by (apply (next_len _ _ _ _ Hs En)).
  destruct Hf1 as [Hf1 Hf1'].
  assert (atom_res (sp_start first) s (do s2 <- src_stash l s1;
      let e := match rev attrs with (_, _, v) :: _ => sp_end (a_span v) | [] => sp_end first end in
      Ok (AAttrs (mkspan (sp_start first) e) attrs, [], s2))) as Hst.
  { apply (stash_res _ lo); auto. intros s2 Hs2 Hi. cbn zeta.
    assert (sp_start first < match rev attrs with (_, _, v) :: _ => sp_end (a_span v) | [] => sp_end first end <= lo) as He.
    { destruct (rev attrs) as [|[[k ks] v] q] eqn:Er; [lia|].
      assert (In (k, ks, v) attrs) as Hin by (apply in_rev; rewrite Er; now left).
      rewrite Forall_forall in Hsp. apply Hsp in Hin as H1. cbn in H1.
      rewrite All_Forall, Forall_forall in Hat. apply Hat in Hin as (_ & H2 & _). apply atom_ok_span in H2 as [H2 _]. lia. }
    eexists _, _, s2, lo. split; [reflexivity|]. cbn [atom_ok a_span sp_start sp_end]. rewrite Hi.
    splits; auto; try lia. split; cbn; lia. }
  destruct l; try exact Hst. clear Hst. specialize (Hn ltac:(discriminate)).
  destruct (taken_some _ _ _ _ Ht ltac:(discriminate)) as (Hok & H1 & H2 & H3). cbn [lx_span] in *. destruct H2 as [H2a H2b].
  destruct Hok as (t & Htx & Et & Hkn & Hkb & Hksl & Hks & Hke).
  assert (span_in (blen input) ksp) as Hksp.
  { apply slice_some in Hksl as (x & y & _ & _ & E). split; lia. }
  destruct (src_next s1) as [nx s2] eqn:En2.
  destruct (src_next_spec _ _ _ _ _ Hs1 En2) as (Hp2 & lo2 & Ht2 & Hs2 & Hc2).
  assert (length (items s2) <= length (items s1)) as Hlen.
  { destruct Hc2 as [(_ & Ea & Eb)|(_ & Ea)]; [rewrite Ea, Eb|rewrite Ea]; cbn; lia. }
  destruct (HPA nx s2 lo1 lo2 Ht2 Hs2) as (a & ev & s3 & hi & -> & A1 & A2 & A3 & A4 & A5 & A6); [left; lia|].
  cbn [bind]. pose proof (atom_hi _ _ _ A1 A2 A3).
  destruct (HAL first (attrs ++ [(key, ksp, a)]) s3 hi) as (r & ev3 & s4 & hi3 & -> & C1 & C2 & C3 & C4 & C5 & C6); auto; try lia.
  { split; auto. } { apply All_app. cbn. splits; auto. apply apart_after; auto; destruct Hksp; lia. }
  { apply Forall_app. split.
    - eapply Forall_impl; [|exact Hsp]. cbn. intros x. lia.
    - constructor; [|constructor]. cbn. lia. }
  cbn [bind]. exists r, (ev ++ ev3), s4, hi3. splits; auto; try lia. rewrite !Forall_app. auto.
Qed.

Lemma reading f : PA f /\ CL f /\ OL f /\ SL f /\ AL f.
Proof.
  induction f as [|f (H1 & H2 & H3 & H4 & H5)].
  - unfold PA, CL, OL, SL, AL. splits; intros; lia.
  - splits; [apply PA_step|apply CL_step|apply OL_step|apply SL_step|apply AL_step]; auto.
Qed.

(** One line of atoms: at least one atom, all well-formed. *)
Lemma collect_entry_ok f l s lo lo' : taken input lo l lo' -> l <> LxEof -> sok input lo' s -> 2 * length (items s) + 2 <= f ->
  exists a more ev s' hi, collect_entry input f l s = Ok (a :: more, ev, s') /\ atom_ok input a /\ Forall (atom_ok input) more /\
    Forall (fun b => sp_end (a_span a) <= sp_start (a_span b)) more /\ lo <= sp_start (a_span a) /\ lo <= hi /\ sok input hi s' /\ length (items s') <= length (items s) /\
    Forall (plain_ev (blen input)) ev.
Proof.
  intros Ht Hl Hs Hf. destruct (reading f) as (HPA & HCL & _). unfold collect_entry.
  destruct (HPA l s lo lo' Ht Hs) as (a & ev & s2 & hi & -> & A1 & A2 & A3 & A4 & A5 & A6); [left; lia|].
  cbn [bind]. destruct (HCL (sp_end (a_span a)) (match a with AScalar _ _ Bare => true | _ => false end) [a] s2 hi A4)
    as (more & ev2 & s3 & hi2 & -> & B1 & B0 & B2 & B3 & B4 & B5); [lia|].
  cbn [bind]. pose proof (atom_hi _ _ _ A1 A2 A3).
  exists a, more, (ev ++ ev2), s3, hi2. splits; auto; try lia.
  - eapply Forall_impl; [|exact B0]. cbn. intros b. lia.
  - apply Forall_app. auto.
Qed.

End Reading.
