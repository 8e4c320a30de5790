(** Properties C35 and C36: suggested versions and the JSON export. *)
From Coq Require Import String.
From Verif Require Import Base BaseProofs TreeModel CliModel CliSpec CliProofs.
Local Open Scope nat_scope.

(** ** C35: suggested versions increase

    The full statement, over every version text with components that fit [u64]. *)
Definition fits (v : version) : Prop :=
  let '(a, b, c) := v in (a < 18446744073709551616 /\ b < 18446744073709551616 /\ c < 18446744073709551616)%N.
Definition semver_step (v w : version) (c : changes) : Prop :=
  let '(x, y, z) := v in
  version_lt v w /\
  (breaking c <> [] -> ~ caret_compatible v w /\ w = if (x =? 0)%N then (0, y + 1, 0)%N else (x + 1, 0, 0)%N) /\
  (breaking c = [] -> additive c <> [] -> w = (x, y + 1, 0)%N /\ (x <> 0%N -> caret_compatible v w)) /\
  (breaking c = [] -> additive c = [] -> w = (x, y, z + 1)%N /\ (x <> 0%N \/ y <> 0%N -> caret_compatible v w)).
Definition C35_full : Prop := forall v current c,
  version_text v current -> fits v ->
  exists w new, calculate_next_version current c = Some new /\ version_canonical w new /\ semver_step v w c.

(** It is false at the largest component only: the addition wraps around in a release build. *)
Theorem C35_refuted : ~ C35_full /\
  calculate_next_version (lit "18446744073709551615.2.3") (mkchanges [RemovedType None] [] []) = Some (lit "0.0.0").
Proof.
  split; [|reflexivity]. intros H.
  set (v := (18446744073709551615, 2, 3)%N).
  destruct (H v (lit "18446744073709551615.2.3") (mkchanges [RemovedType None] [] [])) as (w & new & E & Hw & Hs).
  - exists (lit "18446744073709551615"), (lit "2"), (lit "3"). unfold decimal. splits; try discriminate; try reflexivity;
      repeat constructor.
  - cbv. auto.
  - vm_compute in E. injection E as <-.
    destruct Hs as (_ & Hb & _). destruct Hb as [_ ->]; [discriminate|].
    destruct Hw as (x & y & z & E & [[_ [_ Hx]] Hc] & _).
    assert (G : split_dots (x ++ [cDOT] ++ y ++ [cDOT] ++ z) [] = [lit "0"; lit "0"; lit "0"]) by (rewrite <- E; reflexivity).
    destruct x as [|c x]; [discriminate Hx|]. injection E as <- E. destruct x as [|c x]; [discriminate Hx|].
    injection E as <- E. destruct Hc. reflexivity.
Qed.
Print Assumptions C35_refuted.

(** Below the largest component it holds. *)
Theorem C35_bump_partial : forall v current c,
  version_text v current ->
  (let '(x, y, z) := v in x < 18446744073709551615 /\ y < 18446744073709551615 /\ z < 18446744073709551615)%N ->
  exists w new, calculate_next_version current c = Some new /\ version_canonical w new /\ semver_step v w c.
Proof.
  intros [[x y] z] current c Hv (Hx & Hy & Hz).
  destruct (calculate_some (x, y, z) current c Hv) as (s & E & Hs); [splits; lia|].
  exists (next_version (x, y, z) c), s. splits; auto.
  assert (S : forall n, (n < 18446744073709551615)%N -> succ_u64 n = (n + 1)%N).
  { intros n Hn. unfold succ_u64. apply N.mod_small. lia. }
  unfold next_version, semver_step, caret_compatible, version_lt. rewrite !S by auto.
  destruct (breaking c) as [|b bs]; [destruct (additive c) as [|a0 as_]|].
  - splits; try (intros; congruence); try lia. intros _ _. split; [auto|]. intros Hn. splits; auto; try lia.
  - splits; try (intros; congruence); try lia. intros _ _. split; [auto|]. intros Hn. splits; auto; try lia.
  - destruct (N.eqb_spec x 0) as [->|Hn].
    + splits; try (intros; congruence); try lia. intros _. split; [|auto]. lia.
    + splits; try (intros; congruence); try lia. intros _. split; [|auto]. lia.
Qed.
Print Assumptions C35_bump_partial.

(** Anything else than three numbers is refused. *)
Theorem C35_accepts : forall current c new,
  calculate_next_version current c = Some new ->
  exists x y z, current = x ++ [cDOT] ++ y ++ [cDOT] ++ z /\
    Forall (fun t => exists n d, decimal d n /\ (t = d \/ t = 43%N :: d) /\ (n < 18446744073709551616)%N) [x; y; z].
Proof.
  intros current c new H. unfold calculate_next_version in H.
  pose proof (split_dots_join current []) as J.
  destruct (split_dots current []) as [|x [|y [|z [|]]]]; try discriminate.
  cbn [rev app flat_map] in J. rewrite app_nil_r in J.
  destruct (parse_u64 x) as [a|] eqn:Ea; [|discriminate].
  destruct (parse_u64 y) as [b|] eqn:Eb; [|discriminate].
  destruct (parse_u64 z) as [d|] eqn:Ed; [|discriminate].
  exists x, y, z. split; [exact J|].
  repeat constructor; (match goal with |- exists n d, _ /\ (?t = _ \/ _) /\ _ =>
    match goal with E : parse_u64 t = Some ?n |- _ => apply parse_u64_inv in E as (L & u & Hu & Hd); exists n, u; auto end end).
Qed.
Print Assumptions C35_accepts.

Example C35_example :
  calculate_next_version (lit "1.9.3") (mkchanges [] [AddedType None] []) = Some (lit "1.10.0") /\
  calculate_next_version (lit "0.9.3") (mkchanges [RemovedType None] [AddedType None] []) = Some (lit "0.10.0") /\
  calculate_next_version (lit "1.9.3-rc.1") no_changes = None /\
  version_text (1, 9, 3)%N (lit "1.9.3").
Proof.
  splits; try reflexivity. exists (lit "1"), (lit "9"), (lit "3"). unfold decimal. splits; try discriminate; try reflexivity;
      repeat constructor.
Qed.

(** ** C36: the JSON export keeps documents apart *)
Definition C36_full (po : bool) (debug : value -> str) : Prop := forall a b,
  value_to_json po debug a = value_to_json po debug b -> same a b.

(** It is false, whatever the map and the debug text: the unit key and the key ["@"], and a tag and
    an object with the key [$tag], are exported alike. *)
Theorem C36_refuted : forall po debug, ~ C36_full po debug /\
  (exists a b, value_to_json po debug a = value_to_json po debug b /\ ~ same a b /\
    a = Val None (PObj [Ent unit_value (scalar_value (lit "x")) None] None) None /\
    b = Val None (PObj [Ent (scalar_value (lit "@")) (scalar_value (lit "x")) None] None) None) /\
  (exists a b, value_to_json po debug a = value_to_json po debug b /\ ~ same a b /\
    a = Val (Some (lit "t", None)) PNone None /\
    b = Val None (PObj [Ent (scalar_value (lit "$tag")) (scalar_value (lit "t")) None] None) None).
Proof.
  intros po debug.
  assert (A : ~ same (Val None (PObj [Ent unit_value (scalar_value (lit "x")) None] None) None)
                     (Val None (PObj [Ent (scalar_value (lit "@")) (scalar_value (lit "x")) None] None) None)).
  { intros H. inversion H as [? ? ? ? ? ? _ Hp]; subst. inversion Hp as [| | |? ? ? ? H1 _]; subst.
    destruct (H1 None (scalar_value (lit "x")) eq_refl) as (v' & E & _). discriminate E. }
  assert (B : ~ same (Val (Some (lit "t", None)) PNone None)
                     (Val None (PObj [Ent (scalar_value (lit "$tag")) (scalar_value (lit "t")) None] None) None)).
  { intros H. inversion H as [? ? ? ? ? ? E _]; subst. discriminate E. }
  splits.
  - intros H. apply A. apply H. reflexivity.
  - exists (Val None (PObj [Ent unit_value (scalar_value (lit "x")) None] None) None), (Val None (PObj [Ent (scalar_value (lit "@")) (scalar_value (lit "x")) None] None) None). splits; try reflexivity; auto.
  - exists (Val (Some (lit "t", None)) PNone None), (Val None (PObj [Ent (scalar_value (lit "$tag")) (scalar_value (lit "t")) None] None) None). splits; try reflexivity; auto.
Qed.
Print Assumptions C36_refuted.

(** With sorted maps the order of entries is lost too. *)
Theorem C36_order_refuted : forall debug, exists a b,
  a <> b /\ value_to_json false debug (Val None (PObj [a; b] None) None) = value_to_json false debug (Val None (PObj [b; a] None) None).
Proof.
  intros debug. exists (Ent (scalar_value (lit "a")) unit_value None), (Ent (scalar_value (lit "b")) unit_value None).
  split; [intros E; discriminate E|reflexivity].
Qed.
Print Assumptions C36_order_refuted.

(** What holds: trees whose objects have distinct keys, each the unit or a plain text other than [@] and
    [$tag], are told apart up to spans, scalar kinds, doc comments and the order of entries. *)
Theorem C36_plain_partial : forall po debug a b, plain a -> plain b ->
  value_to_json po debug a = value_to_json po debug b -> same a b.
Proof. intros po debug a b Ha Hb E. exact (same_of_json po debug (vsize a) a b (le_n _) Ha Hb E). Qed.
Print Assumptions C36_plain_partial.

(** A plain tree with a tag, a sequence, a unit key and nested objects. *)
Example C36_example :
  let v := Val None (PObj [
    Ent unit_value (Val (Some (lit "t", None)) (PSeq [scalar_value (lit "x"); unit_value] None) None) None;
    Ent (scalar_value (lit "a")) (Val None (PObj [Ent (scalar_value (lit "b")) unit_value None] None) None) (Some (lit "doc"))]
    None) None in
  plain v /\
  value_to_json false (fun _ => []) v =
    JObj [(lit "@", JObj [(lit "$payload", JArr [JStr (lit "x"); JNull]); (lit "$tag", JStr (lit "t"))]);
          (lit "a", JObj [(lit "b", JNull)])].
Proof.
  cbv zeta. split; [|reflexivity].
  constructor. constructor.
  eapply plain_entry; [reflexivity| | | | |]; try discriminate.
  - intros k' v' d' [E|[]]. injection E as <- _ _. discriminate.
  - repeat constructor.
  - eapply plain_entry; [reflexivity| | | | |]; try discriminate.
    + intros k' v' d' [].
    + constructor. constructor. eapply plain_entry; [reflexivity| | | | |]; try discriminate.
      * intros k' v' d' [].
      * repeat constructor.
      * constructor.
    + constructor.
Qed.
