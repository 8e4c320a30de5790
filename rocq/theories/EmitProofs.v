(** Lemmas about emitting events: spans, nesting, and when the parser can panic. *)
From Verif Require Import Base BaseProofs TokModel TokProofs LexModel LexSpec EscapeProofs LexProofs ParseModel ParseSpec ParseProofs.

(** ** Outcomes *)

(** The call returns something satisfying [Q]; if it panics, the source contains a backslash and [u]. *)
Definition safe {A} (input : str) (r : res A) (Q : A -> Prop) : Prop :=
  match r with Ok x => Q x | Panic => has_bsl_u input | OutOfFuel => False end.

Lemma safe_bind {A B} input (r : res A) (k : A -> res B) Q R :
  safe input r Q -> (forall x, Q x -> safe input (k x) R) -> safe input (bind r k) R.
Proof. destruct r; cbn; auto. Qed.

Lemma safe_impl {A} input (r : res A) (Q R : A -> Prop) : safe input r Q -> (forall x, Q x -> R x) -> safe input r R.
Proof. destruct r; cbn; auto. Qed.

(** ** Good pieces of an event sequence *)

Lemma nest_app a b st : nest st (a ++ b) = match nest st a with Some st' => nest st' b | None => None end.
Proof.
  revert st. induction a as [|e a IH]; intros st; [reflexivity|].
  cbn [app nest]. destruct (ev_kind e); try apply IH; destruct st as [|[] st]; try reflexivity; apply IH.
Qed.

(** Not one of the events that frame a document. *)
Definition inner_ev (e : event) : Prop :=
  match ev_kind e with EvDocStart | EvDocEnd | EvError ETrailing => False | _ => True end.

Record good (n : nat) (evs : list event) : Prop := {
  g_spans : spans_in n evs;
  g_nest : forall st, nest st evs = Some st;
  g_inner : Forall inner_ev evs
}.

Lemma good_nil n : good n [].
Proof. split; [constructor|reflexivity|constructor]. Qed.

Lemma good_app n a b : good n a -> good n b -> good n (a ++ b).
Proof.
  intros [A1 A2 A3] [B1 B2 B3]. split.
  - now apply Forall_app.
  - intros st. now rewrite nest_app, A2.
  - now apply Forall_app.
Qed.

Definition flat_kind (k : ekind) : Prop :=
  match k with
  | EvDocStart | EvDocEnd | EvError ETrailing | EvObjStart | EvObjEnd | EvSeqStart | EvSeqEnd
  | EvEntryStart | EvEntryEnd | EvTagStart _ | EvTagEnd => False
  | _ => True
  end.

Lemma good_one n sp k : span_in n sp -> flat_kind k -> good n [mkev sp k].
Proof.
  intros H Hk. split.
  - constructor; [exact H|constructor].
  - intros st. cbn. destruct k; try reflexivity; contradiction.
  - constructor; [|constructor]. unfold inner_ev. cbn. destruct k; try exact I; cbn in Hk; auto.
Qed.

Lemma good_cons n e l : good n [e] -> good n l -> good n (e :: l).
Proof. intros. now apply (good_app n [e] l). Qed.

Lemma good_errs {A} n (f : A -> event) (l : list A) : (forall x, In x l -> good n [f x]) -> good n (map f l).
Proof.
  induction l as [|x l IH]; intros H; [apply good_nil|]. cbn. apply good_cons; [apply H; now left|].
  apply IH. intros y Hy. apply H. now right.
Qed.

Inductive brackets : ekind -> ekind -> Prop :=
| br_obj : brackets EvObjStart EvObjEnd
| br_seq : brackets EvSeqStart EvSeqEnd
| br_entry : brackets EvEntryStart EvEntryEnd
| br_tag t : brackets (EvTagStart t) EvTagEnd.

Lemma good_wrap n k1 k2 s1 s2 l : brackets k1 k2 -> span_in n s1 -> span_in n s2 -> good n l ->
  good n (mkev s1 k1 :: l ++ [mkev s2 k2]).
Proof.
  intros Hb H1 H2 [L1 L2 L3]. split.
  - constructor; [exact H1|]. apply Forall_app. split; [exact L1|]. constructor; [exact H2|constructor].
  - intros st. destruct Hb; cbn; rewrite nest_app, L2; reflexivity.
  - constructor; [destruct Hb; exact I|]. apply Forall_app. split; [exact L3|].
    constructor; [destruct Hb; exact I|constructor].
Qed.

Lemma plain_good n evs : Forall (plain_ev n) evs -> good n evs.
Proof.
  induction 1 as [|e l [H1 H2] Hl IH]; [apply good_nil|]. apply good_cons; [|exact IH].
  destruct e as [sp k]. cbn in *. apply good_one; [exact H1|]. destruct k; try exact I; try contradiction.
  destruct e; exact I || contradiction.
Qed.

(** ** Escape errors *)

Lemma take_bytes_prefix n s t : take_bytes n s = Some t -> blen t = n /\ n <= blen s.
Proof.
  intros H. apply take_bytes_some in H as (r & -> & H). rewrite blen_app. lia.
Qed.

Definition esc_in (lo hi : nat) (x : nat * str) : Prop := lo <= fst x /\ fst x + blen (snd x) <= hi.

Lemma esc_in_weaken lo hi lo' hi' l : Forall (esc_in lo hi) l -> lo' <= lo -> hi <= hi' -> Forall (esc_in lo' hi') l.
Proof. intros H H1 H2. eapply Forall_impl; [|exact H]. unfold esc_in. cbn. lia. Qed.

Lemma emit_esc_inv i seq r l : emit_esc i seq r = Ok l -> exists l', r = Ok l' /\ l = (i, seq) :: l'.
Proof. unfold emit_esc. destruct r; cbn; try discriminate. intros [=]. eauto. Qed.

Lemma validate_spans m : forall s, length s <= m -> forall i l,
  (validate_from None i s = Ok l -> Forall (esc_in i (i + blen s)) l) /\
  (forall start from valid, start + blen from = i + blen s -> start <= i ->
     validate_from (Some (start, from, valid)) i s = Ok l -> Forall (esc_in start (i + blen s)) l).
Proof.
  induction m as [|m IH]; intros s Hm i l.
  { destruct s; [|cbn in Hm; lia]. split.
    - cbn. intros [= <-]. constructor.
    - intros start from valid H1 H2 E. cbn [validate_from] in E.
      destruct (take_bytes _ _) as [q|] eqn:Et; [|discriminate]. cbn in E. injection E as <-.
      apply take_bytes_prefix in Et as [Et1 Et2]. constructor; [|constructor]. unfold esc_in. cbn in *. lia. }
  assert (forall r i' l' lo, length r <= m -> validate_from None i' r = Ok l' -> i <= i' -> lo <= i' -> i' + blen r <= i + blen s ->
     Forall (esc_in lo (i + blen s)) l') as Next.
  { intros r i' l' lo Hr E H1 H2 H3. destruct (IH r Hr i' l') as [N _]. specialize (N E).
    eapply esc_in_weaken; [exact N|lia|lia]. }
  assert (forall r i' l' q, length r <= m -> emit_esc i q (validate_from None i' r) = Ok l' -> i <= i' -> i' + blen r <= i + blen s ->
     blen q <= blen s -> Forall (esc_in i (i + blen s)) l') as Emit.
  { intros r i' l' q Hr E H1 H2 H3. apply emit_esc_inv in E as (l2 & E & ->). constructor; [unfold esc_in; cbn; lia|].
    apply (Next r i' l2 i); auto. }
  split.
  - intros E. destruct s as [|c s]; [cbn in E; injection E as <-; constructor|]. cbn [length] in Hm.
    cbn [validate_from] in E. pose proof (clen_pos c) as Hc.
    change (blen (c :: s)) with (clen c + blen s) in *.
    destruct (negb (c =? cBSL)%N) eqn:E1.
    { apply (Next s (i + clen c) l i); auto; lia. }
    apply negb_false_iff, N.eqb_eq in E1 as ->. change (clen cBSL) with 1 in *.
    destruct s as [|d r1]; [injection E as <-; constructor; [|constructor]; unfold esc_in; cbn; lia|].
    cbn [length] in Hm. pose proof (clen_pos d) as Hd. change (blen (d :: r1)) with (clen d + blen r1) in *.
    destruct (((d =? cn) || (d =? cr) || (d =? ct) || (d =? cBSL) || (d =? cDQ))%N).
    { apply (Next r1 (i + 2) l i); auto; lia. }
    destruct (d =? cu)%N eqn:E2.
    2: { apply (Emit r1 _ l _ ltac:(lia) E); cbn; try lia. }
    apply N.eqb_eq in E2 as ->. change (clen cu) with 1 in *.
    destruct r1 as [|h1 r2]; [injection E as <-; constructor; [|constructor]; unfold esc_in; cbn; lia|].
    cbn [length] in Hm. pose proof (clen_pos h1) as Hh1. change (blen (h1 :: r2)) with (clen h1 + blen r2) in *.
    destruct (h1 =? cLB)%N eqn:E3.
    { apply N.eqb_eq in E3 as ->. change (clen cLB) with 1 in *.
      destruct (IH r2 ltac:(lia) (i + 3) l) as [_ N]. eapply esc_in_weaken; [apply (N i (cBSL :: cu :: cLB :: r2) true ltac:(cbn [blen]; change (clen cBSL) with 1; change (clen cu) with 1; change (clen cLB) with 1; lia) ltac:(lia) E)|lia|lia]. }
    destruct (is_hex h1) eqn:E4.
    2: { apply (Emit (h1 :: r2) _ l _ ltac:(cbn; lia) E); cbn; try lia. }
    assert (forall c, is_hex c = true -> clen c = 1) as Hx.
    { intros x Hx. apply is_hex_iff in Hx. unfold clen. unfold hex_char in Hx.
      replace (x <? 128)%N with true; [reflexivity|]. symmetry. apply N.ltb_lt. lia. }
    rewrite (Hx _ E4) in *.
    destruct r2 as [|h2 r3]; [apply (Emit [] _ l _ ltac:(cbn; lia) E); cbn; rewrite ?(Hx _ E4); lia|].
    cbn [length] in Hm. pose proof (clen_pos h2) as Hh2. change (blen (h2 :: r3)) with (clen h2 + blen r3) in *.
    destruct (is_hex h2) eqn:E5.
    2: { apply (Emit (h2 :: r3) _ l _ ltac:(cbn; lia) E); cbn; rewrite ?(Hx _ E4); lia. }
    rewrite (Hx _ E5) in *.
    destruct r3 as [|h3 r4]; [apply (Emit [] _ l _ ltac:(cbn; lia) E); cbn; rewrite ?(Hx _ E4), ?(Hx _ E5); lia|].
    cbn [length] in Hm. pose proof (clen_pos h3) as Hh3. change (blen (h3 :: r4)) with (clen h3 + blen r4) in *.
    destruct (is_hex h3) eqn:E6.
    2: { apply (Emit (h3 :: r4) _ l _ ltac:(cbn; lia) E); cbn; rewrite ?(Hx _ E4), ?(Hx _ E5); lia. }
    rewrite (Hx _ E6) in *. apply (Next r4 (i + 5) l i); auto; lia.
  - intros start from valid H1 H2 E. destruct s as [|c s].
    { cbn [validate_from] in E. destruct (take_bytes _ _) as [q|] eqn:Et; [|discriminate]. cbn in E. injection E as <-.
      apply take_bytes_prefix in Et as [Et1 Et2]. constructor; [|constructor]. unfold esc_in. cbn in *. lia. }
    cbn [length] in Hm. cbn [validate_from] in E. pose proof (clen_pos c) as Hc.
    change (blen (c :: s)) with (clen c + blen s) in *.
    destruct (c =? cRB)%N eqn:E1.
    + apply N.eqb_eq in E1 as ->. change (clen cRB) with 1 in *. destruct valid.
      * eapply (Next s (S i) l); auto; lia.
      * destruct (take_bytes _ _) as [q|] eqn:Et; [|discriminate]. cbn [of_opt bind] in E.
        apply emit_esc_inv in E as (l2 & E & ->). apply take_bytes_prefix in Et as [Et1 Et2].
        constructor; [unfold esc_in; cbn; lia|]. eapply (Next s (S i) l2); auto; lia.
    + destruct (IH s ltac:(lia) (i + clen c) l) as [_ N].
      eapply esc_in_weaken; [apply (N start from (valid && is_hex c) ltac:(lia) ltac:(lia) E)|lia|lia].
Qed.

Lemma has_bsl_u_cons c s : has_bsl_u s -> has_bsl_u (c :: s).
Proof. intros (a & b & ->). now exists (c :: a), b. Qed.

Lemma validate_safe m : forall s, length s <= m -> forall i,
  match validate_from None i s with Ok _ => True | Panic => has_bsl_u s | OutOfFuel => False end /\
  (forall br, match validate_from (Some br) i s with OutOfFuel => False | _ => True end).
Proof.
  induction m as [|m IH]; intros s Hm i.
  { destruct s; [|cbn in Hm; lia]. split; [exact I|]. intros [[st fr] v]. cbn. destruct (take_bytes _ _); exact I. }
  assert (forall r i' (f : str -> str), length r <= m -> (has_bsl_u r -> has_bsl_u s) ->
     match validate_from None i' r with Ok _ => True | Panic => has_bsl_u s | OutOfFuel => False end) as Next.
  { intros r i' _ Hr H. destruct (IH r Hr i') as [N _]. destruct (validate_from None i' r); auto. }
  assert (forall r i' q, length r <= m -> (has_bsl_u r -> has_bsl_u s) ->
     match emit_esc i q (validate_from None i' r) with Ok _ => True | Panic => has_bsl_u s | OutOfFuel => False end) as Emit.
  { intros r i' q Hr H. specialize (Next r i' (fun x => x) Hr H). unfold emit_esc.
    destruct (validate_from None i' r); cbn; auto. }
  assert (forall r, validate_from None i r = validate_from None i r) as _ by reflexivity.
  split.
  - destruct s as [|c s]; [exact I|]. cbn [length] in Hm. cbn [validate_from].
    destruct (negb (c =? cBSL)%N) eqn:E1; [apply (Next s _ (fun x => x)); [lia|apply has_bsl_u_cons]|].
    apply negb_false_iff, N.eqb_eq in E1 as ->. destruct s as [|d r1]; [exact I|]. cbn [length] in Hm.
    destruct (((d =? cn) || (d =? cr) || (d =? ct) || (d =? cBSL) || (d =? cDQ))%N).
    { apply (Next r1 _ (fun x => x)); [lia|]. intros; now do 2 apply has_bsl_u_cons. }
    destruct (d =? cu)%N eqn:E2.
    2: { apply Emit; [lia|]. intros; now do 2 apply has_bsl_u_cons. }
    apply N.eqb_eq in E2 as ->. assert (has_bsl_u (cBSL :: cu :: r1)) as Hb by (exists [], r1; reflexivity).
    destruct r1 as [|h1 r2]; [exact I|]. cbn [length] in Hm.
    destruct (h1 =? cLB)%N.
    { destruct (IH r2 ltac:(lia) (i + 3)) as [_ N]. specialize (N (i, cBSL :: cu :: h1 :: r2, true)).
      destruct (validate_from _ _ _); auto. }
    destruct (is_hex h1); [|apply Emit; [cbn; lia|auto]].
    destruct r2 as [|h2 r3]; [exact I|]. cbn [length] in Hm.
    destruct (is_hex h2); [|apply Emit; [cbn; lia|auto]].
    destruct r3 as [|h3 r4]; [exact I|]. cbn [length] in Hm.
    destruct (is_hex h3); [|apply Emit; [cbn; lia|auto]].
    apply (Next r4 _ (fun x => x)); [cbn; lia|auto].
  - intros [[st fr] v]. destruct s as [|c s]; [cbn; destruct (take_bytes _ _); exact I|]. cbn [length] in Hm.
    cbn [validate_from]. destruct (c =? cRB)%N.
    + destruct (IH s ltac:(lia) (S i)) as [N _]. destruct v; [destruct (validate_from None _ _); auto|].
      destruct (take_bytes _ _); [|exact I]. cbn [of_opt bind]. unfold emit_esc. destruct (validate_from None _ _); cbn; auto.
    + destruct (IH s ltac:(lia) (i + clen c)) as [_ N]. apply N.
Qed.

Lemma has_bsl_u_app_l a s : has_bsl_u s -> has_bsl_u (a ++ s).
Proof. intros (x & y & ->). exists (a ++ x), y. now rewrite app_assoc. Qed.
Lemma has_bsl_u_app_r a s : has_bsl_u s -> has_bsl_u (s ++ a).
Proof. intros (x & y & ->). exists x, (y ++ a). now rewrite <- app_assoc. Qed.

(** Text [t] (raw, or decoded) that stands at byte [base] of the source. *)
Lemma escape_errors_ok input base t : base + blen t <= blen input -> (has_bsl_u t -> has_bsl_u input) ->
  safe input (escape_errors base t) (good (blen input)).
Proof.
  intros H1 H2. unfold escape_errors, validate_escapes.
  destruct (validate_safe (length t) t (le_n _) 0) as [S _].
  destruct (validate_from None 0 t) as [l| |] eqn:E; cbn; auto.
  destruct (validate_spans (length t) t (le_n _) 0 l) as [N _]. specialize (N E). rewrite Forall_forall in N.
  apply good_errs. intros x Hx. apply N in Hx. unfold esc_in in Hx. apply good_one; [split; cbn; lia|exact I].
Qed.

(** Decoding does not make text longer, and makes no backslash-u out of text without one. *)
Lemma decodes_len a v : decodes a v -> blen v <= blen a.
Proof.
  assert (forall c, clen c <= 4) as H4.
  { intros c. unfold clen. repeat destruct (_ <? _)%N; lia. }
  induction 1 as [|c s v Hc Hd IH|d c s v Hin Hd IH|h s v Hl Hh Hv Hd IH|h s v Hn Hh Hv Hd IH].
  - lia.
  - cbn [blen]. lia.
  - cbn [blen]. assert (clen c = 1) as ->.
    { cbn in Hin. repeat destruct Hin as [Hin|Hin]; try contradiction; injection Hin as <- <-; reflexivity. }
    pose proof (clen_pos cBSL). lia.
  - unfold char in *. cbn [blen]. rewrite blen_app. pose proof (blen_ge h). specialize (H4 (hex_num h)).
    pose proof (clen_pos cBSL). pose proof (clen_pos cu). lia.
  - unfold char in *. cbn [blen]. rewrite blen_app. cbn [blen]. pose proof (blen_ge h). specialize (H4 (hex_num h)).
    assert (1 <= length h) by (destruct h; cbn; [congruence|lia]).
    change (clen cBSL) with 1. change (clen cu) with 1. change (clen cLB) with 1. change (clen cRB) with 1. lia.
Qed.

Lemma decodes_no_u a v : decodes a v -> has_bsl_u v -> has_bsl_u a.
Proof.
  induction 1 as [|c s v Hc Hd IH|d c s v Hin Hd IH|h s v Hl Hh Hv Hd IH|h s v Hn Hh Hv Hd IH]; intros Hb.
  - destruct Hb as ([|] & ? & ?); discriminate.
  - apply has_bsl_u_cons, IH. destruct Hb as (x & y & E). destruct x as [|x0 x]; cbn in E; injection E as -> E.
    + congruence.
    + subst v. now exists x, y.
  - destruct Hb as (x & y & E). destruct x as [|x0 x]; cbn in E; injection E as E0 E.
    + subst c v. assert (d = cBSL) as ->.
      { cbn in Hin. repeat destruct Hin as [Hin|Hin]; try contradiction; try discriminate; injection Hin as <-; reflexivity. }
      inversion Hd as [|c s' v' Hc Hd'|d c s' v' Hin' Hd'|h s' v' Hl Hh Hv Hd'|h s' v' Hn Hh Hv Hd']; subst.
      * exists [cBSL], s'. reflexivity.
      * cbn in Hin'. repeat destruct Hin' as [Hin'|Hin']; try contradiction; discriminate.
      * do 2 apply has_bsl_u_cons. exists [], (h ++ s'). now rewrite ?H0.
      * do 2 apply has_bsl_u_cons. exists [], (cLB :: h ++ cRB :: s'). now rewrite ?H0.
    + do 2 apply has_bsl_u_cons. apply IH. subst v. now exists x, y.
  - exists [], (h ++ s). reflexivity.
  - exists [], (cLB :: h ++ cRB :: s). reflexivity.
Qed.

(** ** Emitting keys and values *)

Section Emit.
Variable input : str.
Let n := blen input.

Lemma good_invalid_tag sp esp (invalid : bool) : span_in n sp -> ospan_in n esp ->
  good n (if invalid then [mkerr (match esp with Some x => x | None => sp end) EInvalidTagName] else []).
Proof. intros H1 H2. destruct invalid; [|apply good_nil]. apply good_one; [|exact I]. destruct esp; auto. Qed.

(** The text of a quoted scalar, as decoded, fits at the scalar's place. *)
Lemma quoted_fits sp v : lexeme_ok input (LxScalar sp v Quoted) ->
  sp_start sp + blen v <= n /\ (has_bsl_u v -> has_bsl_u input).
Proof.
  intros (t & Ht & a & -> & Hd). unfold lexeme_text in Ht. cbn [lx_span] in Ht.
  apply slice_some in Ht as (x & y & E1 & E2 & E3).
  pose proof (decodes_len _ _ Hd) as Hl.
  split.
  - unfold n. rewrite E1, !blen_app. cbn [blen]. rewrite !blen_app. lia.
  - intros Hb. apply (decodes_no_u _ _ Hd) in Hb. rewrite E1. apply has_bsl_u_app_l, has_bsl_u_app_r, has_bsl_u_cons, has_bsl_u_app_r. exact Hb.
Qed.

Lemma invesc_fits sp raw : slice input (sp_start sp) (sp_end sp) = Some (cDQ :: raw ++ [cDQ]) ->
  sp_start sp + 1 + blen raw <= n /\ (has_bsl_u raw -> has_bsl_u input).
Proof.
  intros Ht. apply slice_some in Ht as (x & y & E1 & E2 & E3). split.
  - unfold n. rewrite E1, !blen_app. cbn [blen]. rewrite !blen_app. pose proof (clen_pos cDQ). lia.
  - intros Hb. rewrite E1. apply has_bsl_u_app_l, has_bsl_u_app_r, has_bsl_u_cons, has_bsl_u_app_r. exact Hb.
Qed.

Lemma emit_key_ok a : atom_ok input a -> safe input (emit_key a) (good n).
Proof.
  intros Ha. pose proof (atom_ok_span _ _ Ha) as Hs.
  destruct a as [sp v k|sp|sp name p i esp|sp es ds dg u|sp es u cs|sp es|sp raw|sp m]; cbn [emit_key a_span] in *.
  - apply good_one; [exact Hs|exact I].
  - apply good_one; [exact Hs|exact I].
  - cbn [atom_ok a_span] in Ha. destruct Ha as (_ & Ho & Hp).
    pose proof (good_invalid_tag sp esp i Hs Ho) as G0.
    destruct p as [inner|]; [|cbn; apply good_app; [exact G0|apply good_one; [exact Hs|exact I]]].
    pose proof (atom_ok_span _ _ Hp) as Hs'.
    assert (safe input (Ok ((if i then [mkerr match esp with Some x => x | None => sp end EInvalidTagName] else [])
        ++ [mkerr (a_span inner) EInvalidKey])) (good n)) as Gbad.
    { cbn. apply good_app; [exact G0|apply good_one; [exact Hs'|exact I]]. }
    destruct inner as [isp v k|isp|isp name' p' i' esp'|isp es ds dg u|isp es u cs|isp es|isp raw|isp m]; try exact Gbad.
    + eapply safe_bind with (Q := good n).
      * destruct k; try apply good_nil. cbn [atom_ok a_span] in Hp. destruct Hp as [_ Hl].
        destruct (quoted_fits _ _ Hl) as [F1 F2]. apply escape_errors_ok; auto.
      * intros e1 G1. cbn. apply good_app; [exact G0|]. apply good_app; [exact G1|]. apply good_one; [exact Hs|exact I].
    + cbn. apply good_app; [exact G0|apply good_one; [exact Hs|exact I]].
  - apply good_one; [exact Hs|exact I].
  - apply good_one; [exact Hs|exact I].
  - apply good_one; [exact Hs|exact I].
  - cbn [atom_ok a_span] in Ha. destruct Ha as (_ & Hr & _). destruct (invesc_fits _ _ Hr) as [F1 F2].
    eapply safe_bind; [apply escape_errors_ok; eauto|]. intros e1 G1. cbn.
    apply good_app; [exact G1|]. apply good_one; [exact Hs|exact I].
  - apply good_one; [exact Hs|]. destruct (msg_is_tag m); exact I.
Qed.

Lemma good_entry sp esp ek ev : span_in n sp -> span_in n esp -> good n ek -> good n ev ->
  good n (mkev sp EvEntryStart :: ek ++ ev ++ [mkev esp EvEntryEnd]).
Proof.
  intros H1 H2 G1 G2. rewrite app_assoc. apply good_wrap; auto; [constructor|]. now apply good_app.
Qed.

Lemma firsts_in {K} (ks : list (K * span)) k o : first_at ks k o -> In (k, o) ks.
Proof. intros (a & b & -> & _). apply in_elt. Qed.

Lemma dups_in {K} (prev ks : list (K * span)) ds : dups_spec prev ks ds -> forall o s, In (o, s) ds -> exists k, In (k, s) ks.
Proof.
  revert prev ds. induction ks as [|[k s0] r IH]; cbn [dups_spec]; intros prev ds H o s Hin; [subst ds; destruct Hin|].
  destruct H as [(o' & ds' & H1 & -> & H2)|[H1 H2]].
  - destruct Hin as [[= -> ->]|Hin]; [exists k; now left|].
    destruct (IH _ _ H2 _ _ Hin) as [k' Hk]. exists k'. now right.
  - destruct (IH _ _ H2 _ _ Hin) as [k' Hk]. exists k'. now right.
Qed.

Lemma emit_value_ok a : atom_ok input a -> safe input (emit_value a) (good n).
Proof.
  induction a as [sp v k|sp|sp name i esp|sp name p i esp IH|sp es ds dg u IH|sp es u cs IH|sp es IH|sp raw|sp m] using atom_ind';
    intros Ha; pose proof (atom_ok_span _ _ Ha) as Hs; cbn [emit_value a_span] in *.
  - apply good_one; [exact Hs|exact I].
  - apply good_one; [exact Hs|exact I].
  - cbn [atom_ok a_span] in Ha. destruct Ha as (_ & Ho & _). cbn. apply good_app; [now apply good_invalid_tag|].
    apply (good_wrap n _ _ sp sp []); auto; [constructor|apply good_nil].
  - cbn [atom_ok a_span] in Ha. destruct Ha as (_ & Ho & Hp).
    eapply safe_bind; [apply IH, Hp|]. intros e1 G1. cbn. apply good_app; [now apply good_invalid_tag|].
    apply good_wrap; auto. constructor.
  - cbn [atom_ok a_span] in Ha. destruct Ha as (_ & Hes & _ & _ & Hds & Hdg).
    eapply safe_bind with (Q := good n).
    { clear Hds Hdg. induction es as [|[[[key value] doc] tm] r IHr]; [apply good_nil|].
      inversion IH as [|? ? [_ IHv] IHr']; subst. cbn [fst snd] in *.
      cbn [All] in Hes. destruct Hes as [(Hk & Hv & Hdoc & Htm & _) Hr].
      eapply safe_bind; [apply emit_key_ok, Hk|]. intros ek Gk.
      eapply safe_bind; [apply IHv, Hv|]. intros evv Gv.
      eapply safe_bind; [apply IHr; auto|]. intros er Gr. cbn [safe].
      apply good_app.
      { destruct doc as [[dsp lines]|]; [|apply good_nil]. apply good_one; [exact Hdoc|exact I]. }
      set (tl := match tm with Some x => [mkerr x ETooManyAtoms] | None => [] end).
      set (te := match tm with Some x => x | None => a_span value end).
      assert (good n tl) as Gt.
      { subst tl. destruct tm as [x|]; [|apply good_nil]. apply good_one; [exact Htm|exact I]. }
      assert (span_in n te) as Hte.
      { subst te. destruct tm as [x|]; [exact Htm|now apply atom_ok_span]. }
      assert (mkev (a_span key) EvEntryStart :: ek ++ evv ++ match tm with
                 | Some x => [mkerr x ETooManyAtoms; mkev x EvEntryEnd]
                 | None => [mkev (a_span value) EvEntryEnd] end ++ er =
              (mkev (a_span key) EvEntryStart :: ek ++ (evv ++ tl) ++ [mkev te EvEntryEnd]) ++ er) as ->.
      { cbn [app]. f_equal. rewrite <- !app_assoc. do 2 f_equal. subst tl te. destruct tm; reflexivity. }
      apply good_app; [|exact Gr]. apply good_entry; auto; [now apply atom_ok_span|now apply good_app]. }
    intros e1 G1. cbn [safe]. rewrite app_assoc. apply good_wrap; auto; [constructor|]. apply good_app; [|exact G1].
    apply good_app; [|apply good_app].
    + destruct u; [|apply good_nil]. apply good_one; [exact Hs|exact I].
    + apply good_errs. intros [o s] Hin. destruct (dups_in _ _ _ Hds _ _ Hin) as [k Hk].
      apply good_one; [|exact I]. cbn. unfold entry_keys in Hk. apply in_map_iff in Hk as ([[[k' v'] d'] t'] & [= E1 E2] & Hin').
      rewrite All_Forall, Forall_forall in Hes. apply Hes in Hin' as [Hk' _]. subst s. now apply atom_ok_span.
    + apply good_errs. intros d Hd. rewrite Forall_forall in Hdg. apply good_one; [now apply Hdg|exact I].
  - cbn [atom_ok a_span] in Ha. destruct Ha as (_ & Hes & Hcs).
    eapply safe_bind with (Q := good n).
    { induction es as [|x r IHr]; [apply good_nil|].
      inversion IH as [|? ? IHv IHr']; subst. cbn [All] in Hes. destruct Hes as [Hv Hr].
      eapply safe_bind; [apply IHv, Hv|]. intros evv Gv.
      eapply safe_bind; [apply IHr; auto|]. intros er Gr. cbn [safe]. now apply good_app. }
    intros e1 G1. cbn [safe]. rewrite app_assoc. apply good_wrap; auto; [constructor|]. apply good_app; [|exact G1].
    apply good_app.
    + destruct u; [|apply good_nil]. apply good_one; [exact Hs|exact I].
    + apply good_errs. intros d Hd. rewrite Forall_forall in Hcs. apply good_one; [now apply Hcs|exact I].
  - cbn [atom_ok a_span] in Ha. destruct Ha as (_ & Hes & _).
    eapply safe_bind with (Q := good n).
    { clear Hs. induction es as [|[[key ksp] v] r IHr]; [apply good_nil|].
      inversion IH as [|? ? IHv IHr']; subst. cbn [snd] in *. cbn [All] in Hes. destruct Hes as [(Hk & Hv & _) Hr].
      eapply safe_bind; [apply IHv, Hv|]. intros evv Gv.
      eapply safe_bind; [apply IHr; auto|]. intros er Gr. cbn [safe].
      assert (mkev ksp EvEntryStart :: mkev ksp (EvKey None (Some key) Bare) :: evv ++ mkev (a_span v) EvEntryEnd :: er =
              (mkev ksp EvEntryStart :: [mkev ksp (EvKey None (Some key) Bare)] ++ evv ++ [mkev (a_span v) EvEntryEnd]) ++ er) as ->.
      { cbn. now rewrite <- !app_assoc. }
      apply good_app; [|exact Gr]. apply good_entry; auto; [now apply atom_ok_span|]. apply good_one; [exact Hk|exact I]. }
    intros e1 G1. cbn [safe]. apply good_wrap; auto. constructor.
  - cbn [atom_ok a_span] in Ha. destruct Ha as (_ & Hr & _). destruct (invesc_fits _ _ Hr) as [F1 F2].
    eapply safe_bind; [apply escape_errors_ok; eauto|]. intros e1 G1. cbn.
    apply good_app; [exact G1|]. apply good_one; [exact Hs|exact I].
  - apply good_one; [exact Hs|]. destruct (msg_is_tag m); [exact I|]. destruct (msg_is_value m); exact I.
Qed.

Lemma emit_entry_value_ok usp rest : span_in n usp -> Forall (atom_ok input) rest ->
  safe input (emit_entry_value usp rest) (good n).
Proof.
  intros Hu Hr. destruct rest as [|v more]; cbn [emit_entry_value].
  - apply good_one; [exact Hu|exact I].
  - inversion Hr as [|? ? Hv Hm]; subst. eapply safe_bind; [apply emit_value_ok, Hv|]. intros ev Gv. cbn [safe].
    apply good_app; [exact Gv|]. destruct more as [|x q]; [apply good_nil|]. inversion Hm; subst.
    apply good_one; [now apply atom_ok_span|exact I].
Qed.

Lemma last_span_in rest d : span_in n d -> Forall (atom_ok input) rest -> span_in n (last_span rest d).
Proof.
  intros Hd Hr. unfold last_span. destruct (rev rest) as [|a q] eqn:E; [exact Hd|].
  apply atom_ok_span. rewrite Forall_forall in Hr. apply Hr, in_rev. rewrite E. now left.
Qed.

Lemma emit_simple_entry_ok key rest : atom_ok input key -> Forall (atom_ok input) rest ->
  safe input (emit_simple_entry key rest) (fun l => good n l /\ l <> []).
Proof.
  intros Hk Hr. unfold emit_simple_entry. pose proof (atom_ok_span _ _ Hk).
  eapply safe_bind; [apply emit_key_ok, Hk|]. intros ek Gk.
  eapply safe_bind; [now apply emit_entry_value_ok|]. intros ev Gv. cbn [safe].
  split; [|discriminate]. apply good_entry; auto. now apply last_span_in.
Qed.

(** *** Dotted paths *)

Fixpoint seg_total (segs : list str) : nat :=
  match segs with [] => 0 | [x] => blen x | x :: r => blen x + 1 + seg_total r end.

Lemma split_on_nonempty c s : split_on c s <> [].
Proof. destruct s as [|d s]; cbn; [discriminate|]. destruct (d =? c)%N; [discriminate|]. destruct (split_on c s); discriminate. Qed.

Lemma split_on_total s : seg_total (split_on cDOT s) = blen s.
Proof.
  induction s as [|c s IH]; [reflexivity|]. cbn [split_on blen].
  pose proof (split_on_nonempty cDOT s) as Hn.
  destruct (c =? cDOT)%N eqn:E.
  - apply N.eqb_eq in E as ->. destruct (split_on cDOT s) as [|p ps]; [congruence|].
    cbn [seg_total blen] in *. rewrite IH. reflexivity.
  - destruct (split_on cDOT s) as [|p ps]; [congruence|]. destruct ps; cbn [seg_total blen] in *; lia.
Qed.

Lemma dotted_good segs off sp ev : segs <> [] -> off + seg_total segs <= n -> span_in n sp -> good n ev ->
  good n (open_segments off segs ++ ev ++ close_segments sp segs).
Proof.
  revert off. induction segs as [|s r IH]; intros off Hn Ho Hs G; [congruence|].
  cbn [open_segments close_segments].
  destruct r as [|s2 r].
  - cbn [open_segments close_segments app seg_total] in *.
    set (ksp := mkspan off (off + blen s)).
    assert (span_in n ksp) as Hk by (split; cbn; lia).
    apply (good_entry ksp sp [mkev ksp (EvKey None (Some s) Bare)] ev); auto. apply good_one; [exact Hk|exact I].
  - set (ksp := mkspan off (off + blen s)).
    assert (span_in n ksp) as Hk by (split; cbn [ksp sp_start sp_end]; cbn [seg_total] in Ho; lia).
    specialize (IH (off + blen s + 1) ltac:(discriminate) ltac:(cbn [seg_total] in Ho |- *; lia) Hs G).
    set (o := open_segments (off + blen s + 1) (s2 :: r)) in *. set (c := close_segments sp (s2 :: r)) in *.
    assert ((mkev ksp EvEntryStart :: mkev ksp (EvKey None (Some s) Bare) :: [mkev ksp EvObjStart] ++ o) ++ ev ++ c ++ [mkev sp EvObjEnd] ++ [mkev sp EvEntryEnd] =
            mkev ksp EvEntryStart :: [mkev ksp (EvKey None (Some s) Bare)] ++ (mkev ksp EvObjStart :: (o ++ ev ++ c) ++ [mkev sp EvObjEnd]) ++ [mkev sp EvEntryEnd]) as E.
    { cbn [app]. do 3 f_equal. rewrite <- !app_assoc. reflexivity. }
    refine (eq_ind_r (good n) _ E). apply good_entry; auto; [apply good_one; [exact Hk|exact I]|].
    apply good_wrap; auto. constructor.
Qed.

Lemma path_error_good e sp : span_in n sp -> good n [path_error e sp].
Proof. intros H. apply good_one; [exact H|]. destruct e; exact I. Qed.

Lemma bare_len sp v : lexeme_ok input (LxScalar sp v Bare) -> sp_start sp + blen v = sp_end sp.
Proof.
  intros (t & Ht & -> & _). unfold lexeme_text in Ht. cbn [lx_span] in Ht. apply slice_some in Ht as (x & y & E1 & E2 & E3). exact E3.
Qed.

Lemma emit_dotted_ok text sp rest path : sp_start sp + blen text = sp_end sp -> span_in n sp -> Forall (atom_ok input) rest ->
  safe input (emit_dotted text sp rest path) (fun x => good n (fst x) /\ fst x <> []).
Proof.
  intros Hl Hs Hr. unfold emit_dotted. destruct (existsb is_nil _).
  - cbn [safe fst]. split; [|discriminate]. apply good_cons; [apply good_one; [exact Hs|exact I]|].
    apply (good_wrap n _ _ sp sp []); auto; [constructor|apply good_nil].
  - assert (forall path' perr, good n perr -> safe input
      (do ev <- emit_entry_value sp rest;
       Ok (perr ++ open_segments (sp_start sp) (split_on cDOT text) ++ ev ++ close_segments sp (split_on cDOT text), path'))
      (fun x : list event * option (list pseg) => good n (fst x) /\ fst x <> [])) as Fin.
    { intros path' perr Gp. eapply safe_bind; [now apply emit_entry_value_ok|]. intros ev Gv. cbn [safe fst]. split.
      2: { pose proof (split_on_nonempty cDOT text). destruct (split_on cDOT text); [congruence|].
           cbn [open_segments]. now destruct perr. }
      apply good_app; [exact Gp|]. apply dotted_good; auto; [apply split_on_nonempty|].
      rewrite split_on_total. destruct Hs. lia. }
    destruct path as [ps|]; [|apply Fin, good_nil].
    destruct (check_and_update ps _ _ _) as [ps' [e|]]; apply Fin; [now apply path_error_good|apply good_nil].
Qed.

Lemma is_dotted_inv a v : is_dotted a = Some v -> exists sp, a = AScalar sp v Bare /\ In cDOT v.
Proof.
  destruct a as [sp v' k|sp|sp name p i esp|sp es ds dg u|sp es u cs|sp es|sp raw|sp m]; cbn; try discriminate.
  destruct k; try discriminate. destruct (contains_char cDOT v') eqn:E; [|discriminate]. intros [= <-].
  exists sp. split; [reflexivity|]. now apply contains_char_true.
Qed.

Lemma heredoc_start_span_ok sp : (exists t, slice input (sp_start sp) (sp_end sp) = Some t) ->
  exists x, heredoc_start_span input sp = Ok x /\ span_in n x.
Proof.
  intros (t & Ht). unfold heredoc_start_span. rewrite Ht. cbn [of_opt bind]. eexists. split; [reflexivity|].
  apply slice_some in Ht as (x & y & E1 & E2 & E3).
  assert (match find_lf t with Some i => i + 1 | None => blen t end <= blen t) as H.
  { clear. enough (forall i, find_lf t = Some i -> i + 1 <= blen t) as H.
    { destruct (find_lf t); [now apply H|lia]. }
    induction t as [|c t IH]; intros i; cbn [find_lf blen]; [discriminate|]. pose proof (clen_pos c).
    destruct (c =? cLF)%N; [intros [= <-]; lia|]. destruct (find_lf t) as [j|]; [|discriminate].
    cbn. intros [= <-]. specialize (IH j eq_refl). lia. }
  unfold n. rewrite E1, !blen_app. split; cbn [sp_start sp_end]; lia.
Qed.

Lemma scalar_slice sp v k : lexeme_ok input (LxScalar sp v k) -> exists t, slice input (sp_start sp) (sp_end sp) = Some t.
Proof. intros (t & Ht & _). exists t. exact Ht. Qed.

Lemma emit_at_root_ok key rest path : atom_ok input key -> Forall (atom_ok input) rest ->
  safe input (emit_at_root input key rest path) (fun x => good n (fst x) /\ fst x <> []).
Proof.
  intros Hk Hr. pose proof (atom_ok_span _ _ Hk) as Hs. unfold emit_at_root.
  eapply safe_bind with (Q := good n).
  { destruct key as [sp v k|sp|sp name p i esp|sp es ds dg u|sp es u cs|sp es|sp raw|sp m]; try apply good_nil.
    destruct k; try apply good_nil. cbn [atom_ok] in Hk. destruct Hk as [_ Hk]. apply scalar_slice in Hk.
    destruct (heredoc_start_span_ok sp Hk) as (x & -> & Hx). cbn [bind safe].
    apply good_one; [exact Hx|exact I]. }
  intros e0 G0. destruct (is_dotted key) as [v|] eqn:Ed.
  - apply is_dotted_inv in Ed as (sp & -> & _). cbn [a_span] in *. cbn [atom_ok] in Hk. destruct Hk as [_ Hk].
    eapply safe_bind; [apply emit_dotted_ok; auto; now apply bare_len|]. intros [ev p] [G Gn]. cbn [safe fst] in *.
    split; [now apply good_app|]. intros Ex; now apply app_eq_nil in Ex as [_ ?].
  - destruct (check_and_update _ _ _ _) as [path' e].
    eapply safe_bind; [now apply emit_simple_entry_ok|]. intros ev [G Gn]. cbn [safe fst] in *.
    split; [|intros Ex; apply app_eq_nil in Ex as [_ Ex]; now apply app_eq_nil in Ex as [_ ?]].
    apply good_app; [exact G0|]. apply good_app; [|exact G]. destruct e; [now apply path_error_good|apply good_nil].
Qed.

Lemma emit_in_object_ok key rest seen : atom_ok input key -> Forall (atom_ok input) rest ->
  safe input (emit_in_object key rest seen) (fun x => good n (fst x) /\ fst x <> []).
Proof.
  intros Hk Hr. pose proof (atom_ok_span _ _ Hk) as Hs. unfold emit_in_object.
  set (e0 := match key with AScalar sp _ Heredoc => _ | _ => _ end).
  assert (good n e0) as G0.
  { subst e0. destruct key as [sp v k|sp|sp name p i esp|sp es ds dg u|sp es u cs|sp es|sp raw|sp m]; try apply good_nil.
    destruct k; try apply good_nil. apply good_one; [exact Hs|exact I]. }
  destruct (is_dotted key) as [v|] eqn:Ed.
  - apply is_dotted_inv in Ed as (sp & -> & _). cbn [a_span] in *. cbn [atom_ok] in Hk. destruct Hk as [_ Hk].
    eapply safe_bind; [apply emit_dotted_ok; auto; now apply bare_len|]. intros [ev p] [G Gn]. cbn [safe fst] in *.
    split; [now apply good_app|]. intros Ex; now apply app_eq_nil in Ex as [_ ?].
  - destruct (seen_get _ _) as [o|]; (eapply safe_bind; [now apply emit_simple_entry_ok|]); intros ev [G Gn]; cbn [safe fst] in *;
      (split; [|intros Ex; apply app_eq_nil in Ex as [_ Ex]; now apply app_eq_nil in Ex as [_ ?]]); (apply good_app; [exact G0|]); (apply good_app; [|exact G]); [apply good_one; [exact Hs|exact I]|apply good_nil].
Qed.

End Emit.

(** Without unicode escapes, re-validation reports exactly the texts that have no decoding. *)
Lemma validate_iff n : forall s i, length s <= n -> ~ has_bsl_u s ->
  exists l, validate_from None i s = Ok l /\ (l = [] <-> exists v, decodes s v).
Proof.
  induction n as [|n IH]; intros s i Hl Hu.
  { destruct s; [|cbn in Hl; lia]. exists []. split; [reflexivity|]. split; [|auto]. intros _. exists []. constructor. }
  destruct s as [|c r]. { exists []. split; [reflexivity|]. split; [|auto]. intros _. exists []. constructor. }
  cbn [length] in Hl. cbn [validate_from]. destruct (c =? cBSL)%N eqn:E1; cbn [negb].
  - apply N.eqb_eq in E1 as ->. destruct r as [|d r1].
    { eexists. split; [reflexivity|]. split; [discriminate|]. intros [v Hv]. now apply decodes_bsl_end in Hv. }
    cbn [length] in Hl.
    assert (~ has_bsl_u r1) as Hu1. { intros H. apply Hu. now do 2 apply has_bsl_u_cons. }
    assert (d <> cu) as Hd. { intros ->. apply Hu. now exists [], r1. }
    destruct ((d =? cn) || (d =? cr) || (d =? ct) || (d =? cBSL) || (d =? cDQ))%N eqn:E2.
    + destruct (IH r1 (i + 2) ltac:(lia) Hu1) as (l & -> & Hl'). exists l. split; [reflexivity|]. rewrite Hl'.
      split.
      * intros [v Hv]. assert (exists c, In (d, c) [(cBSL, cBSL); (cDQ, cDQ); (cn, cLF); (cr, cCR); (ct, cTAB)]) as [c Hc].
        { rewrite !orb_true_iff, !N.eqb_eq in E2. destruct E2 as [[[[-> | ->]| ->]| ->]| ->]; eexists; cbn; eauto 9. }
        exists (c :: v). now apply dec_simple.
      * intros [v Hv]. apply decodes_bsl_inv in Hv as (c & v' & _ & _ & Hv); eauto.
    + apply N.eqb_neq in Hd as Hd'. rewrite Hd'. unfold emit_esc.
      destruct (IH r1 (i + 1 + clen d) ltac:(lia) Hu1) as (l & -> & _). eexists. split; [reflexivity|]. split; [discriminate|].
      intros [v Hv]. apply decodes_bsl_inv in Hv as (c & v' & Hin & _); [|exact Hd]. cbn in Hin.
      repeat (destruct Hin as [Hin|Hin]; [injection Hin as <- <-; discriminate E2|]). contradiction.
  - apply N.eqb_neq in E1. destruct (IH r (i + clen c) ltac:(lia)) as (l & -> & Hl').
    { intros H. now apply Hu, has_bsl_u_cons. }
    exists l. split; [reflexivity|]. rewrite Hl'. split.
    + intros [v Hv]. exists (c :: v). now constructor.
    + intros [v Hv]. apply decodes_plain_inv in Hv as (v' & _ & Hv); eauto.
Qed.

Lemma validate_escapes_iff s : ~ has_bsl_u s ->
  exists l, validate_escapes s = Ok l /\ (l = [] <-> exists v, decodes s v).
Proof. intros H. apply (validate_iff (length s)); auto. Qed.
