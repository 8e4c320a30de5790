(** The lexer's escape decoder computes [decodes]. *)
From Verif Require Import Base BaseProofs TokModel LexModel LexSpec.

Lemma is_hex_iff c : is_hex c = true <-> hex_char c.
Proof.
  unfold is_hex, hex_char, is_digit, in_range.
  rewrite !orb_true_iff, !andb_true_iff, !N.leb_le. lia.
Qed.

Lemma is_hex_false c : is_hex c = false <-> ~ hex_char c.
Proof. rewrite <- is_hex_iff. destruct (is_hex c); intuition congruence. Qed.

Lemma hex_digit_some c : hex_char c -> hex_digit c = Some (hex_val c).
Proof.
  unfold hex_char, hex_digit, hex_val, is_digit, in_range. intros H.
  destruct (N.leb_spec c 57).
  - replace (48 <=? c)%N with true by (symmetry; apply N.leb_le; lia). reflexivity.
  - rewrite andb_false_r. destruct (N.leb_spec c 70).
    + replace (65 <=? c)%N with true by (symmetry; apply N.leb_le; lia). reflexivity.
    + rewrite andb_false_r. replace (97 <=? c)%N with true by (symmetry; apply N.leb_le; lia).
      replace (c <=? 102)%N with true by (symmetry; apply N.leb_le; lia). reflexivity.
Qed.

Lemma hex_fold_ge s a : (a <= fold_left (fun a c => a * 16 + hex_val c) s a)%N.
Proof. revert a. induction s as [|c s IH]; intros a; cbn [fold_left]; [lia|]. specialize (IH (a * 16 + hex_val c)%N). lia. Qed.

Lemma hex_value_fold s a : Forall hex_char s ->
  (a < 4294967296)%N ->
  hex_value a s = let v := fold_left (fun a c => a * 16 + hex_val c)%N s a in
                  if (v <? 4294967296)%N then Some v else None.
Proof.
  revert a. induction s as [|c s IH]; intros a Hs Ha; cbn [hex_value fold_left].
  - cbn zeta. now apply N.ltb_lt in Ha as ->.
  - inversion Hs as [|? ? Hc Hs']; subst. rewrite hex_digit_some by assumption. cbn zeta.
    destruct (N.ltb_spec (a * 16 + hex_val c) 4294967296).
    + now apply IH.
    + pose proof (hex_fold_ge s (a * 16 + hex_val c)%N). 
      replace (_ <? _)%N with false; [reflexivity|]. symmetry. apply N.ltb_ge. lia.
Qed.

Lemma valid_char_small n : valid_char n = true -> (n < 4294967296)%N.
Proof. unfold valid_char. intros H. repeat (apply orb_prop in H as [H|H] || apply andb_prop in H as [? H]);
  repeat match goal with H : (_ <? _)%N = true |- _ => apply N.ltb_lt in H | H : (_ <=? _)%N = true |- _ => apply N.leb_le in H end; lia. Qed.

Lemma parse_hex_num s : s <> [] -> Forall hex_char s ->
  parse_hex s = if (hex_num s <? 4294967296)%N then Some (hex_num s) else None.
Proof.
  intros Hn Hs. destruct s as [|c s]; [congruence|]. unfold parse_hex.
  replace (c =? 43)%N with false.
  - rewrite hex_value_fold by (auto; lia). reflexivity.
  - symmetry. apply N.eqb_neq. inversion Hs as [|? ? Hc]; subst. unfold hex_char in Hc. lia.
Qed.

(** What follows an opened [\u{]. *)
Definition brace_rest (hex s v : str) : Prop :=
  exists h s', s = h ++ cRB :: s' /\ hex ++ h <> [] /\ Forall hex_char h /\
    valid_char (hex_num (hex ++ h)) = true /\ exists v', v = hex_num (hex ++ h) :: v' /\ decodes s' v'.

Lemma app_not_nil {A} (a b : list A) c : (a ++ [c]) ++ b <> [].
Proof. destruct a; discriminate. Qed.

Lemma brace_rest_step hex c s v : c <> cRB -> brace_rest hex (c :: s) v <-> hex_char c /\ brace_rest (hex ++ [c]) s v.
Proof.
  intros Hc. unfold brace_rest. split.
  - intros (h & s' & E & Hn & Hh & Hv & v' & Ev & Hd). destruct h as [|x h]; cbn in E; injection E as E1 E2; [congruence|].
    subst. inversion Hh; subst. split; [assumption|]. exists h, s'. rewrite <- app_assoc. cbn [app].
    splits; auto. eauto.
  - intros (H & h & s' & -> & Hn & Hh & Hv & v' & -> & Hd). rewrite <- app_assoc in *. cbn [app] in *.
    exists (c :: h), s'. splits; auto. eauto.
Qed.

Lemma brace_rest_close hex s v : Forall hex_char hex -> brace_rest hex (cRB :: s) v <->
  hex <> [] /\ valid_char (hex_num hex) = true /\ exists v', v = hex_num hex :: v' /\ decodes s v'.
Proof.
  intros Hx. unfold brace_rest. split.
  - intros (h & s' & E & Hn & Hh & Hv & v' & Ev & Hd). destruct h as [|x h]; cbn in E.
    + injection E as E2. rewrite app_nil_r in *. subst. eauto.
    + injection E as E1 E2. subst. inversion Hh as [|? ? Hbad]; subst. unfold hex_char in Hbad. lia.
  - intros (Hn & Hv & v' & -> & Hd). exists [], s. rewrite app_nil_r. splits; auto. eauto.
Qed.

Definition cons_res {E} c (r : str + E) := cons_ok c r.

Lemma cons_ok_inl {E} c (r : str + E) v : cons_ok c r = inl v <-> exists v', r = inl v' /\ v = c :: v'.
Proof.
  destruct r as [s|e]; cbn.
  - split; [injection 1 as <-; eauto|]. intros (v' & [= <-] & ->). reflexivity.
  - split; [discriminate|]. intros (v' & [=] & _).
Qed.

Lemma decodes_nil_inv v : decodes [] v <-> v = [].
Proof. split; [inversion 1; reflexivity|intros ->; constructor]. Qed.

Lemma decodes_plain_inv c s v : c <> cBSL -> decodes (c :: s) v <-> exists v', v = c :: v' /\ decodes s v'.
Proof.
  intros Hc. split.
  - inversion 1; subst; try congruence. eauto.
  - intros (v' & -> & Hd). now constructor.
Qed.

Lemma decodes_bsl_inv d s v : d <> cu -> decodes (cBSL :: d :: s) v <->
  exists c v', In (d, c) [(cBSL, cBSL); (cDQ, cDQ); (cn, cLF); (cr, cCR); (ct, cTAB)] /\ v = c :: v' /\ decodes s v'.
Proof.
  intros Hd. split.
  - inversion 1; subst; try congruence. eauto.
  - intros (c & v' & Hin & -> & Hs). now apply dec_simple.
Qed.

Lemma decodes_u_brace_inv s v : decodes (cBSL :: cu :: cLB :: s) v <-> brace_rest [] s v.
Proof.
  unfold brace_rest. cbn [app]. split.
  - inversion 1 as [|? ? ? Hne|? ? ? ? Hin|h s' v' Hl Hh|h s' v' Hn Hh Hv Hd]; subst.
    + congruence.
    + cbn in Hin. repeat (destruct Hin as [Hin|Hin]; [discriminate|]). contradiction.
    + destruct h as [|x h]; [discriminate|]. cbn in *.
      match goal with E : _ :: _ = _ :: _ |- _ => injection E as E1 E2 end. subst.
      inversion Hh as [|? ? Hbad]; subst. unfold hex_char in Hbad. lia.
    + exists h, s'. splits; auto. eauto.
  - intros (h & s' & -> & Hn & Hh & Hv & v' & -> & Hd). now apply dec_brace.
Qed.

Lemma decodes_u_inv e s v : e <> cLB -> decodes (cBSL :: cu :: e :: s) v <->
  exists h s' v', e :: s = h ++ s' /\ length h = 4 /\ Forall hex_char h /\ valid_char (hex_num h) = true /\
    v = hex_num h :: v' /\ decodes s' v'.
Proof.
  intros He. split.
  - inversion 1 as [|? ? ? Hne|? ? ? ? Hin|h s' v' Hl Hh|h s' v' Hn Hh Hv Hd]; subst.
    + congruence.
    + cbn in Hin. repeat (destruct Hin as [Hin|Hin]; [discriminate|]). contradiction.
    + exists h, s', v'. splits; auto.
    + congruence.
  - intros (h & s' & v' & -> & Hl & Hh & Hv & -> & Hd). now apply dec_u4.
Qed.

Lemma decodes_u_end v : ~ decodes [cBSL; cu] v.
Proof.
  inversion 1 as [|? ? ? Hne|? ? ? ? Hin|h s' v' Hl Hh|h s' v' Hn Hh Hv Hd]; subst.
  - congruence.
  - cbn in Hin. repeat (destruct Hin as [Hin|Hin]; [discriminate|]). contradiction.
  - destruct h; discriminate.
Qed.

Lemma decodes_bsl_end v : ~ decodes [cBSL] v.
Proof. inversion 1; subst. congruence. Qed.

Lemma unescape_lex_spec n : forall s, length s <= n ->
  (forall v, unescape_lex None s = inl v <-> decodes s v) /\
  (forall hex v, Forall hex_char hex -> unescape_lex (Some hex) s = inl v <-> brace_rest hex s v).
Proof.
  induction n as [|n IH]; intros s Hl.
  { destruct s; [|cbn in Hl; lia]. split.
    - intros v. cbn [unescape_lex]. rewrite decodes_nil_inv. split; [now intros [=]|now intros ->].
    - intros hex v _. cbn [unescape_lex]. split; [discriminate|]. intros (h & s' & E & _). destruct h; discriminate. }
  destruct s as [|c s].
  { apply IH. cbn. lia. }
  cbn [length] in Hl. split.
  - intros v. cbn [unescape_lex]. destruct (N.eqb_spec c cBSL) as [->|Hc]; cbn [negb].
    2:{ rewrite decodes_plain_inv, cons_ok_inl by assumption. destruct (IH s ltac:(lia)) as [IHs _].
        split; intros (v' & H1 & H2); exists v'; split; auto; now apply IHs. }
    destruct s as [|d s].
    { split; [discriminate|]. intros H. now apply decodes_bsl_end in H. }
    cbn [length] in Hl.
    assert (forall c0, In (d, c0) [(cBSL, cBSL); (cDQ, cDQ); (cn, cLF); (cr, cCR); (ct, cTAB)] -> d <> cu ->
       (forall c1, In (d, c1) [(cBSL, cBSL); (cDQ, cDQ); (cn, cLF); (cr, cCR); (ct, cTAB)] -> c1 = c0) ->
       cons_ok c0 (unescape_lex None s) = inl v <-> decodes (cBSL :: d :: s) v) as Simple.
    { intros c0 Hin Hd Huniq. rewrite decodes_bsl_inv, cons_ok_inl by assumption. destruct (IH s ltac:(lia)) as [IHs _]. split.
      - intros (v' & H1 & ->). exists c0, v'. splits; auto. now apply IHs.
      - intros (c1 & v' & H1 & -> & H2). apply Huniq in H1 as ->. exists v'. split; [now apply IHs|reflexivity]. }
    destruct (N.eqb_spec d cBSL) as [->|?].
    { apply Simple; [cbn; tauto|congruence|]. intros c1. cbn. intuition congruence. }
    destruct (N.eqb_spec d cDQ) as [->|?].
    { apply Simple; [cbn; tauto|congruence|]. intros c1. cbn. intuition congruence. }
    destruct (N.eqb_spec d cn) as [->|?].
    { apply Simple; [cbn; tauto|congruence|]. intros c1. cbn. intuition congruence. }
    destruct (N.eqb_spec d cr) as [->|?].
    { apply Simple; [cbn; tauto|congruence|]. intros c1. cbn. intuition congruence. }
    destruct (N.eqb_spec d ct) as [->|?].
    { apply Simple; [cbn; tauto|congruence|]. intros c1. cbn. intuition congruence. }
    destruct (N.eqb_spec d cu) as [->|?].
    2:{ split; [discriminate|]. rewrite decodes_bsl_inv by assumption. intros (c & v' & Hin & _).
        cbn in Hin. intuition congruence. }
    destruct s as [|e s].
    { split; [discriminate|]. intros H. now apply decodes_u_end in H. }
    cbn [length] in Hl. destruct (N.eqb_spec e cLB) as [->|He].
    { rewrite decodes_u_brace_inv. destruct (IH s ltac:(lia)) as [_ IHs]. apply IHs. constructor. }
    rewrite decodes_u_inv by assumption.
    destruct s as [|h2 [|h3 [|h4 s]]];
      try (split; [discriminate|]; intros (h & s' & v' & E & Hlen & _); apply (f_equal (@length N)) in E;
           rewrite app_length in E; cbn in E; lia).
    cbn [length] in Hl. destruct (is_hex e && is_hex h2 && is_hex h3 && is_hex h4) eqn:Eh.
    + apply andb_prop in Eh as [Eh H4]. apply andb_prop in Eh as [Eh H3]. apply andb_prop in Eh as [H1 H2].
      apply is_hex_iff in H1, H2, H3, H4.
      assert (Forall hex_char [e; h2; h3; h4]) as Hf by auto.
      rewrite parse_hex_num by (auto; discriminate).
      destruct (IH s ltac:(lia)) as [IHs _].
      assert ((exists h s' v', e :: h2 :: h3 :: h4 :: s = h ++ s' /\ length h = 4 /\ Forall hex_char h /\
                valid_char (hex_num h) = true /\ v = hex_num h :: v' /\ decodes s' v') <->
              (valid_char (hex_num [e; h2; h3; h4]) = true /\ exists v', v = hex_num [e; h2; h3; h4] :: v' /\ decodes s v')) as ->.
      { split.
        - intros (h & s' & v' & E & Hlen & _ & Hv & -> & Hd).
          destruct h as [|? [|? [|? [|? [|]]]]]; try discriminate. cbn in E. injection E as -> -> -> -> ->. eauto.
        - intros (Hv & v' & -> & Hd). exists [e; h2; h3; h4], s, v'. splits; auto. }
      destruct (N.ltb_spec (hex_num [e; h2; h3; h4]) 4294967296).
      * unfold char_from. destruct (valid_char (hex_num [e; h2; h3; h4])) eqn:Ev.
        -- rewrite cons_ok_inl. split.
           ++ intros (v' & Hu & ->). split; auto. exists v'. split; auto. now apply IHs.
           ++ intros (_ & v' & -> & Hd). exists v'. split; auto. now apply IHs.
        -- split; [discriminate|]. intros (? & _). discriminate.
      * split; [discriminate|]. intros (Hv & _). apply valid_char_small in Hv. lia.
    + split; [discriminate|]. intros (h & s' & v' & E & Hlen & Hh & _).
      destruct h as [|? [|? [|? [|? [|]]]]]; try discriminate. cbn in E. injection E as -> -> -> -> ->.
      inversion Hh as [|? ? A1 Hh1]; subst. inversion Hh1 as [|? ? A2 Hh2]; subst. inversion Hh2 as [|? ? A3 Hh3]; subst.
      inversion Hh3 as [|? ? A4 Hh4]; subst.
      apply is_hex_iff in A1, A2, A3, A4. rewrite A1, A2, A3, A4 in Eh. discriminate.
  - intros hex v Hx. cbn [unescape_lex]. destruct (N.eqb_spec c cRB) as [->|Hc].
    + rewrite brace_rest_close by assumption. destruct (IH s ltac:(lia)) as [IHs _].
      destruct hex as [|x hex].
      { cbn. split; [discriminate|]. intros (? & _). congruence. }
      rewrite parse_hex_num by (auto; discriminate).
      destruct (N.ltb_spec (hex_num (x :: hex)) 4294967296).
      * unfold char_from. destruct (valid_char (hex_num (x :: hex))) eqn:Ev.
        -- rewrite cons_ok_inl. split.
           ++ intros (v' & Hu & ->). splits; auto; [discriminate|]. exists v'. split; auto. now apply IHs.
           ++ intros (_ & _ & v' & -> & Hd). exists v'. split; auto. now apply IHs.
        -- split; [discriminate|]. intros (_ & ? & _). discriminate.
      * split; [discriminate|]. intros (_ & Hv & _). apply valid_char_small in Hv. lia.
    + rewrite brace_rest_step by assumption. destruct (is_hex c) eqn:Eh.
      * apply is_hex_iff in Eh. destruct (IH s ltac:(lia)) as [_ IHs].
        rewrite IHs by (apply Forall_app; auto). tauto.
      * apply is_hex_false in Eh. split; [discriminate|]. intros (? & _). contradiction.
Qed.

Lemma unescape_lex_decodes s v : unescape_lex None s = inl v <-> decodes s v.
Proof. apply (unescape_lex_spec (length s) s (le_n _)). Qed.

Lemma decodes_no_bsl s v : ~ In cBSL s -> decodes s v <-> v = s.
Proof.
  revert v. induction s as [|c s IH]; intros v Hn; [apply decodes_nil_inv|].
  rewrite decodes_plain_inv by (intros ->; apply Hn; now left). split.
  - intros (v' & -> & Hd). apply IH in Hd as ->; [reflexivity|]. intros Hi. apply Hn. now right.
  - intros ->. exists s. split; [reflexivity|]. apply IH; [|reflexivity]. intros Hi. apply Hn. now right.
Qed.

Lemma contains_char_false x s : contains_char x s = false <-> ~ In x s.
Proof.
  unfold contains_char. induction s as [|c s IH]; cbn; [tauto|].
  rewrite orb_false_iff, IH, N.eqb_neq. intuition congruence.
Qed.

Lemma contains_char_true x s : contains_char x s = true <-> In x s.
Proof.
  destruct (contains_char x s) eqn:E; [|apply contains_char_false in E; intuition discriminate].
  split; [|auto]. intros _. unfold contains_char in E. apply existsb_exists in E as (y & H & He).
  apply N.eqb_eq in He. now subst.
Qed.

Lemma process_escapes_decodes s v : process_escapes s = inl v <-> decodes s v.
Proof.
  unfold process_escapes. destruct (contains_char cBSL s) eqn:E; [apply unescape_lex_decodes|].
  apply contains_char_false in E. rewrite decodes_no_bsl by assumption. split; [now intros [=]|now intros ->].
Qed.

Lemma process_escapes_err s m : process_escapes s = inr m -> forall v, ~ decodes s v.
Proof. intros H v Hd. apply process_escapes_decodes in Hd. congruence. Qed.

Lemma decodes_fun s v1 v2 : decodes s v1 -> decodes s v2 -> v1 = v2.
Proof. rewrite <- !process_escapes_decodes. congruence. Qed.
