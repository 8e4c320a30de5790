(** Duplicate keys inside braces: the reported duplicates are the repeated keys. *)
From Verif Require Import Base BaseProofs TokModel TokProofs LexModel LexSpec EscapeProofs LexProofs ParseModel ParseSpec ParseProofs EmitProofs RunProofs.

Section Dup.
Variable src : str.

(** ** The observer *)

Lemma drun_app st a b : drun src st (a ++ b) =
  let (st1, r1) := drun src st a in let (st2, r2) := drun src st1 b in (st2, r1 ++ r2).
Proof.
  revert st. induction a as [|e a IH]; intros st; cbn [app drun].
  - now destruct (drun src st b).
  - destruct (dstep src st e) as [st1 r1]. rewrite IH. destruct (drun src st1 a) as [st2 r2].
    destruct (drun src st2 b) as [st3 r3]. now rewrite app_assoc.
Qed.

(** From [st] to [st'], with correct reports on the way. *)
Definition goes (st : list dframe) (evs : list event) (st' : list dframe) : Prop :=
  exists R, drun src st evs = (st', R) /\ Forall (report_ok src) R.

Lemma goes_nil st : goes st [] st.
Proof. exists []. split; [reflexivity|constructor]. Qed.

Lemma goes_app st st1 st2 a b : goes st a st1 -> goes st1 b st2 -> goes st (a ++ b) st2.
Proof.
  intros (r1 & E1 & H1) (r2 & E2 & H2). exists (r1 ++ r2). split; [|now apply Forall_app].
  now rewrite drun_app, E1, E2.
Qed.

Lemma goes_step st st1 st2 e b : dstep src st e = (st1, []) -> goes st1 b st2 -> goes st (e :: b) st2.
Proof.
  intros E (r2 & E2 & H2). exists r2. split; [|exact H2]. cbn [drun]. now rewrite E, E2.
Qed.

Lemma goes_one st st1 e : dstep src st e = (st1, []) -> goes st [e] st1.
Proof. intros E. apply (goes_step _ _ _ _ _ E), goes_nil. Qed.

(** Events that never matter. *)
Definition mute (e : event) : Prop :=
  match ev_kind e with
  | EvComment _ | EvDoc _ | EvScalar _ _ | EvUnit | EvDocStart | EvDocEnd => True
  | EvError (EDuplicateKey _) => False
  | EvError _ => True
  | _ => False
  end.

Lemma mute_step st e : mute e -> dstep src st e = (st, []).
Proof.
  unfold mute, dstep. destruct (ev_kind e); try contradiction; try (intros _; destruct st as [|[]]; reflexivity).
  destruct e0; try contradiction; intros _; reflexivity.
Qed.

Lemma goes_mute st evs : Forall mute evs -> goes st evs st.
Proof.
  induction 1 as [|e r H _ IH]; [apply goes_nil|]. apply (goes_step _ st); [now apply mute_step|exact IH].
Qed.

Lemma plain_mute n evs : Forall (plain_ev n) evs -> Forall mute evs.
Proof.
  apply Forall_impl. intros e [_ H]. unfold mute. destruct (ev_kind e); auto. destruct e0; auto.
Qed.

Lemma escape_errors_mute base t l : escape_errors base t = Ok l -> Forall mute l.
Proof.
  unfold escape_errors. destruct (validate_escapes t); cbn [bind]; try discriminate. intros [= <-].
  apply Forall_forall. intros e He. apply in_map_iff in He as (x & <- & _). exact I.
Qed.

(** ** Keys *)

Definition kv_of (k : ekey) : keyval :=
  match k with
  | (None, Some v) => KScalar v
  | (None, None) => KUnit
  | (Some n, Some v) => KTagged n (Some (KScalar v))
  | (Some n, None) => KTagged n None
  end.

Lemma kv_of_inj a b : kv_of a = kv_of b -> a = b.
Proof. destruct a as [[?|] [?|]], b as [[?|] [?|]]; cbn; congruence. Qed.

(** The observed key belongs to the parser's key. *)
Definition key_rel (k : okey) (sp : span) (kv : keyval) : Prop :=
  forall ek kd, k = Some (ek, kd) -> plain_key src (ek, kd) sp -> kv = kv_of ek.

Lemma key_goes a l esp p r : atom_ok src a -> emit_key a = Ok l ->
  exists k, goes (DEntry esp None p :: r) l (DEntry esp k p :: r) /\ key_rel k (a_span a) (key_of_atom a).
Proof.
  intros Ha E.
  destruct a as [sp v k|sp|sp name pl i ex|sp es ds dg u|sp es u cs|sp es|sp raw|sp m]; cbn [emit_key a_span key_of_atom] in *.
  - injection E as <-. eexists. split; [apply goes_one; reflexivity|]. intros ek kd [= <- <-] _. reflexivity.
  - injection E as <-. eexists. split; [apply goes_one; reflexivity|]. intros ek kd [= <- <-] _. reflexivity.
  - set (e0 := if i then _ else _) in E. assert (Forall mute e0) as M0.
    { subst e0. destruct i; constructor; [exact I|constructor]. }
    destruct pl as [inner|].
    2: { injection E as <-. eexists. split; [eapply goes_app; [now apply goes_mute|apply goes_one; reflexivity]|].
         intros ek kd [= <- <-] []. }
    assert (forall bad, Forall mute bad -> l = e0 ++ bad -> exists k, goes (DEntry esp None p :: r) l (DEntry esp k p :: r) /\
      key_rel k sp (KTagged name (option_map key_of_atom (Some inner)))) as Bad.
    { intros bad Hb ->. exists None. split; [apply goes_mute, Forall_app; auto|]. intros ek kd [=]. }
    destruct inner as [isp v k|isp|isp name' p' i' esp'|isp es ds dg u|isp es u cs|isp es|isp raw|isp m]; cbn [a_span] in E;
      try (injection E as <-; eapply Bad; [|reflexivity]; constructor; [exact I|constructor]).
    + set (x := match k with Quoted => _ | _ => _ end) in E. destruct x as [e1| |] eqn:Ex; cbn [bind] in E; try discriminate.
      injection E as <-. eexists. split.
      * assert (Forall mute e1) as M1.
        { subst x. destruct k; try (injection Ex as <-; constructor). now apply escape_errors_mute in Ex. }
        eapply goes_app; [now apply goes_mute|]. eapply goes_app; [now apply goes_mute|]. apply goes_one. reflexivity.
      * intros ek kd [= <- <-] _. reflexivity.
    + injection E as <-. eexists. split; [eapply goes_app; [now apply goes_mute|apply goes_one; reflexivity]|].
      intros ek kd [= <- <-] [].
  - injection E as <-. exists None. split; [apply goes_one; reflexivity|]. intros ek kd [=].
  - injection E as <-. exists None. split; [apply goes_one; reflexivity|]. intros ek kd [=].
  - injection E as <-. exists None. split; [apply goes_one; reflexivity|]. intros ek kd [=].
  - destruct (escape_errors (sp_start sp + 1) raw) as [e1| |] eqn:Ex; cbn [bind] in E; try discriminate. injection E as <-.
    eexists. split.
    + eapply goes_app; [apply goes_mute; now apply escape_errors_mute in Ex|apply goes_one; reflexivity].
    + intros ek kd [= <- <-] (a & Hs & Hd). exfalso. cbn [atom_ok a_span] in Ha. destruct Ha as (_ & H1 & H2).
      rewrite H1 in Hs. injection Hs as Hs. apply app_inv_tail in Hs as <-. now apply H2 in Hd.
  - injection E as <-. exists None. split.
    + apply goes_mute. constructor; [|constructor]. destruct (msg_is_tag m); exact I.
    + intros ek kd [=].
Qed.

(** ** Keys of an object *)

Definition keys_rel (ks : list (okey * span)) (kvs : list (keyval * span)) : Prop :=
  Forall2 (fun x y => snd x = snd y /\ key_rel (fst x) (snd x) (fst y)) ks kvs.

Lemma first_at_inj prev k o : first_at (map (fun x : ekey * span => (kv_of (fst x), snd x)) prev) (kv_of k) o -> first_at prev k o.
Proof.
  intros (a & b & E & H). apply map_eq_app in E as (a' & b' & -> & Ea & Eb).
  destruct b' as [|[k' o'] b']; [discriminate|]. cbn in Eb. injection Eb as Ek -> Eb. apply kv_of_inj in Ek as ->.
  exists a', b'. split; [reflexivity|]. intros o1 Hin. apply (H o1). subst a. apply in_map_iff. now exists (k, o1).
Qed.

Lemma dups_inj ks : forall prev ds,
  dups_spec (map (fun x : ekey * span => (kv_of (fst x), snd x)) prev) (map (fun x => (kv_of (fst x), snd x)) ks) ds ->
  dups_spec prev ks ds.
Proof.
  induction ks as [|[k s] r IH]; intros prev ds H; [exact H|].
  cbn [map dups_spec fst snd] in *.
  assert (map (fun x : ekey * span => (kv_of (fst x), snd x)) prev ++ [(kv_of k, s)] =
          map (fun x => (kv_of (fst x), snd x)) (prev ++ [(k, s)])) as E by now rewrite map_app.
  rewrite E in H. destruct H as [(o & ds' & H1 & -> & H2)|[H1 H2]].
  - left. exists o, ds'. splits; auto. now apply first_at_inj.
  - right. split; auto. intros o Hin. apply (H1 o). apply in_map_iff. now exists (k, o).
Qed.

Lemma report_from ks kvs ds : keys_rel ks kvs -> dups_spec [] kvs ds -> report_ok src (ks, ds).
Proof.
  intros Hr Hd ks' E Hp. cbn [fst snd] in *. apply (dups_inj _ []). cbn [map].
  replace (map (fun x : ekey * span => (kv_of (fst x), snd x)) (map (fun x : ekey * skind * span => (fst (fst x), snd x)) ks')) with kvs; [exact Hd|].
  clear Hd. revert kvs ks Hr E. induction ks' as [|[[ek kd] sp] r IH]; intros kvs ks Hr E; subst ks.
  - inversion Hr. reflexivity.
  - cbn [map fst snd] in *. inversion Hr as [|x y l l' [H1 H2] H3]; subst. inversion Hp as [|? ? Hp1 Hp2]; subst.
    cbn [fst snd] in *. specialize (IH Hp2 l' _ H3 eq_refl). rewrite <- IH. f_equal.
    destruct y as [kv sp']. cbn in *. subst sp'. f_equal. now apply (H2 ek kd).
Qed.

(** ** Values *)

Lemma same_span_neq a b : a <> b -> same_span a b = false.
Proof.
  intros H. unfold same_span. destruct (Nat.eqb_spec (sp_start a) (sp_start b)); [|reflexivity].
  destruct (Nat.eqb_spec (sp_end a) (sp_end b)); [|reflexivity]. exfalso. apply H. destruct a, b; cbn in *; congruence.
Qed.

Lemma at_brace_true sp : slice src (sp_start sp) (sp_start sp + 1) = Some [cLB] -> sp_start sp < sp_end sp -> at_brace src sp = true.
Proof. intros H1 H2. unfold at_brace. rewrite H1. apply Nat.ltb_lt in H2. now rewrite H2. Qed.

Lemma at_brace_false sp : slice src (sp_start sp) (sp_start sp + 1) <> Some [cLB] -> at_brace src sp = false.
Proof.
  intros H1. unfold at_brace. destruct (_ <? _); [|reflexivity]. cbn.
  destruct (slice src (sp_start sp) (sp_start sp + 1)) as [[|c [|d t]]|]; try reflexivity.
  destruct (N.eqb_spec c cLB) as [->|]; [exfalso; now apply H1|reflexivity].
Qed.

Definition top_apart (st : list dframe) (a : atom) : Prop :=
  match st with DEntry esp _ _ :: _ => apart esp a | _ => True end.

Lemma obj_start st sp : (at_brace src sp = true \/ match st with DEntry esp _ _ :: _ => sp <> esp | _ => True end) ->
  dstep src st (mkev sp EvObjStart) = (DObj (at_brace src sp) [] [] :: st, []).
Proof.
  intros H. unfold dstep. cbn [ev_kind ev_span]. destruct st as [|[b ks ds|esp k p|] r]; try reflexivity.
  destruct H as [H|H]; [now rewrite H|]. rewrite same_span_neq by exact H. now rewrite andb_false_r.
Qed.

Lemma goes_entry b ks ds r sp esp ek ev k :
  goes (DEntry sp None false :: DObj b ks ds :: r) ek (DEntry sp k false :: DObj b ks ds :: r) ->
  goes (DEntry sp k false :: DObj b ks ds :: r) ev (DEntry sp k false :: DObj b ks ds :: r) ->
  goes (DObj b ks ds :: r) (mkev sp EvEntryStart :: ek ++ ev ++ [mkev esp EvEntryEnd]) (DObj b (ks ++ [(k, sp)]) ds :: r).
Proof.
  intros H1 H2. eapply goes_step; [reflexivity|]. eapply goes_app; [exact H1|]. eapply goes_app; [exact H2|].
  apply goes_one. reflexivity.
Qed.

Lemma goes_obj b ks ds st sp evs esp : goes (DObj b [] [] :: st) evs (DObj b ks ds :: st) -> report_ok src (ks, ds) ->
  dstep src st (mkev sp EvObjStart) = (DObj b [] [] :: st, []) ->
  goes st (mkev sp EvObjStart :: evs ++ [mkev esp EvObjEnd]) st.
Proof.
  intros H1 Hr Hs. eapply goes_step; [exact Hs|]. eapply goes_app; [exact H1|].
  exists (if b then [(ks, ds)] else []). split; [cbn; now rewrite app_nil_r|]. destruct b; constructor; auto.
Qed.

Lemma goes_dups b ks r (dups : list (span * span)) : forall ds,
  goes (DObj b ks ds :: r) (map (fun d => mkerr (snd d) (EDuplicateKey (fst d))) dups) (DObj b ks (ds ++ dups) :: r).
Proof.
  induction dups as [|[o s] q IH]; intros ds; cbn [map].
  - rewrite app_nil_r. apply goes_nil.
  - eapply goes_step; [reflexivity|]. cbn [ev_span mkerr fst snd]. specialize (IH (ds ++ [(o, s)])).
    rewrite <- app_assoc in IH. exact IH.
Qed.

Lemma value_goes a : forall l st, atom_ok src a -> emit_value a = Ok l -> top_apart st a -> goes st l st.
Proof.
  induction a as [sp v k|sp|sp name i esp|sp name p i esp IH|sp es ds dg u IH|sp es u cs IH|sp es IH|sp raw|sp m] using atom_ind';
    intros l st Ha E Hap; cbn [emit_value] in E.
  - injection E as <-. apply goes_mute. repeat constructor.
  - injection E as <-. apply goes_mute. repeat constructor.
  - injection E as <-. eapply goes_app; [apply goes_mute; destruct i; repeat constructor|].
    eapply goes_step; [reflexivity|]. apply goes_one. reflexivity.
  - destruct (emit_value p) as [e1| |] eqn:E1; cbn [bind] in E; try discriminate. injection E as <-.
    cbn [atom_ok a_span] in Ha. destruct Ha as (_ & _ & Hp).
    eapply goes_app; [apply goes_mute; destruct i; repeat constructor|].
    eapply goes_step; [reflexivity|]. eapply goes_app; [apply IH; auto; exact I|]. apply goes_one. reflexivity.
  - cbn [atom_ok a_span] in Ha. destruct Ha as (_ & Hes & Hb & Hlt & Hds & _).
    match type of E with context[bind ?x] => set (body := x) in E; destruct body as [e1| |] eqn:Eb end; cbn [bind] in E; try discriminate.
    injection E as <-. subst body.
    assert (forall ks kvs, keys_rel ks kvs -> exists ks', keys_rel ks' (kvs ++ entry_keys es) /\
      goes (DObj true ks ds :: st) e1 (DObj true ks' ds :: st)) as Hent.
    { clear Hds Hap. revert e1 Eb. induction es as [|[[[key value] doc] tm] r IHr]; intros e1 Eb ks kvs Hks.
      { injection Eb as <-. exists ks. unfold entry_keys. cbn [map]. rewrite app_nil_r. split; [exact Hks|apply goes_nil]. }
      inversion IH as [|? ? [_ IHv] IHr']; subst. cbn [fst snd] in *.
      cbn [All] in Hes. destruct Hes as [(Hk & Hv & Hdoc & Htm & Hvk) Hr].
      destruct (emit_key key) as [ek| |] eqn:Ek; cbn [bind] in Eb; try discriminate.
      destruct (emit_value value) as [evv| |] eqn:Ev; cbn [bind] in Eb; try discriminate.
      match type of Eb with context[bind ?x] => destruct x as [er| |] eqn:Er end; cbn [bind] in Eb; try discriminate.
      injection Eb as <-.
      destruct (key_goes key ek (a_span key) false (DObj true ks ds :: st) Hk Ek) as (k & Gk & Rk).
      destruct (IHr IHr' Hr er eq_refl (ks ++ [(k, a_span key)]) (kvs ++ [(key_of_atom key, a_span key)])) as (ks' & Hks' & Gr).
      { apply Forall2_app; [exact Hks|]. constructor; [|constructor]. cbn. auto. }
      exists ks'. split.
      { unfold entry_keys in *. cbn [map]. rewrite <- app_assoc in Hks'. exact Hks'. }
      eapply goes_app; [apply goes_mute; destruct doc as [[]|]; repeat constructor|].
      set (tl := match tm with Some x => [mkerr x ETooManyAtoms] | None => [] end).
      set (te := match tm with Some x => x | None => a_span value end).
      assert (mkev (a_span key) EvEntryStart :: ek ++ evv ++ match tm with
                 | Some x => [mkerr x ETooManyAtoms; mkev x EvEntryEnd]
                 | None => [mkev (a_span value) EvEntryEnd] end ++ er =
              (mkev (a_span key) EvEntryStart :: ek ++ (evv ++ tl) ++ [mkev te EvEntryEnd]) ++ er) as ->.
      { cbn [app]. f_equal. rewrite <- !app_assoc. do 2 f_equal. subst tl te. destruct tm; reflexivity. }
      eapply goes_app; [|exact Gr]. apply goes_entry; [exact Gk|].
      eapply goes_app; [apply IHv; auto; exact Hvk|]. apply goes_mute. subst tl. destruct tm; repeat constructor. }
    destruct (Hent [] []) as (ks' & Hks' & Gr); [constructor|]. cbn [app] in Hks'.
    rewrite app_assoc.
    apply (goes_obj true ks' ds).
    + eapply goes_app; [|exact Gr]. eapply goes_app; [apply goes_mute; destruct u; repeat constructor|].
      eapply goes_app; [apply (goes_dups true [] st ds [])|]. cbn [app]. apply goes_mute.
      apply Forall_forall. intros x Hx. apply in_map_iff in Hx as (d & <- & _). exact I.
    + now apply (report_from _ (entry_keys es)).
    + rewrite <- (at_brace_true sp Hb Hlt). apply obj_start. left. now apply at_brace_true.
  - cbn [atom_ok a_span] in Ha. destruct Ha as (_ & Hes & _).
    match type of E with context[bind ?x] => set (body := x) in E; destruct body as [e1| |] eqn:Eb end; cbn [bind] in E; try discriminate.
    injection E as <-. subst body. eapply goes_step; [reflexivity|]. rewrite app_assoc.
    apply (goes_app _ (DOther :: st)); [|apply goes_one; reflexivity].
    eapply goes_app.
    { apply goes_mute, Forall_app. split; [destruct u; repeat constructor|].
      apply Forall_forall. intros x Hx. apply in_map_iff in Hx as (d & <- & _). exact I. }
    clear Hap. revert e1 Eb. induction es as [|x r IHr]; intros e1 Eb; [injection Eb as <-; apply goes_nil|].
    inversion IH as [|? ? IHv IHr']; subst. cbn [All] in Hes. destruct Hes as [Hv Hr].
    destruct (emit_value x) as [ex| |] eqn:Ex; cbn [bind] in Eb; try discriminate.
    match type of Eb with context[bind ?x] => destruct x as [er| |] eqn:Er end; cbn [bind] in Eb; try discriminate.
    injection Eb as <-. eapply goes_app; [apply IHv; auto; exact I|]. now apply IHr.
  - cbn [atom_ok a_span] in Ha. destruct Ha as (_ & Hes & Hlt & Hb).
    match type of E with context[bind ?x] => set (body := x) in E; destruct body as [e1| |] eqn:Eb end; cbn [bind] in E; try discriminate.
    injection E as <-. subst body.
    assert (forall ks, exists ks', goes (DObj false ks [] :: st) e1 (DObj false ks' [] :: st)) as Hent.
    { clear Hap Hlt Hb. revert e1 Eb. induction es as [|[[key ksp] v] r IHr]; intros e1 Eb ks.
      { injection Eb as <-. exists ks. apply goes_nil. }
      inversion IH as [|? ? IHv IHr']; subst. cbn [snd] in *. cbn [All] in Hes. destruct Hes as [(Hk & Hv & Hvk) Hr].
      destruct (emit_value v) as [evv| |] eqn:Ev; cbn [bind] in Eb; try discriminate.
      match type of Eb with context[bind ?x] => destruct x as [er| |] eqn:Er end; cbn [bind] in Eb; try discriminate.
      injection Eb as <-.
      destruct (IHr IHr' Hr er eq_refl (ks ++ [(Some ((None, Some key), Bare), ksp)])) as (ks' & Gr). exists ks'.
      assert (mkev ksp EvEntryStart :: mkev ksp (EvKey None (Some key) Bare) :: evv ++ mkev (a_span v) EvEntryEnd :: er =
              (mkev ksp EvEntryStart :: [mkev ksp (EvKey None (Some key) Bare)] ++ evv ++ [mkev (a_span v) EvEntryEnd]) ++ er) as ->.
      { cbn. now rewrite <- !app_assoc. }
      eapply goes_app; [|exact Gr]. apply goes_entry; [apply goes_one; reflexivity|]. apply IHv; auto. }
    destruct (Hent []) as (ks' & Gr).
    eapply goes_step.
    { apply obj_start. right. destruct st as [|[]]; auto. }
    rewrite (at_brace_false sp Hb). eapply goes_app; [exact Gr|]. apply goes_one. reflexivity.
  - destruct (escape_errors (sp_start sp + 1) raw) as [e1| |] eqn:Ex; cbn [bind] in E; try discriminate. injection E as <-.
    apply goes_mute, Forall_app. split; [now apply escape_errors_mute in Ex|repeat constructor].
  - injection E as <-. apply goes_mute. constructor; [|constructor].
    destruct (msg_is_tag m); [exact I|]. destruct (msg_is_value m); exact I.
Qed.


(** ** Entries *)

Definition after (sp : span) (rest : list atom) : Prop := Forall (fun b => sp_end sp <= sp_start (a_span b)) rest.

Lemma entry_value_goes usp rest l esp k p st : emit_entry_value usp rest = Ok l -> Forall (atom_ok src) rest -> after esp rest ->
  sp_start esp <= sp_end esp -> goes (DEntry esp k p :: st) l (DEntry esp k p :: st).
Proof.
  intros E Hr Haf Hle. destruct rest as [|v more]; cbn [emit_entry_value] in E.
  - injection E as <-. apply goes_mute. repeat constructor.
  - destruct (emit_value v) as [ev| |] eqn:Ev; cbn [bind] in E; try discriminate. injection E as <-.
    inversion Hr; inversion Haf; subst. eapply goes_app.
    + apply (value_goes v); auto. cbn. apply (apart_after src); auto.
    + apply goes_mute. destruct more; repeat constructor.
Qed.

Lemma simple_entry_goes key rest l b ks ds st : emit_simple_entry key rest = Ok l -> atom_ok src key -> Forall (atom_ok src) rest ->
  after (a_span key) rest ->
  exists k, goes (DObj b ks ds :: st) l (DObj b (ks ++ [(k, a_span key)]) ds :: st) /\ key_rel k (a_span key) (key_of_atom key).
Proof.
  intros E Hk Hr Haf. unfold emit_simple_entry in E.
  destruct (emit_key key) as [ek| |] eqn:Ek; cbn [bind] in E; try discriminate.
  destruct (emit_entry_value (a_span key) rest) as [ev| |] eqn:Ev; cbn [bind] in E; try discriminate. injection E as <-.
  destruct (key_goes key ek (a_span key) false (DObj b ks ds :: st) Hk Ek) as (k & Gk & Rk). exists k. split; [|exact Rk].
  apply goes_entry; [exact Gk|]. apply (entry_value_goes (a_span key) rest); auto. apply (atom_ok_span _ _ Hk).
Qed.

Lemma split_on_two v s s2 r : split_on cDOT v = s :: s2 :: r -> exists v', v = s ++ cDOT :: v' /\ split_on cDOT v' = s2 :: r.
Proof.
  revert s. induction v as [|c v IH]; intros s E; cbn [split_on] in E; [discriminate|].
  destruct (N.eqb_spec c cDOT) as [->|Hc].
  - injection E as <- E. exists v. auto.
  - destruct (split_on cDOT v) as [|p ps] eqn:Ev; [discriminate|]. injection E as <- ->.
    destruct (IH p eq_refl) as (v' & -> & E'). exists v'. auto.
Qed.

Lemma slice_tail s a x y : slice s a (a + blen (x ++ y)) = Some (x ++ y) -> slice s (a + blen x) (a + blen (x ++ y)) = Some y.
Proof.
  intros H. apply slice_some in H as (p & q & -> & E1 & E2). rewrite blen_app in *. subst a.
  rewrite <- app_assoc, app_assoc. rewrite <- blen_app.
  replace (blen p + (blen x + blen y)) with (blen (p ++ x) + blen y) by (rewrite blen_app; lia). apply slice_app.
Qed.

Lemma bare_not_brace off v : slice src off (off + blen v) = Some v -> v <> [] -> forallb is_bare_char v = true -> forall e,
  at_brace src (mkspan off e) = false.
Proof.
  intros H Hn Hb e. apply at_brace_false. cbn [sp_start]. exact (key_not_brace src (mkspan off (off + blen v)) v H Hn Hb).
Qed.

Lemma dotted_goes sp ev segs : forall v off, split_on cDOT v = segs -> slice src off (off + blen v) = Some v -> v <> [] ->
  forallb is_bare_char v = true -> existsb is_nil segs = false ->
  (forall o s k st, off <= o -> o + blen s <= off + blen v ->
     goes (DEntry (mkspan o (o + blen s)) k false :: st) ev (DEntry (mkspan o (o + blen s)) k false :: st)) ->
  forall b ks ds st, exists ks', goes (DObj b ks ds :: st) (open_segments off segs ++ ev ++ close_segments sp segs) (DObj b ks' ds :: st) /\
    (2 <= length segs -> ks' = ks).
Proof.
  induction segs as [|s r IH]; intros v off Es Hv Hvn Hb Hnil Hev b ks ds st.
  { now apply split_on_nonempty in Es. }
  cbn [existsb] in Hnil. apply orb_false_iff in Hnil as [Hn1 Hnil].
  set (ksp := mkspan off (off + blen s)).
  destruct r as [|s2 r].
  - pose proof (split_on_total src v) as Ht. rewrite Es in Ht. cbn [seg_total] in Ht.
    exists (ks ++ [(Some ((None, Some s), Bare), ksp)]). split; [|cbn; lia].
    cbn [open_segments close_segments app].
    apply (goes_entry b ks ds st ksp sp [mkev ksp (EvKey None (Some s) Bare)] ev); [apply goes_one; reflexivity|].
    apply Hev; lia.
  - destruct (split_on_two _ _ _ _ Es) as (v' & -> & Es').
    assert (v' <> []) as Hv'. { intros ->. cbn in Es'. injection Es' as <- <-. discriminate Hnil. }
    rewrite forallb_app in Hb. apply andb_prop in Hb as [Hb1 Hb2]. cbn [forallb] in Hb2. apply andb_prop in Hb2 as [_ Hb2].
    assert (slice src (off + blen s + 1) (off + blen s + 1 + blen v') = Some v') as Hsl.
    { pose proof (slice_tail src off (s ++ [cDOT]) v') as T. rewrite <- app_assoc in T. cbn [app] in T. specialize (T Hv).
      rewrite !blen_app in T. cbn [blen] in T. change (clen cDOT) with 1 in T.
      replace (off + blen s + 1) with (off + (blen s + (1 + 0))) by lia.
      replace (off + (blen s + (1 + 0)) + blen v') with (off + (blen s + (1 + blen v'))) by lia. exact T. }
    assert (blen (s ++ cDOT :: v') = blen s + 1 + blen v') as Hlen.
    { rewrite blen_app. cbn [blen]. change (clen cDOT) with 1. lia. }
    destruct (IH v' (off + blen s + 1) Es' Hsl Hv' Hb2 Hnil) with (b := false) (ks := @nil (okey * span)) (ds := @nil (span * span))
      (st := DEntry ksp (Some ((None, Some s), Bare)) true :: DObj b ks ds :: st) as (ks2 & G & _).
    { intros o s' k st' H1 H2. apply Hev; lia. }
    exists ks. split; [|reflexivity].
    cbn [open_segments close_segments]. fold ksp.
    set (o := open_segments (off + blen s + 1) (s2 :: r)) in *. set (c := close_segments sp (s2 :: r)) in *.
    assert ((mkev ksp EvEntryStart :: mkev ksp (EvKey None (Some s) Bare) :: [mkev ksp EvObjStart] ++ o) ++ ev ++ c ++ [mkev sp EvObjEnd] ++ [mkev sp EvEntryEnd] =
            [mkev ksp EvEntryStart; mkev ksp (EvKey None (Some s) Bare); mkev ksp EvObjStart] ++ (o ++ ev ++ c) ++ [mkev sp EvObjEnd; mkev sp EvEntryEnd]) as E.
    { cbn [app]. rewrite <- !app_assoc. reflexivity. }
    refine (eq_ind_r (fun l => goes _ l _) _ E). clear E.
    apply goes_app with (st1 := DObj false [] [] :: DEntry ksp (Some ((None, Some s), Bare)) true :: DObj b ks ds :: st).
    { eapply goes_step; [reflexivity|]. eapply goes_step; [reflexivity|]. apply goes_one.
      unfold dstep. cbn [ev_kind ev_span].
      unfold ksp. rewrite (bare_not_brace off (s ++ cDOT :: v')); auto.
      { unfold same_span. now rewrite !Nat.eqb_refl. }
      rewrite forallb_app, Hb1. cbn [forallb]. now rewrite Hb2. }
    eapply goes_app; [exact G|]. eapply goes_step; [reflexivity|]. apply goes_one. reflexivity.
Qed.

Lemma split_dot_two v : In cDOT v -> 2 <= length (split_on cDOT v).
Proof.
  induction v as [|c v IH]; [intros []|]. cbn [split_on In]. intros [->|H].
  - rewrite N.eqb_refl. pose proof (split_on_nonempty cDOT v). destruct (split_on cDOT v); [congruence|]. cbn. lia.
  - specialize (IH H). destruct (c =? cDOT)%N; [cbn; lia|]. destruct (split_on cDOT v); cbn in *; lia.
Qed.

Lemma emit_dotted_goes v sp rest path l p' : emit_dotted v sp rest path = Ok (l, p') -> atom_ok src (AScalar sp v Bare) -> In cDOT v ->
  Forall (atom_ok src) rest -> after sp rest ->
  forall b ks ds st, (exists k ds', goes (DObj b ks ds :: st) l (DObj b (ks ++ k) ds' :: st) /\
    (path = None -> ds' = ds /\ (k = [] \/ k = [(None, sp)]))).
Proof.
  intros E [Hsp Hlx] Hdot Hr Haf b ks ds st. cbn [a_span] in Hsp. unfold emit_dotted in E.
  pose proof (bare_len src sp v Hlx) as Hlen. destruct Hlx as (t & Ht & -> & Hvn & Hvb). unfold lexeme_text in Ht. cbn [lx_span] in Ht.
  destruct (existsb is_nil (split_on cDOT v)) eqn:En.
  { injection E as <- <-. exists [(None, sp)], ds. split; [|auto].
    eapply goes_step; [reflexivity|]. eapply goes_step; [reflexivity|]. apply goes_one. reflexivity. }
  assert (forall path' perr, (forall b ks ds st, exists ds', goes (DObj b ks ds :: st) perr (DObj b ks ds' :: st) /\ (path = None -> ds' = ds)) ->
     (do ev <- emit_entry_value sp rest;
      Ok (perr ++ open_segments (sp_start sp) (split_on cDOT v) ++ ev ++ close_segments sp (split_on cDOT v), path')) = Ok (l, p') ->
     exists k ds', goes (DObj b ks ds :: st) l (DObj b (ks ++ k) ds' :: st) /\ (path = None -> ds' = ds /\ (k = [] \/ k = [(None, sp)]))) as Fin.
  { clear E. intros path' perr Hp E. destruct (emit_entry_value sp rest) as [ev| |] eqn:Ev; cbn [bind] in E; try discriminate.
    injection E as <- <-. destruct (Hp b ks ds st) as (ds' & Gp & Hds').
    destruct (dotted_goes sp ev (split_on cDOT v) v (sp_start sp) eq_refl) with (b := b) (ks := ks) (ds := ds') (st := st) as (ks' & G & Hks'); auto.
    { rewrite Hlen. exact Ht. }
    { intros o s k st' H1 H2. apply (entry_value_goes sp rest); auto; cbn [sp_start sp_end]; [|lia].
      eapply Forall_impl; [|exact Haf]. cbn. intros x. lia. }
    rewrite Hks' in G by now apply split_dot_two.
    exists [], ds'. rewrite app_nil_r. split; [|auto]. eapply goes_app; [exact Gp|exact G]. }
  destruct path as [ps|].
  - destruct (check_and_update ps _ _ _) as [ps' [e|]]; eapply Fin; try exact E.
    + intros b' ks0 ds0 st0. destruct e as [o|q|q].
      * eexists. split; [apply goes_one; reflexivity|discriminate].
      * exists ds0. split; [apply goes_one; reflexivity|discriminate].
      * exists ds0. split; [apply goes_one; reflexivity|discriminate].
    + intros b' ks0 ds0 st0. exists ds0. split; [apply goes_nil|discriminate].
  - eapply Fin; try exact E. intros b' ks0 ds0 st0. exists ds0. split; [apply goes_nil|reflexivity].
Qed.

Lemma emit_at_root_goes key rest path l p' : emit_at_root src key rest path = Ok (l, p') -> atom_ok src key ->
  Forall (atom_ok src) rest -> after (a_span key) rest ->
  forall b ks ds st, exists ks' ds', goes (DObj b ks ds :: st) l (DObj b ks' ds' :: st).
Proof.
  intros E Hk Hr Haf b ks ds st. unfold emit_at_root in E.
  match type of E with bind ?x _ = _ => set (x0 := x) in E; destruct x0 as [e0| |] eqn:E0 end; cbn [bind] in E; try discriminate.
  assert (Forall mute e0) as M0.
  { subst x0. destruct key as [sp v k|sp|sp name p i esp|sp es ds1 dg u|sp es u cs|sp es|sp raw|sp m]; try (injection E0 as <-; constructor).
    destruct k; try (injection E0 as <-; constructor).
    destruct (heredoc_start_span src sp); cbn [bind] in E0; try discriminate. injection E0 as <-. repeat constructor. }
  destruct (is_dotted key) as [v|] eqn:Ed.
  - apply is_dotted_inv in Ed as (sp & -> & Hdot). cbn [a_span] in *.
    destruct (emit_dotted v sp rest (Some path)) as [[ev p]| |] eqn:Ev; cbn [bind] in E; try discriminate. injection E as <- <-.
    destruct (emit_dotted_goes _ _ _ _ _ _ Ev Hk Hdot Hr Haf b ks ds st) as (k & ds' & G & _).
    exists (ks ++ k), ds'. eapply goes_app; [now apply goes_mute|exact G].
  - destruct (check_and_update path _ _ _) as [path' e].
    destruct (emit_simple_entry key rest) as [ev| |] eqn:Ev; cbn [bind] in E; try discriminate. injection E as <- <-.
    assert (exists ds', goes (DObj b ks ds :: st) (match e with Some x => [path_error x (a_span key)] | None => [] end) (DObj b ks ds' :: st)) as (ds' & Gp).
    { destruct e as [[o|q|q]|]; eexists; first [apply goes_nil|apply goes_one; reflexivity]. }
    destruct (simple_entry_goes key rest ev b ks ds' st Ev Hk Hr Haf) as (k & G & _).
    exists (ks ++ [(k, a_span key)]), ds'. eapply goes_app; [now apply goes_mute|]. eapply goes_app; [exact Gp|exact G].
Qed.

(** The keys seen so far and the duplicates reported so far, in the outermost braces. *)
Definition obj_rel (ks : list (okey * span)) (ds : list (span * span)) (seen : seen_map) : Prop :=
  report_ok src (ks, ds) /\ (In None (map fst ks) \/ exists kvs, keys_rel ks kvs /\ seen_inv kvs seen /\ dups_spec [] kvs ds).

Lemma none_report ks ds : In None (map fst ks) -> report_ok src (ks, ds).
Proof.
  intros H ks' E _. cbn [fst] in E. subst ks. rewrite map_map in H. apply in_map_iff in H as (x & H & _). discriminate H.
Qed.

Lemma emit_in_object_goes key rest seen l seen' : emit_in_object key rest seen = Ok (l, seen') -> atom_ok src key ->
  Forall (atom_ok src) rest -> after (a_span key) rest ->
  forall ks ds st, obj_rel ks ds seen -> exists ks' ds', goes (DObj true ks ds :: st) l (DObj true ks' ds' :: st) /\ obj_rel ks' ds' seen'.
Proof.
  intros E Hk Hr Haf ks ds st Hrel. unfold emit_in_object in E.
  set (e0 := match key with AScalar sp _ Heredoc => _ | _ => _ end) in E.
  assert (Forall mute e0) as M0 by (subst e0; destruct key; try constructor; destruct k; repeat constructor).
  assert (forall (ks x : list (okey * span)), In None (map fst ks) -> In None (map fst (ks ++ x))) as Hin.
  { intros q x H. rewrite map_app. apply in_or_app. now left. }
  destruct (is_dotted key) as [v|] eqn:Ed.
  - apply is_dotted_inv in Ed as (sp & -> & Hdot). cbn [a_span] in *.
    destruct (emit_dotted v sp rest None) as [[ev p]| |] eqn:Ev; cbn [bind] in E; try discriminate. injection E as <- <-.
    destruct (emit_dotted_goes _ _ _ _ _ _ Ev Hk Hdot Hr Haf true ks ds st) as (k & ds' & G & HN).
    destruct (HN eq_refl) as [-> Hk']. exists (ks ++ k), ds. split; [exact G|].
    destruct Hk' as [->| ->]; [now rewrite app_nil_r|].
    assert (In None (map fst (ks ++ [(None : okey, sp)]))) as X by (rewrite map_app; apply in_or_app; right; now left).
    split; [now apply none_report|now left].
  - destruct Hrel as [Hok Hrel].
    destruct (seen_get (key_of_atom key) seen) as [o|] eqn:Eg;
      (destruct (emit_simple_entry key rest) as [ev| |] eqn:Ev; cbn [bind] in E; try discriminate; injection E as <- <-).
    + destruct (simple_entry_goes key rest ev true ks (ds ++ [(o, a_span key)]) st Ev Hk Hr Haf) as (k & G & Hkr).
      exists (ks ++ [(k, a_span key)]), (ds ++ [(o, a_span key)]). split.
      { eapply goes_app; [now apply goes_mute|]. eapply goes_step; [reflexivity|exact G]. }
      assert (In None (map fst (ks ++ [(k, a_span key)])) \/ exists kvs, keys_rel (ks ++ [(k, a_span key)]) kvs /\
        seen_inv kvs seen /\ dups_spec [] kvs (ds ++ [(o, a_span key)])) as X.
      { destruct Hrel as [Hrel|(kvs & R1 & R2 & R3)]; [left; auto|right].
        exists (kvs ++ [(key_of_atom key, a_span key)]). splits.
        - apply Forall2_app; [exact R1|]. constructor; [|constructor]. cbn. auto.
        - now apply (seen_inv_dup _ _ _ _ o).
        - apply dups_snoc_dup; [exact R3|]. cbn [app]. specialize (R2 (key_of_atom key)). rewrite Eg in R2. exact R2. }
      split; [|exact X]. destruct X as [X|(kvs & R1 & _ & R3)]; [now apply none_report|now apply (report_from _ kvs)].
    + destruct (simple_entry_goes key rest ev true ks ds st Ev Hk Hr Haf) as (k & G & Hkr).
      exists (ks ++ [(k, a_span key)]), ds. split.
      { eapply goes_app; [now apply goes_mute|]. exact G. }
      assert (In None (map fst (ks ++ [(k, a_span key)])) \/ exists kvs, keys_rel (ks ++ [(k, a_span key)]) kvs /\
        seen_inv kvs (seen_insert (key_of_atom key) (a_span key) seen) /\ dups_spec [] kvs ds) as X.
      { destruct Hrel as [Hrel|(kvs & R1 & R2 & R3)]; [left; auto|right].
        exists (kvs ++ [(key_of_atom key, a_span key)]). splits.
        - apply Forall2_app; [exact R1|]. constructor; [|constructor]. cbn. auto.
        - now apply seen_inv_new.
        - apply dups_snoc_none; [exact R3|]. cbn [app]. specialize (R2 (key_of_atom key)). rewrite Eg in R2. exact R2. }
      split; [|exact X]. destruct X as [X|(kvs & R1 & _ & R3)]; [now apply none_report|now apply (report_from _ kvs)].
Qed.

(** ** The run *)

Definition at_state (st : pstate) (ds : list dframe) : Prop :=
  match st with
  | PRoot _ _ false => ds = []
  | PRoot _ _ true => exists ks dd, ds = [DObj false ks dd]
  | PInObj _ seen _ _ => exists ks dd r, ds = DObj true ks dd :: r /\ obj_rel ks dd seen
  | PBeforeDoc => ds = []
  | PAfterDoc => True
  | _ => False
  end.

Definition dinv (acc : list event) (st : pstate) : Prop := exists ds, goes [] acc ds /\ at_state st ds.

Lemma dinv_app acc st evs st' : dinv acc st -> (forall ds, at_state st ds -> exists ds', goes ds evs ds' /\ at_state st' ds') ->
  dinv (acc ++ evs) st'.
Proof. intros (ds & G & A) H. destruct (H ds A) as (ds' & G' & A'). exists ds'. split; [|exact A']. eapply goes_app; eauto. Qed.

Definition dstep_ok (acc : list event) (x : option event * parser) : Prop :=
  match x with (Some e, p') => dinv (acc ++ e :: p_queue p') (p_state p') | (None, _) => True end.

Lemma pop_dinv acc s st q i : dinv (acc ++ q) st -> dstep_ok acc (pop_queue i s st q).
Proof. destruct q as [|e r]; cbn; auto. Qed.

Lemma dangling_mute pend : Forall mute (dangling pend).
Proof. destruct pend; repeat constructor. Qed.

#[local] Opaque collect_entry parse_atom parse_fuel emit_at_root emit_in_object emit_value.

Lemma root_open_goes emitted ds pend path : at_state (PRoot pend path emitted) ds ->
  exists ks dd, goes ds (root_open emitted) [DObj false ks dd].
Proof.
  destruct emitted; cbn [at_state root_open].
  - intros (ks & dd & ->). exists ks, dd. apply goes_nil.
  - intros ->. exists [], []. apply goes_one. reflexivity.
Qed.

Lemma advance_root_dup f : forall s pend path emitted acc lo x,
  dinv acc (PRoot pend path emitted) -> sok src lo s ->
  advance_root f src s pend path emitted [] = Ok x -> dstep_ok acc x.
Proof.
  induction f as [|f IH]; intros s pend path emitted acc lo x Hd Hs E; [discriminate|].
  cbn [advance_root] in E. destruct (src_next s) as [l s1] eqn:En.
  destruct (src_next_spec _ _ _ _ _ Hs En) as (Hp & lo1 & Ht & Hs1 & Hc).
  fold (root_open emitted) in E.
  assert (l <> LxEof -> 
      (do (atoms, ev, s2) <- collect_entry src (parse_fuel s1) l s1;
       match atoms with
       | [] => Ok (pop_queue src s2 (PRoot None path true) ([] ++ root_open emitted ++ ev))
       | key :: rest =>
         do (ev2, path') <- emit_at_root src key rest path;
         Ok (pop_queue src s2 (PRoot None path' true) ([] ++ root_open emitted ++ ev ++ ev2))
       end) = Ok x -> dstep_ok acc x) as Hgo.
  { clear E. intros Hl E.
    destruct (collect_entry_ok src (parse_fuel s1) l s1 lo lo1 Ht Hl Hs1) as
      (a & more & ev & s2 & hi & Ece & A1 & A2 & A0 & A3 & A4 & A5 & A6 & A7).
    { now apply (parse_fuel_ge src lo1). }
    rewrite Ece in E. cbn [bind] in E. destruct (emit_at_root src a more path) as [[ev2 path']| |] eqn:Ee; cbn [bind] in E; try discriminate.
    injection E as <-. apply pop_dinv. cbn [app]. apply (dinv_app _ _ _ _ Hd). intros ds A.
    destruct (root_open_goes _ _ _ _ A) as (ks & dd & G0).
    destruct (emit_at_root_goes _ _ _ _ _ Ee A1 A2 A0 false ks dd []) as (ks' & dd' & G2).
    exists [DObj false ks' dd']. split; [|cbn; eauto].
    eapply goes_app; [exact G0|]. eapply goes_app; [apply goes_mute; now apply plain_mute in A7|exact G2]. }
  destruct l; try (apply Hgo; [discriminate|exact E]); clear Hgo.
  - (* object start *)
    injection E as <-. cbn [dstep_ok p_queue p_state]. apply (dinv_app _ _ _ _ Hd). intros ds A.
    destruct (taken_some _ _ _ _ Ht ltac:(discriminate)) as ((t & Ht1 & ->) & _ & T2 & _). unfold lexeme_text in Ht1. cbn [lx_span] in *.
    assert (at_brace src sp = true) as Hbr.
    { apply slice_some in Ht1 as Hx. destruct Hx as (? & ? & _ & _ & E1). cbn in E1.
      apply at_brace_true; [|lia]. now replace (sp_start sp + 1) with (sp_end sp) by lia. }
    exists (DObj true [] [] :: ds). split.
    + apply goes_one. rewrite <- Hbr. apply obj_start. now left.
    + exists [], [], ds. split; [reflexivity|]. assert (dups_spec (@nil (keyval * span)) [] []) as D0 by reflexivity.
      split; [apply (report_from _ []); [constructor|exact D0]|]. right. exists []. splits; [constructor|apply seen_inv_nil|exact D0].
  - (* comma *) eapply IH; eauto.
  - (* newline *) eapply IH; eauto.
  - (* comment *)
    injection E as <-. cbn [dstep_ok p_queue p_state]. apply (dinv_app _ _ _ _ Hd). intros ds A. exists ds. split; [|exact A].
    apply goes_mute. repeat constructor.
  - (* doc *)
    injection E as <-. apply pop_dinv. cbn [app]. apply (dinv_app _ _ _ _ Hd). intros ds A.
    destruct (root_open_goes _ _ _ _ A) as (ks & dd & G0). exists [DObj false ks dd]. split; [|cbn; eauto].
    eapply goes_app; [exact G0|]. apply goes_mute. repeat constructor.
  - (* end of input *)
    injection E as <-. apply pop_dinv. cbn [app]. apply (dinv_app _ _ _ _ Hd). intros ds A.
    destruct emitted.
    + destruct A as (ks & dd & ->). exists []. split; [|exact I].
      eapply goes_app; [apply goes_mute, dangling_mute|]. eapply goes_step; [reflexivity|]. apply goes_one. reflexivity.
    + exists ds. split; [|exact I]. apply goes_mute, Forall_app. split; [apply dangling_mute|repeat constructor].
Qed.

Lemma advance_obj_dup f : forall s start seen pend acc lo x,
  dinv acc (PInObj start seen pend PAfterDoc) -> sok src lo s ->
  advance_obj f src s start seen pend PAfterDoc [] = Ok x -> dstep_ok acc x.
Proof.
  induction f as [|f IH]; intros s start seen pend acc lo x Hd Hs E; [discriminate|].
  cbn [advance_obj is_after_doc] in E. destruct (src_next s) as [l s1] eqn:En.
  destruct (src_next_spec _ _ _ _ _ Hs En) as (Hp & lo1 & Ht & Hs1 & Hc).
  assert (l <> LxEof ->
      (do (atoms, ev, s2) <- collect_entry src (parse_fuel s1) l s1;
       match atoms with
       | [] => Ok (pop_queue src s2 (PInObj start seen None PAfterDoc) ([] ++ ev))
       | key :: rest =>
         do (ev2, seen') <- emit_in_object key rest seen;
         Ok (pop_queue src s2 (PInObj start seen' None PAfterDoc) ([] ++ ev ++ ev2))
       end) = Ok x -> dstep_ok acc x) as Hgo.
  { clear E. intros Hl E.
    destruct (collect_entry_ok src (parse_fuel s1) l s1 lo lo1 Ht Hl Hs1) as
      (a & more & ev & s2 & hi & Ece & A1 & A2 & A0 & A3 & A4 & A5 & A6 & A7).
    { now apply (parse_fuel_ge src lo1). }
    rewrite Ece in E. cbn [bind] in E. destruct (emit_in_object a more seen) as [[ev2 seen']| |] eqn:Ee; cbn [bind] in E; try discriminate.
    injection E as <-. apply pop_dinv. cbn [app]. apply (dinv_app _ _ _ _ Hd). intros ds (ks & dd & r & -> & A).
    destruct (emit_in_object_goes _ _ _ _ _ Ee A1 A2 A0 ks dd r A) as (ks' & dd' & G2 & A').
    eexists. split; [|cbn; eauto].
    eapply goes_app; [apply goes_mute; now apply plain_mute in A7|exact G2]. }
  assert (forall r ks dd evs sp, report_ok src (ks, dd) -> Forall mute evs ->
    goes (DObj true ks dd :: r) (mkev sp EvObjEnd :: evs) r) as Hend.
  { intros r ks dd evs sp Hr Hm. apply (goes_app _ r r [mkev sp EvObjEnd] evs); [|now apply goes_mute].
    exists [(ks, dd)]. split; [reflexivity|]. constructor; [exact Hr|constructor]. }
  destruct l; try (apply Hgo; [discriminate|exact E]); clear Hgo.
  - (* closing brace *)
    injection E as <-. cbn [dstep_ok p_queue p_state app]. apply (dinv_app _ _ _ _ Hd). intros ds (ks & dd & r & -> & [A _]).
    exists r. split; [|exact I]. apply Hend; [exact A|]. apply Forall_app. split; [apply dangling_mute|repeat constructor].
  - (* comma *) eapply IH; eauto.
  - (* newline *) eapply IH; eauto.
  - injection E as <-. cbn [dstep_ok p_queue p_state]. apply (dinv_app _ _ _ _ Hd). intros ds A. exists ds. split; [|exact A].
    apply goes_mute. repeat constructor.
  - injection E as <-. cbn [dstep_ok p_queue p_state]. apply (dinv_app _ _ _ _ Hd). intros ds A. exists ds. split; [|exact A].
    apply goes_mute. repeat constructor.
  - (* end of input *)
    injection E as <-. apply pop_dinv. cbn [app]. apply (dinv_app _ _ _ _ Hd). intros ds (ks & dd & r & -> & [A _]).
    exists r. split; [|exact I]. eapply goes_app; [apply goes_mute, dangling_mute|].
    eapply goes_step; [apply mute_step; exact I|]. apply Hend; [exact A|repeat constructor].
Qed.

Lemma check_trailing_dup f : forall s acc x, dinv acc PAfterDoc -> check_trailing f src s [] = Ok x -> dstep_ok acc x.
Proof.
  induction f as [|f IH]; intros s acc x Hd E; [discriminate|].
  cbn [check_trailing] in E. destruct (src_next s) as [l s1].
  assert ((do (e, s2) <- drain_end (2 + src_size s1) (sp_end (lx_span l)) s1;
      Ok (Some (mkerr (mkspan (sp_start (lx_span l)) e) ETrailing), mkp src s2 PAfterDoc [])) = Ok x -> dstep_ok acc x) as Hgo.
  { clear E. destruct (drain_end _ _ s1) as [[e s2]| |]; cbn [bind]; try discriminate. intros [= <-].
    cbn [dstep_ok p_queue p_state]. apply (dinv_app _ _ _ _ Hd). intros ds A. exists ds. split; [|exact I]. apply goes_mute. repeat constructor. }
  destruct l; try (apply Hgo; exact E); clear Hgo; try (eapply IH; eauto; fail).
  injection E as <-. exact I.
Qed.

Lemma run_dup fuel : forall acc s st base evs, inv src acc s st base -> dinv acc st ->
  events_from fuel (mkp src s st []) = Ok evs -> exists ds, goes [] (acc ++ evs) ds.
Proof.
  induction fuel as [fuel IH] using lt_wf_ind. intros acc s st base evs Hi Hd E.
  destruct fuel as [|fuel]; [discriminate|]. cbn [events_from] in E.
  assert (next_event (mkp src s st []) = advance (mkp src s st [])) as En by reflexivity. rewrite En in E.
  pose proof (advance_ok src acc s st base Hi) as Hst.
  destruct (advance (mkp src s st [])) as [[[e|] p']| |] eqn:Ea; cbn [bind] in E; try discriminate.
  2: { injection E as <-. rewrite app_nil_r. destruct Hd as (ds & G & _). eauto. }
  cbn [safe step_ok] in Hst. destruct Hst as (H1 & H2 & base' & Hi').
  destruct (i_src _ _ _ _ _ Hi) as [lo Hs].
  assert (dstep_ok acc (Some e, p')) as Hd'.
  { unfold advance in Ea. cbn [p_src p_input p_queue p_state] in Ea.
    destruct st as [| |pend path emitted|start seen pend parent| |].
    - injection Ea as <- <-. cbn [dstep_ok p_state p_queue].
      destruct Hd as (ds & G & A). cbn [at_state] in A. subst ds. exists []. split; [|reflexivity]. eapply goes_app; [exact G|].
      apply goes_mute. repeat constructor.
    - now destruct Hd as (ds & _ & []).
    - eapply advance_root_dup; eauto.
    - destruct (i_state _ _ _ _ _ Hi) as (_ & _ & ->). eapply advance_obj_dup; eauto.
    - eapply check_trailing_dup; eauto.
    - now destruct Hd as (ds & _ & []). }
  cbn [dstep_ok] in Hd'. destruct p' as [i s' st' q]. cbn [p_input p_src p_state p_queue] in *. subst i.
  destruct (events_from fuel (mkp src s' st' q)) as [r| |] eqn:Er; cbn [bind] in E; try discriminate. injection E as <-.
  assert (events_from (length q + fuel) (mkp src s' st' q) = Ok r) as Er2.
  { rewrite Nat.add_comm. apply events_from_mono; [exact Er|discriminate]. }
  rewrite events_from_queue in Er2.
  destruct (events_from fuel (mkp src s' st' [])) as [r'| |] eqn:Er3; cbn [bind] in Er2; try discriminate. injection Er2 as <-.
  destruct (IH fuel ltac:(lia) (acc ++ e :: q) s' st' base' r' Hi' Hd' Er3) as (ds & G).
  exists ds. rewrite <- app_assoc in G. exact G.
Qed.

End Dup.

(** C08 *)
Lemma parses_dups src evs : parses src evs -> Forall (report_ok src) (brace_objects src evs).
Proof.
  intros (ls & fuel & El & Ef).
  destruct (run_dup src fuel [] (mksrc ls None) PBeforeDoc [] evs) as (ds & R & E & H); auto.
  - now apply start_inv; auto.
  - exists []. split; [apply goes_nil|reflexivity].
  - unfold brace_objects. cbn [app] in E. now rewrite E.
Qed.
