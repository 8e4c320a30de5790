(** The deserializer on arbitrary documents: fuel, tokens used, panics, termination. *)
From Coq Require Import String ZArith Lia.
From Verif Require Import Base BaseProofs TokModel TokProofs TreeModel FmtModel SchemaModel SerdeModel SerdeSpec SerdeTokens.
Local Open Scope nat_scope.

(** ** More fuel changes nothing *)

Definition below {A} (a b : dres A) : Prop := a = DFuel \/ a = b.
Lemma below_refl {A} (a : dres A) : below a a.
Proof. now right. Qed.
Lemma below_bind {A B} (a a' : dres A) (k k' : A -> dres B) : below a a' -> (forall x, below (k x) (k' x)) -> below (dbind a k) (dbind a' k').
Proof. intros [-> | ->] H; [now left|]. destruct a'; cbn; auto using below_refl. Qed.

Section Total.
Variable env : nat -> ty.

Ltac step := match goal with
  | |- below ?x ?x => apply below_refl
  | |- below (dbind _ _) (dbind _ _) => apply below_bind; [|intros [? ?]]
  | |- below (if ?b then _ else _) _ => destruct b
  | |- below (match ?x with _ => _ end) _ => destruct x
  | |- below (let (_, _) := ?x in _) _ => destruct x
  end.

Lemma de_below : forall f g, f <= g ->
  (forall t ts, below (de env f t ts) (de env g t ts)) /\ (forall t ts, below (de_items env f t ts) (de_items env g t ts)) /\
  (forall l ts, below (de_tuple env f l ts) (de_tuple env g l ts)) /\ (forall kt vt acc ts, below (de_pairs env f kt vt acc ts) (de_pairs env g kt vt acc ts)) /\
  (forall fs acc ts, below (de_fields env f fs acc ts) (de_fields env g fs acc ts)) /\ (forall vs n ts, below (de_variant env f vs n ts) (de_variant env g vs n ts)).
Proof.
  induction f as [|f IH]; intros [|g] Hle; try lia; [splits; intros; now left|splits; intros; now left|].
  destruct (IH g) as (I1 & I2 & I3 & I4 & I5 & I6); [lia|]. clear IH Hle.
  splits; intros; cbn [de de_items de_tuple de_pairs de_fields de_variant];
    repeat first [apply I1|apply I2|apply I3|apply I4|apply I5|apply I6|step].
  all: apply below_bind; [apply below_refl|intros x]; repeat first [apply I1|apply I2|apply I3|apply I4|apply I5|apply I6|step].
Qed.

Lemma de_fuel f g t ts : f <= g -> de env f t ts <> DFuel -> de env g t ts = de env f t ts.
Proof. intros Hle H. destruct (proj1 (de_below f g Hle) t ts) as [E|E]; [contradiction|now symmetry]. Qed.

(** ** Tokens used *)

(** [uses strict ts ts']: [ts'] is what is left of [ts]; if [strict], something was taken if there was anything. *)
Definition uses (strict : bool) (ts ts' : toks) : Prop := exists p, ts = p ++ ts' /\ (strict = true -> ts <> [] -> p <> []).
Lemma uses_refl ts : uses false ts ts.
Proof. exists []. split; [reflexivity|discriminate]. Qed.
Lemma uses_weak b ts ts' : uses b ts ts' -> uses false ts ts'.
Proof. intros (p & E & _). exists p. split; [exact E|discriminate]. Qed.
Lemma uses_left b c a x y : uses b a x -> uses c x y -> uses b a y.
Proof.
  intros (p & -> & Hp) (q & -> & Hq). exists (p ++ q). split; [apply app_assoc|]. intros Hb Ha. specialize (Hp Hb Ha). destruct p; [congruence|discriminate].
Qed.
Lemma uses_right b c a x y : uses c a x -> (x = [] -> a <> [] -> uses true a x) -> uses b x y -> uses b a y.
Proof.
  intros (p & E & Hp) Hx (q & -> & Hq). exists (p ++ q). split; [now rewrite <- app_assoc|]. intros Hb Ha Hpq. apply app_eq_nil in Hpq as [-> ->]. cbn in E, Hx. subst a.
  destruct y as [|t y]; [congruence|]. now apply Hq.
Qed.
Lemma uses_next ts : uses true ts (snd (next_tok ts)).
Proof. destruct ts as [|t r]; cbn; [exists []|exists [t]]; split; try reflexivity; congruence. Qed.
Lemma uses_cons t r : uses true (t :: r) r.
Proof. exists [t]. split; [reflexivity|discriminate]. Qed.
Lemma uses_step b t r r' : uses b r r' -> uses true (t :: r) r'.
Proof. intros H. eapply uses_left; [apply uses_cons|exact H]. Qed.
Lemma uses_length b ts ts' : uses b ts ts' -> length ts' <= length ts /\ (b = true -> ts <> [] -> length ts' < length ts).
Proof.
  intros (p & -> & H). rewrite app_length. split; [lia|]. intros Hb Hn. specialize (H Hb Hn). destruct p; [congruence|cbn; lia].
Qed.

Lemma skip_comma_uses ts : uses false ts (skip_comma ts).
Proof. destruct ts as [|t r]; [apply uses_refl|]. cbn [skip_comma]. destruct (tk_kind t); try apply uses_refl. eapply uses_weak, uses_cons. Qed.

Lemma skip_to_uses o c ts : forall d, uses false ts (skip_to o c d ts).
Proof.
  induction ts as [|t r IH]; intros [|d]; cbn [skip_to]; try apply uses_refl.
  destruct (o t); [|destruct (c t)]; (eapply uses_weak, uses_step; apply IH).
Qed.
Lemma skip_value_uses : forall n ts, length ts <= n -> uses false ts (skip_value ts).
Proof.
  induction n as [|n IH]; intros [|t r] Hl; cbn [length] in Hl; try apply uses_refl; [lia|]. cbn [skip_value].
  destruct (is_kind LBrace t); [eapply uses_weak, uses_step, skip_to_uses|]. destruct (is_kind LParen t); [eapply uses_weak, uses_step, skip_to_uses|].
  destruct (is_kind At t); [|eapply uses_weak, uses_cons]. destruct r as [|m r1]; [eapply uses_weak, uses_cons|]. destruct (is_kind BareScalar m); [|eapply uses_weak, uses_cons].
  destruct r1 as [|p r2]; [eapply uses_weak, uses_step, uses_cons|]. destruct (ends_payload p); [eapply uses_weak, uses_step, uses_cons|].
  eapply uses_weak, uses_step, uses_weak, uses_step. apply IH. cbn [length] in *. lia.
Qed.

Lemma next_key_uses : forall n ts ts1 more, length ts <= n -> next_key ts = DOk (ts1, more) ->
  if more then uses false ts ts1 /\ exists t r, ts1 = t :: r /\ is_kind BareScalar t || is_kind QuotedScalar t = true else uses true ts ts1.
Proof.
  induction n as [|n IH]; intros [|t r] ts1 more Hl H; cbn [length] in Hl; try lia.
  - injection H as <- <-. exists []. split; [reflexivity|congruence].
  - injection H as <- <-. exists []. split; [reflexivity|congruence].
  - cbn [next_key] in H. destruct (is_kind Comma t).
    + destruct r as [|u r1]; [injection H as <- <-; apply uses_cons|]. destruct (is_kind RBrace u); [injection H as <- <-; eapply uses_step, uses_cons|].
      destruct (is_kind BareScalar u || is_kind QuotedScalar u) eqn:E; [injection H as <- <-; split; [eapply uses_weak, uses_cons|eauto]|].
      destruct (is_kind DocComment u); [|discriminate]. cbn [length] in Hl. apply IH in H; [|lia].
      destruct more; [destruct H as [H1 H2]; split; [eapply uses_weak, uses_step, uses_weak, uses_step, H1|exact H2]|eapply uses_step, uses_weak, uses_step, H].
    + destruct (is_kind RBrace t); [injection H as <- <-; apply uses_cons|].
      destruct (is_kind BareScalar t || is_kind QuotedScalar t) eqn:E; [injection H as <- <-; split; [apply uses_refl|eauto]|].
      destruct (is_kind DocComment t); [|discriminate]. apply IH in H; [|lia].
      destruct more; [destruct H as [H1 H2]; split; [eapply uses_weak, uses_step, H1|exact H2]|eapply uses_step, H].
Qed.

Lemma bind_ok {A B} (a : dres A) (k : A -> dres B) r : dbind a k = DOk r -> exists x, a = DOk x /\ k x = DOk r.
Proof. destruct a; try discriminate. eauto. Qed.

Ltac inv := repeat match goal with
  | H : dbind _ _ = DOk _ |- _ => apply bind_ok in H as (? & ? & H)
  | H : (let (_, _) := ?x in _) = DOk _ |- _ => destruct x eqn:?
  | H : DOk _ = DOk _ |- _ => injection H as ? ?; subst
  | H : DErr = DOk _ |- _ => discriminate H
  | H : DFuel = DOk _ |- _ => discriminate H
  end.

Lemma skip_comma_eof ts : skip_comma ts = [] -> ts <> [] -> uses true ts [].
Proof. intros H Hn. exists ts. split; [now rewrite app_nil_r|auto]. Qed.

Lemma de_uses : forall f, (forall t ts v ts', de env f t ts = DOk (v, ts') -> uses true ts ts') /\
  (forall t ts v ts', de_items env f t ts = DOk (v, ts') -> uses true ts ts') /\
  (forall l ts v ts', de_tuple env f l ts = DOk (v, ts') -> uses false ts ts') /\
  (forall kt vt acc ts v ts', de_pairs env f kt vt acc ts = DOk (v, ts') -> uses true ts ts') /\
  (forall fs acc ts v ts', de_fields env f fs acc ts = DOk (v, ts') -> uses true ts ts') /\
  (forall vs n ts v ts', de_variant env f vs n ts = DOk (v, ts') -> uses false ts ts').
Proof.
  induction f as [|f (I1 & I2 & I3 & I4 & I5 & I6)]; [splits; discriminate|].
  assert (HN : forall ts tk r, next_tok ts = (tk, r) -> uses true ts r) by (intros ts tk r E; pose proof (uses_next ts) as H; rewrite E in H; exact H).
  splits.
  - intros t ts v ts' H. cbn [de] in H. destruct (next_tok ts) as [tk r] eqn:En. specialize (HN _ _ _ En).
    destruct t.
    + destruct (str_eqb _ _); [inv; exact HN|]. destruct (str_eqb _ _); [inv; exact HN|discriminate].
    + destruct (parse_i64 _); [|discriminate]. destruct (in_int _ _); [inv; exact HN|discriminate].
    + destruct (SerdeModel.parse_u64 _); [|discriminate]. destruct (in_uint _ _); [inv; exact HN|discriminate].
    + discriminate.
    + discriminate.
    + inv. exact HN.
    + inv. exact HN.
    + inv. exact HN.
    + destruct (is_kind At tk); [inv; exact HN|discriminate].
    + destruct (is_kind At tk) eqn:Ea.
      * destruct r as [|n r1]; [inv; exact HN|]. destruct (is_kind BareScalar n && _); [|inv; exact HN].
        inv. match goal with H : de _ _ _ _ = _ |- _ => apply I1 in H end.
        destruct ts as [|tk' rest]; [discriminate En|]. injection En as -> ->.
        match goal with H : uses true (tk :: r1) _ |- _ => destruct H as ([|a' p] & E & Hp); [destruct (Hp eq_refl ltac:(discriminate) eq_refl)|] end.
        injection E as <- ->. exists (tk :: n :: p). split; [reflexivity|discriminate].
      * inv. eapply I1; eassumption.
    + eapply I1; eassumption.
    + destruct (is_kind LParen tk); [|discriminate]. inv. eapply uses_left; [exact HN|eapply I2; eassumption].
    + destruct (is_kind LParen tk); [|discriminate]. inv. eapply uses_left; [exact HN|eapply I3; eassumption].
    + inv. destruct (is_kind LBrace tk); [eapply uses_left; [exact HN|eapply I4; eassumption]|eapply I4; eassumption].
    + inv. destruct (is_kind LBrace tk); [eapply uses_left; [exact HN|eapply I5; eassumption]|eapply I5; eassumption].
    + destruct (is_kind At tk).
      * destruct (next_tok r) as [n r1] eqn:En1. destruct (is_kind BareScalar n); [|discriminate]. eapply uses_left; [exact HN|]. eapply uses_left; [|eapply I6; eassumption].
        pose proof (uses_next r) as Hu. rewrite En1 in Hu. exact Hu.
      * destruct (is_kind BareScalar tk); [|discriminate]. eapply uses_left; [exact HN|eapply I6; eassumption].
    + eapply I1; eassumption.
  - intros t ts v ts' H. cbn [de_items] in H. pose proof (skip_comma_uses ts) as Hs. destruct (skip_comma ts) as [|tk r]; [discriminate|].
    assert (uses true (tk :: r) ts') as Hu.
    { destruct (is_kind RParen tk); [inv; apply uses_cons|]. inv.
      eapply uses_left; [eapply I1; eassumption|eapply I2; eassumption]. }
    eapply uses_right; [exact Hs|discriminate|exact Hu].
  - intros l ts v ts' H. cbn [de_tuple] in H. destruct l as [|t l]; [inv; apply uses_refl|]. pose proof (skip_comma_uses ts) as Hs. destruct (skip_comma ts) as [|tk r]; [discriminate|].
    destruct (is_kind RParen tk); [discriminate|]. inv.
    eapply uses_left; [exact Hs|]. eapply uses_weak, uses_left; [eapply I1; eassumption|eapply I3; eassumption].
  - intros kt vt acc ts v ts' H. cbn [de_pairs] in H. apply bind_ok in H as ([ts1 more] & E & H). match goal with E : next_key _ = _ |- _ => apply (next_key_uses _ _ _ _ (le_n _)) in E; rename E into Hk end.
    destruct more; [|inv; exact Hk]. destruct Hk as [Hk (t & r & -> & _)]. inv.
    eapply uses_right; [exact Hk|discriminate|]. eapply uses_left; [eapply I1; eassumption|]. eapply uses_left; [eapply I1; eassumption|]. eapply I4; eassumption.
  - intros fs acc ts v ts' H. cbn [de_fields] in H. apply bind_ok in H as ([ts1 more] & E & H). match goal with E : next_key _ = _ |- _ => apply (next_key_uses _ _ _ _ (le_n _)) in E; rename E into Hk end.
    destruct more; [|inv; exact Hk]. destruct Hk as [Hk (t & r & -> & _)]. cbn [next_tok] in H. inv. eapply uses_right; [exact Hk|discriminate|].
    destruct (lookup _ fs).
    + destruct (lookup _ acc); [discriminate|]. inv. eapply uses_step. eapply uses_left; [eapply I1; eassumption|eapply I5; eassumption].
    + eapply uses_step. eapply uses_left; [apply (skip_value_uses _ _ (le_n _))|eapply I5; eassumption].
  - intros vs n ts v ts' H. cbn [de_variant] in H. destruct (lookup n vs) as [[|t|l|fs]|]; [inv; apply uses_refl| | | |discriminate].
    + inv. eapply uses_weak, I1; eassumption.
    + destruct (next_tok ts) as [tk r] eqn:En. destruct (is_kind LParen tk); [|discriminate]. inv. eapply uses_weak, uses_left; [eapply HN; eassumption|eapply I3; eassumption].
    + destruct (next_tok ts) as [tk r] eqn:En. inv.
      destruct (is_kind LBrace tk); [eapply uses_weak, uses_left; [eapply HN; eassumption|eapply I5; eassumption]|eapply uses_weak, I5; eassumption].
Qed.

(** ** No panics *)

Definition sound (t : token) : Prop := tok_shape (tk_kind t) (tk_text t).

Lemma tokens_sound fuel : forall st ts, hd_ok (ts_hd st) -> tokens_from fuel st = Some ts -> Forall sound ts.
Proof.
  induction fuel as [|f IH]; intros st ts Hh H; [discriminate|]. cbn [tokens_from] in H. pose proof (next_token_good st Hh) as (Hs & Hh' & _).
  destruct (next_token st) as [t st']. cbn [fst snd] in *. destruct (is_eof_kind (tk_kind t)); [injection H as <-; constructor|].
  destruct (tokens_from f st') as [ts'|] eqn:E; [|discriminate]. injection H as <-. constructor; [exact Hs|eapply IH; eassumption].
Qed.

Lemma uses_sound b ts ts' : uses b ts ts' -> Forall sound ts -> Forall sound ts'.
Proof. intros (p & -> & _) H. now apply Forall_app in H. Qed.
Lemma next_sound ts : Forall sound ts -> sound (fst (next_tok ts)) /\ Forall sound (snd (next_tok ts)).
Proof. intros [|t r H1 H2]; cbn; auto. Qed.
Lemma skip_comma_sound ts : Forall sound ts -> Forall sound (skip_comma ts).
Proof. apply uses_sound with (b := false), skip_comma_uses. Qed.

Lemma str_of_safe t : sound t -> str_of t <> DPanic.
Proof. unfold sound, str_of. destruct (tk_kind t); try discriminate. intros (n & a & ->). rewrite raw_inside_ok. discriminate. Qed.
Lemma de_bytes_safe t : sound t -> de_bytes t <> DPanic.
Proof.
  unfold sound, de_bytes. intros H. assert (forall o : option (list N), of_some o <> DPanic) as Ho by (intros [|]; discriminate).
  destruct (tk_kind t); try apply Ho. destruct H as (a & ->). cbn [List.length]. rewrite app_length, Nat.add_comm. cbn [List.length Nat.add Nat.leb]. apply Ho.
Qed.
Lemma next_key_safe n : forall ts, length ts <= n -> next_key ts <> DPanic.
Proof.
  induction n as [|n IH]; intros [|t r] Hl; cbn [length] in Hl; try discriminate; [lia|]. cbn [next_key].
  destruct (is_kind Comma t); [destruct r as [|u r]; [discriminate|]; cbn [length] in Hl|];
    repeat match goal with |- (if ?b then _ else _) <> _ => destruct b end; try discriminate; apply IH; lia.
Qed.
Lemma bind_safe {A B} (a : dres A) (k : A -> dres B) : a <> DPanic -> (forall x, a = DOk x -> k x <> DPanic) -> dbind a k <> DPanic.
Proof. destruct a; cbn; auto; discriminate. Qed.
Lemma of_some_safe {A} (o : option A) : of_some o <> DPanic.
Proof. destruct o; discriminate. Qed.

Lemma de_safe : forall f, (forall t ts, Forall sound ts -> de env f t ts <> DPanic) /\ (forall t ts, Forall sound ts -> de_items env f t ts <> DPanic) /\
  (forall l ts, Forall sound ts -> de_tuple env f l ts <> DPanic) /\ (forall kt vt acc ts, Forall sound ts -> de_pairs env f kt vt acc ts <> DPanic) /\
  (forall fs acc ts, Forall sound ts -> de_fields env f fs acc ts <> DPanic) /\ (forall vs n ts, Forall sound ts -> de_variant env f vs n ts <> DPanic).
Proof.
  induction f as [|f (I1 & I2 & I3 & I4 & I5 & I6)]; [splits; discriminate|].
  destruct (de_uses f) as (U1 & U2 & U3 & U4 & U5 & U6).
  splits.
  - intros t ts Hs. cbn [de]. pose proof (next_sound _ Hs) as [Ht Hr]. destruct (next_tok ts) as [tk r]. cbn [fst snd] in *. destruct t.
    + repeat (destruct (str_eqb _ _); [discriminate|]). discriminate.
    + destruct (parse_i64 _); [destruct (in_int _ _)|]; discriminate.
    + destruct (SerdeModel.parse_u64 _); [destruct (in_uint _ _)|]; discriminate.
    + discriminate.
    + discriminate.
    + apply bind_safe; [apply of_some_safe|discriminate].
    + apply bind_safe; [now apply str_of_safe|discriminate].
    + apply bind_safe; [now apply de_bytes_safe|discriminate].
    + destruct (is_kind At tk); discriminate.
    + destruct (is_kind At tk); [destruct r as [|n r1]; [discriminate|]; destruct (is_kind BareScalar n && _); [|discriminate]|].
      * apply bind_safe; [|intros [? ?]; discriminate]. apply I1. inversion Hr; subst. now constructor.
      * apply bind_safe; [|intros [? ?]; discriminate]. now apply I1.
    + now apply I1.
    + destruct (is_kind LParen tk); [|discriminate]. apply bind_safe; [|intros [? ?]; discriminate]. now apply I2.
    + destruct (is_kind LParen tk); [|discriminate]. apply bind_safe; [|intros [? ?]; discriminate]. now apply I3.
    + apply bind_safe; [|intros [? ?]; discriminate]. apply I4. now destruct (is_kind LBrace tk).
    + apply bind_safe; [|intros [? ?]; discriminate]. apply I5. now destruct (is_kind LBrace tk).
    + destruct (is_kind At tk).
      * pose proof (next_sound _ Hr) as [_ Hr1]. destruct (next_tok r) as [n r1]. destruct (is_kind BareScalar n); [now apply I6|discriminate].
      * destruct (is_kind BareScalar tk); [now apply I6|discriminate].
    + now apply I1.
  - intros t ts Hs. cbn [de_items]. apply skip_comma_sound in Hs. destruct (skip_comma ts) as [|tk r]; [discriminate|]. destruct (is_kind RParen tk); [discriminate|].
    apply bind_safe; [now apply I1|]. intros [v ts1] E. apply bind_safe; [|intros [? ?]; discriminate]. apply I2. eapply uses_sound; [eapply U1; eassumption|exact Hs].
  - intros l ts Hs. cbn [de_tuple]. destruct l as [|t l]; [discriminate|]. apply skip_comma_sound in Hs. destruct (skip_comma ts) as [|tk r]; [discriminate|]. destruct (is_kind RParen tk); [discriminate|].
    apply bind_safe; [now apply I1|]. intros [v ts1] E. apply bind_safe; [|intros [? ?]; discriminate]. apply I3. eapply uses_sound; [eapply U1; eassumption|exact Hs].
  - intros kt vt acc ts Hs. cbn [de_pairs]. apply bind_safe; [apply (next_key_safe _ _ (le_n _))|]. intros [ts1 more] E. apply (next_key_uses _ _ _ _ (le_n _)) in E. destruct more; [|discriminate].
    destruct E as [E _]. apply (uses_sound _ _ _ E) in Hs. apply bind_safe; [now apply I1|]. intros [k ts2] E2. apply U1 in E2. apply (uses_sound _ _ _ E2) in Hs.
    apply bind_safe; [now apply I1|]. intros [w ts3] E3. apply U1 in E3. apply (uses_sound _ _ _ E3) in Hs. now apply I4.
  - intros fs acc ts Hs. cbn [de_fields]. apply bind_safe; [apply (next_key_safe _ _ (le_n _))|]. intros [ts1 more] E. apply (next_key_uses _ _ _ _ (le_n _)) in E. destruct more.
    + destruct E as [E _]. apply (uses_sound _ _ _ E) in Hs. pose proof (next_sound _ Hs) as [_ Hr]. destruct (next_tok ts1) as [tk ts2]. cbn [snd] in Hr.
      apply bind_safe; [unfold ident_of; destruct (tk_kind tk); discriminate|]. intros n _. destruct (lookup n fs).
      * destruct (lookup n acc); [discriminate|]. apply bind_safe; [now apply I1|]. intros [w ts3] E3. apply U1 in E3. apply (uses_sound _ _ _ E3) in Hr. now apply I5.
      * apply I5. eapply uses_sound; [apply (skip_value_uses _ _ (le_n _))|exact Hr].
    + apply bind_safe; [apply of_some_safe|discriminate].
  - intros vs n ts Hs. cbn [de_variant]. destruct (lookup n vs) as [[|t|l|fs]|]; try discriminate.
    + apply bind_safe; [now apply I1|intros [? ?]; discriminate].
    + pose proof (next_sound _ Hs) as [_ Hr]. destruct (next_tok ts) as [tk r]. destruct (is_kind LParen tk); [|discriminate]. apply bind_safe; [now apply I3|intros [? ?]; discriminate].
    + pose proof (next_sound _ Hs) as [_ Hr]. destruct (next_tok ts) as [tk r]. apply bind_safe; [|intros [? ?]; discriminate]. apply I5. now destruct (is_kind LBrace tk).
Qed.

Lemma filter_sound ts : Forall sound ts -> Forall sound (filter counts ts).
Proof. rewrite !Forall_forall. intros H x Hx. apply filter_In in Hx as [Hx _]. now apply H. Qed.

Lemma from_str_safe fuel t s : from_str env fuel t s <> DPanic.
Proof.
  unfold from_str. destruct (tokens s) as [ts|] eqn:E; [|discriminate]. apply bind_safe; [|intros [? ?]; discriminate]. apply de_safe, filter_sound. apply (tokens_sound _ _ _) with (2 := E). exact I.
Qed.

(** ** Termination *)

Definition halts {A} (F : nat -> dres A) : Prop := exists n r, r <> DFuel /\ forall fuel, n <= fuel -> F fuel = r.

Lemma halts_const {A} (r : dres A) : r <> DFuel -> halts (fun _ => r).
Proof. intros H. exists 0, r. auto. Qed.
Lemma halts_ext {A} (F G : nat -> dres A) : (forall f, F f = G f) -> halts G -> halts F.
Proof. intros E (n & r & Hr & H). exists n, r. split; [exact Hr|]. intros fuel Hf. now rewrite E, H. Qed.
Lemma halts_succ {A} (F G : nat -> dres A) : (forall f, F (S f) = G f) -> halts G -> halts F.
Proof. intros E (n & r & Hr & H). exists (S n), r. split; [exact Hr|]. intros [|fuel] Hf; [lia|]. rewrite E. apply H. lia. Qed.
Lemma halts_bind {A B} (a : nat -> dres A) (k : A -> nat -> dres B) : halts a -> (forall x, (exists n, a n = DOk x) -> halts (k x)) -> halts (fun f => dbind (a f) (fun x => k x f)).
Proof.
  intros (n & r & Hr & H) Hk. destruct r as [x| | |]; [|exists n, DErr; split; [discriminate|]; intros fuel Hf; now rewrite H|exists n, DPanic; split; [discriminate|]; intros fuel Hf; now rewrite H|congruence].
  destruct (Hk x) as (m & r & Hr' & H'); [exists n; now apply H|]. exists (n + m), r. split; [exact Hr'|]. intros fuel Hf. rewrite H by lia. cbn [dbind]. apply H'. lia.
Qed.

(** [unguarded t k]: unfolding [t] through options, newtypes, names and keys of maps ends after [k] steps. No type that
    Rust accepts and that is not infinite in itself is outside this. *)
Inductive unguarded : ty -> nat -> Prop :=
| ug_leaf t k : match t with TOption _ | TNewtype _ | TRef _ | TMap _ _ => False | _ => True end -> unguarded t k
| ug_option t k : unguarded t k -> unguarded (TOption t) (S k)
| ug_newtype t k : unguarded t k -> unguarded (TNewtype t) (S k)
| ug_map kt vt k : unguarded kt k -> unguarded (TMap kt vt) (S k)
| ug_ref n k : unguarded (env n) k -> unguarded (TRef n) (S k).
Definition guarded : Prop := forall n, exists k, unguarded (env n) k.

Lemma guarded_all : guarded -> forall t, exists k, unguarded t k.
Proof.
  intros G. fix IH 1. intros t. destruct t; try (exists 0; now constructor).
  - destruct (IH t) as (k & H). exists (S k). now constructor.
  - destruct (IH t) as (k & H). exists (S k). now constructor.
  - destruct (IH t1) as (k & H). exists (S k). now constructor.
  - destruct (G n) as (k & H). exists (S k). now constructor.
Qed.

Ltac halt := repeat match goal with
  | |- halts (fun _ => if ?b then _ else _) => destruct b
  | |- halts (fun _ => match ?o with Some _ => _ | None => _ end) => destruct o
  | |- halts (fun _ => DOk _) => apply halts_const; discriminate
  | |- halts (fun _ => DErr) => apply halts_const; discriminate
  end.

Lemma of_some_fuel {A} (o : option A) : of_some o <> DFuel.
Proof. destruct o; discriminate. Qed.
Lemma str_of_fuel t : str_of t <> DFuel.
Proof. unfold str_of, raw_inside. destruct (tk_kind t); try discriminate. destruct (_ <=? _); discriminate. Qed.
Lemma de_bytes_fuel t : de_bytes t <> DFuel.
Proof. unfold de_bytes. destruct (tk_kind t); try apply of_some_fuel. destruct (_ <=? _); [apply of_some_fuel|discriminate]. Qed.
Lemma ident_fuel t : ident_of t <> DFuel.
Proof. unfold ident_of. destruct (tk_kind t); discriminate. Qed.
Lemma next_key_fuel n : forall ts, length ts <= n -> next_key ts <> DFuel.
Proof.
  induction n as [|n IH]; intros [|t r] Hl; cbn [length] in Hl; try discriminate; [lia|]. cbn [next_key].
  destruct (is_kind Comma t); [destruct r as [|u r]; [discriminate|]; cbn [length] in Hl|];
    repeat match goal with |- (if ?b then _ else _) <> _ => destruct b end; try discriminate; apply IH; lia.
Qed.
Lemma halts_one {A B} (a : dres A) (k : A -> nat -> dres B) : a <> DFuel -> (forall x, a = DOk x -> halts (k x)) -> halts (fun f => dbind a (fun x => k x f)).
Proof. intros Ha Hk. apply halts_bind; [now apply halts_const|]. intros x (_ & E). now apply Hk. Qed.

Definition level (L : nat) : Prop :=
  (forall t ts, length ts <= L -> halts (fun f => de env f t ts)) /\ (forall t ts, length ts <= L -> halts (fun f => de_items env f t ts)) /\
  (forall l ts, length ts <= L -> halts (fun f => de_tuple env f l ts)) /\ (forall kt vt acc ts, length ts <= L -> halts (fun f => de_pairs env f kt vt acc ts)) /\
  (forall fs acc ts, length ts <= L -> halts (fun f => de_fields env f fs acc ts)) /\ (forall vs n ts, length ts <= L -> halts (fun f => de_variant env f vs n ts)).

Lemma wrap_halts {A} (F : nat -> dres (A * toks)) (g : A -> val) : halts F -> halts (fun f => dbind (F f) (fun '(v, ts') => DOk (g v, ts'))).
Proof. intros H. apply (halts_bind F (fun x _ => let '(v, ts') := x in DOk (g v, ts'))); [exact H|]. intros [v ts'] _. apply halts_const. discriminate. Qed.

Lemma used_length f t ts v ts' : de env f t ts = DOk (v, ts') -> length ts' <= length ts /\ (ts <> [] -> length ts' < length ts).
Proof. intros H. apply de_uses in H. apply uses_length in H as [H1 H2]. auto. Qed.
Lemma next_length ts : length (snd (next_tok ts)) <= length ts /\ (ts <> [] -> length (snd (next_tok ts)) < length ts).
Proof. destruct ts; cbn; [split; [lia|congruence]|split; lia]. Qed.

Ltac invk H := inversion H as [? ? Hf|? k' Hk'|? k' Hk'|? ? k' Hk'|? k' Hk']; subst; try contradiction.
Ltac unf := eapply halts_succ; [intros f; cbn [de de_items de_tuple de_pairs de_fields de_variant]; reflexivity|].

Lemma fields_halt L : (forall m, m < L -> level m) -> forall fs acc ts, length ts <= L -> halts (fun f => de_fields env f fs acc ts).
Proof.
  intros HL fs acc ts Hl. unf. apply halts_one; [apply (next_key_fuel _ _ (le_n _))|]. intros [ts1 more] E. apply (next_key_uses _ _ _ _ (le_n _)) in E. destruct more.
  - destruct E as (E & t & r & -> & _). apply uses_length in E as [E _]. cbn [length] in E. cbn [next_tok].
    assert (Hr : length r < L) by lia. destruct (HL _ Hr) as (D1 & _ & _ & _ & D5 & _).
    apply halts_one; [apply ident_fuel|]. intros n _. destruct (lookup n fs).
    + destruct (lookup n acc); [halt|]. apply halts_bind; [now apply D1|]. intros [v ts3] (f & Ev). apply used_length in Ev as [Ev _]. apply D5. lia.
    + apply D5. pose proof (skip_value_uses _ _ (le_n (length r))) as U. apply uses_length in U. lia.
  - apply halts_one; [apply of_some_fuel|]. intros. halt.
Qed.

Lemma pairs_halt L kt vt : (forall m, m < L -> level m) -> (forall ts, length ts <= L -> halts (fun f => de env f kt ts)) ->
  forall acc ts, length ts <= L -> halts (fun f => de_pairs env f kt vt acc ts).
Proof.
  intros HL Hk acc ts Hl. unf. apply halts_one; [apply (next_key_fuel _ _ (le_n _))|]. intros [ts1 more] E. apply (next_key_uses _ _ _ _ (le_n _)) in E. destruct more; [|halt].
  destruct E as (E & t & r & -> & _). apply uses_length in E as [E _]. apply halts_bind; [apply Hk; lia|]. intros [k ts2] (f & Ek).
  apply used_length in Ek as [_ Ek]. specialize (Ek ltac:(discriminate)). assert (Hr : length ts2 < L) by lia. destruct (HL _ Hr) as (D1 & _ & _ & D4 & _ & _).
  apply halts_bind; [now apply D1|]. intros [w ts3] (f2 & Ew). apply used_length in Ew as [Ew _]. now apply D4.
Qed.

Lemma de_halts_at L : guarded -> (forall m, m < L -> level m) -> forall t ts, length ts <= L -> halts (fun f => de env f t ts).
Proof.
  intros G HL t. destruct (guarded_all G t) as (k & Hk). revert t Hk. induction k as [k IHk] using (well_founded_induction lt_wf). intros t Hk ts Hl.
  pose proof (next_length ts) as [Hn1 Hn2]. assert (Hsmall : forall m, is_kind m (fst (next_tok ts)) = true -> m <> Eof -> length (snd (next_tok ts)) < length ts)
    by (intros m Hm He; apply Hn2; intros ->; apply He; destruct m; (reflexivity || discriminate Hm)).
  unf. destruct (next_tok ts) as [tk r]. cbn [fst snd] in *. destruct t.
  - halt.
  - destruct (parse_i64 _); halt.
  - destruct (SerdeModel.parse_u64 _); halt.
  - halt.
  - halt.
  - apply halts_one; [apply of_some_fuel|intros; halt].
  - apply halts_one; [apply str_of_fuel|intros; halt].
  - apply halts_one; [apply de_bytes_fuel|intros; halt].
  - halt.
  - invk Hk. assert (Hs : forall ts, length ts <= L -> halts (fun f => de env f t ts)) by (intros ts' ?; now apply (IHk k'); [lia| |]).
    destruct (is_kind At tk) eqn:Ea.
    + specialize (Hsmall At Ea ltac:(discriminate)). destruct r as [|n r1]; [halt|]. destruct (_ && _); [|halt]. apply wrap_halts, Hs. cbn [length] in *. lia.
    + apply wrap_halts. now apply Hs.
  - invk Hk. now apply (IHk k'); [lia| |].
  - destruct (is_kind LParen tk) eqn:Ea; [|halt]. specialize (Hsmall LParen Ea ltac:(discriminate)). apply wrap_halts. eapply HL; [|exact (le_n _)]. lia.
  - destruct (is_kind LParen tk) eqn:Ea; [|halt]. specialize (Hsmall LParen Ea ltac:(discriminate)). apply wrap_halts. eapply HL; [|exact (le_n _)]. lia.
  - invk Hk. apply wrap_halts. apply pairs_halt with (L := L); [exact HL| |destruct (is_kind LBrace tk); lia]. intros ts' ?. now apply (IHk k'); [lia| |].
  - apply wrap_halts. apply fields_halt with (L := L); [exact HL|destruct (is_kind LBrace tk); lia].
  - assert (Hv : forall n ts', length ts' < L -> halts (fun f => de_variant env f l n ts')) by (intros n ts' H; eapply HL; [exact H|exact (le_n _)]).
    destruct (is_kind At tk) eqn:Ea.
    + specialize (Hsmall At Ea ltac:(discriminate)). pose proof (next_length r) as [Hm _]. destruct (next_tok r) as [n r1]. cbn [snd] in Hm. destruct (is_kind BareScalar n); [|halt]. apply Hv. lia.
    + destruct (is_kind BareScalar tk) eqn:Eb; [|halt]. specialize (Hsmall BareScalar Eb ltac:(discriminate)). apply Hv. lia.
  - invk Hk. now apply (IHk k'); [lia| |].
Qed.

Lemma level_all : guarded -> forall L, level L.
Proof.
  intros G L. induction L as [L HL] using (well_founded_induction lt_wf). pose proof (de_halts_at L G HL) as D. pose proof (fields_halt L HL) as DF.
  assert (DT : forall l ts, length ts <= L -> halts (fun f => de_tuple env f l ts)).
  { induction l as [|t l IH]; intros ts Hl; unf; [halt|]. pose proof (skip_comma_uses ts) as U. apply uses_length in U as [U _]. destruct (skip_comma ts) as [|tk r]; [halt|]. destruct (is_kind RParen tk); [halt|].
    apply halts_bind; [apply D; lia|]. intros [v ts1] (f & Ev). apply used_length in Ev as [_ Ev]. specialize (Ev ltac:(discriminate)).
    apply (halts_bind (fun f => de_tuple env f l ts1)); [apply IH; lia|]. intros [? ?] _. halt. }
  unfold level. splits.
  - exact D.
  - intros t ts Hl. unf. pose proof (skip_comma_uses ts) as U. apply uses_length in U as [U _]. destruct (skip_comma ts) as [|tk r]; [halt|]. destruct (is_kind RParen tk); [halt|].
    apply halts_bind; [apply D; lia|]. intros [v ts1] (f & Ev). apply used_length in Ev as [_ Ev]. specialize (Ev ltac:(discriminate)).
    apply (halts_bind (fun f => de_items env f t ts1)); [eapply HL; [|exact (le_n _)]; lia|]. intros [? ?] _. halt.
  - exact DT.
  - intros kt vt acc ts Hl. apply pairs_halt with (L := L); auto.
  - exact DF.
  - intros vs n ts Hl. unf. destruct (lookup n vs) as [[|t|l|fs]|]; try solve [halt].
    + apply wrap_halts. now apply D.
    + pose proof (next_length ts) as [Hn _]. destruct (next_tok ts) as [tk r]. cbn [snd] in Hn. destruct (is_kind LParen tk); [|halt]. apply wrap_halts, DT. lia.
    + pose proof (next_length ts) as [Hn _]. destruct (next_tok ts) as [tk r]. cbn [snd] in Hn. apply wrap_halts, DF. destruct (is_kind LBrace tk); lia.
Qed.

Lemma from_str_halts t s : guarded -> exists n r, r <> DFuel /\ forall fuel, n <= fuel -> from_str env fuel t s = r.
Proof.
  intros G. unfold from_str. destruct (tokens_total s) as (ts & ->).
  apply (halts_bind (fun f => de env f t (filter counts ts)) (fun x _ => let '(v, _) := x in DOk v)); [now apply (level_all G (length (filter counts ts)))|]. intros [? ?] _. halt.
Qed.

Lemma from_str_only n t s r : from_str env n t s = r -> r <> DFuel -> forall fuel x, from_str env fuel t s = DOk x -> r = DOk x.
Proof.
  unfold from_str. destruct (tokens s) as [ts|]; [|congruence]. intros E Hr fuel x Ex.
  destruct (Nat.le_ge_cases n fuel) as [Hle|Hle].
  - rewrite <- E. rewrite (de_fuel n fuel) in Ex; [exact Ex|exact Hle|]. intros E'. rewrite E' in E. now apply Hr.
  - rewrite <- Ex, <- E. f_equal. apply de_fuel; [exact Hle|]. intros E'. now rewrite E' in Ex.
Qed.
End Total.
