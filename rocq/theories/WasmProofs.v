(** Proofs for C85-C87. *)
From Coq Require Import String Lia.
From Verif Require Import Base BaseProofs TokModel LexModel LexSpec ParseModel ParseSpec TreeModel TreeSpec FmtModel FmtSpec GrammarSpec WriteSpec WriteProofs SchemaModel SchemaSpec SchemaProofs
  SerdeModel SerdeTokens SerdeProofs FacetSerSpec WasmModel WasmSpec.
Notation length := List.length.

(** ** Loops over the events *)

Lemma diagnostics_events fuel p evs : events_from fuel p = Ok evs -> diagnostics_from fuel p = Ok (flat_map error_of evs).
Proof.
  revert p evs. induction fuel as [|f IH]; [discriminate|]. intros p evs. cbn [events_from diagnostics_from]. destruct (next_event p) as [[[e|] p']| |]; cbn [bind]; try discriminate.
  - destruct (events_from f p') as [r| |] eqn:E; cbn [bind]; try discriminate. intros [= <-]. rewrite (IH _ _ E). reflexivity.
  - now intros [= <-].
Qed.
Lemma validate_events fuel p evs : events_from fuel p = Ok evs -> validate_from fuel p = Ok (success (flat_map error_of evs)).
Proof.
  revert p evs. induction fuel as [|f IH]; [discriminate|]. intros p evs. cbn [events_from validate_from]. destruct (next_event p) as [[[e|] p']| |]; cbn [bind]; try discriminate.
  - destruct (events_from f p') as [r| |] eqn:E; cbn [bind]; try discriminate. intros [= <-]. cbn [flat_map]. unfold error_of at 1. rewrite (IH _ _ E). destruct (ev_kind e); reflexivity.
  - now intros [= <-].
Qed.

Section Json.
Variable F : Type.
Variable parse_f64 : str -> option F.
Variable finite : F -> bool.
Variable show_f64 : F -> str.
Variable debug : value -> str.
Notation json := (json F).
Notation to_json := (value_to_json F parse_f64 finite debug).
Notation of_json := (json_to_value F show_f64).

Lemma json_ind' (P : json -> Prop) : P JNull -> (forall b, P (JBool b)) -> (forall z, P (JInt z)) -> (forall f, P (JFloat f)) -> (forall s, P (JString s)) ->
  (forall l, Forall P l -> P (JArray l)) -> (forall m, Forall (fun kx => P (snd kx)) m -> P (JObject m)) -> forall j, P j.
Proof.
  intros H1 H2 H3 H4 H5 H6 H7. fix IH 1. intros [|b|z|f|s|l|m]; [exact H1|apply H2|apply H3|apply H4|apply H5| |].
  - apply H6. induction l as [|x l IHl]; constructor; [apply IH|exact IHl].
  - apply H7. induction m as [|[k x] m IHm]; constructor; [apply IH|exact IHm].
Qed.

Lemma scalar_int z : (- 2 ^ 63 <= z < 2 ^ 63)%Z -> scalar_json F parse_f64 finite (show_z z) = JInt z.
Proof. intros H. unfold scalar_json. now rewrite parse_i64_show. Qed.
Lemma no_int_parse (s : str) : no_int s -> parse_i64 s = None.
Proof. intros H. destruct (parse_i64 s) as [z|] eqn:E; [|reflexivity]. apply parse_signed_spec in E as [E R]. now destruct (H z E). Qed.
Lemma scalar_word (s : str) : word F parse_f64 s -> scalar_json F parse_f64 finite s = JString s.
Proof.
  intros (A & B & C & D & E). unfold scalar_json. rewrite (no_int_parse s A), B.
  destruct (str_eqb_spec s (lit "true")); [contradiction|]. destruct (str_eqb_spec s (lit "false")); [contradiction|]. destruct (str_eqb_spec s (lit "null")); [contradiction|reflexivity].
Qed.
Lemma scalar_bool (b : bool) : words_are_no_floats F parse_f64 -> scalar_json F parse_f64 finite (if b then lit "true" else lit "false") = JBool b.
Proof. intros [A B]. unfold scalar_json. destruct b; [rewrite A|rewrite B]; reflexivity. Qed.

Lemma erase_text v s : erase v = Val None (PScalar s Bare None) None -> exists k a b, v = Val None (PScalar s k a) b.
Proof. destruct v as [[t|] [|s' k a|items a|es a] b]; cbn; intros H; try discriminate. injection H as ->. eauto. Qed.
Lemma to_json_text v s : erase v = Val None (PScalar s Bare None) None -> to_json v = scalar_json F parse_f64 finite s.
Proof. intros H. apply erase_text in H as (k & a & b & ->). reflexivity. Qed.
Lemma key_text_json v s : erase v = Val None (PScalar s Bare None) None -> key_json debug v = s.
Proof. intros H. apply erase_text in H as (k & a & b & ->). reflexivity. Qed.

Lemma insert_fresh k x (m : list (str * json)) : ~ In k (map fst m) -> map_insert F k x m = m ++ [(k, x)].
Proof.
  induction m as [|[k' y] m IH]; intros H; [reflexivity|]. cbn [map_insert]. destruct (str_eqb_spec k' k) as [->|D]; [exfalso; apply H; now left|].
  cbn [app]. rewrite IH; [reflexivity|]. intros I. apply H. now right.
Qed.
Fixpoint entries_json (es : list entry) (m : list (str * json)) : list (str * json) :=
  match es with [] => m | Ent k v _ :: r => entries_json r (map_insert F (key_json debug k) (to_json v) m) end.
Lemma to_json_obj es a b : to_json (Val None (PObj es a) b) = JObject (entries_json es []).
Proof. reflexivity. Qed.
Lemma entries_back m : forall es acc, map erase_entry es = map (fun kx => erase_entry (Ent (json_text (fst kx)) (of_json (snd kx)) None)) m ->
  Forall (fun kx => forall v, erase v = erase (of_json (snd kx)) -> to_json v = snd kx) m -> NoDup (map fst acc ++ map fst m) -> entries_json es acc = acc ++ m.
Proof.
  induction m as [|[k x] m IH]; intros es acc E H N.
  - destruct es; [|discriminate]. now rewrite app_nil_r.
  - destruct es as [|[k' v' d] es]; [discriminate|]. cbn [map erase_entry fst snd] in E. injection E as Ek Ev Ed E. inversion H as [|? ? Hx Hm]; subst. cbn [entries_json fst snd] in *.
    rewrite (key_text_json k' k Ek), (Hx v' Ev). cbn [map fst] in N. rewrite insert_fresh.
    + rewrite IH; [now rewrite <- app_assoc|exact E|exact Hm|]. rewrite map_app, <- app_assoc. exact N.
    + intros I. apply NoDup_remove_2 in N. apply N, in_or_app. now left.
Qed.

Lemma untagged_none m : untagged F m -> tag_of F m = None.
Proof.
  unfold untagged. induction m as [|[k x] m IH]; intros H; [reflexivity|]. cbn [tag_of]. destruct (str_eqb_spec k (lit "$tag")) as [->|D].
  - destruct x; try reflexivity. exfalso. apply (H s). now left.
  - apply IH. intros n I. apply (H n). now right.
Qed.
Lemma of_object m : untagged F m -> of_json (JObject m) = Val None (PObj (map (fun kx => Ent (json_text (fst kx)) (of_json (snd kx)) None) m) None) None.
Proof. intros H. cbn [json_to_value]. now rewrite untagged_none. Qed.
Lemma of_tag_only n : of_json (tag_only F n) = Val (Some (n, None)) PNone None.
Proof. reflexivity. Qed.
Lemma of_tagged n x : of_json (tagged F n x) = Val (Some (n, None)) (v_payload (of_json x)) None.
Proof. reflexivity. Qed.
Lemma payload_some x : x <> JNull -> (forall m, x = JObject m -> untagged F m) -> v_tag (of_json x) = None /\ v_payload (of_json x) <> PNone.
Proof.
  intros H U. destruct x as [|b|z|f|s|l|m]; try (split; [reflexivity|discriminate]); [congruence|]. rewrite (of_object m (U m eq_refl)). split; [reflexivity|discriminate].
Qed.

Lemma back : words_are_no_floats F parse_f64 -> forall j, plain F parse_f64 finite show_f64 j -> forall v, erase v = erase (of_json j) -> to_json v = j.
Proof.
  intros W. induction j as [|b|z|f|s|l IH|m IH] using json_ind'; intros Hp v E; inversion Hp; subst.
  - destruct v as [[t|] [] b]; try discriminate. reflexivity.
  - rewrite (to_json_text _ _ E). now apply scalar_bool.
  - rewrite (to_json_text _ _ E). now apply scalar_int.
  - rewrite (to_json_text _ _ E). unfold scalar_json. rewrite no_int_parse, H1 by assumption. unfold json_float. now rewrite H0.
  - rewrite (to_json_text _ _ E). now apply scalar_word.
  - destruct v as [[t|] [|s' k a|items a|es a] b]; try discriminate. cbn in E. injection E as E. rewrite map_map in E. cbn. f_equal.
    clear Hp. revert items E. induction l as [|x l IHl]; intros [|w items] E; try discriminate; [reflexivity|]. cbn in E. injection E as Ew E. inversion IH; inversion H0; subst. cbn. f_equal; auto.
  - change (erase v = Val (Some (n, None)) PNone None) in E. destruct v as [[[t sp]|] [] b]; try discriminate. cbn in E. injection E as ->. reflexivity.
  - change (erase v = erase (Val (Some (n, None)) (v_payload (of_json x)) None)) in E. destruct (payload_some x H1 H2) as [T N]. destruct v as [[[t sp]|] p b]; [|destruct p; discriminate E]. cbn in E. injection E as -> Ep.
    inversion IH as [|? ? _ IH']; subst. inversion IH' as [|? ? IHx _]; subst. cbn [snd] in IHx. assert (to_json (Val None p None) = x) as Hx.
    { apply IHx; [assumption|]. destruct (of_json x) as [t' p' b']. cbn in T, N, Ep |- *. subst. now rewrite Ep. }
    assert (p <> PNone) as Np. { intros ->. cbn in Ep. destruct (v_payload (of_json x)); try discriminate Ep. now apply N. }
    destruct p; [contradiction| | |]; cbn in Hx |- *; now rewrite Hx.
  - rewrite (of_object m H1) in E. destruct v as [[t|] [|s' k a|items a|es a] b]; try discriminate. cbn in E. injection E as E. rewrite map_map in E.
    rewrite to_json_obj. f_equal. apply (entries_back m es []); [exact E| |exact H0]. clear - IH H2. induction m as [|kx m IHm]; constructor; inversion IH; inversion H2; subst; auto.
Qed.

(** ** Nothing else comes back *)

Fixpoint size (j : json) : nat :=
  match j with
  | JArray l => S (fold_right (fun x n => size x + n) 0 l)
  | JObject m => S (fold_right (fun kx n => S (size (snd kx)) + n) 0 m)
  | _ => 1
  end.
Definition msize (m : list (str * json)) : nat := fold_right (fun kx n => S (size (snd kx)) + n) 0 m.
Notation payload_json := (payload_to_json F parse_f64 finite debug).
Lemma size_pos j : 1 <= size j.
Proof. destruct j; cbn; lia. Qed.
Lemma insert_size k x (m : list (str * json)) : msize (map_insert F k x m) <= msize m + S (size x).
Proof. induction m as [|[k' y] m IH]; cbn [map_insert]; [cbn; lia|]. destruct (str_eqb k' k); cbn [msize fold_right snd] in *; unfold msize in *; [pose proof (size_pos y)|]; lia. Qed.
Lemma entries_size m : Forall (fun kx : str * json => size (to_json (of_json (snd kx))) <= size (snd kx)) m -> forall acc,
  msize (entries_json (map (fun kx => Ent (json_text (fst kx)) (of_json (snd kx)) None) m) acc) <= msize acc + msize m.
Proof.
  induction 1 as [|[k x] m Hx Hm IH]; intros acc; cbn [map entries_json]; [cbn; lia|]. specialize (IH (map_insert F (key_json debug (json_text k)) (to_json (of_json x)) acc)).
  pose proof (insert_size (key_json debug (json_text k)) (to_json (of_json x)) acc). cbn [snd fst] in *. change (msize ((k, x) :: m)) with (S (size x) + msize m). lia.
Qed.
Fixpoint look (m : list (str * json)) : option json :=
  match m with [] => None | (k, x) :: r => if str_eqb k (lit "$value") then Some x else look r end.
Lemma of_tag_obj m n : tag_of F m = Some n -> of_json (JObject m) = Val (Some (n, None)) (match look m with Some x => v_payload (of_json x) | None => PNone end) None.
Proof.
  intros H. cbn [json_to_value]. rewrite H. f_equal. clear. induction m as [|[k x] m IH]; [reflexivity|]. cbn [look]. destruct (str_eqb k (lit "$value")); [reflexivity|exact IH].
Qed.
Lemma look_size m : match look m with Some x => S (size x) | None => 0 end <= msize m.
Proof. induction m as [|[k x] m IH]; [cbn; lia|]. change (msize ((k, x) :: m)) with (S (size x) + msize m). cbn [look]. destruct (str_eqb k (lit "$value")); lia. Qed.
Lemma tag_size m n : tag_of F m = Some n -> 2 + match look m with Some x => S (size x) | None => 0 end <= msize m.
Proof.
  induction m as [|[k x] m IH]; [discriminate|]. change (msize ((k, x) :: m)) with (S (size x) + msize m). cbn [tag_of look]. destruct (str_eqb_spec k (lit "$tag")) as [->|D].
  - change (str_eqb (lit "$tag") (lit "$value")) with false. cbv iota. intros H. pose proof (look_size m). pose proof (size_pos x). lia.
  - intros H. specialize (IH H). destruct (str_eqb k (lit "$value")); lia.
Qed.
Lemma look_in m x : look m = Some x -> In (lit "$value", x) m.
Proof. induction m as [|[k y] m IH]; [discriminate|]. cbn [look]. destruct (str_eqb_spec k (lit "$value")) as [->|D]; [intros [= ->]; now left|]. intros H. right. auto. Qed.
Lemma scalar_size s : size (scalar_json F parse_f64 finite s) = 1.
Proof.
  unfold scalar_json, json_float. destruct (parse_i64 s); [reflexivity|]. destruct (parse_f64 s) as [f|]; [destruct (finite f); reflexivity|].
  destruct (str_eqb s (lit "true")); [reflexivity|]. destruct (str_eqb s (lit "false")); [reflexivity|]. destruct (str_eqb s (lit "null")); reflexivity.
Qed.
Lemma no_growth : forall j, size (to_json (of_json j)) <= size j /\ size (payload_json (v_payload (of_json j))) <= size j.
Proof.
  induction j as [|b|z|f|s|l IH|m IH] using json_ind'.
  - split; cbn; lia.
  - split; (change (size (scalar_json F parse_f64 finite (if b then lit "true" else lit "false")) <= 1); rewrite scalar_size; lia).
  - split; (change (size (scalar_json F parse_f64 finite (show_z z)) <= 1); rewrite scalar_size; lia).
  - split; (change (size (scalar_json F parse_f64 finite (show_f64 f)) <= 1); rewrite scalar_size; lia).
  - split; (change (size (scalar_json F parse_f64 finite s) <= 1); rewrite scalar_size; lia).
  - assert (size (JArray (map to_json (map of_json l))) <= size (JArray l)) as A; [|split; exact A].
    cbn [size]. apply le_n_S. induction IH as [|x l [Hx _] Hl IHl]; [cbn; lia|]. cbn [map fold_right]. lia.
  - destruct (tag_of F m) as [n|] eqn:T.
    + rewrite (of_tag_obj m n T). pose proof (tag_size m n T) as Z. change (size (JObject m)) with (S (msize m)). cbn [v_payload]. destruct (look m) as [x|] eqn:L; [|split; cbn; lia].
      apply look_in in L. rewrite Forall_forall in IH. destruct (IH _ L) as [_ H]. cbn [snd] in H. split; [|lia].
      destruct (v_payload (of_json x)) as [|s' k a|items a|es a]; [cbn; lia| | |];
        match goal with |- size (to_json (Val _ ?p _)) <= _ => change (to_json (Val (Some (n, None)) p None)) with (tagged F n (payload_json p)); set (y := payload_json p) in * end; cbn [size tagged fold_right snd]; lia.
    + assert (of_json (JObject m) = Val None (PObj (map (fun kx => Ent (json_text (fst kx)) (of_json (snd kx)) None) m) None) None) as -> by (cbn [json_to_value]; now rewrite T).
      assert (S (msize (entries_json (map (fun kx => Ent (json_text (fst kx)) (of_json (snd kx)) None) m) [])) <= S (msize m)) as A; [|split; exact A].
      apply le_n_S. refine (entries_size m _ []). eapply Forall_impl; [|exact IH]. now intros kx [H _].
Qed.

Lemma scalar_string s t : scalar_json F parse_f64 finite s = JString t -> t = s /\ word F parse_f64 s.
Proof.
  unfold scalar_json, json_float. destruct (parse_i64 s) as [z|] eqn:I; [discriminate|]. destruct (parse_f64 s) as [f|] eqn:E; [destruct (finite f); discriminate|].
  destruct (str_eqb_spec s (lit "true")); [discriminate|]. destruct (str_eqb_spec s (lit "false")); [discriminate|]. destruct (str_eqb_spec s (lit "null")); [discriminate|].
  intros [= <-]. split; [reflexivity|]. split; [|now auto]. intros z Hz R. assert (parse_i64 s = Some z) as X by now apply parse_signed_spec. congruence.
Qed.
Lemma scalar_is_int s z : scalar_json F parse_f64 finite s = JInt z -> (- 2 ^ 63 <= z < 2 ^ 63)%Z.
Proof.
  unfold scalar_json, json_float. destruct (parse_i64 s) as [y|] eqn:I.
  - intros [= <-]. now apply parse_signed_spec in I.
  - destruct (parse_f64 s) as [f|]; [destruct (finite f); discriminate|]. destruct (str_eqb s (lit "true")); [discriminate|]. destruct (str_eqb s (lit "false")); [discriminate|]. destruct (str_eqb s (lit "null")); discriminate.
Qed.
Lemma scalar_float s f : scalar_json F parse_f64 finite s = JFloat f -> finite f = true /\ parse_f64 s = Some f /\ no_int s.
Proof.
  unfold scalar_json, json_float. destruct (parse_i64 s) as [y|] eqn:I; [discriminate|]. destruct (parse_f64 s) as [g|] eqn:E.
  - destruct (finite g) eqn:Fg; [|discriminate]. intros [= <-]. splits; auto. intros z Hz R. assert (parse_i64 s = Some z) as X by now apply parse_signed_spec. congruence.
  - destruct (str_eqb s (lit "true")); [discriminate|]. destruct (str_eqb s (lit "false")); [discriminate|]. destruct (str_eqb s (lit "null")); discriminate.
Qed.
Lemma tag_none m : NoDup (map fst m) -> tag_of F m = None -> untagged F m.
Proof.
  induction m as [|[k x] m IH]; intros N H n I; [destruct I|]. cbn [tag_of] in H. cbn [map fst] in N. inversion N as [|? ? Nk Nm]; subst. destruct (str_eqb_spec k (lit "$tag")) as [->|D].
  - destruct I as [E|I]; [injection E as ->; discriminate H|]. apply Nk. change (lit "$tag") with (fst (lit "$tag", @JString F n)). now apply in_map.
  - destruct I as [E|I]; [injection E as -> _; congruence|]. exact (IH Nm H n I).
Qed.
Lemma entries_plain m : forall acc, NoDup (map fst acc ++ map fst m) ->
  entries_json (map (fun kx => Ent (json_text (fst kx)) (of_json (snd kx)) None) m) acc = acc ++ map (fun kx => (fst kx, to_json (of_json (snd kx)))) m.
Proof.
  induction m as [|[k x] m IH]; intros acc N; cbn [map entries_json fst snd]; [now rewrite app_nil_r|]. cbn [map fst] in N. change (key_json debug (json_text k)) with k. rewrite insert_fresh.
  - rewrite IH; [now rewrite <- app_assoc|]. rewrite map_app, <- app_assoc. exact N.
  - intros I. apply NoDup_remove_2 in N. apply N, in_or_app. now left.
Qed.

Lemma forth : forall j, distinct_keys F j -> to_json (of_json j) = j -> plain F parse_f64 finite show_f64 j.
Proof.
  induction j as [|b|z|f|s|l IH|m IH] using json_ind'; intros D E.
  - constructor.
  - constructor.
  - constructor. exact (scalar_is_int _ _ E).
  - apply scalar_float in E as (A & B & C). now constructor.
  - apply scalar_string in E as [_ W]. now constructor.
  - inversion D as [| | | | |? Dl|]; subst. constructor. cbn in E. injection E as E. rewrite map_map in E. clear D. induction IH as [|x l Hx Hl IHl]; [constructor|]. cbn in E. injection E as Ex E. inversion Dl; subst. constructor; auto.
  - inversion D as [| | | | | |? N Dm]; subst. destruct (tag_of F m) as [n|] eqn:T.
    + rewrite (of_tag_obj m n T) in E. destruct (look m) as [x|] eqn:L; [|change (tag_only F n = JObject m) in E; rewrite <- E; constructor].
      assert (v_payload (of_json x) = PNone \/ tagged F n (payload_json (v_payload (of_json x))) = JObject m) as [Hn|E'].
      { destruct (v_payload (of_json x)); [now left|right; exact E|right; exact E|right; exact E]. }
      { rewrite Hn in E. change (tag_only F n = JObject m) in E. rewrite <- E. constructor. }
      assert (payload_json (v_payload (of_json x)) = x) as Hx. { injection E' as E'. rewrite <- E' in L. cbn in L. now injection L. }
      assert (v_payload (of_json x) <> PNone) as Np. { intros Hn. rewrite Hn in E. change (tag_only F n = JObject m) in E. injection E as E. rewrite <- E in L. discriminate L. }
      rewrite Hx in E'. rewrite <- E'. rewrite Forall_forall in IH, Dm. apply look_in in L. specialize (IH _ L). specialize (Dm _ L). cbn [snd] in *.
      assert (forall m', x = JObject m' -> untagged F m') as U.
      { intros m' ->. inversion Dm as [| | | | | |? N' Dm']; subst. apply tag_none; [exact N'|]. destruct (tag_of F m') as [n'|] eqn:T'; [|reflexivity]. exfalso.
        rewrite (of_tag_obj m' n' T') in Hx, Np. cbn [v_payload] in Hx, Np. pose proof (tag_size m' n' T') as Z. destruct (look m') as [y|]; [|now apply Np].
        destruct (no_growth y) as [_ G]. rewrite Hx in G. change (size (JObject m')) with (S (msize m')) in G. lia. }
      constructor; [|intros ->; now apply Np|exact U]. apply IH; [exact Dm|]. destruct (payload_some x) as [Tx _]; [intros ->; now apply Np|exact U|].
      destruct (of_json x) as [t p b]. cbn in Tx, Np, Hx |- *. subst t. destruct p; [now destruct Np| | |]; exact Hx.
    + pose proof (tag_none m N T) as U. constructor; [exact N|exact U|]. rewrite (of_object m U), to_json_obj, (entries_plain m [] N) in E. cbn [app] in E. injection E as E.
      apply Forall_forall. rewrite Forall_forall in IH, Dm. intros [k x] I. apply (IH _ I); [exact (Dm _ I)|]. cbn [snd].
      assert (forall m', map (fun kx : str * json => (fst kx, to_json (of_json (snd kx)))) m' = m' -> In (k, x) m' -> to_json (of_json x) = x) as G; [|exact (G m E I)].
      clear. induction m' as [|[k' y] m' IH]; intros E I; [destruct I|]. cbn in E. injection E as Ey E. destruct I as [[= -> ->]|I]; auto.
Qed.

(** ** Written texts *)

Lemma no_gt_of s : ~ In cGT s -> no_gt_word s.
Proof. intros H _. exact H. Qed.
Lemma no_lf_zero s : ~ In cLF s -> line_feeds s = 0.
Proof. intros H. unfold line_feeds. now apply count_occ_not_In. Qed.
Lemma number_short s : number_text s -> short_text s.
Proof.
  intros [_ H]. rewrite Forall_forall in H. split.
  - rewrite no_lf_zero; [lia|]. intros I. specialize (H _ I). unfold number_char in H. lia.
  - apply no_gt_of. intros I. specialize (H _ I). unfold number_char in H. lia.
Qed.
Lemma bare_lf s : can_be_bare s = true -> ~ In cLF s.
Proof.
  destruct s as [|c n]; [discriminate|]. intros E. unfold can_be_bare in E. apply andb_prop in E as [_ E]. apply negb_true_iff in E.
  intros H. assert (existsb bare_special (c :: n) = true) as X by (apply existsb_exists; exists cLF; auto). congruence.
Qed.
Lemma int_short z : (- 2 ^ 63 <= z < 2 ^ 63)%Z -> short_text (show_z z).
Proof.
  intros H. destruct (show_z_bare z) as [B G]; [lia|]. split; [|now apply no_gt_of]. rewrite no_lf_zero; [lia|now apply bare_lf].
Qed.
Lemma bool_short (b : bool) : short_text (if b then lit "true" else lit "false").
Proof. destruct b; (split; [cbn; lia|apply no_gt_of; cbn; intuition discriminate]). Qed.
Lemma key_text_fine root k : no_gt_word k -> (root = true -> can_be_bare k = true -> ~ In cDOT k) -> key_fine root (json_text k).
Proof. intros A B. now constructor. Qed.
Lemma short_fine s k : short_text s -> WriteSpec.fine true 2 (Val None (PScalar s k None) None).
Proof. intros [A B]. now constructor. Qed.

Lemma keys_ident (m : list (str * json)) : NoDup (map fst m) -> NoDup (map (fun e => key_ident (e_key e)) (map (fun kx => Ent (json_text (fst kx)) (of_json (snd kx)) None) m)).
Proof.
  intros H. rewrite map_map. cbn [e_key]. rewrite <- (map_map (@fst str json) (fun k => key_ident (json_text k))). apply FinFun.Injective_map_NoDup; [|exact H]. intros a b E. cbn in E. congruence.
Qed.
Lemma not_unit x : x <> JNull -> ~ WriteSpec.is_unit (of_json x).
Proof.
  intros H (sp & E). destruct x as [|b|z|f|s|l|m]; try discriminate E; [congruence|]. cbn in E. destruct (tag_of F m); discriminate E.
Qed.

Lemma writes_fine : forall j, plain F parse_f64 finite show_f64 j -> printable F show_f64 j -> WriteSpec.fine true 2 (of_json j).
Proof.
  induction j as [|b|z|f|s|l IH|m IH] using json_ind'; intros Hp Hr.
  - constructor.
  - apply short_fine, bool_short.
  - inversion Hp; subst. now apply short_fine, int_short.
  - inversion Hr; subst. now apply short_fine, number_short.
  - inversion Hr; subst. now apply short_fine.
  - inversion Hp as [| | | | |? Hl| | |]; inversion Hr as [| | | | |? Hq Hs Hn| | |]; subst. cbn [json_to_value]. constructor; [exact I|].
    assert (forall l', (exists a, l = a ++ l') -> fine_items true 2 (map of_json l')) as G; [|apply G; now exists []].
    induction l' as [|x r IHr]; intros (a & E); [constructor|]. cbn [map]. assert (In x l) as Ix by (rewrite E; apply in_or_app; right; now left).
    rewrite Forall_forall in IH, Hl, Hq. constructor.
    + apply IH; auto.
    + intros Nr. assert (~ stands_alone F x) as Na by (apply (Hs a x r E); intros ->; now apply Nr). clear - Na Ix Hq. specialize (Hq _ Ix). inversion Hq; subst; unfold solid.
      * exfalso. apply Na. now left.
      * right. do 4 eexists. reflexivity.
      * right. do 4 eexists. reflexivity.
      * right. do 4 eexists. reflexivity.
      * right. do 4 eexists. reflexivity.
      * left. reflexivity.
      * exfalso. apply Na. right. eauto.
      * left. change (json_to_value F show_f64 _) with (Val (Some (n, None)) (v_payload (of_json x0)) None). destruct H0 as [[l' ->]|(m & -> & U)]; [reflexivity|]. rewrite (of_object m U). reflexivity.
      * left. rewrite (of_object m H). reflexivity.
    + apply Forall_forall. intros w Iw. apply in_map_iff in Iw as (y & <- & Iy). apply not_unit. intros ->.
      destruct l as [|u [|w l]]; [destruct a; discriminate| |].
      * destruct a as [|? [|]]; try discriminate. injection E as -> <-. destruct Iy.
      * apply (Hn u w l eq_refl). rewrite E. apply in_or_app. right. now right.
    + apply IHr. exists (a ++ [x]). now rewrite <- app_assoc.
  - inversion Hr as [| | | | | |n Tn|n x Tn Hb Hx|m' U Hm]; subst.
    + change (WriteSpec.fine true 2 (Val (Some (n, None)) PNone None)). now constructor.
    + inversion Hp as [| | | | | | |n' x' Px Nx Ux|m' N U _]; subst; [|exfalso; apply (U n); now left].
      inversion IH as [|? ? _ IH']; subst. inversion IH' as [|? ? IHx _]; subst. cbn [snd] in IHx. specialize (IHx Px Hx). change (WriteSpec.fine true 2 (Val (Some (n, None)) (v_payload (of_json x)) None)).
      destruct Hb as [[l ->]|(m & -> & U)].
      * cbn [json_to_value v_payload] in *. inversion IHx; subst. now constructor.
      * rewrite (of_object m U) in *. cbn [v_payload]. inversion IHx; subst. now constructor.
    + inversion Hp as [| | | | | |n|n x Px Nx Ux|m' N _ Pm]; subst; [exfalso; apply (U n); now left|exfalso; apply (U n); now left|].
      rewrite (of_object m U). constructor; [exact I| |now apply keys_ident]. clear - IH Hm Pm.
      induction m as [|[k x] m IHm]; [constructor|]. inversion IH; inversion Hm as [|? ? [Hk Hx] Hm']; inversion Pm; subst. cbn [map fst snd] in *.
      constructor; auto; [now apply key_text_fine|exact I].
Qed.

Lemma root_fine m : Forall (fun kx => plain F parse_f64 finite show_f64 (snd kx)) m -> printable_root F show_f64 m ->
  Forall (entry_fine true 2) (map (fun kx => Ent (json_text (fst kx)) (of_json (snd kx)) None) m).
Proof.
  intros Hp [_ Hr]. apply Forall_map. rewrite Forall_forall in *. intros [k x] I. destruct (Hr _ I) as (G & D & H). specialize (Hp _ I). cbn [fst snd] in *.
  split; [|split; [|exact Logic.I]]; cbn [e_key e_val].
  - now apply key_text_fine.
  - destruct H as [H|(s & -> & A & B & C)]; [left; now apply writes_fine|]. right. cbn. unfold json_text. eexists s, _, _, _. splits; eauto.
Qed.
Lemma root_names (m : list (str * json)) : NoDup (map fst m) -> neighbours_differ (map (fun e => root_name (e_key e)) (map (fun kx => Ent (json_text (fst kx)) (of_json (snd kx)) None) m)).
Proof.
  rewrite map_map. intros H a x b E. assert (map fst m = a ++ x :: x :: b) as E' by (rewrite <- E; clear; induction m as [|[k y] m IH]; [reflexivity|]; cbn; now rewrite IH).
  rewrite E' in H. apply NoDup_remove_2 in H. apply H, in_or_app. right. now left.
Qed.
End Json.
