(** Properties of serde_styx: C26, C51, C52, C53. *)
From Coq Require Import String.
From Verif Require Import Base BaseProofs TokModel TokProofs LexModel ParseModel ParseSpec TreeModel TreeSpec FmtModel WriteSpec SerdeModel SerdeSpec SerdeText SerdeTokens SerdeProofs SerdeTotal.
Local Open Scope nat_scope.

(** ** C26: the round trip *)

(** Full statement: for every type and every value of it ([has_type]), what [to_string] writes is read back as that
    value. Proved for the values that [fits] and [plain] describe: no tuples inside, no enums but as keys of maps, no
    integers of 128 bits, no [Some] of something written [@], no strings written as heredocs or as bare words with
    [>] in them. The refutations below show that each of these is needed. *)
Theorem C26_fits_typed env t v : fits env t v -> has_type env t v.
Proof. apply (fits_typed env). Qed.
Print Assumptions C26_fits_typed.

Theorem C26_serde_round_trip_partial env t v o : fits env t v -> plain (o_heredoc o) v ->
  exists s n, to_string_with o v = Some s /\ forall fuel, n <= fuel -> from_str env fuel t s = DOk v.
Proof.
  intros Hf Hp. destruct (to_string_with o v) as [s|] eqn:E; [|now destruct (written o v Hp)].
  destruct (written_root _ _ _ Hp E) as (all & ts & T & F & Hs & Hg). destruct (fits_evolve env) as (FE & _).
  destruct (evolves_root env t v v (FE _ _ Hf) ts (fits_root _ _ _ Hf) Hs Hg) as (rest & n & Hr).
  exists s, n. split; [reflexivity|]. intros fuel Hle. unfold from_str. now rewrite T, F, Hr.
Qed.
Print Assumptions C26_serde_round_trip_partial.

(** The same for the compact form. *)
Theorem C26_compact_round_trip_partial env t v : fits env t v -> plain 2 v ->
  exists s n, to_string_compact v = Some s /\ forall fuel, n <= fuel -> from_str env fuel t s = DOk v.
Proof.
  intros Hf Hp. destruct (to_string_compact v) as [s|] eqn:E; [|now destruct (written_compactly v Hp)].
  destruct (written_compact _ _ Hp E) as (all & ts & T & F & Hs & Hg). destruct (fits_evolve env) as (FE & _). destruct (evolves_read env) as (RV & _).
  destruct (RV _ _ _ (FE _ _ Hf) ts [] Hs) as (n & Hr); [now rewrite app_nil_r|].
  exists s, n. split; [reflexivity|]. intros fuel Hle. unfold from_str. rewrite app_nil_r in Hr. now rewrite T, F, Hr.
Qed.
Print Assumptions C26_compact_round_trip_partial.

Definition fit_tuple (env : nat -> ty) (ts : list ty) (l : list val) : Prop := Forall2 (fits env) ts l.
(** A tuple that is the whole document is read back, as what follows the last element is not looked at. *)
Theorem C26_root_tuple_partial env ts l o : fit_tuple env ts l -> plain (o_heredoc o) (DSeq l) ->
  exists s n, to_string_with o (DSeq l) = Some s /\ forall fuel, n <= fuel -> from_str env fuel (TTuple ts) s = DOk (DSeq l).
Proof.
  intros Hf Hp. destruct (to_string_with o (DSeq l)) as [s|] eqn:E; [|now destruct (written o (DSeq l) Hp)].
  destruct (written_root _ _ _ Hp E) as (all & tk & T & F & Hs & Hg). destruct (fits_evolve env) as (FE & _).
  assert (evolve_tuple env ts l l) as He by (clear - Hf FE; induction Hf; constructor; auto).
  destruct (tuple_root env ts l l tk He Hs Hg) as (rest & n & Hr).
  exists s, n. split; [reflexivity|]. intros fuel Hle. unfold from_str. now rewrite T, F, Hr.
Qed.
Print Assumptions C26_root_tuple_partial.

(** A recursive type with most of the shapes: a tree whose nodes have a name, a list of children, an optional number,
    a map from flags to bytes. *)
Definition tree_ty : ty := TStruct [(lit "name", TString); (lit "kids", TSeq (TRef 0)); (lit "no", TOption (TInt 16));
  (lit "the map", TMap (TEnum [(lit "On", VUnit); (lit "Off", VUnit)]) TBytes); (lit "c", TChar)].
Definition tree_env (n : nat) : ty := tree_ty.
Definition leaf (s : str) (no : val) : val := DStruct [(lit "name", DStr s); (lit "kids", DSeq []); (lit "no", no);
  (lit "the map", DMap [(DUnitV (lit "Off"), DBytes [0; 255; 16]%N); (DUnitV (lit "On"), DBytes [])]); (lit "c", DChar cDQ)].
Definition tree_val : val := DStruct [(lit "name", DStr (lit "say ""hi"" \ or ""ho"" // {")); (lit "kids", DSeq [leaf (lit "true") DNone; leaf [cGT] (DSome (DInt (-32768)))]);
  (lit "no", DSome (DInt 7)); (lit "the map", DMap []); (lit "c", DChar 233%N)].

Ltac fitting := repeat match goal with
  | |- machine _ => unfold machine; cbn; tauto
  | |- int_range _ _ => unfold int_range; cbn; lia
  | |- uint_range _ _ => unfold uint_range; cbn; lia
  | |- NoDup _ => repeat (constructor; [cbn; intuition discriminate|]); constructor
  | |- Forall _ _ => repeat constructor
  | |- In _ _ => cbn; tauto
  | |- ~ In _ _ => cbn; intuition discriminate
  | |- _ = _ => reflexivity
  | |- _ < _ => vm_compute; lia
  | |- (_ < _)%Z => reflexivity
  | |- _ <> _ => discriminate
  | |- no_gt_word _ => intros _ H; vm_compute in H; repeat (destruct H as [H|H]; [discriminate H|]); exact H
  | |- no_gt_word [?c] \/ _ => first [left; intros _ H; vm_compute in H; repeat (destruct H as [H|H]; [discriminate H|]); exact H | right; reflexivity]
  | |- no_gt_word _ \/ _ => left; intros _ H; vm_compute in H; repeat (destruct H as [H|H]; [discriminate H|]); exact H
  | |- fits _ _ _ => econstructor
  | |- fit_all _ _ _ => econstructor
  | |- fit_pairs _ _ _ _ => econstructor
  | |- fit_fields _ _ _ => econstructor
  | |- key_for _ _ _ _ => econstructor
  | |- plain _ _ => econstructor
  | |- plain_all _ _ => econstructor
  | |- plain_pairs _ _ => econstructor
  | |- plain_fields _ _ => econstructor
  | |- has_type _ _ _ => econstructor
  | |- have_type _ _ _ => econstructor
  | |- have_types _ _ _ => econstructor
  | |- pairs_type _ _ _ _ => econstructor
  | |- fields_type _ _ _ => econstructor
  | |- Forall2 _ _ _ => econstructor
  end.
Example tree_fits : fits tree_env (TRef 0) tree_val /\ plain (o_heredoc default_opts) tree_val.
Proof. unfold tree_val, leaf. split; fitting. Qed.
Example tree_round : match to_string tree_val, to_string_compact tree_val with
  | Some s, Some c => from_str tree_env 50 (TRef 0) s = DOk tree_val /\ from_str tree_env 50 (TRef 0) c = DOk tree_val /\ s <> c | _, _ => False end.
Proof. vm_compute. repeat split. discriminate. Qed.
Example tuple_fits : fit_tuple tree_env [TInt 8; TString; TRef 0] [DInt 1; DStr (lit "a b"); leaf (lit "x") DNone] /\
  plain (o_heredoc default_opts) (DSeq [DInt 1; DStr (lit "a b"); leaf (lit "x") DNone]).
Proof. unfold leaf, fit_tuple. split; fitting. Qed.

(** ** C26: what is not read back *)

Definition lost (env : nat -> ty) (t : ty) (v : val) : Prop :=
  has_type env t v /\ exists s, to_string v = Some s /\ forall fuel, from_str env fuel t s <> DOk v.

Lemma lost_at n env t v s r : has_type env t v -> to_string v = Some s -> from_str env n t s = r -> r <> DFuel -> r <> DOk v -> lost env t v.
Proof. intros Ht Hs Hr Hf Hv. split; [exact Ht|]. exists s. split; [exact Hs|]. intros fuel H. exact (Hv (from_str_only _ _ _ _ _ Hr Hf _ _ H)). Qed.

(** No environment is needed for the witnesses. *)
Definition no_env (n : nat) : ty := TUnit.
Ltac lose := eapply (lost_at 50); [fitting | vm_compute; reflexivity | vm_compute; reflexivity | discriminate | discriminate].

(** [vec![(1, 2), (3, 4)]] is written [((1 2) (3 4))] and read as [vec![(1, 2)]]: a tuple does not take its [)]. *)
Theorem C26_tuples_refuted : exists t v, lost no_env t v /\ v = DSeq [DSeq [DInt 1; DInt 2]; DSeq [DInt 3; DInt 4]] /\
  from_str no_env 50 t (lit "((1 2) (3 4))") = DOk (DSeq [DSeq [DInt 1; DInt 2]]).
Proof.
  exists (TSeq (TTuple [TInt 32; TInt 32])). eexists. split; [|split; reflexivity]. lose.
Qed.
Print Assumptions C26_tuples_refuted.

(** A field after a tuple is not found. *)
Theorem C26_tuple_field_refuted : exists v, lost no_env (TStruct [(lit "p", TTuple [TInt 8; TInt 8]); (lit "q", TInt 8)]) v /\
  v = DStruct [(lit "p", DSeq [DInt 1; DInt 2]); (lit "q", DInt 3)].
Proof. eexists. split; [|reflexivity]. lose. Qed.
Print Assumptions C26_tuple_field_refuted.

(** Variants of an enum are written [@On], which the tokenizer makes one token; the deserializer waits for two. *)
Theorem C26_variants_refuted : Forall (lost no_env (TEnum [(lit "On", VUnit); (lit "At", VNew (TInt 8)); (lit "In", VTuple [TInt 8; TInt 8]); (lit "Of", VStruct [(lit "x", TBool)])]))
  [DUnitV (lit "On"); DNewV (lit "At") (DInt 3); DTupleV (lit "In") [DInt 1; DInt 2]; DStructV (lit "Of") [(lit "x", DBool true)]].
Proof.
  apply Forall_cons; [|apply Forall_cons; [|apply Forall_cons; [|apply Forall_cons; [|constructor]]]].
  - lose.
  - eapply (lost_at 50); [eapply ht_new_variant; fitting | vm_compute; reflexivity | vm_compute; reflexivity | discriminate | discriminate].
  - eapply (lost_at 50); [eapply ht_tuple_variant; fitting | vm_compute; reflexivity | vm_compute; reflexivity | discriminate | discriminate].
  - eapply (lost_at 50); [eapply ht_struct_variant; fitting | vm_compute; reflexivity | vm_compute; reflexivity | discriminate | discriminate].
Qed.
Print Assumptions C26_variants_refuted.

(** Integers of 128 bits are written but not read; a string of three lines is written as a heredoc, of which only the
    opening is read; a word with [>] inside is written bare, where the tokenizer ends it at the [>]; [Some(None)] is
    written [@], read as [None]. *)
Theorem C26_scalars_refuted : lost no_env TI128 (DInt 1) /\ lost no_env TString (DStr (lit "a" ++ [cLF] ++ lit "b" ++ [cLF])) /\
  lost no_env (TSeq TString) (DSeq [DStr (lit "x>y")]) /\ lost no_env (TOption (TOption TBool)) (DSome DNone).
Proof. splits; lose. Qed.
Print Assumptions C26_scalars_refuted.

(** It is so for every enum: no document that begins with [@] and a letter is read as one. *)
Lemma tag_first c r : is_tag_start c = true -> exists t ts, tokens (cAT :: c :: r) = Some (t :: ts) /\ tk_kind t = Tag.
Proof.
  intros Hc. destruct (tokens_total (cAT :: c :: r)) as (ts & E). rewrite E. unfold tokens in E. cbn [tokens_from] in E.
  assert (N : tk_kind (fst (next_token (mkts (cAT :: c :: r) 0 None))) = Tag) by (cbn; rewrite Hc; now destruct (scan_tag r)).
  unfold tok_new in E. destruct (next_token (mkts (cAT :: c :: r) 0 None)) as [t st]. cbn [fst] in N. rewrite N in E. cbn [is_eof_kind] in E.
  match type of E with option_map _ ?x = _ => destruct x as [us|] end; [|discriminate]. injection E as <-. eauto.
Qed.
Theorem C26_no_variant_read : forall env vs c r fuel v, is_tag_start c = true -> from_str env fuel (TEnum vs) (cAT :: c :: r) <> DOk v.
Proof.
  intros env vs c r fuel v Hc. unfold from_str. destruct (tag_first c r Hc) as (t & ts & -> & Hk). cbn [filter]. unfold counts at 1. rewrite Hk.
  destruct fuel as [|f]; [discriminate|]. cbn [de next_tok]. unfold is_kind. rewrite Hk. discriminate.
Qed.
Print Assumptions C26_no_variant_read.
Theorem C26_unit_variants_refuted : forall env vs c r, is_tag_start c = true -> In (c :: r, VUnit) vs -> NoDup (map fst vs) -> lost env (TEnum vs) (DUnitV (c :: r)).
Proof.
  intros env vs c r Hc Hi Hn. split; [now constructor|]. exists (cAT :: c :: r). split; [reflexivity|]. intros fuel. now apply C26_no_variant_read.
Qed.
Print Assumptions C26_unit_variants_refuted.

(** ** C51: documents written from another version of the type *)

(** Full statement: what was written from a value [v] can be read with another type that differs as [evolves] allows
    (fields dropped, optional fields added, a field made optional, an integer widened), giving the value [u] that
    agrees with [v] in all that both know. Missing, as in C26: tuples and enums, heredocs, words with [>]; at the
    root, unknown fields written [@] before others. *)
Theorem C51_schema_evolution_partial env t v u o : evolves env t v u -> root_safe env t v -> plain (o_heredoc o) v ->
  exists s n, to_string_with o v = Some s /\ forall fuel, n <= fuel -> from_str env fuel t s = DOk u.
Proof.
  intros He Hsafe Hp. destruct (to_string_with o v) as [s|] eqn:E; [|now destruct (written o v Hp)].
  destruct (written_root _ _ _ Hp E) as (all & ts & T & F & Hs & Hg).
  destruct (evolves_root env t v u He ts Hsafe Hs Hg) as (rest & n & Hr).
  exists s, n. split; [reflexivity|]. intros fuel Hle. unfold from_str. now rewrite T, F, Hr.
Qed.
Print Assumptions C51_schema_evolution_partial.

Theorem C51_compact_evolution_partial env t v u : evolves env t v u -> plain 2 v ->
  exists s n, to_string_compact v = Some s /\ forall fuel, n <= fuel -> from_str env fuel t s = DOk u.
Proof.
  intros He Hp. destruct (to_string_compact v) as [s|] eqn:E; [|now destruct (written_compactly v Hp)].
  destruct (written_compact _ _ Hp E) as (all & ts & T & F & Hs & Hg). destruct (evolves_read env) as (RV & _).
  destruct (RV _ _ _ He ts [] Hs) as (n & Hr); [now rewrite app_nil_r|].
  exists s, n. split; [reflexivity|]. intros fuel Hle. unfold from_str. rewrite app_nil_r in Hr. now rewrite T, F, Hr.
Qed.
Print Assumptions C51_compact_evolution_partial.

(** The reader knows nothing of [kids] nor of [the map], has [no] as [i64] and a new optional field. *)
Definition new_ty : ty := TStruct [(lit "new", TOption TString); (lit "no", TInt 64); (lit "name", TOption TString); (lit "c", TChar)].
Definition new_val : val := DStruct [(lit "new", DNone); (lit "no", DInt 7); (lit "name", DSome (DStr (lit "say ""hi"" \ or ""ho"" // {"))); (lit "c", DChar 233%N)].
Example tree_evolves : evolves tree_env new_ty tree_val new_val /\ root_safe tree_env new_ty tree_val.
Proof.
  split.
  - unfold new_ty, tree_val, new_val. eapply ev_struct.
    + eapply ef_known; [cbn; tauto|eapply ev_some; [reflexivity|apply ev_str]|].
      eapply ef_unknown; [cbn; intuition discriminate|].
      eapply ef_known; [cbn; tauto|eapply ev_strip; [reflexivity|apply ev_int; [unfold machine; cbn; tauto|unfold int_range; cbn; lia]]|].
      eapply ef_unknown; [cbn; intuition discriminate|].
      eapply ef_known; [cbn; tauto|apply ev_char|]. apply ef_nil.
    + fitting.
    + fitting.
    + constructor; [cbn; split; [reflexivity|]; right; splits; [intuition discriminate|now eexists|reflexivity]|].
      repeat (constructor; [cbn; split; [reflexivity|left; tauto]|]). constructor.
  - intros fs l Hs Hv a n x b Hl Hn Hu. injection Hv as <-. inversion Hs; subst fs.
    repeat (destruct a as [|? a]; [injection Hl as <- <- Hl; exfalso; (discriminate || (apply Hn; cbn; tauto))|injection Hl as _ Hl]).
    destruct a; discriminate.
Qed.
Example tree_read_anew : match to_string tree_val, to_string_compact tree_val with
  | Some s, Some c => from_str tree_env 50 new_ty s = DOk new_val /\ from_str tree_env 50 new_ty c = DOk new_val | _, _ => False end.
Proof. vm_compute. repeat split. Qed.

(** Unknown fields are not passed over if their value is [@] at the root: [x @] and then [b 1]; the deserializer takes
    [b] for the name of a tag and [1] for its payload. Nor if it is a heredoc; nor if it is a tagged value, of which
    only the tag is passed over. *)
Definition not_skipped (v : val) : Prop := has_type no_env (TStruct [(lit "b", TInt 8)]) (DStruct [(lit "b", DInt 1)]) /\
  exists s, to_string (DStruct [(lit "x", v); (lit "b", DInt 1)]) = Some s /\ forall fuel u, from_str no_env fuel (TStruct [(lit "b", TInt 8)]) s <> DOk u.
Lemma not_skipped_at v s : to_string (DStruct [(lit "x", v); (lit "b", DInt 1)]) = Some s -> from_str no_env 50 (TStruct [(lit "b", TInt 8)]) s = DErr -> not_skipped v.
Proof.
  intros Hs Hr. split; [fitting|]. exists s. split; [exact Hs|]. intros fuel u H. enough (@DErr val = DOk u) by discriminate. exact (from_str_only _ _ _ _ _ Hr ltac:(discriminate) _ _ H).
Qed.
Theorem C51_refuted : not_skipped DUnit /\ not_skipped DNone /\ not_skipped (DStr (lit "a" ++ [cLF] ++ lit "b" ++ [cLF])) /\
  not_skipped (DNewV (lit "At") (DInt 3)) /\ not_skipped (DTupleV (lit "At") [DInt 3]).
Proof. splits; (eapply not_skipped_at; [vm_compute; reflexivity|vm_compute; reflexivity]). Qed.
Print Assumptions C51_refuted.

(** ** C52: no panics *)
Theorem C52_no_panic : forall env fuel t s, from_str env fuel t s <> DPanic.
Proof. exact from_str_safe. Qed.
Print Assumptions C52_no_panic.
(** The slices that may panic are reached. *)
Example C52_example : from_str no_env 9 (TTuple [TBytes; TString]) (lit "(""00ff"" r##""a""#b""##") = DOk (DSeq [DBytes [0; 255]%N; DStr (lit "a""#b")]).
Proof. reflexivity. Qed.

(** ** C53: reading ends *)

(** [guarded]: no type is an option, newtype or map key of itself without end. *)
Theorem C53_reading_ends : forall env t s, guarded env -> exists n r, r <> DFuel /\ forall fuel, n <= fuel -> from_str env fuel t s = r.
Proof. exact from_str_halts. Qed.
Print Assumptions C53_reading_ends.
Example C53_example : guarded tree_env /\ unguarded tree_env (TMap (TOption (TRef 0)) (TRef 0)) 3.
Proof. split; [intros n; exists 0; now constructor|apply ug_map, ug_option, ug_ref, ug_leaf; exact I]. Qed.
(** Without that it may not end: the type [T] with [T = Option<T>] on any text but an [@]. *)
Theorem C53_unguarded_refuted : exists env t s, forall fuel, from_str env fuel t s = DFuel.
Proof.
  exists (fun _ => TOption (TRef 0)), (TRef 0), (lit "x"). intros fuel. unfold from_str. destruct (tokens (lit "x")) as [ts|] eqn:E; [|reflexivity].
  vm_compute in E. injection E as <-. cbn [filter counts tk_kind]. cbn [filter].
  assert (H : de (fun _ => TOption (TRef 0)) fuel (TRef 0) [mktok BareScalar (mkspan 0 1) (lit "x")] = DFuel).
  { induction fuel as [fuel IH] using (well_founded_induction lt_wf). destruct fuel as [|[|f]]; [reflexivity|reflexivity|].
    cbn [de next_tok is_kind tk_kind tkind_eqb]. rewrite IH by lia. reflexivity. }
  match goal with |- dbind ?x _ = _ => replace x with (@DFuel (val * toks)) by (symmetry; exact H) end. reflexivity.
Qed.
Print Assumptions C53_unguarded_refuted.

(** ** C54: the deserializer and the parser agree on documents *)

(** False both ways. Documents that the parser refuses are read: unclosed objects, stray brackets, trailing content. *)
Theorem C54_accepts_refuted : Forall (fun s => (exists e, tree s (inr e)) /\
    from_str no_env 50 (TStruct [(lit "a", TInt 8)]) s = DOk (DStruct [(lit "a", DInt 1)]))
  [lit "{a 1"; lit "{a 1}}"; lit "{a 1} b 2"; lit "a 1 b>"].
Proof.
  repeat (apply Forall_cons; [split; [eexists; eexists; split; [eexists _, 50; split; [vm_compute; reflexivity|vm_compute; reflexivity]|vm_compute; reflexivity]|vm_compute; reflexivity]|]). constructor.
Qed.
Print Assumptions C54_accepts_refuted.

(** In a document that the parser accepts, the field [a] is the text of a heredoc; serde takes the opening for the value
    and the text for the next key. *)
Definition heredoc_doc : str := lit "a <<X" ++ [cLF] ++ lit "hello" ++ [cLF] ++ lit "X" ++ [cLF].
Theorem C54_values_refuted : exists v w, tree heredoc_doc (inl v) /\ value_get v (lit "a") = Some w /\ as_str w = Some (lit "hello" ++ [cLF]) /\
  forall fuel u, from_str no_env fuel (TStruct [(lit "a", TString)]) heredoc_doc <> DOk u.
Proof.
  do 2 eexists. splits; [eexists; split; [eexists _, 50; split; [vm_compute; reflexivity|vm_compute; reflexivity]|vm_compute; reflexivity]|vm_compute; reflexivity|reflexivity|].
  intros fuel u H. enough (@DErr val = DOk u) by discriminate. refine (from_str_only no_env 50 _ _ DErr _ ltac:(discriminate) _ _ H). vm_compute. reflexivity.
Qed.
Print Assumptions C54_values_refuted.
