(** What is filled in for the schemas of EditFillSpec.v is one of the layouts of RoundProofs.v, so it is read as one value. *)
From Coq Require Import String.
From Verif Require Import Base BaseProofs TokModel LexModel LexSpec FmtSpec LexRunProofs ParseModel ParseSpec TreeModel TreeSpec FmtModel ScalarProofs
  GrammarSpec RelexProofs WriteSpec RoundProofs SchemaModel EditModel EditFillSpec.
Local Open Scope nat_scope.

Section Fill.
Context {F : Type} (parse_f64 : str -> option F) (f_ltb : F -> F -> bool).
Notation schema := (schema F).
Notation satisfies := (satisfies parse_f64 f_ltb).
Notation plain := (plain parse_f64 f_ltb).
Notation plain_all := (plain_all parse_f64 f_ltb).

Scheme plain_mind := Induction for EditFillSpec.plain Sort Prop
  with plain_all_mind := Induction for EditFillSpec.plain_all Sort Prop.
Combined Scheme plain_both from plain_mind, plain_all_mind.

Lemma word_as t : word t -> scalar_as t t.
Proof.
  intros [H Hg]. split; [intros ->; discriminate|]. intros rest Hr. exists Bare. apply reads_bare; [now apply can_be_bare_text|now apply soft_scalar_ends|]. intros _ x. now apply soft_no_quote.
Qed.
Lemma empty_as : scalar_as [] [cDQ; cDQ].
Proof. split; [discriminate|]. intros rest _. exists Quoted. apply (reads_quoted_text []). Qed.

Lemma erase_scalar w t k a b : erase w = erase (Val None (PScalar t k a) b) -> exists k' a' b', w = Val None (PScalar t k' a') b'.
Proof. destruct w as [[[]|] [] ?]; cbn; intros [=]; subst; eauto. Qed.
Lemma erase_unit w b : erase w = erase (Val None PNone b) -> exists b', w = Val None PNone b'.
Proof. destruct w as [[[]|] [] ?]; cbn; intros [=]; subst; eauto. Qed.
Lemma erase_tag w n t b : erase w = erase (Val (Some (n, t)) PNone b) -> exists t' b', w = Val (Some (n, t')) PNone b'.
Proof. destruct w as [[[]|] [] ?]; cbn; intros [=]; subst; eauto. Qed.
Lemma erase_seq w l a b : erase w = erase (Val None (PSeq l a) b) -> exists l' a' b', w = Val None (PSeq l' a') b' /\ map erase l' = map erase l.
Proof. destruct w as [[[]|] [] ?]; cbn; intros [=]; subst; eauto 6. Qed.
Lemma erase_empty w a b : erase w = erase (Val None (PObj [] a) b) -> exists a' b', w = Val None (PObj [] a') b'.
Proof. destruct w as [[[]|] [| | |es] ?]; cbn; intros E; try discriminate E. injection E as E. destruct es; [eauto|discriminate]. Qed.

Definition filled (w : value) (s : schema) : Prop := forall w', erase w' = erase w -> satisfies w' s.
Definition all_satisfied (ws : list value) (l : list schema) : Prop := Forall2 filled ws l.

Lemma at_once (w : value) (s : schema) : (forall file fuel path, exists r, validate_value F parse_f64 f_ltb file (S fuel) w s path = Ok r /\ v_errors r = []) -> satisfies w s.
Proof. intros H. exists 0. intros file [|fuel] path L; [lia|apply H]. Qed.
Lemma one_below (w : value) (s s' : schema) : (forall file fuel path, (exists r, validate_value F parse_f64 f_ltb file fuel w s' path = Ok r /\ v_errors r = []) ->
  exists r, validate_value F parse_f64 f_ltb file (S fuel) w s path = Ok r /\ v_errors r = []) -> satisfies w s' -> satisfies w s.
Proof. intros H (n & Hn). exists (S n). intros file [|fuel] path L; [lia|]. apply H, Hn. lia. Qed.

Lemma items_satisfied ws' : forall ws l, map erase ws' = map erase ws -> all_satisfied ws l -> List.length ws' = List.length l /\
  exists n, forall file fuel path i, n < fuel -> exists r, tuple_items F (validate_value F parse_f64 f_ltb file fuel) l ws' i path = Ok r /\ v_errors r = [].
Proof.
  induction ws' as [|w' ws' IH]; intros [|w ws] l E H; try discriminate; inversion H as [|? s ? l' Hw Hl]; subst.
  - split; [reflexivity|]. exists 0. intros. eexists. split; reflexivity.
  - cbn [map] in E. injection E as E1 E2. destruct (IH ws l' E2 Hl) as (L & n & Hn). destruct (Hw w' E1) as (m & Hm). split; [cbn; now rewrite L|].
    exists (max n m). intros file fuel path i Hf. cbn [tuple_items]. destruct (Hm file fuel (item_path path i)) as (a & -> & Ea); [lia|]. destruct (Hn file fuel path (S i)) as (b & -> & Eb); [lia|].
    eexists. split; [reflexivity|]. cbn. now rewrite Ea, Eb.
Qed.

Theorem placeholders : (forall s, plain s -> exists w, wv w (generate_placeholder s) /\ filled w s) /\
  (forall l, plain_all l -> exists ws, wis true ws (join [cSP] (map generate_placeholder l)) /\ (forall g, wis g ws (flat_map (fun s => cSP :: generate_placeholder s) l)) /\ all_satisfied ws l).
Proof.
  assert (TEXT : forall t s, scalar_as t (generate_placeholder s) -> takes parse_f64 f_ltb t s -> exists w, wv w (generate_placeholder s) /\ filled w s).
  { intros t s Ht Hs. exists (Val None (PScalar t Bare None) None). split; [now constructor|]. intros w' E. apply erase_scalar in E as (k & a & b & ->). apply Hs. }
  assert (EMPTY : forall s, generate_placeholder s = lit "{}" -> (forall a b, satisfies (Val None (PObj [] a) b) s) -> exists w, wv w (generate_placeholder s) /\ filled w s).
  { intros s -> Hs. exists (Val None (PObj [] None) None). split; [|intros w' E; apply erase_empty in E as (a & b & ->); apply Hs].
    apply (wv_obj None [] None None [] []); [reflexivity|apply we_nil; now left|constructor]. }
  assert (UNIT : forall s, generate_placeholder s = [cAT] -> (forall b, satisfies (Val None PNone b) s) -> exists w, wv w (generate_placeholder s) /\ filled w s).
  { intros s -> Hs. exists (Val None PNone None). split; [constructor|]. intros w' E. apply erase_unit in E as (b & ->). apply Hs. }
  assert (BELOW : forall s s', generate_placeholder s = generate_placeholder s' -> (forall w, satisfies w s' -> satisfies w s) ->
    (exists w, wv w (generate_placeholder s') /\ filled w s') -> exists w, wv w (generate_placeholder s) /\ filled w s).
  { intros s s' -> Hs (w & Hw & Hf). exists w. split; [exact Hw|]. intros w' E. apply Hs, Hf, E. }
  apply plain_both.
  - apply (TEXT []); [apply empty_as|]. intros k a b. apply at_once. intros. eexists. split; reflexivity.
  - apply (TEXT (lit "0")); [apply word_as; split; [reflexivity|intros [[=]|[]]]|]. intros k a b. apply at_once. intros. eexists. split; [vm_compute; reflexivity|reflexivity].
  - intros x Hx. apply (TEXT (lit "0.0")); [apply word_as; split; [reflexivity|cbn; intros H; decompose [or] H; try discriminate; contradiction]|].
    intros k a b. apply at_once. intros. cbn in Hx |- *. rewrite Hx. eexists. split; reflexivity.
  - apply (TEXT (lit "false")); [apply word_as; split; [reflexivity|cbn; intros H; decompose [or] H; try discriminate; contradiction]|].
    intros k a b. apply at_once. intros. eexists. split; [vm_compute; reflexivity|reflexivity].
  - apply UNIT; [reflexivity|]. intros b. apply at_once. intros. eexists. split; reflexivity.
  - apply UNIT; [reflexivity|]. intros b. apply at_once. intros. eexists. split; reflexivity.
  - apply UNIT; [reflexivity|]. intros b. apply at_once. intros. eexists. split; reflexivity.
  - intros fs Hf. apply EMPTY; [reflexivity|]. intros a b. apply at_once. intros.
    cbn [validate_value]. unfold validate_object. cbn [as_object object_entries bind]. eexists. split; [reflexivity|]. cbn [vmerge v_errors vok app].
    induction Hf as [|[key s] fs [E|[[d E]|(d & s' & E)]] _ IH]; cbn [missing_fields vmerge v_errors]; [reflexivity| | |]; cbn [fst snd] in E; subst; rewrite ?E.
    + exact IH.
    + destruct (k_value key); [|exact IH]. cbn [not_required negb]. rewrite andb_false_r. exact IH.
    + destruct (k_value key); [|exact IH]. cbn [not_required negb]. rewrite andb_false_r. exact IH.
  - intros k v. apply EMPTY; [reflexivity|]. intros a b. apply at_once. intros. eexists. split; reflexivity.
  - intros v. apply EMPTY; [reflexivity|]. intros a b. apply at_once. intros. eexists. split; reflexivity.
  - intros s _. apply BELOW; [reflexivity|]. intros w. apply one_below. intros file fuel path H. cbn [validate_value]. unfold validate_optional.
    destruct (TreeModel.is_unit w); [eexists; split; reflexivity|exact H].
  - intros r s _. apply BELOW; [reflexivity|]. intros w. apply one_below. intros file fuel path (x & E & Ex). cbn [validate_value]. unfold validate_deprecated. rewrite E. eexists. split; [reflexivity|exact Ex].
  - intros s _. apply BELOW; [reflexivity|]. intros w. apply one_below. auto.
  - intros t Ht. apply (TEXT t); [now apply word_as|]. intros k a b. apply at_once. intros. cbn [validate_value]. unfold validate_literal. cbn [scalar_text v_payload]. rewrite str_eqb_refl. eexists. split; reflexivity.
  - intros t s Ht Hs. apply (TEXT t); [now apply word_as|]. intros k a b. generalize (Hs k a b). apply one_below. auto.
  - intros t r s Ht Hs. apply (TEXT t); [now apply word_as|]. intros k a b. generalize (Hs k a b). apply one_below. intros file fuel path (x & E & Ex). cbn [validate_value]. unfold validate_one_of. rewrite E.
    cbn [bind]. unfold is_valid. rewrite Ex. cbn [negb scalar_text v_payload existsb]. rewrite str_eqb_refl. eexists. split; reflexivity.
  - intros s _. apply BELOW; [reflexivity|]. intros w. apply one_below. intros file fuel path (x & E & Ex). cbn [validate_value]. unfold validate_one_of. rewrite E. cbn [bind]. unfold is_valid. rewrite Ex. eexists. split; reflexivity.
  - intros s r _. apply BELOW; [reflexivity|]. intros w. apply one_below. intros file fuel path (x & E & Ex). cbn [validate_value]. unfold validate_union. cbn [union_variants]. rewrite E. cbn [bind]. unfold is_valid. rewrite Ex. eexists. split; reflexivity.
  - intros n s r Hn Hs. exists (Val (Some (n, None)) PNone None). split; [now constructor|]. intros w' E. apply erase_tag in E as (t & b & ->). apply at_once. intros.
    cbn [validate_value]. unfold validate_enum. cbn [v_tag v_payload variant_schema]. rewrite str_eqb_refl. eexists. split; [reflexivity|]. decompose [or] Hs; subst; reflexivity.
  - intros l _ (ws & Hw & _ & Hs). exists (Val None (PSeq ws None) None). split; [apply (wv_seq None ws None None [] _); [reflexivity|exact Hw]|].
    intros w' E. apply erase_seq in E as (ws' & a & b & -> & E). destruct (items_satisfied ws' ws l E Hs) as (L & n & Hn). exists (S n). intros file [|fuel] path Hf; [lia|].
    cbn [validate_value]. unfold validate_tuple. cbn [as_sequence v_payload]. destruct (Hn file fuel path 0) as (x & -> & Ex); [lia|]. cbn [bind]. rewrite L, Nat.eqb_refl. eexists. split; [reflexivity|exact Ex].
  - exists []. split; [constructor|]. split; [constructor|constructor].
  - intros s l _ (w & Hw & Hf) _ (ws & _ & Hs & Hl). exists (w :: ws). split; [|split; [|now constructor]].
    + replace (join [cSP] (map generate_placeholder (s :: l))) with (generate_placeholder s ++ flat_map (fun s => cSP :: generate_placeholder s) l).
      * apply wi_glue; [exact Hw|apply Hs].
      * clear. revert s. induction l as [|x l IH]; intros s; [cbn; now rewrite app_nil_r|]. cbn [flat_map]. cbn [map join] in IH |- *. now rewrite <- IH.
    + intros g. cbn [flat_map app]. apply wi_space; [exact Hw|apply Hs].
Qed.

Lemma filled_read key s : word key -> ~ In cDOT key -> plain s -> exists w, value_of key (key ++ cSP :: generate_placeholder s ++ [cLF]) w /\ satisfies w s.
Proof.
  intros [Hk Hg] Hd Hs. destruct (proj1 placeholders s Hs) as (w & Hw & Hf).
  assert (wroot true [Ent (Val None (PScalar key Bare None) None) w None] (key ++ cSP :: generate_placeholder s ++ [cLF])) as Hr.
  { replace key with (FmtModel.key_text key) at 2 by (unfold FmtModel.key_text; now rewrite Hk).
    apply (wr_cons true _ w None [] [] (FmtModel.key_text key) (generate_placeholder s) [cLF]); [reflexivity| |now left|apply (wr_nil false)]. constructor. constructor; [now intros _|auto]. }
  destruct (root_tree_back _ _ Hr) as (es & Ht & E). { intros a x b. destruct a as [|? [|]]; discriminate. }
  destruct es as [|[k v d] [|]]; try discriminate. cbn in E. injection E as E1 E2 E3. apply (erase_scalar _ key Bare None None) in E1 as (? & ? & ? & ->).
  exists v. split; [|now apply Hf]. eexists _, _. split; [exact Ht|reflexivity].
Qed.
End Fill.
