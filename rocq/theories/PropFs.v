(** Properties C25, C37 and C46: files written by the schema cache and by in-place formatting. *)
From Coq Require Import String.
From Verif Require Import Base BaseProofs FsModel FsSpec FsProofs.
Local Open Scope nat_scope.

(** ** C25: a cached schema file holds the schema

    The full statement, for every hash function: after any history of calls, a call that returns
    a path leaves exactly [content] in that file. *)
Definition C25_full (h : str -> N) : Prop := forall d l name content d' p,
  history h d l ->
  runs cpath_eqb d (cache_embedded_schema h name content) d' (Done (Some p)) ->
  d' p = Some content.

(** It is false for every hash function: a call killed after [File::create] leaves an empty file,
    which the next call takes for the cached schema. *)
Theorem C25_refuted : forall h, ~ C25_full h.
Proof.
  intros h H.
  set (c := lit "a 1"). set (p := embedded_cache_path h (lit "tool") c).
  set (d1 := put cpath_eqb (fun _ => None) p (Some [])).
  assert (H1 : runs cpath_eqb (fun _ => None) (cache_embedded_schema h (lit "tool") c) d1 Killed).
  { unfold cache_embedded_schema. apply run_exists. apply run_mkdirs with (ok := true). cbn [negb].
    apply run_create. apply run_killed. }
  assert (H2 : runs cpath_eqb d1 (cache_embedded_schema h (lit "tool") c) d1 (Done (Some p))).
  { unfold cache_embedded_schema. apply run_exists. fold p. replace (d1 p) with (Some (@nil N)) by (unfold d1; rewrite put_same; auto). apply run_ret. }
  specialize (H _ _ _ _ _ _ (history_call h _ _ _ _ _ _ (history_none h) H1) H2).
  unfold d1 in H. rewrite put_same in H. discriminate.
Qed.
Print Assumptions C25_refuted.

(** It is also false without any kill or failure, because the file name holds only 64 bits of the
    hash: some two contents share a file. *)
Theorem C25_collision_refuted : forall h : str -> N, (forall s, (h s < 2 ^ 64)%N) ->
  exists a b d1 p d2,
    a <> b /\
    runs cpath_eqb (fun _ => None) (cache_embedded_schema h (lit "tool") a) d1 (Done (Some p)) /\
    runs cpath_eqb d1 (cache_embedded_schema h (lit "tool") b) d2 (Done (Some p)) /\
    d2 p = Some a.
Proof.
  intros h Hb.
  destruct (collision h (2 ^ 64)%N Hb) as (a & b & Hab & Hh).
  set (p := embedded_cache_path h (lit "tool") a).
  set (d1 := put cpath_eqb (put cpath_eqb (fun _ => None) p (Some [])) p (Some a)).
  exists a, b, d1, p, d1. splits; auto.
  - unfold cache_embedded_schema. apply run_exists. apply run_mkdirs with (ok := true). cbn [negb].
    apply run_create. cbn [negb]. apply run_write. cbn [negb]. apply run_ret.
  - assert (Hp : embedded_cache_path h (lit "tool") b = p) by (unfold p, embedded_cache_path; rewrite Hh; auto).
    unfold cache_embedded_schema. rewrite Hp. apply run_exists. replace (d1 p) with (Some a) by (unfold d1; rewrite put_same; auto). apply run_ret.
  - unfold d1. rewrite put_same. auto.
Qed.
Print Assumptions C25_collision_refuted.

(** What holds: if no earlier call was killed or failed, and no earlier call of the same name had a
    different content with the same hash, the file holds the content. *)
Theorem C25_finished_partial : forall h d l name content d' p,
  history h d l ->
  Forall (fun x => finished (snd x)) l ->
  (forall other e, In (name, other, e) l -> h other = h content -> other = content) ->
  runs cpath_eqb d (cache_embedded_schema h name content) d' (Done (Some p)) ->
  d' p = Some content.
Proof.
  intros h d l name content d' p Hh Hf Hc Hr.
  apply cache_runs in Hr as [_ Hr]. cbv zeta in Hr. set (q := embedded_cache_path h name content) in *.
  destruct (d q) as [t|] eqn:Eq.
  - destruct Hr as [E1 [?|[= ->]]]; [discriminate|]. rewrite E1. f_equal.
    destruct (history_files h d l Hh Hf q t Eq) as (n & e & Hin & Hq).
    unfold q, embedded_cache_path in Hq. injection Hq as -> Hq. eapply Hc; eauto.
  - destruct Hr as [[_ [?|?]]|[(a & b & _ & _ & [?|?])|[E1 [?|[= ->]]]]]; try discriminate. auto.
Qed.
Print Assumptions C25_finished_partial.

(** After any history, kills included, the file is a prefix of some content cached under that name
    with that hash; and a call never changes a file that exists, nor any file but its own. *)
Theorem C25_prefix : forall h d l name content d' e,
  history h d l ->
  runs cpath_eqb d (cache_embedded_schema h name content) d' e ->
  (forall p, e = Done (Some p) -> p = (name, h content) /\
     exists t c r x, d' p = Some t /\ (In (name, c, x) l \/ c = content) /\ h c = h content /\ c = t ++ r) /\
  (forall q t, d q = Some t -> d' q = Some t) /\
  (forall q, q <> (name, h content) -> d' q = d q).
Proof.
  intros h d l name content d' e Hh Hr.
  pose proof (cache_runs _ _ _ _ _ _ Hr) as [Ho Hp]. cbv zeta in *.
  change (embedded_cache_path h name content) with (name, h content) in *.
  set (q := (name, h content)) in *. splits.
  - intros p ->. destruct (d q) as [t|] eqn:Eq.
    + destruct Hp as [E1 [?|[= ->]]]; [discriminate|]. split; [auto|].
      destruct (history_prefixes h d l Hh q t Eq) as (n & c & e & r & Hin & Hq & Hc).
      injection Hq as <- Hq. exists t, c, r, e. splits; auto.
    + destruct Hp as [[_ [?|?]]|[(a & b & _ & _ & [?|?])|[E1 [?|[= ->]]]]]; try discriminate.
      split; [auto|]. exists content, content, [], Killed. rewrite app_nil_r. auto.
  - intros q' t Hq'. destruct (cpath_eqb q' q) eqn:E.
    + apply cpath_eqb_iff in E. subst q'. rewrite Hq' in Hp. destruct Hp; auto.
    + rewrite Ho; auto. intros ->. rewrite (proj2 (cpath_eqb_iff q q) eq_refl) in E. discriminate.
  - auto.
Qed.
Print Assumptions C25_prefix.

(** A history of two calls without kill, and the file they leave. *)
Example C25_example : exists d l,
  history blen_hash d l /\ List.length l = 2 /\ Forall (fun x => finished (snd x)) l /\
  d (lit "tool", 3%N) = Some (lit "a 1") /\ d (lit "tool", 4%N) = Some (lit "a 12").
Proof.
  assert (Hok : forall d name c, d (name, blen_hash c) = None -> exists d',
    runs cpath_eqb d (cache_embedded_schema blen_hash name c) d' (Done (Some (name, blen_hash c))) /\
    d' = put cpath_eqb (put cpath_eqb d (name, blen_hash c) (Some [])) (name, blen_hash c) (Some c)).
  { intros d name c Hd. eexists. split; [|reflexivity].
    unfold cache_embedded_schema, embedded_cache_path. apply run_exists. rewrite Hd.
    apply run_mkdirs with (ok := true). cbn [negb].
    apply run_create. cbn [negb]. apply run_write. cbn [negb]. apply run_ret. }
  destruct (Hok (fun _ => None) (lit "tool") (lit "a 1") eq_refl) as (d1 & R1 & E1).
  destruct (Hok d1 (lit "tool") (lit "a 12")) as (d2 & R2 & E2); [subst d1; reflexivity|].
  exists d2. eexists. splits.
  - eapply history_call; [eapply history_call; [apply history_none|exact R1]|exact R2].
  - reflexivity.
  - repeat constructor; eexists; reflexivity.
  - subst d2 d1. reflexivity.
  - subst d2 d1. reflexivity.
Qed.

(** ** C37: in-place formatting never destroys the file *)

(** The full statement. *)
Definition C37_full (parse_ok validate_ok : str -> bool) (format_source : str -> str) : Prop :=
  forall validate (d : fs str) p d' e source,
    d p = Some source ->
    runs str_eqb d (run_in_place str parse_ok validate_ok format_source validate p) d' e ->
    d' p = Some source \/ d' p = Some (format_source source).

(** It is false for every formatter that writes something for some accepted non-empty document:
    killed after the truncation, the file is empty. *)
Theorem C37_refuted : forall parse_ok validate_ok format_source source,
  parse_ok source = true -> source <> [] -> format_source source <> [] ->
  ~ C37_full parse_ok validate_ok format_source.
Proof.
  intros po vo fo source Hp Hs Hf H.
  set (p := lit "f.styx"). set (d := put str_eqb (fun _ => None) p (Some source)).
  assert (Hd : d p = Some source) by reflexivity.
  assert (Hr : runs str_eqb d (run_in_place str po vo fo false p) (put str_eqb d p (Some [])) Killed).
  { unfold run_in_place. apply run_read. rewrite Hd, Hp. cbn [negb andb]. unfold fs_write.
    apply run_create. apply run_killed. }
  destruct (H false d p _ _ source Hd Hr) as [E|E]; injection E; congruence.
Qed.
Print Assumptions C37_refuted.

(** What holds at every ending, kills and failures included: other files are untouched; the file
    holds its old text or a prefix of the new one; it changes only if the document parses and, where
    asked for, validates; and after success it holds the new text. *)
Theorem C37_prefix_partial : forall parse_ok validate_ok format_source validate (d : fs str) p d' e source,
  d p = Some source ->
  runs str_eqb d (run_in_place str parse_ok validate_ok format_source validate p) d' e ->
  (forall q, q <> p -> d' q = d q) /\
  (d' p = Some source \/ exists a b, format_source source = a ++ b /\ d' p = Some a) /\
  (parse_ok source = false \/ validate = true /\ validate_ok source = false -> d' p = Some source) /\
  (e = Done true -> d' p = Some (format_source source)).
Proof.
  intros po vo fo validate d p d' e source Hd Hr.
  pose proof (in_place_runs str str_eqb str_eqb_refl po vo fo validate d p d' e source Hd Hr) as [Ho H].
  splits.
  - intros q Hq. apply Ho. destruct (str_eqb q p) eqn:E; [|auto]. apply str_eqb_eq in E. congruence.
  - destruct H as [[E _]|(_ & _ & a & b & E & E' & _)]; eauto.
  - intros Hbad. destruct H as [[E _]|(Hp & Hv & _)]; [auto|].
    destruct Hbad as [Hbad|[-> Hbad]]; [congruence|]. rewrite Hv in Hbad by auto. discriminate.
  - intros ->. destruct H as [[_ E]|(_ & _ & a & b & E & E' & Hb)]; [congruence|].
    rewrite E, E', (Hb eq_refl), app_nil_r. auto.
Qed.
Print Assumptions C37_prefix_partial.

Example C37_example : exists d',
  runs str_eqb (put str_eqb (fun _ => None) (lit "f") (Some (lit "a   1")))
    (run_in_place str (fun _ => true) (fun _ => true) (fun _ => lit "a 1") false (lit "f")) d' (Done true) /\
  d' (lit "f") = Some (lit "a 1").
Proof.
  eexists. split.
  - unfold run_in_place. apply run_read. cbn [put str_eqb lit]. unfold fs_write.
    apply run_create. apply run_write. apply run_ret.
  - reflexivity.
Qed.

(** ** C46: cached schema files lie in the cache directory

    The full statement: whatever tool name and schema id a document names. *)
Definition C46_full : Prop := forall dir cli id hash,
  ~ In cSLASH hash -> inside dir (cache_file dir (cache_key cli id) hash).

(** It is false: the id may climb out, and an absolute tool name replaces the directory. *)
Theorem C46_refuted : ~ C46_full /\
  leads_to (cache_file (lit "/home/u/.cache/styx/schemas") (cache_key (lit "tool") (lit "../../../../../.config")) (lit "0123456789abcdef"))
    = [lit "home"; lit "u"; lit ".config"; lit "0123456789abcdef.styx"] /\
  leads_to (cache_file (lit "/home/u/.cache/styx/schemas") (cache_key (lit "/opt/tool") (lit "x")) (lit "0123456789abcdef"))
    = [lit "opt"; lit "tool"; lit "x"; lit "0123456789abcdef.styx"].
Proof.
  splits; try reflexivity. intros H.
  assert (Hh : ~ In cSLASH (lit "0")) by (intros [E|[]]; discriminate E).
  destruct (H (lit "/c") (lit "/opt/tool") (lit "x") (lit "0") Hh) as (rest & E & _). discriminate E.
Qed.
Print Assumptions C46_refuted.

(** What holds: a relative tool name and no component [..] in the name and the id. *)
Theorem C46_inside_partial : forall dir cli id hash,
  cli <> [] -> starts_with [cSLASH] cli = false ->
  no_parent (components cli []) -> no_parent (components id []) ->
  ~ In cSLASH hash -> hash <> [] ->
  inside dir (cache_file dir (cache_key cli id) hash).
Proof.
  intros dir cli id hash Hc Ha Hpc Hpi Hs Hne.
  assert (Hk : starts_with [cSLASH] (cache_key cli id) = false).
  { apply starts_with_false. rewrite starts_with_false in Ha. intros r E. unfold cache_key in E.
    destruct cli as [|c cli]; [congruence|]. cbn in E. injection E as -> E. apply (Ha cli). auto. }
  assert (Hf : starts_with [cSLASH] (hash ++ lit ".styx") = false).
  { apply starts_with_false. intros r E. destruct hash as [|c hash]; [congruence|].
    cbn in E. injection E as -> E. apply Hs. left. auto. }
  unfold inside, leads_to, cache_file. rewrite !resolve_join by auto.
  rewrite (no_slash_components (hash ++ lit ".styx")).
  2:{ intros Hi. apply in_app_iff in Hi as [Hi|Hi]; [auto|]. cbn in Hi.
      repeat (destruct Hi as [Hi|Hi]; [discriminate Hi|]). auto. }
  change (components (lit "embedded") []) with [lit "embedded"].
  set (at_ := resolve (components dir []) []).
  assert (Hkey : no_parent (components (cache_key cli id) [])).
  { unfold cache_key. cbn [app]. rewrite components_app. intros Hi. apply in_app_iff in Hi as [Hi|Hi]; auto. }
  destruct (resolve_down _ (resolve [lit "embedded"] at_) Hkey) as [more ->].
  cbn [resolve]. change (str_eqb (lit "embedded") [] || str_eqb (lit "embedded") (lit ".")) with false.
  change (str_eqb (lit "embedded") (lit "..")) with false. cbv iota.
  exists (lit "embedded" :: rev more ++
          (rev (resolve [hash ++ lit ".styx"] []))). split; [|discriminate].
  assert (E : resolve [hash ++ lit ".styx"] (more ++ lit "embedded" :: at_) =
              (hash ++ lit ".styx") :: more ++ lit "embedded" :: at_ /\
              resolve [hash ++ lit ".styx"] [] = [hash ++ lit ".styx"]).
  { destruct hash as [|c hash]; [congruence|]. cbn [resolve app].
    assert (E1 : str_eqb (c :: hash ++ lit ".styx") (lit ".") = false).
    { apply str_eqb_neq. intros E. injection E as E E'. destruct hash; discriminate E'. }
    assert (E2 : str_eqb (c :: hash ++ lit ".styx") (lit "..") = false).
    { apply str_eqb_neq. intros E. injection E as E E'. destruct hash as [|? [|]]; discriminate E'. }
    rewrite E1, E2. cbn. auto. }
  cbn [resolve app] in E. destruct E as [E E0]. cbn [resolve].
  rewrite E, E0. cbn [rev app]. rewrite rev_app_distr. cbn [rev]. rewrite <- !app_assoc. auto.
Qed.
Print Assumptions C46_inside_partial.

Example C46_example :
  let f := cache_file (lit "/home/u/.cache/styx/schemas") (cache_key (lit "tool") (lit "crate:tool@1")) (lit "0123") in
  f = lit "/home/u/.cache/styx/schemas/embedded/tool/crate:tool@1/0123.styx" /\
  leads_to f = map lit ["home"; "u"; ".cache"; "styx"; "schemas"; "embedded"; "tool"; "crate:tool@1"; "0123.styx"]%string /\
  no_parent (components (lit "tool") []) /\ no_parent (components (lit "crate:tool@1") []).
Proof.
  cbv zeta. splits; try reflexivity; intros [E|[]]; discriminate E.
Qed.
