(** C85: the checks of the JavaScript bindings. C86: JSON as a Styx value. C87: JSON as a Styx text. *)
From Coq Require Import String Lia.
From Verif Require Import Base BaseProofs TokModel LexModel LexSpec LexProofs ParseModel ParseSpec RunProofs TreeModel TreeSpec TreeProofs LinkProofs FmtModel FmtSpec GrammarSpec WriteSpec WriteProofs
  SchemaModel SchemaSpec SchemaProofs SerdeModel FacetSerSpec PropParse PropTree PropWrite WasmModel WasmSpec WasmProofs.
Local Open Scope nat_scope.
Notation length := List.length.

(** ** C85 *)

Lemma events_enough fuel : forall p evs, events_from fuel p = Ok evs -> forall k, length evs < k -> events_from k p = Ok evs.
Proof.
  induction fuel as [|f IH]; [discriminate|]. intros p evs. cbn [events_from]. destruct (next_event p) as [[[e|] p']| |] eqn:N; cbn [bind]; try discriminate.
  - destruct (events_from f p') as [r| |] eqn:E; cbn [bind]; try discriminate. intros [= <-] [|k] Hk; [lia|]. cbn [events_from]. rewrite N. cbn [bind]. rewrite (IH _ _ E k); [reflexivity|]. cbn [length] in Hk. lia.
  - intros [= <-] [|k] Hk; [lia|]. cbn [events_from]. now rewrite N.
Qed.
Lemma errors_flat evs : errors_are evs (flat_map error_of evs).
Proof.
  induction evs as [|e evs IH]; [constructor|]. cbn [flat_map]. unfold error_of at 1. destruct (ev_kind e) eqn:K; try (cbn [app]; apply ea_other; [intros ?; congruence|exact IH]). cbn [app]. apply ea_error; [exact K|exact IH].
Qed.
Lemma errors_none evs d : errors_are evs d -> (d = [] <-> Forall no_err evs).
Proof.
  induction 1 as [|e k l d K H IH|e l d N H IH]; [split; [constructor|reflexivity]| |].
  - split; [discriminate|]. intros X. inversion X as [|? ? X' _]; subst. now destruct (X' k).
  - rewrite IH. split; [now constructor|]. intros X. now inversion X.
Qed.

(** With more rounds than events, the diagnostics are the error events, in order, and a source is valid exactly if there are none. *)
Theorem C85_agree : forall src evs fuel, parses src evs -> length evs < fuel ->
  exists d ok, wasm_parse fuel src = Ok d /\ wasm_validate fuel src = Ok ok /\ errors_are evs d /\ (ok = true <-> Forall no_err evs) /\ (success d = true <-> Forall no_err evs).
Proof.
  intros src evs fuel (ls & f & L & E) Hf. pose proof (events_enough _ _ _ E fuel Hf) as E'. exists (flat_map error_of evs), (success (flat_map error_of evs)).
  unfold wasm_parse, wasm_validate. rewrite L. cbn [bind]. rewrite (diagnostics_events _ _ _ E'), (validate_events _ _ _ E').
  assert (success (flat_map error_of evs) = true <-> Forall no_err evs) as S. { rewrite <- (errors_none _ _ (errors_flat evs)). destruct (flat_map error_of evs); cbn; intuition discriminate. }
  splits; auto. apply errors_flat.
Qed.
Print Assumptions C85_agree.

(** Every diagnostic lies within the source. *)
Theorem C85_spans : forall src fuel d, wasm_parse fuel src = Ok d -> Forall (fun x => sp_start (snd x) <= sp_end (snd x) /\ sp_end (snd x) <= blen src) d.
Proof.
  intros src fuel d. unfold wasm_parse. destruct (lexemes src) as [ls| |] eqn:L; cbn [bind]; try discriminate. intros H. unfold lexemes in L. destruct (lexemes_calls _ _ _ L) as (st & Hl).
  assert (forall fuel p d, diagnostics_from fuel p = Ok d -> exists evs p', calls p evs p' /\ d = flat_map error_of evs) as G.
  { clear. induction fuel as [|f IH]; [discriminate|]. intros p d. cbn [diagnostics_from]. destruct (next_event p) as [[[e|] p']| |] eqn:N; cbn [bind]; try discriminate.
    - destruct (diagnostics_from f p') as [r| |] eqn:E; cbn [bind]; try discriminate. intros [= <-]. destruct (IH _ _ E) as (evs & q & C & ->). exists (e :: evs), q. split; [econstructor; eassumption|reflexivity].
    - intros [= <-]. exists [], p. split; [constructor|reflexivity]. }
  destruct (G _ _ _ H) as (evs & q & C & ->). pose proof (C07_event_spans src ls st _ evs q Hl (or_introl eq_refl) C) as S. clear - S.
  induction S as [|e evs He S IH]; [constructor|]. cbn [flat_map]. apply Forall_app. split; [|exact IH]. unfold error_of. destruct (ev_kind e); constructor; [exact He|constructor].
Qed.
Print Assumptions C85_spans.

(** What has a tree, for [to_json] too, is valid. *)
Theorem C85_trees : forall src v, tree src (inl v) -> exists fuel, wasm_validate fuel src = Ok true /\ wasm_parse fuel src = Ok [].
Proof.
  intros src v (evs & P & B). destruct (C85_agree src evs (S (length evs)) P) as (d & ok & Hd & Hok & Ea & Ho & _); [lia|]. exists (S (length evs)). rewrite Hd, Hok.
  pose proof (tree_of src evs P) as T. assert (d = []) as ->.
  { change (flat_map _ evs) with (flat_map error_of evs) in T. apply (errors_none _ _ Ea). apply (errors_none _ _ (errors_flat evs)). destruct (flat_map error_of evs) as [|[k sp] r]; [reflexivity|congruence]. }
  split; [|reflexivity]. f_equal. apply Ho, (errors_none _ _ Ea). reflexivity.
Qed.
Print Assumptions C85_trees.

(** The other way round only if the events are balanced. *)
Theorem C85_valid_partial : forall src evs fuel, parses src evs -> wasm_validate fuel src = Ok true -> balanced evs -> exists v, tree src (inl v).
Proof.
  intros src evs fuel P V B. assert (Forall no_err evs) as N.
  { destruct P as (ls & f & L & E). unfold wasm_validate in V. rewrite L in V. cbn [bind] in V. clear L B. revert fuel evs V E. generalize (parser_new src ls). induction f as [|f IH]; [discriminate|].
    intros p [|fuel] evs V E; [discriminate|]. cbn [validate_from events_from] in V, E. destruct (next_event p) as [[[e|] p']| |]; cbn [bind] in V, E; try discriminate.
    - destruct (events_from f p') as [r| |] eqn:E'; try discriminate. injection E as <-. constructor; [|apply (IH p' fuel); [|reflexivity || exact E']; destruct (ev_kind e); try discriminate; exact V || exact E'].
      intros k K. rewrite K in V. discriminate.
    - injection E as <-. constructor. }
  pose proof (tree_of src evs P) as T. change (flat_map _ evs) with (flat_map error_of evs) in T. rewrite (proj2 (errors_none _ _ (errors_flat evs)) N) in T.
  destruct T as [(_ & es & _ & T)|[NB _]]; [|contradiction]. eexists. exists evs. split; [exact P|exact T].
Qed.
Print Assumptions C85_valid_partial.

(** Without that it is false: a source is valid, and there is no tree for [to_json]. *)
Theorem C85_valid_refuted : exists src fuel, wasm_validate fuel src = Ok true /\ wasm_parse fuel src = Ok [] /\ tree src (inr BUnclosed).
Proof.
  exists (lit "a 1
{b 2}"), 100. splits; [vm_compute; reflexivity|vm_compute; reflexivity|]. eexists. split; [apply run_parses; vm_compute; reflexivity|vm_compute; reflexivity].
Qed.
Print Assumptions C85_valid_refuted.

Example C85_example : exists evs d, parses (lit "a {b 1, b 2}
c ""\q""") evs /\ length evs < 100 /\ wasm_parse 100 (lit "a {b 1, b 2}
c ""\q""") = Ok d /\ length d = 2.
Proof. eexists _, _. splits; [apply run_parses; vm_compute; reflexivity|vm_compute; lia|vm_compute; reflexivity|vm_compute; reflexivity]. Qed.
Example C85_trees_example : exists v evs, tree (lit "a {b 1}") (inl v) /\ parses (lit "a {b 1}") evs /\ balanced evs.
Proof. eexists _, _. splits; [eexists; split; [apply run_parses; vm_compute; reflexivity|vm_compute; reflexivity]|apply run_parses; vm_compute; reflexivity|vm_compute; reflexivity]. Qed.

(** ** C86 *)

(** JSON maps have every key once. Such a value is the same after the way to a Styx value and back exactly if it is plain. *)
Theorem C86_partial : forall (F : Type) parse_f64 finite show_f64 debug (j : json F), words_are_no_floats F parse_f64 -> distinct_keys F j ->
  (value_to_json F parse_f64 finite debug (json_to_value F show_f64 j) = j <-> plain F parse_f64 finite show_f64 j).
Proof. intros F parse_f64 finite show_f64 debug j W D. split; [now apply forth|]. intros P. now apply (back F parse_f64 finite show_f64 debug W j P). Qed.
Print Assumptions C86_partial.

(** The same for every Styx value that is equal up to places and styles of scalars. *)
Theorem C86_styles_partial : forall (F : Type) parse_f64 finite show_f64 debug (j : json F) v, words_are_no_floats F parse_f64 -> plain F parse_f64 finite show_f64 j ->
  erase v = erase (json_to_value F show_f64 j) -> value_to_json F parse_f64 finite debug v = j.
Proof. intros F parse_f64 finite show_f64 debug j v W P. now apply back. Qed.
Print Assumptions C86_styles_partial.

(** For all values it is false, whatever the float functions do: texts that look like something else, tags within tags, and whatever stands beside a tag. *)
Theorem C86_refuted : forall (F : Type) parse_f64 finite show_f64 debug, exists j1 j2 j3 j4 j5 : json F,
  let back j := value_to_json F parse_f64 finite debug (json_to_value F show_f64 j) in
  j1 = JString (lit "1") /\ back j1 = JInt 1 /\
  (j2 = JString (lit "null") /\ (parse_f64 (lit "null") = None -> back j2 = JNull)) /\
  j3 = tagged F (lit "a") (tagged F (lit "b") (JInt 1)) /\ back j3 = tagged F (lit "a") (JInt 1) /\
  j4 = tagged F (lit "a") JNull /\ back j4 = tag_only F (lit "a") /\
  j5 = JObject [(lit "$tag", JString (lit "a")); (lit "name", JInt 1)] /\ back j5 = tag_only F (lit "a").
Proof.
  intros F parse_f64 finite show_f64 debug. exists (JString (lit "1")), (JString (lit "null")), (tagged F (lit "a") (tagged F (lit "b") (JInt 1))), (tagged F (lit "a") JNull),
    (JObject [(lit "$tag", JString (lit "a")); (lit "name", JInt 1)]). cbv zeta. splits; try reflexivity.
  intros H. change (scalar_json F parse_f64 finite (lit "null") = JNull). unfold scalar_json. rewrite H. reflexivity.
Qed.
Print Assumptions C86_refuted.

(** Different entries of a source can have the same name in JSON; then one is lost. A text in quotes becomes a number. *)
Theorem C86_sources_refuted : forall (F : Type) parse_f64 finite debug, exists src src' v v',
  src = lit "k {@ 1, ""@"" 2}" /\ tree src (inl v) /\ value_to_json F parse_f64 finite debug v = JObject [(lit "k", JObject [(lit "@", JInt 2)])] /\
  src' = lit "zip ""01234""" /\ tree src' (inl v') /\ value_to_json F parse_f64 finite debug v' = JObject [(lit "zip", JInt 1234)].
Proof.
  intros F parse_f64 finite debug. eexists _, _, _, _. split; [reflexivity|]. split; [eexists; split; [apply run_parses; vm_compute; reflexivity|vm_compute; reflexivity]|]. split; [vm_compute; reflexivity|].
  split; [reflexivity|]. split; [eexists; split; [apply run_parses; vm_compute; reflexivity|vm_compute; reflexivity]|]. vm_compute; reflexivity.
Qed.
Print Assumptions C86_sources_refuted.

(** ** C87 *)

(** The text that [from_json] writes is read by [to_json] as the same JSON. *)
Theorem C87_partial : forall (F : Type) parse_f64 finite show_f64 debug (m : list (str * json F)), words_are_no_floats F parse_f64 ->
  plain F parse_f64 finite show_f64 (JObject m) -> printable_root F show_f64 m ->
  exists src v, from_json F show_f64 (JObject m) = Ok src /\ tree src (inl v) /\ value_to_json F parse_f64 finite debug v = JObject m.
Proof.
  intros F parse_f64 finite show_f64 debug m W P R. assert (NoDup (map fst m) /\ Forall (fun kx => plain F parse_f64 finite show_f64 (snd kx)) m) as [N Pm].
  { destruct R as [U _]. inversion P as [| | | | | |n|n x|]; subst; [exfalso; apply (U n); now left|exfalso; apply (U n); now left|auto]. }
  destruct (C15_partial (map (fun kx => Ent (json_text (fst kx)) (json_to_value F show_f64 (snd kx)) None) m) None None default_opts) as (src & v & A & B & C).
  - cbn. intuition.
  - exact (root_fine F parse_f64 finite show_f64 m Pm R).
  - now apply root_names.
  - exists src, v. splits; [|exact B|].
    + unfold from_json. rewrite (of_object F show_f64 m (proj1 R)). exact A.
    + apply (back F parse_f64 finite show_f64 debug W _ P). rewrite C, (of_object F show_f64 m (proj1 R)). reflexivity.
Qed.
Print Assumptions C87_partial.

(** For all values it is false, even for plain ones: [null] after a number in an array, a tagged number, a key with a dot, and a root that is an array. *)
Theorem C87_refuted : forall (F : Type) parse_f64 finite show_f64 debug, exists (j1 j2 j3 j4 : json F) s1 s2 s3 s4 v1 v2 v3 e4,
  let misread j src v := plain F parse_f64 finite show_f64 j /\ from_json F show_f64 j = Ok src /\ tree src (inl v) /\ value_to_json F parse_f64 finite debug v <> j in
  misread j1 s1 v1 /\ s1 = lit "k (1@)
" /\ misread j2 s2 v2 /\ s2 = lit "k @t(1)
" /\ misread j3 s3 v3 /\ s3 = lit "a.b 1
" /\ plain F parse_f64 finite show_f64 j4 /\ from_json F show_f64 j4 = Ok s4 /\ s4 = lit "(1 2)
" /\ tree s4 (inr e4).
Proof.
  intros F parse_f64 finite show_f64 debug. assert (forall z, (- 2 ^ 63 <= z < 2 ^ 63)%Z -> plain F parse_f64 finite show_f64 (JInt z)) as PI by now constructor.
  assert (forall k x, k <> lit "$tag" -> plain F parse_f64 finite show_f64 x -> plain F parse_f64 finite show_f64 (JObject [(k, x)])) as PO.
  { intros k x Hk Hx. constructor; [repeat constructor; intros []| |repeat constructor; exact Hx]. intros n [[= E _]|[]]. now apply Hk. }
  exists (JObject [(lit "k", JArray [JInt 1; JNull])]), (JObject [(lit "k", WasmSpec.tagged F (lit "t") (JInt 1))]), (JObject [(lit "a.b", JInt 1)]), (JArray [JInt 1; JInt 2]).
  exists (lit "k (1@)
"), (lit "k @t(1)
"), (lit "a.b 1
"), (lit "(1 2)
"). do 4 eexists. cbv zeta. splits.
  all: match goal with |- tree _ _ => eexists; split; [apply run_parses; vm_compute; reflexivity|vm_compute; reflexivity] | _ => idtac end.
  all: match goal with |- _ = _ => vm_compute; reflexivity | |- _ <> _ => vm_compute; discriminate | _ => idtac end.
  all: match goal with |- plain _ _ _ _ (JObject _) => apply PO; [discriminate|] | _ => idtac end.
  all: repeat match goal with
    | |- plain _ _ _ _ JNull => constructor
    | |- plain _ _ _ _ (JInt _) => apply PI; lia
    | |- plain _ _ _ _ (JArray _) => constructor; repeat constructor
    | |- plain _ _ _ _ (WasmSpec.tagged _ _ _) => constructor; [|discriminate|discriminate] end.
  all: discriminate || reflexivity.
Qed.
Print Assumptions C87_refuted.

(** Examples, with a single float. *)
Definition float_text : str := lit "1.5".
Definition read_float (s : str) : option unit := if str_eqb s float_text then Some tt else None.
Definition C87_map : list (str * json unit) := [
  (lit "name", JString (lit "a b")); (lit "n", JInt (-5)); (lit "f", JFloat tt); (lit "ok", JBool true); (lit "none", JNull);
  (lit "list", JArray [JString (lit "x"); JArray [JNull]; JArray []; tag_only unit (lit "t")]);
  (lit "o", JObject [(lit "a.b", JNull); (lit "p", WasmSpec.tagged unit (lit "p") (JObject [(lit "z w", JString [])]))]);
  (lit "note", JString (lit "one
two
three
"))].
Lemma plain_text s : no_int s -> s <> float_text -> s <> lit "true" -> s <> lit "false" -> s <> lit "null" -> plain unit read_float (fun _ => true) (fun _ => float_text) (JString s).
Proof. intros A B C D E. constructor. split; [exact A|]. split; [|auto]. unfold read_float. destruct (str_eqb_spec s float_text); [contradiction|reflexivity]. Qed.
Lemma not_int s : parse_i64 s = None -> no_int s.
Proof. intros H z Hz R. assert (parse_i64 s = Some z) as X by now apply parse_signed_spec. congruence. Qed.
Ltac nodup := repeat constructor; try (let H := fresh in intros H; vm_compute in H; repeat destruct H as [H|H]; discriminate || contradiction).
Ltac untag := let H := fresh in intros ? H; repeat destruct H as [H|H]; try discriminate H; destruct H.
Ltac plain_txt := apply plain_text; [apply not_int; vm_compute; reflexivity|discriminate..].
Lemma C87_map_plain : plain unit read_float (fun _ => true) (fun _ => float_text) (JObject C87_map).
Proof.
  constructor; [nodup|untag|]. repeat (apply Forall_cons || apply Forall_nil); cbn [snd].
  - plain_txt.
  - constructor. lia.
  - constructor; [reflexivity|vm_compute; reflexivity|apply not_int; vm_compute; reflexivity].
  - constructor.
  - constructor.
  - constructor. repeat (apply Forall_cons || apply Forall_nil); [plain_txt| | |]; repeat constructor.
  - constructor; [nodup|untag|]. repeat (apply Forall_cons || apply Forall_nil); cbn [snd]; [constructor|]. apply pl_tagged; [|discriminate|intros m [= <-]; untag].
    constructor; [nodup|untag|]. apply Forall_cons; [cbn [snd]; plain_txt|constructor].
  - plain_txt.
Qed.
Ltac no_gt := let H := fresh in intros _ H; vm_compute in H; repeat destruct H as [H|H]; discriminate || contradiction.
Ltac tname := do 2 eexists; split; [vm_compute; reflexivity|]; split; vm_compute; reflexivity.
Ltac short := split; [vm_compute; lia|no_gt].
Lemma C87_map_printable : printable_root unit (fun _ => float_text) C87_map.
Proof.
  split; [untag|]. repeat (apply Forall_cons || apply Forall_nil); cbn [fst snd]; (split; [no_gt|]; split; [intros _; not_in|]).
  - left. constructor. short.
  - left. constructor.
  - left. constructor. split; [discriminate|]. change float_text with [49; 46; 53]%N. repeat (apply Forall_cons || apply Forall_nil); unfold number_char; lia.
  - left. constructor.
  - left. constructor.
  - left. constructor.
    + repeat (apply Forall_cons || apply Forall_nil); [constructor; short| | |].
      * constructor; [repeat constructor| |].
        { intros a x b E Hb _. destruct a as [|u a]; [injection E as _ E; congruence|]. destruct a; discriminate. }
        { discriminate. }
      * constructor; [constructor| |]; [intros [|] ? ? ?; discriminate|discriminate].
      * apply pr_tag. tname.
    + intros a x b E Hb [Hx|[n Hx]]; subst x; do 4 (destruct a as [|? a]; [try discriminate E; injection E; intros; subst; congruence|cbn in E; apply (f_equal (@tl _)) in E; cbn in E]); destruct a; discriminate.
    + intros x y l' [= <- <- <-] H. repeat destruct H as [H|H]; discriminate || contradiction.
  - left. apply pr_object; [untag|]. repeat (apply Forall_cons || apply Forall_nil); cbn [fst snd]; (split; [no_gt|]).
    + constructor.
    + apply pr_tagged; [tname|right; eexists; split; [reflexivity|untag]|]. apply pr_object; [untag|]. apply Forall_cons; [|constructor]. cbn [fst snd]. split; [no_gt|]. constructor. short.
  - right. eexists. split; [reflexivity|]. split; [no_gt|]. split; [exists (lit "one
two
three"); reflexivity|]. exists (lit "TEXT"). split; [vm_compute; auto|]. vm_compute. intros (a & b & E). do 14 (destruct a as [|? a]; [discriminate E|apply (f_equal (@tl _)) in E; cbn in E]). destruct a; discriminate E.
Qed.
Example C87_example : words_are_no_floats unit read_float /\ plain unit read_float (fun _ => true) (fun _ => float_text) (JObject C87_map) /\ printable_root unit (fun _ => float_text) C87_map /\
  distinct_keys unit (JObject C87_map) /\ from_json unit (fun _ => float_text) (JObject C87_map) = Ok (lit "name ""a b""

n -5

f 1.5

ok true

none @

list (x (@) () @t)

o {
    a.b @
    p @p{""z w"" """"}
}

note <<TEXT
one
two
three
TEXT
").
Proof.
  splits; [split; reflexivity|exact C87_map_plain|exact C87_map_printable| |vm_compute; reflexivity].
  repeat constructor; nodup.
Qed.
