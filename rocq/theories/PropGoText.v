(** C79: the text of types.go. *)
From Coq Require Import String ZArith Permutation.
From Verif Require Import Base BaseProofs TreeModel SchemaModel CliSpec CliModel GoModel GoSpec GoProofs GoTextSpec PropGo.
Local Open Scope nat_scope.

Lemma field_name_chars m c : field_name m -> In c m -> letter_digit c \/ sep c.
Proof. intros (x & r & -> & H & Hr) [<-|Hi]; [left; destruct H as [H|H]; [now left|now right; left]|]. rewrite Forall_forall in Hr. now apply Hr. Qed.
Ltac off := let H := fresh in intros H; apply (field_name_chars _ _ ltac:(eassumption)) in H; unfold letter_digit, lower_letter, upper_letter, digit, sep in H; lia.
Ltac off_word := cbn; let H := fresh in intros H; decompose [or] H; try discriminate; try contradiction.

Section Text.
Variable F : Type.
Variable up : char -> str.
Hypothesis Up : upper_ascii up.

Lemma not_in_app (c : char) a b : ~ In c a -> ~ In c b -> ~ In c (a ++ b).
Proof. rewrite in_app_iff. tauto. Qed.

Lemma line_says (f : gofield F) D s o c : field_name (f_styx f) -> pascal_of up (f_styx f) (f_go f) -> go_type_text D (f_type f) -> peel F s o c -> f_opt f = o ->
  field_text F up D (f_styx f) s (field_line F f).
Proof.
  intros Hn Hp Ht Hs Ho. set (m := f_styx f) in *.
  assert (~ In cDQ m /\ ~ In cBSL m /\ ~ In cCOMMA m /\ ~ In cTICK m) as (N1 & N2 & N3 & N4) by (repeat split; off).
  set (vj := m ++ (if o then lit ",omitempty" else [])). set (vs := m ++ (if o then lit ",optional" else [])).
  exists (f_go f), (f_type f), (lit "json:" ++ [cDQ] ++ vj ++ [cDQ] ++ lit " styx:" ++ [cDQ] ++ vs ++ [cDQ]), vj, vs, o, c.
  assert (forall x, ~ In x m -> ~ In x (lit ",omitempty") -> ~ In x vj) as Hj by (intros x H1 H2; apply not_in_app; [exact H1|destruct o; [exact H2|intros []]]).
  assert (forall x, ~ In x m -> ~ In x (lit ",optional") -> ~ In x vs) as Hv by (intros x H1 H2; apply not_in_app; [exact H1|destruct o; [exact H2|intros []]]).
  split; [split; [|split]|].
  - unfold field_line. fold m. rewrite Ho. unfold vj, vs, tab, dq, tick. rewrite <- !app_assoc. reflexivity.
  - eapply field_name_exported; eauto.
  - apply not_in_app; [off_word|]. apply not_in_app; [off_word|]. apply not_in_app; [apply Hj; [exact N4|off_word]|]. apply not_in_app; [off_word|]. apply not_in_app; [off_word|]. apply not_in_app; [off_word|].
    apply not_in_app; [apply Hv; [exact N4|off_word]|off_word].
  - split; [exact Hp|]. split; [exact Ht|]. split; [exact Hs|].
    assert (~ In cDQ vj /\ ~ In cBSL vj) as (J1 & J2) by (split; apply Hj; auto; off_word). assert (~ In cDQ vs /\ ~ In cBSL vs) as (V1 & V2) by (split; apply Hv; auto; off_word).
    split; [exact (TS_here (lit "json") vj (lit " styx:" ++ [cDQ] ++ vs ++ [cDQ]) ltac:(off_word) J1 J2)|].
    split; [split; [exact N3|]; unfold vj; destruct o; reflexivity|].
    split; [|split; [exact N3|]; unfold vs; destruct o; reflexivity].
    apply (TS_next (lit "json") vj (lit "styx:" ++ [cDQ] ++ vs ++ [cDQ]) (lit "styx") vs); auto; [off_word|discriminate|]. exact (TS_here (lit "styx") vs [] ltac:(off_word) V1 V2).
Qed.

Lemma lines_say D D' fs gl p : struct_for F up D p fs gl -> (forall f, In f gl -> go_type_text D' (f_type f)) -> (forall m x, In (m, x) (named F fs) -> field_name m) ->
  Forall2 (fun e => field_text F up D' (fst e) (snd e)) (named F fs) (map (field_line F) gl).
Proof.
  induction 1 as [p|p k s r l Hk Hs IH|p k n s r f l Hk Hf Hs IH]; intros Ht Hn; unfold named; cbn [flat_map map].
  - constructor.
  - rewrite Hk. cbn [app]. apply IH; [exact Ht|]. intros m x Hi. apply (Hn m x). unfold named. cbn [flat_map]. now rewrite Hk.
  - rewrite Hk. cbn [app]. assert (field_name n) as Hn1. { apply (Hn n s). unfold named. cbn [flat_map]. rewrite Hk. now left. }
    constructor; [|apply IH; [intros g Hg; apply Ht; now right|]; intros m x Hi; apply (Hn m x); unfold named; cbn [flat_map]; rewrite Hk; now right].
    cbn [fst snd]. assert (f_styx f = n /\ pascal_of up n (f_go f) /\ exists c, peel F s (f_opt f) c) as (E1 & E2 & c & E3) by (inversion Hf; subst; cbn; eauto). rewrite <- E1 at 1.
    apply (line_says f D' s (f_opt f) c); rewrite ?E1; auto. apply Ht. now left.
Qed.

(** Lines of other declarations. *)
Lemma app_inj_tail_str (a b : str) x : a ++ x = b ++ x -> a = b.
Proof. apply app_inv_tail. Qed.
Lemma header_other pkg (order : tmap F) h : In h (lit "// Code generated by styx gen go. DO NOT EDIT." :: [] :: (lit "package " ++ pkg) :: [] :: flat_map (fun '(n, t) => type_lines F up n t ++ [[]]) order) ->
  (exists r, h = lit "type " ++ r) -> exists n, (exists fs, In (n, GStruct fs) order /\ h = lit "type " ++ n ++ lit " struct {") \/ (exists vs, In (n, GEnum vs) order /\ h = lit "type " ++ n ++ lit " string").
Proof.
  intros Hi (r & ->). destruct Hi as [H|[H|[H|[H|H]]]]; try discriminate H. apply in_flat_map in H as ([n t] & Hn & H). apply in_app_or in H as [H|[H|[]]]; [|discriminate H].
  exists n. destruct t as [fs|vs|x]; cbn [type_lines] in H.
  - destruct H as [H|H]; [left; exists fs; split; [exact Hn|now rewrite <- H]|]. apply in_app_or in H as [H|[H|[]]]; [|discriminate H]. apply in_map_iff in H as (f & H & _). discriminate H.
  - destruct H as [H|[H|[H|H]]]; [right; exists vs; split; [exact Hn|now rewrite <- H]|discriminate H|discriminate H|]. apply in_app_or in H as [H|[H|[]]]; [|discriminate H]. apply in_map_iff in H as (f & H & _). discriminate H.
  - destruct H.
Qed.
Lemma struct_enum (n m : str) : lit "type " ++ n ++ lit " struct {" <> lit "type " ++ m ++ lit " string".
Proof.
  intros E. apply (f_equal (@rev char)) in E. rewrite !rev_app_distr in E. discriminate E.
Qed.
Lemma same_struct (n m : str) : lit "type " ++ n ++ lit " struct {" = lit "type " ++ m ++ lit " struct {" -> n = m.
Proof. intros E. apply app_inv_head in E. now apply app_inv_tail in E. Qed.
Lemma same_enum (n m : str) : lit "type " ++ n ++ lit " string" = lit "type " ++ m ++ lit " string" -> n = m.
Proof. intros E. apply app_inv_head in E. now apply app_inv_tail in E. Qed.

Lemma others_named pkg (a b : tmap F) n t : NoDup (map fst (a ++ (n, t) :: b)) ->
  forall h, In h (lit "// Code generated by styx gen go. DO NOT EDIT." :: [] :: (lit "package " ++ pkg) :: [] :: flat_map (fun '(n, t) => type_lines F up n t ++ [[]]) (a ++ b)) ->
  h <> lit "type " ++ n ++ lit " struct {" /\ h <> lit "type " ++ n ++ lit " string".
Proof.
  intros Nd h Hi. rewrite map_app in Nd. cbn [map fst] in Nd. apply NoDup_remove_2 in Nd. rewrite <- map_app in Nd.
  split; intros ->; (eapply header_other in Hi; [|eexists; reflexivity]); destruct Hi as (m & [(x & Hm & E)|(x & Hm & E)]).
  - apply same_struct in E as <-. apply Nd. exact (in_map fst _ _ Hm).
  - now apply struct_enum in E.
  - symmetry in E. now apply struct_enum in E.
  - apply same_enum in E as <-. apply Nd. exact (in_map fst _ _ Hm).
Qed.

Lemma file_block pkg (order : tmap F) n t hs body last : NoDup (map fst order) -> In (n, t) order -> type_lines F up n t = hs ++ body ++ [last] -> ~ In last body ->
  (forall l, In l body -> exists r, l = [9%N] ++ r) -> (exists x hr, hs = (lit "type " ++ n ++ x) :: hr /\ (x = lit " struct {" \/ x = lit " string")) ->
  block (types_file F up pkg order) hs last body.
Proof.
  intros Nd Hi El Hl Hb (x & hr & -> & Hx). apply in_split in Hi as (a & b & ->).
  set (pre := lit "// Code generated by styx gen go. DO NOT EDIT." :: [] :: (lit "package " ++ pkg) :: [] :: flat_map (fun '(n, t) => type_lines F up n t ++ [[]]) a).
  set (post := [] :: flat_map (fun '(n, t) => type_lines F up n t ++ [[]]) b).
  exists pre, post. split; [|split; [exact Hl|]].
  - unfold types_file, pre, post. rewrite flat_map_app. cbn [flat_map]. rewrite El. repeat (rewrite <- ?app_assoc; cbn [app]). reflexivity.
  - intros h [= <-] H. rewrite !in_app_iff in H. assert (forall h, In h pre \/ In h post -> h <> lit "type " ++ n ++ lit " struct {" /\ h <> lit "type " ++ n ++ lit " string") as Ho.
    { intros h Hh. apply (others_named pkg a b n t Nd). rewrite flat_map_app. unfold pre, post in Hh. cbn [In] in Hh |- *. rewrite in_app_iff. tauto. }
    destruct H as [H|[H|H]].
    + destruct (Ho _ (or_introl H)) as [A B]. destruct Hx as [-> | ->]; [now apply A|now apply B].
    + apply Hb in H as (r & H). discriminate H.
    + destruct (Ho _ (or_intror H)) as [A B]. destruct Hx as [-> | ->]; [now apply A|now apply B].
Qed.
End Text.

(** The struct of an object of the schema stands in types.go once, with a line for each named field in the order of the schema; the line gives the Go name, a type and in
    the tags the name of the schema and whether the field can be left out. Missing: names other than letters, digits and separators (refuted below) and the conditions of C71 and C72. *)
Theorem C79_structs_partial : forall F up pkg (sf : schema_file F) order n s fs, upper_ascii up -> NoDup (all_names F up sf) -> ready_file F up sf ->
  NoDup (map fst order) -> (forall x, tget F x order = tget F x (go_types F up sf)) ->
  In (n, s) sf -> strip F s (SObject _ fs) -> (forall m x, In (m, x) (named F fs) -> field_name m) ->
  exists body, block (types_file F up pkg order) [lit "type " ++ reg_name n ++ lit " struct {"] (lit "}") body /\
    Forall2 (fun e => field_text F up (declared F (go_types F up sf)) (fst e) (snd e)) (named F fs) body.
Proof.
  intros F up pkg sf order n s fs Hu Nd Hr No Ho Hi Hs Hn. destruct (C72_structs_partial F up sf n s fs Nd Hi Hs) as (gl & Hg & Hf).
  exists (map (field_line F) gl). split.
  - apply (file_block F up pkg order (reg_name n) (GStruct gl)); [exact No|apply tget_in; now rewrite Ho|reflexivity| | |eexists _, _; split; [reflexivity|now left]].
    + intros H. apply in_map_iff in H as (f & H & _). discriminate H.
    + intros l H. apply in_map_iff in H as (f & <- & _). eexists. reflexivity.
  - eapply lines_say; eauto. intros f Hin. eapply C71_declared_partial; eauto.
Qed.
Print Assumptions C79_structs_partial.

(** The constants of an enum stand there once, each with the name of its variant as value. *)
Theorem C79_enums_partial : forall F up pkg (sf : schema_file F) order n s vs, upper_ascii up -> NoDup (all_names F up sf) ->
  NoDup (map fst order) -> (forall x, tget F x order = tget F x (go_types F up sf)) ->
  In (n, s) sf -> strip F s (SEnum _ vs) -> Forall (fun v => field_name (fst v)) vs ->
  exists body, block (types_file F up pkg order) [lit "type " ++ reg_name n ++ lit " string"; []; lit "const ("] (lit ")") body /\
    Forall2 (fun v => variant_text up (reg_name n) (fst v)) vs body.
Proof.
  intros F up pkg sf order n s vs Hu Nd No Ho Hi Hs Hn. pose proof (C72_enums_partial F up sf n s vs Nd Hi Hs) as Hg.
  exists (map (variant_line up (reg_name n)) (map fst vs)). split.
  - apply (file_block F up pkg order (reg_name n) (GEnum (map fst vs))); [exact No|apply tget_in; now rewrite Ho|reflexivity| | |eexists _, _; split; [reflexivity|now right]].
    + intros H. apply in_map_iff in H as (f & H & _). discriminate H.
    + intros l H. apply in_map_iff in H as (f & <- & _). eexists. reflexivity.
  - clear - Hn Hu. induction Hn as [|[v x] r Hv _ IH]; cbn [map fst]; constructor; [|exact IH]. cbn [fst] in *. exists (pascal up v). split; [apply pascal_is|]. split; [reflexivity|].
    split; [off|]. split; [off|]. eapply pascal_letters; [exact Hu|apply pascal_is|]. apply Forall_forall. intros c Hc. now apply (field_name_chars v).
Qed.
Print Assumptions C79_enums_partial.

Example C79_example : NoDup (all_names Z up0 sf1) /\ ready_file Z up0 sf1 /\ NoDup (map fst (types sf1)) /\ (exists s fs, In (None, s) sf1 /\ strip Z s (SObject _ fs) /\
    length (named Z fs) = 3 /\ forall m x, In (m, x) (named Z fs) -> field_name m) /\
  (exists s vs, In (Some (lit "Level"), s) sf1 /\ strip Z s (SEnum _ vs) /\ length vs = 2 /\ Forall (fun v => field_name (fst v)) vs).
Proof.
  split; [apply C72_example|]. split; [apply C71_declared_example|]. split; [apply nodup_dec_true; reflexivity|]. split.
  - eexists _, _. split; [left; reflexivity|]. split; [constructor|]. split; [reflexivity|]. intros m x Hi. cbn in Hi.
    repeat (destruct Hi as [[= <- <-]|Hi]; [eexists _, _; split; [reflexivity|]; split; [left; unfold lower_letter; lia|apply name_chars; reflexivity]|]). destruct Hi.
  - eexists _, _. split; [right; left; reflexivity|]. split; [constructor|]. split; [reflexivity|].
    apply Forall_cons; [exists 105%N, (lit "nfo")|apply Forall_cons; [exists 100%N, (lit "ebug")|apply Forall_nil]]; (split; [reflexivity|]; split; [left; unfold lower_letter; lia|apply name_chars; reflexivity]).
Qed.

(** Of other names some give a field that Go does not accept: one that starts with a digit keeps it, and a blank stays in the name. *)
Theorem C79_names_refuted : exists (sf : schema_file Z) n l, NoDup (all_names Z up0 sf) /\ ready_file Z up0 sf /\ tget Z n (types sf) = Some (GStruct l) /\ length l = 2 /\
  forall f, In f l -> ~ exported (f_go f).
Proof.
  exists [(None, SObject _ [(key "2fa", SBool _); (key "idle time", SInt _ None)])], (lit "Root"). eexists.
  split; [apply nodup_dec_true; reflexivity|]. split; [|split; [reflexivity|split; [reflexivity|]]].
  - intros n s Hin. cbn [In] in Hin. destruct Hin as [[= <- <-]|[]]. split; [ready_tac|eexists; constructor].
  - intros f [<-|[<-|[]]] (c & r & E & H & Hr); cbn in E; injection E as <- <-; [unfold upper_letter in H; lia|]. rewrite Forall_forall in Hr.
    specialize (Hr 32%N ltac:(cbn; tauto)). unfold letter_digit, lower_letter, upper_letter, digit in Hr. lia.
Qed.
Print Assumptions C79_names_refuted.

(** parse.go reads documents into the struct of the schema's root, if this is an object. *)
Theorem C79_root_partial : forall F up (sf : schema_file F) order s fs, NoDup (all_names F up sf) ->
  (forall x, tget F x order = tget F x (go_types F up sf)) -> In (None, s) sf -> strip F s (SObject _ fs) ->
  exists gl, root_type F order = Some (lit "Root") /\ tget F (lit "Root") order = Some (GStruct gl) /\ struct_for F up (fun x => tget F x order) (lit "Root") fs gl.
Proof.
  intros F up sf order s fs Nd Ho Hi Hs. destruct (C72_structs_partial F up sf None s fs Nd Hi Hs) as (gl & Hg & Hf). cbn [reg_name] in Hg, Hf. exists gl.
  assert (tget F (lit "Root") order = Some (GStruct gl)) as E by now rewrite Ho. split; [unfold root_type; now rewrite E|]. split; [exact E|].
  clear - Ho Hf. assert (X : forall D D', (forall x, D x = D' x) -> (forall p fs gl, struct_for F up D p fs gl -> struct_for F up D' p fs gl)).
  { intros D D' HD. fix IH 4. intros p0 fs0 gl0 [p|p k s r l Hk H|p k n s r f l Hk H1 H2]; [constructor|constructor; auto|]. econstructor; [eassumption| |auto].
    destruct H1 as [p1 n1 s1 o fs1 q gl1 t A1 A2 A3 A4 A5|p1 n1 s1 o c q t t2 k0 A1 A2 A3 A4 A5]; [econstructor; eauto; now rewrite <- HD|econstructor; eauto]. }
  eapply X; [|exact Hf]. intros x. symmetry. apply Ho.
Qed.
Print Assumptions C79_root_partial.
(** If it is something else, for example a map, the struct is any of the file's: which one depends on the order of the map of types. *)
Theorem C79_root_refuted : exists (sf : schema_file Z) order order' a b, NoDup (all_names Z up0 sf) /\ In None (map fst sf) /\
  Permutation order (types sf) /\ Permutation order' (types sf) /\ root_type Z order = Some a /\ root_type Z order' = Some b /\ a <> b.
Proof.
  set (sf := [(None, SMap _ [SString _ None; SType _ (Some (lit "Server"))]); (Some (lit "Server"), SObject Z [(key "port", SType _ (Some (lit "Port")))]); (Some (lit "Port"), SObject _ [(key "number", SInt _ None)])]).
  exists sf, (types sf), (rev (types sf)), (lit "Port"), (lit "Server"). split; [apply nodup_dec_true; reflexivity|]. split; [left; reflexivity|]. split; [apply Permutation_refl|].
  split; [apply Permutation_sym, Permutation_rev|]. split; [reflexivity|]. split; [reflexivity|discriminate].
Qed.
Print Assumptions C79_root_refuted.
