(** Properties of the Go generator (C71-C73). *)
From Coq Require Import String ZArith Permutation.
From Verif Require Import Base BaseProofs TreeModel SchemaModel CliSpec CliModel GoModel GoSpec GoProofs.
Local Open Scope nat_scope.

(** Upper case on ASCII, for the examples. *)
Definition up0 (c : char) : str := if ((97 <=? c) && (c <=? 122))%N then [(c - 32)%N] else [c].
Example up0_ascii : upper_ascii up0.
Proof.
  unfold up0. split.
  - intros c [H1 H2]. replace (97 <=? c)%N with true by (symmetry; apply N.leb_le; exact H1).
    replace (c <=? 122)%N with true by (symmetry; apply N.leb_le; exact H2). reflexivity.
  - intros c H. destruct ((97 <=? c) && (c <=? 122))%N eqn:E; [|reflexivity]. apply andb_true_iff in E.
    rewrite !N.leb_le in E. unfold upper_letter, digit in H. lia.
Qed.
Definition name_char (x : char) : bool :=
  (((97 <=? x) && (x <=? 122)) || ((65 <=? x) && (x <=? 90)) || ((48 <=? x) && (x <=? 57)) || (x =? 95) || (x =? 45))%N.
Lemma name_chars s : forallb name_char s = true -> Forall (fun x => letter_digit x \/ sep x) s.
Proof.
  intros H. apply Forall_forall. intros x Hx. rewrite forallb_forall in H. specialize (H x Hx). unfold name_char in H.
  rewrite !orb_true_iff, !andb_true_iff, !N.leb_le, !N.eqb_eq in H. unfold letter_digit, lower_letter, upper_letter, digit, sep. tauto.
Qed.
Definition key (s : string) : obj_key := mkkey (Some (lit s)) None.
Notation sch := (schema Z).
Notation types := (go_types Z up0).
Ltac in_tac := cbn; repeat (first [left; reflexivity|right]).

(** ** C71: names *)

(** A field or variant name made of letters, digits and separators gives an exported Go identifier. *)
Theorem C71_identifiers : forall up, upper_ascii up -> forall s t, field_name s -> pascal_of up s t -> exported t.
Proof. exact field_name_exported. Qed.
Print Assumptions C71_identifiers.
Example C71_identifiers_example : field_name (lit "max-retry_count2") /\ pascal up0 (lit "max-retry_count2") = lit "MaxRetryCount2".
Proof.
  split; [|reflexivity]. exists 109%N, (lit "ax-retry_count2"). split; [reflexivity|]. split; [left; unfold lower_letter; lia|].
  apply name_chars; reflexivity.
Qed.

(** The name is the one described: [to_pascal_case] computes [pascal_of]. *)
Theorem C71_pascal : forall up s t, pascal_of up s t <-> t = pascal up s.
Proof. exact pascal_iff. Qed.
Print Assumptions C71_pascal.

(** Names without separators that start with a small letter give different Go names. *)
Theorem C71_fields_apart_partial : forall up, upper_ascii up -> forall a b t, pascal_of up a t -> pascal_of up b t ->
  (forall s, s = a \/ s = b -> exists c r, s = c :: r /\ lower_letter c /\ Forall (fun x => ~ sep x) r) -> a = b.
Proof. exact plain_names_apart. Qed.
Print Assumptions C71_fields_apart_partial.
(** Others need not: a struct with the same field twice, which Go rejects. *)
Theorem C71_fields_apart_refuted : exists (sf : schema_file Z) f g l,
  tget Z (lit "Root") (types sf) = Some (GStruct (f :: g :: l)) /\ f_styx f <> f_styx g /\
  field_name (f_styx f) /\ field_name (f_styx g) /\ f_go f = f_go g.
Proof.
  exists [(None, SObject _ [(key "max-size", SInt _ None); (key "max_size", SInt _ None)])]. do 3 eexists.
  split; [reflexivity|]. cbn [f_styx f_go]. split; [discriminate|]. split; [|split; [|reflexivity]].
  - exists 109%N, (lit "ax-size"). split; [reflexivity|]. split; [left; unfold lower_letter; lia|].
    apply name_chars; reflexivity.
  - exists 109%N, (lit "ax_size"). split; [reflexivity|]. split; [left; unfold lower_letter; lia|].
    apply name_chars; reflexivity.
Qed.
Print Assumptions C71_fields_apart_refuted.

(** Every type of a field is a Go type over the types that are declared, if the types of the schema are objects
    and enums with names as in Go, references are to types of the schema and keys of maps are scalars. *)
Theorem C71_declared_partial : forall F up (sf : schema_file F), ready_file F up sf ->
  forall n l f, tget F n (go_types F up sf) = Some (GStruct l) -> In f l ->
  go_type_text (declared F (go_types F up sf)) (f_type f).
Proof. exact go_declared. Qed.
Print Assumptions C71_declared_partial.

Definition sf1 : schema_file Z :=
  [(None, SObject _ [(key "listen", SOptional _ (SObject _ [(key "port", SInt _ None); (key "hosts", SSeq _ (SString _ None))]));
                     (key "level", SDefault _ (lit "info") (SType _ (Some (lit "Level"))));
                     (key "routes", SMap _ [SString _ None; SType _ (Some (lit "Route"))])]);
   (Some (lit "Level"), SEnum _ [(lit "info", SUnit _); (lit "debug", SUnit _)]);
   (Some (lit "Route"), SObject _ [(key "next", SOptional _ (SType _ (Some (lit "Route"))))])].
Ltac ready_tac :=
  match goal with
  | |- ready _ _ _ (SObject _ _) => apply RD_object; cbn [In]; intros ? ? Hin;
      repeat (destruct Hin as [Hin|Hin]; [injection Hin as <- <-; ready_tac|]); destruct Hin
  | |- ready _ _ _ (SMap _ _) => apply RD_map; [cbn [In]; intros ? Hin; repeat (destruct Hin as [<-|Hin]; [ready_tac|]); destruct Hin
                                              |intros ? ? [= <- <-]; left; eexists; reflexivity]
  | |- ready _ _ _ (SType _ (Some _)) => apply RD_named; [in_tac|apply pascal_iff; reflexivity]
  | |- ready _ _ _ _ => constructor; try ready_tac
  end.
Example C71_declared_example : ready_file Z up0 sf1 /\
  types_file Z up0 (lit "config") (types sf1) =
  [lit "// Code generated by styx gen go. DO NOT EDIT."; []; lit "package config"; [];
   lit "type Route struct {"; tab ++ lit "Next *Route `json:""next,omitempty"" styx:""next,optional""`"; lit "}"; [];
   lit "type Level string"; []; lit "const ("; tab ++ lit "LevelInfo Level = ""info"""; tab ++ lit "LevelDebug Level = ""debug"""; lit ")"; [];
   lit "type Root struct {"; tab ++ lit "Listen *RootListen `json:""listen,omitempty"" styx:""listen,optional""`";
   tab ++ lit "Level Level `json:""level"" styx:""level""`"; tab ++ lit "Routes map[string]Route `json:""routes"" styx:""routes""`"; lit "}"; [];
   lit "type RootListen struct {"; tab ++ lit "Port int64 `json:""port"" styx:""port""`"; tab ++ lit "Hosts []string `json:""hosts"" styx:""hosts""`"; lit "}"; []].
Proof.
  split; [|vm_compute; reflexivity]. intros n s Hin. unfold sf1 in Hin. cbn [In] in Hin.
  destruct Hin as [[= <- <-]|[[= <- <-]|[[= <- <-]|[]]]]; (split; [ready_tac|eexists; constructor]).
Qed.

(** Not so otherwise: a type of the schema that is a scalar is used but not declared; *)
Theorem C71_scalar_refuted : exists (sf : schema_file Z) n l f,
  (forall m s, In (m, s) sf -> ready Z up0 (fun m => In (Some m) (map fst sf)) s) /\
  tget Z n (types sf) = Some (GStruct l) /\ In f l /\ ~ go_type_text (declared Z (types sf)) (f_type f).
Proof.
  exists [(None, SObject _ [(key "port", SType _ (Some (lit "Port")))]); (Some (lit "Port"), SInt _ (Some (mkic (Some 1%Z) None)))].
  exists (lit "Root"). do 2 eexists. split; [|split; [reflexivity|split; [left; reflexivity|]]].
  - intros m s Hin. cbn [In] in Hin. destruct Hin as [[= <- <-]|[[= <- <-]|[]]]; ready_tac.
  - cbn [f_type mk_field]. intros H. inversion H as [t Hb| | |n (t & Ht & Hp)| | |]; subst.
    + unfold basic in Hb. cbn in Hb. repeat (destruct Hb as [Hb|Hb]; [discriminate Hb|]). destruct Hb.
    + vm_compute in Ht. injection Ht as <-. eapply Hp. reflexivity.
Qed.
Print Assumptions C71_scalar_refuted.
(** and a type whose name starts with a small letter is declared with its own name and used with another. *)
Theorem C71_case_refuted : exists (sf : schema_file Z) n l f,
  (forall m s, In (m, s) sf -> exists c, strip Z s c) /\ map fst sf = [None; Some (lit "server")] /\
  tget Z n (types sf) = Some (GStruct l) /\ In f l /\ ~ go_type_text (declared Z (types sf)) (f_type f).
Proof.
  exists [(None, SObject _ [(key "main", SType _ (Some (lit "server")))]); (Some (lit "server"), SObject _ [(key "port", SInt _ None)])].
  exists (lit "Root"). do 2 eexists. split; [|split; [reflexivity|split; [reflexivity|split; [left; reflexivity|]]]].
  - intros m s Hin. cbn [In] in Hin. destruct Hin as [[= <- <-]|[[= <- <-]|[]]]; eexists; constructor.
  - cbn [f_type mk_field]. intros H. inversion H as [t Hb| | |n (t & Ht & Hp)| | |]; subst.
    + unfold basic in Hb. cbn in Hb. repeat (destruct Hb as [Hb|Hb]; [discriminate Hb|]). destruct Hb.
    + vm_compute in Ht. discriminate.
Qed.
Print Assumptions C71_case_refuted.

(** ** C72: structs *)

(** If no two types get the same name, every object of the schema has a struct with its fields, and so have the
    objects inside it; enums have their variants. *)
Theorem C72_structs_partial : forall F up (sf : schema_file F) n s fs, NoDup (all_names F up sf) -> In (n, s) sf -> strip F s (SObject _ fs) ->
  exists gl, tget F (reg_name n) (go_types F up sf) = Some (GStruct gl) /\
    struct_for F up (fun x => tget F x (go_types F up sf)) (reg_name n) fs gl.
Proof. exact go_structs. Qed.
Print Assumptions C72_structs_partial.
Theorem C72_enums_partial : forall F up (sf : schema_file F) n s vs, NoDup (all_names F up sf) -> In (n, s) sf -> strip F s (SEnum _ vs) ->
  tget F (reg_name n) (go_types F up sf) = Some (GEnum (map fst vs)).
Proof. exact go_enums. Qed.
Print Assumptions C72_enums_partial.
(** Nothing else is declared. *)
Theorem C72_nothing_else : forall F up (sf : schema_file F) x t, tget F x (go_types F up sf) = Some t -> In x (all_names F up sf).
Proof. exact go_types_within. Qed.
Print Assumptions C72_nothing_else.
(** And the order in which the map of types is gone through does not matter. *)
Theorem C72_order_partial : forall F up (sf sf' : schema_file F), NoDup (all_names F up sf) -> Permutation sf sf' ->
  forall x, tget F x (go_types F up sf) = tget F x (go_types F up sf').
Proof. exact go_types_order. Qed.
Print Assumptions C72_order_partial.
Lemma nodup_dec_true (l : list str) : (fix go l := match l with [] => true | x :: r => negb (existsb (str_eqb x) r) && go r end) l = true -> NoDup l.
Proof.
  induction l as [|x r IH]; [constructor|]. intros H. apply andb_true_iff in H. destruct H as [H1 H2]. constructor; [|apply IH, H2].
  intros Hin. apply negb_true_iff in H1. assert (E : existsb (str_eqb x) r = true); [|congruence].
  apply existsb_exists. exists x. split; [exact Hin|apply str_eqb_refl].
Qed.
Example C72_example : NoDup (all_names Z up0 sf1) /\ all_names Z up0 sf1 = [lit "Root"; lit "RootListen"; lit "Level"; lit "Route"] /\
  Permutation sf1 (rev sf1) /\ types_file Z up0 (lit "p") (types sf1) <> types_file Z up0 (lit "p") (types (rev sf1)).
Proof. split; [apply nodup_dec_true; reflexivity|]. split; [reflexivity|]. split; [apply Permutation_rev|vm_compute; discriminate]. Qed.

(** With names that meet, the result depends on the order. *)
Theorem C72_order_refuted : exists (sf sf' : schema_file Z) x, NoDup (map fst sf) /\ Permutation sf sf' /\
  tget Z x (types sf) <> tget Z x (types sf').
Proof.
  set (a := (Some (lit "A"), SObject Z [(key "b-c", SObject _ [(key "x", SInt _ None)])])).
  set (b := (Some (lit "AB"), SObject Z [(key "c", SObject _ [(key "y", SString _ None)])])).
  exists [a; b], [b; a], (lit "ABC"). split.
  - repeat constructor; cbn; intuition discriminate.
  - split; [apply perm_swap|]. vm_compute. discriminate.
Qed.
Print Assumptions C72_order_refuted.
(** And a struct may be that of another object. *)
Theorem C72_structs_refuted : exists (sf : schema_file Z) n fs, NoDup (map fst sf) /\ In (n, SObject _ fs) sf /\
  forall gl, ~ struct_for Z up0 (fun x => tget Z x (types sf)) (reg_name n) fs gl.
Proof.
  exists [(None, SObject _ [(key "server", SObject _ [(key "host", SString _ None)])]); (Some (lit "RootServer"), SObject _ [(key "port", SInt _ None)])].
  exists None. eexists. split; [repeat constructor; cbn; intuition discriminate|]. split; [left; reflexivity|].
  intros gl H. inversion H as [|? ? ? ? ? Hk|? ? n ? ? f l Hk Hf Hr]; subst; [discriminate|]. injection Hk as <-.
  inversion Hf as [? ? ? o fs q gl' t Hp Hq HD Hs Ho|? ? ? o c q t t' k Hp Hc]; subst.
  - apply pascal_only in Hq. subst q. vm_compute in HD. injection HD as <-.
    destruct (peel_fun _ _ _ _ Hp) as [_ E]. injection E as ->.
    inversion Hs as [|? ? ? ? ? Hk|? ? n ? ? f2 l2 Hk Hf2 Hr2]; subst; [discriminate|]. injection Hk as <-.
    inversion Hf2.
  - destruct (peel_fun _ _ _ _ Hp) as [_ E]. cbn [core] in E. eapply Hc. exact E.
Qed.
Print Assumptions C72_structs_refuted.

(** ** C73: the tests of the generated [Validate] *)

(** On a field that is a string, an integer or a float with limits (in any number of [@default] and [@optional])
    some test holds exactly if the validator of the schema reports an error; the tests of an optional field are made
    if there is a value, and on what the pointer points to. *)
Theorem C73_string_partial : forall F up show_f64 (s : schema F) o c p n tm v t path,
  peel F s o (SString _ (Some c)) -> scalar_text v = Some t -> opt_all usize (min_len c) -> opt_all usize (max_len c) ->
  let f := fst (map_field F up p n false s tm) in
  guard F f = (if o then Some (lit "v." ++ f_go f ++ lit " != nil") else None) /\
  exists k, f_cons f = Some k /\
    ((exists ck, In ck (bound_checks F show_f64 f k) /\ str_holds (field_expr o (f_go f)) t (ck_cond ck)) <->
     is_valid (validate_string v (Some c) path) = false).
Proof. exact string_checks. Qed.
Print Assumptions C73_string_partial.
Theorem C73_int_partial : forall F up show_f64 (s : schema F) o c p n tm v t z path,
  peel F s o (SInt _ (Some c)) -> scalar_text v = Some t -> parse_i128 t = Some z -> opt_all i64 (i_min c) -> opt_all i64 (i_max c) ->
  let f := fst (map_field F up p n false s tm) in
  guard F f = (if o then Some (lit "v." ++ f_go f ++ lit " != nil") else None) /\
  exists k, f_cons f = Some k /\
    ((exists ck, In ck (bound_checks F show_f64 f k) /\ int_holds (field_expr o (f_go f)) z (ck_cond ck)) <->
     is_valid (validate_int v (Some c) path) = false).
Proof. exact int_checks. Qed.
Print Assumptions C73_int_partial.
Theorem C73_float_partial : forall F up show_f64 (reads : str -> F -> Prop) f_ltb parse_f64 (s : schema F) o c p n tm v t z path,
  peel F s o (SFloat _ (Some c)) -> scalar_text v = Some t -> parse_f64 t = Some z ->
  (forall a, f_min _ c = Some a \/ f_max _ c = Some a -> forall b, reads (show_f64 a) b <-> b = a) ->
  let f := fst (map_field F up p n false s tm) in
  guard F f = (if o then Some (lit "v." ++ f_go f ++ lit " != nil") else None) /\
  exists k, f_cons f = Some k /\
    ((exists ck, In ck (bound_checks F show_f64 f k) /\ float_holds F reads f_ltb (field_expr o (f_go f)) z (ck_cond ck)) <->
     is_valid (validate_float F parse_f64 f_ltb v (Some c) path) = false).
Proof. exact float_checks. Qed.
Print Assumptions C73_float_partial.

Definition word (t : string) : value := scalar_value (lit t).
Example C73_string_example :
  let s : sch := SOptional _ (SString _ (Some (mksc (Some 3) (Some 8) None))) in
  let f := fst (map_field Z up0 (lit "Root") (lit "user-name") false s []) in
  peel Z s true (SString _ (Some (mksc (Some 3) (Some 8) None))) /\ f_type f = lit "*string" /\
  guard Z f = Some (lit "v.UserName != nil") /\
  map ck_cond (bound_checks Z show_i64 f (mkgc (Some 3) (Some 8) None None None None)) = [lit "len(*v.UserName) < 3"; lit "len(*v.UserName) > 8"] /\
  is_valid (validate_string (word "ab") (Some (mksc (Some 3) (Some 8) None)) []) = false.
Proof.
  cbv zeta. split; [eapply PL_optional, PL_core; discriminate|]. repeat split; vm_compute; reflexivity.
Qed.
Example C73_int_example :
  let s : sch := SDefault _ (lit "80") (SInt _ (Some (mkic (Some (-1)%Z) (Some 65535%Z)))) in
  let f := fst (map_field Z up0 (lit "Root") (lit "port") false s []) in
  peel Z s false (SInt _ (Some (mkic (Some (-1)%Z) (Some 65535%Z)))) /\
  option_map (fun k => map ck_cond (bound_checks Z show_i64 f k)) (f_cons f) = Some [lit "v.Port < -1"; lit "v.Port > 65535"] /\
  parse_i128 (lit "70000") = Some 70000%Z.
Proof. cbv zeta. split; [apply PL_default, PL_core; discriminate|]. split; vm_compute; reflexivity. Qed.

(** No other field is tested: not those of inner objects, nor references, sequences, maps, ... *)
Theorem C73_only_limits : forall F up (s : schema F) o c p n tm, peel F s o c -> f_cons (fst (map_field F up p n false s tm)) <> None ->
  (exists k, c = SString _ (Some k)) \/ (exists k, c = SInt _ (Some k)) \/ (exists k, c = SFloat _ (Some k)).
Proof. exact only_limits. Qed.
Print Assumptions C73_only_limits.

(** So the test of the root accepts what the schema does not: here a limit is inside an inner object. *)
Theorem C73_nested_refuted : exists (sf : schema_file Z) (doc : value) r l,
  validate_document Z parse_i64 Z.ltb sf 5 doc = Ok r /\ is_valid r = false /\
  tget Z (lit "Root") (types sf) = Some (GStruct l) /\ flat_map (field_checks_lines Z show_i64) l = [].
Proof.
  exists [(None, SObject _ [(key "server", SObject _ [(key "port", SInt _ (Some (mkic (Some 1%Z) None)))])])].
  exists (Val None (PObj [Ent (word "server") (Val None (PObj [Ent (word "port") (word "0") None] None) None) None] None) None).
  do 2 eexists. split; [vm_compute; reflexivity|]. split; [reflexivity|]. split; [reflexivity|]. reflexivity.
Qed.
Print Assumptions C73_nested_refuted.
(** A deprecated field loses its limits. *)
Theorem C73_deprecated_refuted : exists (s : sch) (v : value) r,
  validate_value Z parse_i64 Z.ltb [] 5 v s [] = Ok r /\ is_valid r = false /\
  field_checks_lines Z show_i64 (fst (map_field Z up0 (lit "Root") (lit "old") false s [])) = [].
Proof.
  exists (SDeprecated _ (lit "use new") (SString _ (Some (mksc (Some 3) None None)))), (word "ab"). eexists.
  split; [vm_compute; reflexivity|]. split; [reflexivity|]. vm_compute. reflexivity.
Qed.
Print Assumptions C73_deprecated_refuted.
(** A limit outside the range of an i64 is wrapped. *)
Theorem C73_range_refuted : exists (s : sch) c (v : value) z k,
  peel Z s false (SInt _ (Some c)) /\ scalar_text v = Some (lit "5") /\ parse_i128 (lit "5") = Some z /\
  is_valid (validate_int v (Some c) []) = false /\
  let f := fst (map_field Z up0 (lit "Root") (lit "n") false s []) in
  f_cons f = Some k /\ forall ck, In ck (bound_checks Z show_i64 f k) -> ~ int_holds (field_expr false (f_go f)) z (ck_cond ck).
Proof.
  exists (SInt _ (Some (mkic (Some (2 ^ 63)%Z) None))), (mkic (Some (2 ^ 63)%Z) None), (word "5"), 5%Z. eexists.
  split; [apply PL_core; discriminate|]. split; [reflexivity|]. split; [reflexivity|]. split; [vm_compute; reflexivity|].
  cbv zeta. split; [reflexivity|]. intros ck [<-|[]].
  change (~ int_holds (lit "v.N") 5 (lit "v.N" ++ lit " < " ++ show_i64 (- 2 ^ 63))).
  rewrite (int_holds_lt (lit "v.N") 5 (show_i64 (- 2 ^ 63)) (- 2 ^ 63)); [lia|]. apply show_i64_text. unfold i64. lia.
Qed.
Print Assumptions C73_range_refuted.

(** The test for a missing field is only made for fields that may be missing (if no Go name starts with a star). *)
Theorem C73_required_only_optional : forall F up (s : schema F) p n tm, starts_with (lit "*") (p ++ pascal up n) = false ->
  required_check F (fst (map_field F up p n false s tm)) <> None ->
  wraps_optional F s \/ exists m t, names_type F s m /\ pascal_of up m t /\ starts_with (lit "*") t = true.
Proof. exact required_optional. Qed.
Print Assumptions C73_required_only_optional.
(** Such a field, inside [@default], is reported: the schema accepts an object without the field, the test rejects it. *)
Theorem C73_required_refuted : exists (s : sch) r,
  validate_value Z parse_i64 Z.ltb [] 5 (Val None (PObj [] None) None) (SObject _ [(key "old", s)]) [] = Ok r /\ is_valid r = true /\
  required_check Z (fst (map_field Z up0 (lit "Root") (lit "old") false s [])) = Some (lit "v.Old == nil").
Proof.
  exists (SDefault _ (lit "none") (SDeprecated _ (lit "use new") (SOptional _ (SString _ None)))). eexists. split; [vm_compute; reflexivity|]. split; [reflexivity|]. vm_compute. reflexivity.
Qed.
Print Assumptions C73_required_refuted.

(** The messages are printed with a format that has no place for the argument. *)
Theorem C73_message_refuted : exists (s : sch) k ck,
  let f := fst (map_field Z up0 (lit "Root") (lit "name") false s []) in
  f_cons f = Some k /\ In ck (bound_checks Z show_i64 f k) /\ ~ In 37%N (ck_format ck) /\
  sprintf_extra (ck_format ck) (ck_arg ck) = lit "length must be at least 3%!(EXTRA int=3)".
Proof.
  exists (SString _ (Some (mksc (Some 3) None None))). do 2 eexists. cbv zeta. split; [reflexivity|]. split; [left; reflexivity|].
  split; [|reflexivity]. vm_compute. intuition discriminate.
Qed.
Print Assumptions C73_message_refuted.
