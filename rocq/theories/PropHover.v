(** C77: hover shows the declaration of the field under the cursor. C78: go-to-definition goes to its key in the schema. *)
From Coq Require Import String Lia.
From Verif Require Import Base BaseProofs TokModel TokSpec LexModel LexSpec ParseModel ParseSpec RunProofs TreeModel TreeSpec TreeProofs
  SchemaModel CompatSpec LspModel LspSpec PropLsp EditModel EditSpec PropEdit HoverModel HoverSpec HoverProofs.
Local Open Scope nat_scope.
Notation length := List.length.

(** ** C77 *)

(** If the schema declares a type for the place under the cursor, hover shows that type, with its documentation and the path: for
    places that are reached through objects, named directly or by one name, through @map, @object with one entry for all keys, @seq and
    enum variants, where the variants before the document's one have no such field. Missing: everything else ([declares] as against
    [clear]); much of it is refuted below. *)
Theorem C77_hover_partial : forall schema defs root doc o link l d text,
  has_block schema defs -> root_type defs root -> find_path_in_value o doc = Some (untagged l) -> small l ->
  clear defs root l d -> shown_as (untagged l) d link text ->
  declares defs root l d /\ exists fuel, forall fuel', fuel <= fuel' -> hover schema doc fuel' o link = Ok (Some text).
Proof. intros. split; [now apply clear_declares|eapply hover_shows; eauto]. Qed.
Print Assumptions C77_hover_partial.

(** Examples. *)
Definition the_tree (src : str) : value := match read_tree src with Some v => v | None => Val None PNone None end.
Definition the_defs (v : value) : list entry :=
  match v with Val _ (PObj (Ent _ (Val _ (PObj es _) _) _ :: _) _) _ => es | _ => [] end.
Definition the_root (defs : list entry) : value := match defs with Ent _ v _ :: _ => v | [] => Val None PNone None end.
Ltac block_tac := eexists _, [], _, _, _, [], _; splits; [vm_compute; reflexivity|vm_compute; reflexivity|constructor|eexists; vm_compute; reflexivity].
Ltac root_tac := eexists [], _, _; splits; [vm_compute; reflexivity|vm_compute; reflexivity|constructor|vm_compute; reflexivity].
Ltac spelled := eexists; eexists; eexists; vm_compute; reflexivity.
Ltac named := split; [eexists; eexists; vm_compute; reflexivity|vm_compute; intuition discriminate].
Ltac shown := eexists _, _; splits; [repeat constructor|econstructor; repeat (constructor || (intro; discriminate))|vm_compute; reflexivity].
Ltac with_fuel := intros fuel Lf; do 20 (destruct fuel as [|fuel]; [lia|]); vm_compute; reflexivity.

Definition C77_schema : str := lit "schema {
@ @object{
/// Where we listen.
server @optional(@Server)
hosts @map(@string @Host)
tags @seq(@Tag)
shapes @map(@Shape)
}
Server @object{
/// The port.
port @default(8080 @int{min 1})
}
Host @object{ip @string}
Tag @object{name @one-of(@string (a b))}
Shape @enum{empty @, line @object{len @int}, circle @object{r @float}}
}".
Definition C77_doc : str := lit "server {port 1}
hosts {a {ip x}}
tags ({name b} {name a})
shapes {s @circle{r 2}}".
Definition C77_v := Eval vm_compute in the_tree C77_schema.
Definition C77_d := Eval vm_compute in the_tree C77_doc.
Definition C77_defs := Eval vm_compute in the_defs C77_v.
Definition C77_root := Eval vm_compute in the_root C77_defs.


Lemma key_clear n k es : forallb (fun e => negb (key_is k e)) (firstn n es) = true -> ~ In (Some k) (text_keys (firstn n es)).
Proof.
  intros H I. rewrite forallb_forall in H. unfold text_keys in I. apply in_map_iff in I as (e & E & I). specialize (H e I). apply negb_true_iff in H.
  apply key_is_iff in E. congruence.
Qed.
Lemma split_nth {A} n (l : list A) x : nth_error l n = Some x -> l = firstn n l ++ x :: skipn (S n) l.
Proof.
  revert n. induction l as [|y l IH]; intros [|n]; cbn; try discriminate; [intros [= ->]; reflexivity|]. intros H. f_equal. exact (IH n H).
Qed.
Lemma maps_at n es k e v : nth_error es n = Some e -> as_str (e_key e) = Some k -> forallb (fun e => negb (key_is k e)) (firstn n es) = true -> e_val e = v ->
  maps_to es k v.
Proof. intros N E F <-. exists (firstn n es), e, (skipn (S n) es). splits; auto; [now apply split_nth|now apply key_clear]. Qed.
Lemma entry_at n es k e : nth_error es n = Some e -> as_str (e_key e) = Some k -> forallb (fun e => negb (key_is k e)) (firstn n es) = true -> entry_of es k e.
Proof. intros N E F. exists (firstn n es), (skipn (S n) es). splits; auto; [now apply split_nth|now apply key_clear]. Qed.
Lemma no_units n es : forallb (fun e => negb (is_unit (e_key e))) (firstn n es) = true -> Forall (fun e => is_unit (e_key e) = false) (firstn n es).
Proof. intros H. apply Forall_forall. intros e I. rewrite forallb_forall in H. apply negb_true_iff. auto. Qed.
Lemma field_at n defs v es k e : fields defs v es -> nth_error es n = Some e -> as_str (e_key e) = Some k -> forallb (fun e => negb (key_is k e)) (firstn n es) = true ->
  forallb (fun e => negb (is_unit (e_key e))) (firstn n es) = true -> clear defs v [InKey k] (mkdecl (Some (e_key e)) (e_val e) (e_doc e)).
Proof. intros F N E K U. eapply c_field; [exact F|apply split_nth; exact N|exact E|now apply key_clear|now apply no_units]. Qed.
Lemma in_field_at n defs v es k e l d : fields defs v es -> nth_error es n = Some e -> as_str (e_key e) = Some k -> forallb (fun e => negb (key_is k e)) (firstn n es) = true ->
  forallb (fun e => negb (is_unit (e_key e))) (firstn n es) = true -> clear defs (e_val e) l d -> clear defs v (InKey k :: l) d.
Proof. intros F N E K U C. eapply c_in_field; [exact F|apply split_nth; exact N|exact E|now apply key_clear|now apply no_units|exact C]. Qed.

Ltac calc := vm_compute; reflexivity.
Tactic Notation "last_field" constr(n) "with" tactic3(t) := eapply (field_at n); [solve [t]|calc..].
Tactic Notation "in_field" constr(n) := eapply (in_field_at n); [apply f_object; spelled|calc|calc|calc|calc|].
Ltac direct := apply f_object; spelled.
Ltac maps n := eapply (maps_at n); calc.
Ltac by_name n := eapply f_name; [named|maps n|intros (? & ? & ?); discriminate|].
Ltac name_up n := eapply lu_name; [named|maps n].

Example C77_example : exists d1 d2 d3 d4,
  let l1 := [InKey (lit "server"); InKey (lit "port")] in let l2 := [InKey (lit "hosts"); InKey (lit "a"); InKey (lit "ip")] in
  let l3 := [InKey (lit "tags"); InItem 1; InKey (lit "name")] in let l4 := [InKey (lit "shapes"); InKey (lit "s"); InTag (lit "circle"); InKey (lit "r")] in
  tree C77_schema (inl C77_v) /\ tree C77_doc (inl C77_d) /\ has_block C77_v C77_defs /\ root_type C77_defs C77_root /\
  (find_path_in_value 8 C77_d = Some (untagged l1) /\ clear C77_defs C77_root l1 d1 /\
   shown_as (untagged l1) d1 (lit "L") (lit "The port." ++ [10; 10]%N ++ lit "[@](L) " ++ 8250%N :: lit " server " ++ 8250%N :: lit " port: `@default(8080 @int{...})`")) /\
  (find_path_in_value 26 C77_d = Some (untagged l2) /\ clear C77_defs C77_root l2 d2 /\
   shown_as (untagged l2) d2 (lit "L") (lit "[@](L) " ++ 8250%N :: lit " hosts " ++ 8250%N :: lit " a " ++ 8250%N :: lit " ip: `@string`")) /\
  (find_path_in_value 49 C77_d = Some (untagged l3) /\ small l3 /\ clear C77_defs C77_root l3 d3 /\
   shown_as (untagged l3) d3 (lit "L") (lit "[@](L) " ++ 8250%N :: lit " tags " ++ 8250%N :: lit " 1 " ++ 8250%N :: lit " name: `@one-of(@string (a b))`")) /\
  (find_path_in_value 76 C77_d = Some (untagged l4) /\ clear C77_defs C77_root l4 d4 /\
   shown_as (untagged l4) d4 (lit "L") (lit "[@](L) " ++ 8250%N :: lit " shapes " ++ 8250%N :: lit " s " ++ 8250%N :: lit " r: `@float`")).
Proof.
  eexists _, _, _, _. cbv zeta. split; [tree_tac|]. split; [tree_tac|]. split; [block_tac|]. split; [root_tac|].
  split; [|split; [|split]].
  - split; [calc|]. split.
    + in_field 0. last_field 0 with (eapply f_optional; [spelled|]; by_name 1; direct).
    + shown.
  - split; [calc|]. split.
    + in_field 1. eapply c_in_free; [eapply fk_map2; spelled|name_up 2|]. last_field 0 with direct.
    + shown.
  - split; [calc|]. split; [repeat constructor|]. split.
    + in_field 2. eapply c_in_item; [eapply i_seq; spelled|name_up 3|]. last_field 0 with direct.
    + shown.
  - split; [calc|]. split.
    + in_field 3. eapply c_in_free; [eapply fk_map1; spelled|name_up 4|].
      eapply (c_variant _ _ [_; _]); [spelled|calc|vm_compute; intuition discriminate|apply lu_same; intros (? & ? & ?); discriminate| |last_field 0 with direct].
      constructor; [|constructor; [|constructor]].
      * eexists. split; [apply lu_same; intros (? & ? & ?); discriminate|apply wo_unit].
      * eexists. split; [apply lu_same; intros (? & ? & ?); discriminate|]. eapply wo_object; [spelled|]. constructor; [|constructor]. eexists. split; [calc|discriminate].
    + shown.
Qed.

(** The full statement is false. What hover should show: the declaration of the place under the cursor. *)
Definition should_show (schema doc : value) (o : nat) (d : declaration) : Prop :=
  exists defs root l x, has_block schema defs /\ root_type defs root /\ lies doc l x /\ find_path_in_value o doc = Some (untagged l) /\ declares defs root l d.
(** What it shows as the type. *)
Definition shows_type (schema doc : value) (o : nat) (r : option str) : Prop :=
  exists steps fuel, find_path_in_value o doc = Some steps /\
    forall fuel', fuel <= fuel' -> exists i, field_info_from_schema schema fuel' (map segment_text steps) = Ok i /\ option_map fi_type i = r.
Ltac lies_key n := eapply lies_key; [maps n|].
Ltac decl := eapply dc_step.
Ltac shows := eexists _, 20; split; [calc|]; intros fuel Lf; do 20 (destruct fuel as [|fuel]; [lia|]); eexists; split; vm_compute; reflexivity.

(** A recursive enum: the variants of a type that is its own variant are searched for ever. *)
Definition C77_rec := Eval vm_compute in the_tree (lit "schema {@ @object{@string @Expr}, Expr @enum{neg @Expr, num @object{v @int}}}").
Definition C77_rec_doc := Eval vm_compute in the_tree (lit "a @num{v 1}").
Lemma forever : forall fuel, field_info_from_schema C77_rec fuel [lit "a"; lit "v"] = OutOfFuel.
Proof.
  set (defs := the_defs C77_rec). set (ex := match defs with _ :: Ent _ v _ :: _ => v | _ => Val None PNone None end).
  assert (H : forall f, info_in_type defs f ex [lit "v"] = OutOfFuel).
  { induction f as [|f IH]; [reflexivity|].
    change (info_in_type defs (S f) ex [lit "v"]) with
      (in_variants (info_in_type defs f) defs (match ex with Val _ (PObj es _) _ => es | _ => [] end) [lit "v"]).
    change (match ex with Val _ (PObj es _) _ => es | _ => [] end) with
      [hd (Ent ex ex None) (match ex with Val _ (PObj es _) _ => es | _ => [] end); nth 1 (match ex with Val _ (PObj es _) _ => es | _ => [] end) (Ent ex ex None)].
    cbn [in_variants]. change (resolve_reference defs (e_val (hd (Ent ex ex None) (match ex with Val _ (PObj es _) _ => es | _ => [] end)))) with ex.
    rewrite IH. reflexivity. }
  intros [|f]; [reflexivity|].
  change (field_info_from_schema C77_rec (S f) [lit "a"; lit "v"]) with (info_in_type defs f ex [lit "v"]). apply H.
Qed.
Theorem C77_ends_refuted : exists src dsrc schema doc o d, tree src (inl schema) /\ tree dsrc (inl doc) /\ should_show schema doc o d /\
  forall fuel link, hover schema doc fuel o link = OutOfFuel.
Proof.
  exists (lit "schema {@ @object{@string @Expr}, Expr @enum{neg @Expr, num @object{v @int}}}"), (lit "a @num{v 1}"), C77_rec, C77_rec_doc, 7. eexists.
  split; [tree_tac|]. split; [tree_tac|]. split.
  - exists (the_defs C77_rec), (the_root (the_defs C77_rec)), [InKey (lit "a"); InTag (lit "num"); InKey (lit "v")]. eexists.
    split; [block_tac|]. split; [root_tac|]. split; [|split; [calc|]].
    + lies_key 0. apply lies_tag. lies_key 0. apply lies_here.
    + decl; [eapply b_other; [apply sf_self|spelled|vm_compute; intuition discriminate|now left|left; eexists; eexists; calc]|].
      decl; [eapply b_variant; [eapply sf_name; [named|maps 1|apply sf_self]|spelled|maps 1]|].
      apply dc_last. eapply b_field; [apply sf_self|spelled|eapply (entry_at 0); calc].
  - intros fuel link. unfold hover.
    assert (E : find_path_in_value 7 C77_rec_doc = Some [SKey (lit "a"); SKey (lit "v")]) by calc. rewrite E. cbv zeta. cbn [map segment_text]. now rewrite forever.
Qed.
Print Assumptions C77_ends_refuted.

(** A name for a name is not followed. *)
Theorem C77_alias_refuted : exists src dsrc schema doc o d, tree src (inl schema) /\ tree dsrc (inl doc) /\ should_show schema doc o d /\ shows_type schema doc o None.
Proof.
  exists (lit "schema {@ @object{s @A}, A @B, B @object{x @int}}"), (lit "s {x 1}"). eexists _, _, 3, _.
  split; [tree_tac|]. split; [tree_tac|]. split; [|shows].
  eexists _, _, [InKey (lit "s"); InKey (lit "x")], _. split; [block_tac|]. split; [root_tac|]. split; [|split; [calc|]].
  - lies_key 0. lies_key 0. apply lies_here.
  - decl; [eapply b_field; [apply sf_self|spelled|eapply (entry_at 0); calc]|].
    apply dc_last. eapply b_field; [eapply sf_name; [named|maps 1|]; eapply sf_name; [named|maps 2|apply sf_self]|spelled|eapply (entry_at 0); calc].
Qed.
Print Assumptions C77_alias_refuted.

(** A @map behind a name is searched for objects: a key of the document that happens to be a field of the values gets that field's type. *)
Theorem C77_map_refuted : exists src dsrc schema doc o d t, tree src (inl schema) /\ tree dsrc (inl doc) /\ should_show schema doc o d /\
  short (d_type d) t /\ t = lit "@Host" /\ shows_type schema doc o (Some (lit "@int")).
Proof.
  exists (lit "schema {@ @object{hosts @Hosts}, Hosts @map(@string @Host), Host @object{port @int}}"), (lit "hosts {port {port 1}}"). eexists _, _, 7, _, _.
  split; [tree_tac|]. split; [tree_tac|]. split; [|split; [|split; [|shows]]].
  - eexists _, _, [InKey (lit "hosts"); InKey (lit "port")], _. split; [block_tac|]. split; [root_tac|]. split; [|split; [calc|]].
    + lies_key 0. lies_key 0. apply lies_here.
    + decl; [eapply b_field; [apply sf_self|spelled|eapply (entry_at 0); calc]|].
      apply dc_last. eapply b_map2; [eapply sf_name; [named|maps 1|apply sf_self]|spelled].
  - apply sh_name.
  - calc.
Qed.
Print Assumptions C77_map_refuted.

(** An entry for all other keys is searched for the key instead of standing for it. *)
Theorem C77_other_refuted : exists src dsrc schema doc o d t, tree src (inl schema) /\ tree dsrc (inl doc) /\ should_show schema doc o d /\
  short (d_type d) t /\ t = lit "@Host" /\ shows_type schema doc o (Some (lit "@int")).
Proof.
  exists (lit "schema {@ @object{a @string, @ @Host}, Host @object{port @int}}"), (lit "port {port 1}"). eexists _, _, 0, _, _.
  split; [tree_tac|]. split; [tree_tac|]. split; [|split; [|split; [|shows]]].
  - eexists _, _, [InKey (lit "port")], _. split; [block_tac|]. split; [root_tac|]. split; [|split; [calc|]].
    + lies_key 0. apply lies_here.
    + apply dc_last. eapply b_other; [apply sf_self|spelled|vm_compute; intuition discriminate|right; now left|right; calc].
  - apply sh_name.
  - calc.
Qed.
Print Assumptions C77_other_refuted.

(** Of variants with a field of the same name the first is shown, whatever tag the document has. *)
Theorem C77_variant_refuted : exists src dsrc schema doc o d t, tree src (inl schema) /\ tree dsrc (inl doc) /\ should_show schema doc o d /\
  short (d_type d) t /\ t = lit "@string" /\ shows_type schema doc o (Some (lit "@int")).
Proof.
  exists (lit "schema {@ @object{v @enum{a @object{x @int}, b @object{x @string}}}}"), (lit "v @b{x hi}"). eexists _, _, 5, _, _.
  split; [tree_tac|]. split; [tree_tac|]. split; [|split; [|split; [|shows]]].
  - eexists _, _, [InKey (lit "v"); InTag (lit "b"); InKey (lit "x")], _. split; [block_tac|]. split; [root_tac|]. split; [|split; [calc|]].
    + lies_key 0. apply lies_tag. lies_key 0. apply lies_here.
    + decl; [eapply b_field; [apply sf_self|spelled|eapply (entry_at 0); calc]|].
      decl; [eapply b_variant; [apply sf_self|spelled|maps 1]|].
      apply dc_last. eapply b_field; [apply sf_self|spelled|eapply (entry_at 0); calc].
  - apply sh_name.
  - calc.
Qed.
Print Assumptions C77_variant_refuted.

(** A field whose type is the name of an enum: the variants count as fields, so nothing is shown for the fields of a variant. *)
Theorem C77_enum_refuted : exists src dsrc schema doc o d, tree src (inl schema) /\ tree dsrc (inl doc) /\ should_show schema doc o d /\ shows_type schema doc o None.
Proof.
  exists (lit "schema {@ @object{v @E}, E @enum{b @object{x @string}}}"), (lit "v @b{x hi}"). eexists _, _, 5, _.
  split; [tree_tac|]. split; [tree_tac|]. split; [|shows].
  eexists _, _, [InKey (lit "v"); InTag (lit "b"); InKey (lit "x")], _. split; [block_tac|]. split; [root_tac|]. split; [|split; [calc|]].
  - lies_key 0. apply lies_tag. lies_key 0. apply lies_here.
  - decl; [eapply b_field; [apply sf_self|spelled|eapply (entry_at 0); calc]|].
    decl; [eapply b_variant; [eapply sf_name; [named|maps 1|apply sf_self]|spelled|maps 0]|].
    apply dc_last. eapply b_field; [apply sf_self|spelled|eapply (entry_at 0); calc].
Qed.
Print Assumptions C77_enum_refuted.

(** The value of a @default is taken for the type if it is an object. *)
Theorem C77_default_refuted : exists src dsrc schema doc o d, tree src (inl schema) /\ tree dsrc (inl doc) /\ should_show schema doc o d /\ shows_type schema doc o None.
Proof.
  exists (lit "schema {@ @object{s @default({} @S)}, S @object{x @optional(@int)}}"), (lit "s {x 1}"). eexists _, _, 3, _.
  split; [tree_tac|]. split; [tree_tac|]. split; [|shows].
  eexists _, _, [InKey (lit "s"); InKey (lit "x")], _. split; [block_tac|]. split; [root_tac|]. split; [|split; [calc|]].
  - lies_key 0. lies_key 0. apply lies_here.
  - decl; [eapply b_field; [apply sf_self|spelled|eapply (entry_at 0); calc]|].
    apply dc_last. eapply b_field; [eapply sf_default; [spelled|]; eapply sf_name; [named|maps 1|apply sf_self]|spelled|eapply (entry_at 0); calc].
Qed.
Print Assumptions C77_default_refuted.

(** An item of a sequence has a declared type, but nothing is shown for it; the fields of @flatten are not looked for. *)
Theorem C77_item_refuted : exists src dsrc schema doc o d, tree src (inl schema) /\ tree dsrc (inl doc) /\ should_show schema doc o d /\ shows_type schema doc o None.
Proof.
  exists (lit "schema {@ @object{l @seq(@int)}}"), (lit "l (1 2)"). eexists _, _, 5, _.
  split; [tree_tac|]. split; [tree_tac|]. split; [|shows].
  eexists _, _, [InKey (lit "l"); InItem 1], _. split; [block_tac|]. split; [root_tac|]. split; [|split; [calc|]].
  - lies_key 0. eapply lies_item; [calc|apply lies_here].
  - decl; [eapply b_field; [apply sf_self|spelled|eapply (entry_at 0); calc]|].
    apply dc_last. eapply b_seq; [apply sf_self|spelled].
Qed.
Print Assumptions C77_item_refuted.
Theorem C77_flatten_refuted : exists src dsrc schema doc o d, tree src (inl schema) /\ tree dsrc (inl doc) /\ should_show schema doc o d /\ shows_type schema doc o None.
Proof.
  exists (lit "schema {@ @object{common @flatten(@C)}, C @object{x @int}}"), (lit "x 1"). eexists _, _, 0, _.
  split; [tree_tac|]. split; [tree_tac|]. split; [|shows].
  eexists _, _, [InKey (lit "x")], _. split; [block_tac|]. split; [root_tac|]. split; [|split; [calc|]].
  - lies_key 0. apply lies_here.
  - apply dc_last. eapply b_flatten; [apply sf_self|spelled|vm_compute; intuition discriminate|now left|spelled|].
    eapply b_field; [eapply sf_name; [named|maps 1|apply sf_self]|spelled|eapply (entry_at 0); calc].
Qed.
Print Assumptions C77_flatten_refuted.

(** ** C78 *)

(** Go-to-definition only ever goes to a key of the schema block that has the name of the field under the cursor. *)
Theorem C78_sound : forall schema defs schema_text doc o p q, has_block schema defs -> goto_definition schema doc schema_text o = Some (p, q) ->
  exists steps st k s, find_path_in_value o doc = Some (steps ++ [st]) /\ key_of defs k /\ (exists n, step_name st n /\ as_str k = Some n) /\
    v_span k = Some s /\ p = offset_to_position schema_text (sp_start s) /\ q = offset_to_position schema_text (sp_end s).
Proof. exact goto_sound. Qed.
Print Assumptions C78_sound.

(** If just one key of the block that is reached through objects only has the name of the field under the cursor, then it goes there; and
    that is the key of the field's declaration, if that one is reached so. Missing: names that occur twice, and declarations inside
    @optional(..) and the like (refuted below). *)
Theorem C78_goto_partial : forall schema defs doc o steps name k s a x b,
  has_block schema defs -> usual_root defs -> find_path_in_value o doc = Some (steps ++ [SKey name]) ->
  key_of defs k -> as_str k = Some name -> v_span k = Some s -> (forall k', key_of defs k' -> as_str k' = Some name -> k' = k) ->
  blen a = sp_start s -> blen (a ++ x) = sp_end s ->
  (exists p q, goto_definition schema doc (a ++ x ++ b) o = Some (p, q) /\ place_of a p /\ place_of (a ++ x) q) /\
  (forall root l d k', root_type defs root -> declares defs root l d -> untagged l = steps ++ [SKey name] -> d_key d = Some k' -> key_of defs k' -> k' = k).
Proof.
  intros schema defs doc o steps name k s a x b B U P K A V Un S1 S2. split.
  - eexists _, _. split; [eapply goto_found; eauto|]. rewrite <- S1, <- S2. split; [apply C29_place|]. rewrite app_assoc. apply C29_place.
  - intros root l d k' _ D E Dk Kk. apply Un; [exact Kk|]. destruct (declares_key _ _ _ _ _ D Dk) as (l' & n & -> & An).
    rewrite untagged_app in E. cbn in E. apply app_inj_tail in E as [_ [= ->]]. exact An.
Qed.
Print Assumptions C78_goto_partial.

Fixpoint keys_in (v : value) : list value :=
  match v with
  | Val _ (PObj es _) _ => (fix go l := match l with [] => [] | Ent k w _ :: r => k :: keys_in w ++ go r end) es
  | _ => []
  end.
Lemma keys_in_all v k : key_inside v k -> In k (keys_in v).
Proof.
  induction 1 as [t es osp sp e I|t es osp sp e k I K IH]; cbn [keys_in]; induction es as [|[k' w d] r IHr]; try destruct I; subst; cbn [e_key e_val] in *.
  - now left.
  - right. apply in_or_app. right. auto.
  - right. apply in_or_app. left. auto.
  - right. apply in_or_app. right. auto.
Qed.

Definition C78_schema : str := lit "schema {
@ @object{name @string, server @Server}
Server @object{port @int}
}".
Definition C78_doc : str := lit "name x
server {port 1}".
Definition C78_v := Eval vm_compute in the_tree C78_schema.
Definition C78_d := Eval vm_compute in the_tree C78_doc.
Definition C78_defs := Eval vm_compute in the_defs C78_v.
Example C78_example : exists root k s d, let l := [InKey (lit "server"); InKey (lit "port")] in
  tree C78_schema (inl C78_v) /\ tree C78_doc (inl C78_d) /\ has_block C78_v C78_defs /\ root_type C78_defs root /\ usual_root C78_defs /\
  find_path_in_value 15 C78_d = Some ([SKey (lit "server")] ++ [SKey (lit "port")]) /\ [SKey (lit "server")] ++ [SKey (lit "port")] = untagged l /\
  declares C78_defs root l d /\ d_key d = Some k /\ key_of C78_defs k /\ as_str k = Some (lit "port") /\ v_span k = Some s /\
  (forall k', key_of C78_defs k' -> as_str k' = Some (lit "port") -> k' = k) /\ s = mkspan 64 68 /\
  goto_definition C78_v C78_d C78_schema 15 = Some (mkpos 2 15, mkpos 2 19).
Proof.
  eexists _, _, _, _. cbv zeta. split; [tree_tac|]. split; [tree_tac|]. split; [block_tac|]. split; [root_tac|]. split.
  { intros root (a & e & b & E & Ue & Fa & Er). left. destruct a as [|x a].
    - injection E as <- _. subst root. eexists _, _. split; [reflexivity|]. intros e tsp [<-|[<-|[]]]; discriminate.
    - injection E as <- E. inversion Fa. discriminate. }
  split; [calc|]. split; [reflexivity|]. split.
  { decl; [eapply b_field; [apply sf_self|spelled|eapply (entry_at 1); calc]|].
    apply dc_last. eapply b_field; [eapply sf_name; [named|maps 1|apply sf_self]|spelled|eapply (entry_at 0); calc]. }
  split; [calc|]. split.
  { eapply ki_in; [right; left; reflexivity|]. eapply (ki_here _ _ _ _ (Ent _ _ _)). left. reflexivity. }
  split; [calc|]. split; [calc|]. split; [|split; calc].
  intros k' K E. apply keys_in_all in K. vm_compute in K.
  repeat (destruct K as [<-|K]; [vm_compute in E; first [discriminate|reflexivity]|]). destruct K.
Qed.

(** The full statement is false: the first key of that name is taken, wherever it is in the schema. *)
Theorem C78_first_refuted : exists src dsrc schema doc o d k s p q, tree src (inl schema) /\ tree dsrc (inl doc) /\ should_show schema doc o d /\
  d_key d = Some k /\ v_span k = Some s /\ goto_definition schema doc src o = Some (p, q) /\ p <> offset_to_position src (sp_start s).
Proof.
  exists (lit "schema {@ @object{server @object{port @int}, port @string}}"), (lit "port x"). eexists _, _, 0, _, _, _, _, _.
  split; [tree_tac|]. split; [tree_tac|]. split.
  { eexists _, _, [InKey (lit "port")], _. split; [block_tac|]. split; [root_tac|]. split; [|split; [calc|]].
  - lies_key 0. apply lies_here.
  - apply dc_last. eapply b_field; [apply sf_self|spelled|eapply (entry_at 1); calc]. }
  split; [calc|split; [calc|split; [calc|vm_compute; discriminate]]].
Qed.
Print Assumptions C78_first_refuted.
(** Declarations inside @optional(..) are not found. *)
Theorem C78_optional_refuted : exists src dsrc schema doc o d k, tree src (inl schema) /\ tree dsrc (inl doc) /\ should_show schema doc o d /\
  d_key d = Some k /\ goto_definition schema doc src o = None.
Proof.
  exists (lit "schema {@ @object{server @optional(@object{port @int})}}"), (lit "server {port 1}"). eexists _, _, 8, _, _.
  split; [tree_tac|]. split; [tree_tac|]. split.
  { eexists _, _, [InKey (lit "server"); InKey (lit "port")], _. split; [block_tac|]. split; [root_tac|]. split; [|split; [calc|]].
  - lies_key 0. lies_key 0. apply lies_here.
  - decl; [eapply b_field; [apply sf_self|spelled|eapply (entry_at 0); calc]|].
    apply dc_last. eapply b_field; [eapply sf_optional; [spelled|apply sf_self]|spelled|eapply (entry_at 0); calc]. }
  split; calc.
Qed.
Print Assumptions C78_optional_refuted.
(** A key of a @map has no declaration of its own, but a definition of that name is gone to. *)
Theorem C78_key_refuted : exists src dsrc schema doc o d p q, tree src (inl schema) /\ tree dsrc (inl doc) /\ should_show schema doc o d /\
  d_key d = None /\ goto_definition schema doc src o = Some (p, q).
Proof.
  exists (lit "schema {@ @object{m @map(@T)}, T @int}"), (lit "m {T 1}"). eexists _, _, 3, _, _, _.
  split; [tree_tac|]. split; [tree_tac|]. split.
  { eexists _, _, [InKey (lit "m"); InKey (lit "T")], _. split; [block_tac|]. split; [root_tac|]. split; [|split; [calc|]].
  - lies_key 0. lies_key 0. apply lies_here.
  - decl; [eapply b_field; [apply sf_self|spelled|eapply (entry_at 0); calc]|]. apply dc_last. eapply b_map1; [apply sf_self|spelled]. }
  split; calc.
Qed.
Print Assumptions C78_key_refuted.
