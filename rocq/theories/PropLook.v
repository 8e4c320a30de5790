(** C76: completion proposes the fields of the object at the cursor. *)
From Coq Require Import String Lia.
From Verif Require Import Base BaseProofs TokModel TokSpec LexModel LexSpec ParseModel ParseSpec RunProofs TreeModel TreeSpec TreeProofs
  SchemaModel SchemaSpec SchemaProofs CompatSpec LspModel LspSpec LspProofs PropLsp EditModel EditSpec EditProofs PropEdit LookModel LookSpec LookProofs.
Local Open Scope nat_scope.
Notation length := List.length.

(** Schemas for the examples, written out. *)
Definition reads_as {F} (src : str) (file : schema_file F) : Prop :=
  exists v es, tree src (inl v) /\ has_block v es /\ read_block F es = Some file.
Definition read_file (F : Type) (src : str) : option (schema_file F) :=
  match read_tree src with
  | Some (Val None (PObj [Ent k x d] None) None) =>
    if key_is (lit "schema") (Ent k x d) then match v_payload x with PObj es _ => read_block F es | _ => None end else None
  | _ => None
  end.
Lemma read_file_ok F src file : read_file F src = Some file -> reads_as src file.
Proof.
  unfold read_file. destruct (read_tree src) as [v|] eqn:E; [|discriminate].
  destruct v as [[tg|] [|t k s|l s|[|[k x d] [|]] [s|]] [sp|]]; try discriminate.
  destruct (key_is (lit "schema") (Ent k x d)) eqn:K; [|discriminate]. destruct (v_payload x) eqn:P; try discriminate. intros R.
  eexists _, _. split; [apply read_tree_ok; exact E|]. split; [|exact R].
  exists None, [], k, x, d, [], None. splits; [reflexivity|exact K|constructor|]. eexists. exact P.
Qed.

(** ** What is proposed *)

(** At every cursor in an object whose type is written as an object or as the name of one, completion proposes just the fields that
    the type has and the object has not, each with its type: for schemas without @flatten, for objects that are reached through
    text keys and tags of enum variants, and if there are at most fifty fields. *)
Theorem C76_proposals_partial : forall F lower (file : schema_file F) root content v pos path es osp tg sp t fs word,
  NoDup (map fst file) -> In (None, root) file ->
  (forall s, occurs F file root s -> distinct_keys F s) -> (forall s, occurs F file root s -> ~ flattens F s) ->
  find_object_at_offset v (position_to_offset content pos) = Some (mkoc path es osp) ->
  typed F file v root path (Val tg (PObj es osp) sp) t -> names F file t (SObject _ fs) -> length fs <= 50 ->
  get_word_range_at_position content pos = Ok word ->
  exists l fuel, (forall fuel', fuel <= fuel' -> completion F lower file fuel' content v pos = Ok l) /\ proposes F file fs es l.
Proof.
  intros F lower file root content v pos path es osp tg sp t fs word ND R WK NF Ho T Nm L Wd.
  destruct (completion_proposes F file ND root WK NF lower content v pos _ path es osp tg sp t fs word eq_refl R Ho T Nm Wd L) as (l & (f & H) & P).
  exists l, f. auto.
Qed.
Print Assumptions C76_proposals_partial.

(** The lookup of the fields ends if no type leads back to itself without entering a value; it panics only for schemas with an empty @map(). *)
Theorem C76_ends_partial : forall F (file : schema_file F) root path, NoDup (map fst file) -> In (None, root) file ->
  (forall s, occurs F file root s -> distinct_keys F s) ->
  (forall s, occurs F file root s -> Acc (same_value F file) s) ->
  exists fuel r, (forall fuel', fuel <= fuel' -> get_schema_fields_at_path F file fuel' path = r) /\
    ((exists l, r = Ok l) \/ r = Panic /\ empty_map F file root).
Proof.
  intros F file root path ND R WK AC. destruct (fields_end F file ND root WK AC path R) as (r & (f & H) & N & P).
  exists f, r. split; [exact H|]. destruct r as [l| |]; [eauto|auto|contradiction].
Qed.
Print Assumptions C76_ends_partial.

(** Of more than fifty fields those are chosen that fit the word typed best. *)
Theorem C76_choice : forall lower w available, 50 < length available ->
  exists l, choose_fields lower (Some w) available = Ok l /\ best_of (fun f => rank lower w (fst f)) available l.
Proof. exact choose_word. Qed.
Print Assumptions C76_choice.
(** Without a word, fields that are neither optional nor have a default come first. *)
Theorem C76_choice_required : forall lower available, 50 < length available ->
  exists l, choose_fields lower None available = Ok l /\
    best_of (fun f k => k = 0 /\ ~ is_prefix (lit "@optional") (snd f) /\ ~ is_prefix (lit "@default") (snd f) \/
                        k = 1 /\ (is_prefix (lit "@optional") (snd f) \/ is_prefix (lit "@default") (snd f))) available l.
Proof.
  intros lower available L. destruct (choose_no_word lower available L) as (l & E & H). exists l. split; [exact E|].
  assert (X : forall f : str * str, (marked_optional (snd f) = false <-> ~ is_prefix (lit "@optional") (snd f) /\ ~ is_prefix (lit "@default") (snd f)) /\
    (marked_optional (snd f) = true <-> is_prefix (lit "@optional") (snd f) \/ is_prefix (lit "@default") (snd f))).
  { intros f. unfold marked_optional. rewrite <- !starts_spec, orb_true_iff, orb_false_iff. split; [|tauto].
    destruct (starts (lit "@optional") (snd f)), (starts (lit "@default") (snd f)); intuition congruence. }
  destruct H as (H1 & H2 & H3). split; [exact H1|]. split.
  - intros f I. destruct (H2 f I) as [J (k & K)]. split; [exact J|]. exists k. destruct (X f). tauto.
  - intros f k I K N. destruct (H3 f k I) as [A B]; [destruct (X f); tauto|exact N|]. split; [exact A|]. intros g j Ig J. apply (B g j Ig). destruct (X g). tauto.
Qed.
Print Assumptions C76_choice_required.

(** The type's text begins with the tag it is written with, but for @one-of and for the unit type. *)
Theorem C76_type_partial : forall F (s : schema F) tag, written_tag F s = Some tag ->
  (match s with SOneOf _ _ _ => False | SType _ None => False | _ => True end) -> begins_with_tag (type_text F s) tag.
Proof. exact type_text_tag. Qed.
Print Assumptions C76_type_partial.
Theorem C76_type_refuted : forall F, exists (s : schema F) tag, written_tag F s = Some tag /\ ~ begins_with_tag (type_text F s) tag.
Proof. intros F. exists (SOneOf _ (SString _ None) [lit "a"]), (lit "one-of"). split; [reflexivity|]. intros (r & H & _). vm_compute in H. discriminate. Qed.
Print Assumptions C76_type_refuted.

(** ** A schema and a document *)
Definition C76_schema : str := lit "schema {
  @ @object{
    hosts @map(@string @Host)
    log @optional(@enum{file @object{path @string, mode @default(w @string)}, none @unit})
  }
  Host @object{name @string, port @optional(@int)}
}".
Definition C76_doc : str := lit "hosts {a {name x, }}
log @file{}".

(** Checks of all parts of a schema, for the examples. *)
Section Checks.
Variable F : Type.
Variable file : schema_file F.
Fixpoint all_parts (q : schema F -> bool) (s : schema F) : bool :=
  q s && match s with
         | SObject _ fs => forallb (fun p => all_parts q (snd p)) fs
         | STuple _ l | SMap _ l | SUnion _ l => forallb (all_parts q) l
         | SEnum _ vs => forallb (fun p => all_parts q (snd p)) vs
         | SSeq _ t | SOptional _ t | SOneOf _ t _ | SFlatten _ t | SDefault _ _ t | SDeprecated _ _ t => all_parts q t
         | _ => true
         end.
Lemma all_here q s : all_parts q s = true -> q s = true.
Proof. destruct s; cbn [all_parts]; intros H; apply andb_true_iff in H; apply H. Qed.
Lemma all_child q a s : child F a s -> all_parts q s = true -> all_parts q a = true.
Proof.
  intros C H. destruct C as [fs k s I|s|l s I|l s I|l s I|s|vs n s I|s al|s|d s|r s]; cbn [all_parts] in H; apply andb_true_iff in H as [_ H]; try exact H;
    rewrite forallb_forall in H; try (exact (H _ I)).
Qed.
Lemma all_occurs q root : In (None, root) file -> forallb (fun p => all_parts q (snd p)) file = true -> forall s, occurs F file root s -> q s = true.
Proof.
  intros R H s O. apply all_here. rewrite forallb_forall in H. induction O as [|n s I|a s _ IH C]; [exact (H _ R)|exact (H _ I)|eapply all_child; eauto].
Qed.
Fixpoint no_twice {A} (eqb : A -> A -> bool) (l : list A) : bool := match l with [] => true | x :: r => negb (existsb (eqb x) r) && no_twice eqb r end.
Lemma no_twice_ok {A} (eqb : A -> A -> bool) l : (forall x, eqb x x = true) -> no_twice eqb l = true -> NoDup l.
Proof.
  intros E. induction l as [|x l IH]; cbn; [constructor|]. intros H. apply andb_true_iff in H as [H1 H2]. constructor; [|auto].
  intros I. apply negb_true_iff in H1. assert (existsb (eqb x) l = true); [|congruence]. apply existsb_exists. eauto.
Qed.
Definition opt_eqb (a b : option str) : bool := match a, b with Some x, Some y => str_eqb x y | None, None => true | _, _ => false end.
Definition key_eqb (a b : obj_key) : bool := opt_eqb (k_value a) (k_value b) && opt_eqb (k_tag a) (k_tag b).
Lemma opt_eqb_refl a : opt_eqb a a = true.
Proof. destruct a; [apply str_eqb_refl|reflexivity]. Qed.
Definition distinct_node (s : schema F) : bool :=
  match s with
  | SObject _ fs => no_twice key_eqb (map fst fs) && forallb (fun p => match k_value (fst p), k_tag (fst p) with Some _, Some _ => false | _, _ => true end) fs
  | SEnum _ vs => no_twice str_eqb (map fst vs)
  | _ => true
  end.
Lemma distinct_node_ok s : distinct_node s = true -> distinct_keys F s.
Proof.
  destruct s; cbn; auto; intros H.
  - apply andb_true_iff in H as [H1 H2]. split.
    + eapply no_twice_ok; [|exact H1]. intros x. unfold key_eqb. now rewrite !opt_eqb_refl.
    + apply Forall_forall. intros p I. rewrite forallb_forall in H2. specialize (H2 p I). destruct (k_value (fst p)), (k_tag (fst p)); auto; discriminate.
  - eapply no_twice_ok; [|exact H]. apply str_eqb_refl.
Qed.
Definition flat_node (s : schema F) : bool := match s with SFlatten _ _ => false | _ => true end.
Fixpoint settles (fuel : nat) (s : schema F) : bool :=
  match fuel with
  | O => false
  | S f =>
    match s with
    | SUnion _ l => forallb (settles f) l
    | SOptional _ t | SOneOf _ t _ | SFlatten _ t | SDefault _ _ t | SDeprecated _ _ t => settles f t
    | SType _ (Some n) => forallb (fun p => negb (opt_eqb (fst p) (Some n)) || settles f (snd p)) file
    | _ => true
    end
  end.
Lemma settles_acc fuel : forall s, settles fuel s = true -> Acc (same_value F file) s.
Proof.
  induction fuel as [|f IH]; intros s H; [discriminate|]. constructor. intros t C. apply IH.
  destruct C as [l s I|s|s a|s|d s|r s|n s I]; cbn [settles] in H; try exact H.
  - rewrite forallb_forall in H. auto.
  - rewrite forallb_forall in H. specialize (H _ I). cbn in H. rewrite str_eqb_refl in H. exact H.
Qed.
End Checks.

Definition C76_file : schema_file unit := Eval vm_compute in match read_file unit C76_schema with Some f => f | None => [] end.
Definition C76_root : schema unit := Eval vm_compute in match C76_file with (_, s) :: _ => s | [] => SAny _ end.
Definition C76_host : list (obj_key * schema unit) := Eval vm_compute in match C76_file with [_; (_, SObject _ fs)] => fs | _ => [] end.
Example C76_example : exists v path es osp sp t l,
  reads_as C76_schema C76_file /\ tree C76_doc (inl v) /\ NoDup (map fst C76_file) /\ In (None, C76_root) C76_file /\
  (forall s, occurs unit C76_file C76_root s -> distinct_keys unit s) /\ (forall s, occurs unit C76_file C76_root s -> ~ flattens unit s) /\
  (forall s, occurs unit C76_file C76_root s -> Acc (same_value unit C76_file) s) /\
  find_object_at_offset v (position_to_offset C76_doc (mkpos 0 18)) = Some (mkoc path es osp) /\
  typed unit C76_file v C76_root path (Val None (PObj es osp) sp) t /\ names unit C76_file t (SObject _ C76_host) /\ length C76_host <= 50 /\
  get_word_range_at_position C76_doc (mkpos 0 18) = Ok None /\
  completion unit (fun s => s) C76_file 20 C76_doc v (mkpos 0 18) = Ok l /\ l = [(lit "port", lit "@optional(@int)")].
Proof.
  assert (R : In (None, C76_root) C76_file) by (left; reflexivity).
  eexists _, _, _, _, _, _, _. split; [apply read_file_ok; vm_compute; reflexivity|]. split; [tree_tac|].
  split; [eapply (no_twice_ok opt_eqb); [apply opt_eqb_refl|vm_compute; reflexivity]|]. split; [exact R|].
  split; [intros s O; apply distinct_node_ok; revert s O; apply all_occurs; [exact R|vm_compute; reflexivity]|].
  split; [intros s O [t ->]; assert (Q : flat_node unit (SFlatten unit t) = true); [revert O; generalize (SFlatten unit t); apply all_occurs; [exact R|vm_compute; reflexivity]|discriminate]|].
  split; [intros s O; apply (settles_acc unit C76_file 5); revert s O; apply all_occurs; [exact R|vm_compute; reflexivity]|].
  split; [vm_compute; reflexivity|]. split.
  - eapply (ty_field _ _ _ _ _ _ _ _ _ _ (lit "hosts")); [apply sf_same|left; reflexivity|reflexivity|exists (Some (lit "hosts")); split; [constructor|left; exists (lit "hosts"); split; [reflexivity|]; apply field_own; [left; reflexivity|intros _ [t [=]]]]|].
    eapply (ty_map2 _ _ _ _ _ _ _ _ _ _ _ (lit "a")); [apply sf_same|left; reflexivity|reflexivity|]. apply ty_here.
  - split; [eapply na_name; [right; left; reflexivity|apply na_same]|]. split; [vm_compute; lia|]. split; [vm_compute; reflexivity|]. split; vm_compute; reflexivity.
Qed.

(** ** Where the full statement is false *)

(** An object at the cursor has to be of a type with the field [n] and lacks it, and completion does not propose [n]. *)
Definition not_proposed (schema_src src : str) (pos : position) (n : str) : Prop :=
  exists (file : schema_file unit) root v es osp tg sp fs s l,
    reads_as schema_src file /\ In (None, root) file /\ tree src (inl v) /\
    object_below v es (Some osp) /\ over osp (position_to_offset src pos) /\ es = [] /\
    checked unit file v root (Val tg (PObj es (Some osp)) sp) (SObject _ fs) /\ field unit schema_md file fs n s /\
    (forall fuel, 20 <= fuel -> completion unit (fun s => s) file fuel src v pos = Ok l) /\ ~ In n (map fst l).
(** And proposes [m] instead, which the type does not have. *)
Definition proposed_instead (schema_src src : str) (pos : position) (m : str) : Prop :=
  exists (file : schema_file unit) root v es osp tg sp fs l,
    reads_as schema_src file /\ In (None, root) file /\ tree src (inl v) /\
    object_below v es (Some osp) /\ over osp (position_to_offset src pos) /\ es = [] /\
    checked unit file v root (Val tg (PObj es (Some osp)) sp) (SObject _ fs) /\ (forall s, ~ field unit schema_md file fs m s) /\
    (forall fuel, 20 <= fuel -> completion unit (fun s => s) file fuel src v pos = Ok l) /\ In m (map fst l).

Ltac own_field := apply field_own; [cbn; auto|intros _ [? [=]]].
Ltac named_entry n := exists (Some (lit n)); split; [constructor|left; exists (lit n); split; [reflexivity|own_field]].
Ltac enough_fuel := intros fuel Lf; do 20 (destruct fuel as [|fuel]; [lia|]); vm_compute; reflexivity.

(** In an optional object nothing is proposed. *)
Theorem C76_optional_refuted : not_proposed (lit "schema {@ @object{server @optional(@object{host @string})}}") (lit "server {}") (mkpos 0 8) (lit "host").
Proof.
  eexists _, _, _, _, _, _, _, _, _, _. split; [apply read_file_ok; vm_compute; reflexivity|]. split; [left; reflexivity|]. split; [tree_tac|].
  split; [eapply ob_entry; [left; reflexivity|apply ob_here]|]. split; [vm_compute; lia|]. split; [reflexivity|]. split.
  - eapply ck_entry; [left; reflexivity|named_entry "server"%string|]. eapply ck_stands; [apply sf_in_optional, sf_same|apply ck_here].
  - split; [own_field|]. split; [enough_fuel|]. intros [].
Qed.
Print Assumptions C76_optional_refuted.

(** Nor in an object that is one of the types of a union. *)
Theorem C76_union_refuted : not_proposed (lit "schema {@ @object{server @union(@string @object{host @optional(@string)})}}") (lit "server {}") (mkpos 0 8) (lit "host").
Proof.
  eexists _, _, _, _, _, _, _, _, _, _. split; [apply read_file_ok; vm_compute; reflexivity|]. split; [left; reflexivity|]. split; [tree_tac|].
  split; [eapply ob_entry; [left; reflexivity|apply ob_here]|]. split; [vm_compute; lia|]. split; [reflexivity|]. split.
  - eapply ck_entry; [left; reflexivity|named_entry "server"%string|]. eapply ck_union; [right; left; reflexivity| |apply ck_here].
    eapply c_object; [constructor; right; reflexivity|intros k x d []|]. intros n s H. left. inversion H as [? ? ? I N|? ? ? ? ? ? E I]; subst.
    + destruct I as [[= <- <-]|[]]. constructor.
    + destruct I as [[=]|[]].
  - split; [own_field|]. split; [enough_fuel|]. intros [].
Qed.
Print Assumptions C76_union_refuted.

(** The fields that an object takes over from another type are not proposed; the name of the entry that takes them over is. *)
Definition C76_flat : str := lit "schema {@ @object{server @Server}, Server @object{base @flatten(@Base), port @int}, Base @object{host @string}}".
Theorem C76_flatten_refuted : not_proposed C76_flat (lit "server {}") (mkpos 0 8) (lit "host") /\ proposed_instead C76_flat (lit "server {}") (mkpos 0 8) (lit "base").
Proof.
  split.
  - eexists _, _, _, _, _, _, _, _, _, _. split; [apply read_file_ok; vm_compute; reflexivity|]. split; [left; reflexivity|]. split; [tree_tac|].
    split; [eapply ob_entry; [left; reflexivity|apply ob_here]|]. split; [vm_compute; lia|]. split; [reflexivity|]. split.
    + eapply ck_entry; [left; reflexivity|named_entry "server"%string|]. eapply ck_stands; [eapply sf_in_name; [right; left; reflexivity|apply sf_same]|apply ck_here].
    + split; [eapply field_inlined; [reflexivity|left; reflexivity|eapply ot_alias; [right; right; left; reflexivity|apply ot_object]|own_field]|].
      split; [enough_fuel|]. cbn. intuition discriminate.
  - eexists _, _, _, _, _, _, _, _, _. split; [apply read_file_ok; vm_compute; reflexivity|]. split; [left; reflexivity|]. split; [tree_tac|].
    split; [eapply ob_entry; [left; reflexivity|apply ob_here]|]. split; [vm_compute; lia|]. split; [reflexivity|]. split.
    + eapply ck_entry; [left; reflexivity|named_entry "server"%string|]. eapply ck_stands; [eapply sf_in_name; [right; left; reflexivity|apply sf_same]|apply ck_here].
    + split; [|split; [enough_fuel|left; reflexivity]]. intros s H. inversion H as [? ? ? I N|? ? ? ? ? ? E I O Fd]; subst.
      * destruct I as [[= <-]|[[=]|[]]]. apply N; [reflexivity|]. eexists. reflexivity.
      * destruct I as [[= <- <-]|[[=]|[]]]. inversion O as [|? ? ? I' O']; subst. destruct I' as [[=]|[[=]|[[= <-]|[]]]]. inversion O'; subst.
        inversion Fd as [? ? ? I N|? ? ? ? ? ? E' I' O2 Fd']; subst; [destruct I as [[=]|[]]|destruct I' as [[=]|[]]].
Qed.
Print Assumptions C76_flatten_refuted.

(** In an object in a sequence the fields of the object around it are proposed. *)
Definition C76_seq : str := lit "schema {@ @object{hosts @seq(@object{name @string}), port @int}}".
Theorem C76_sequence_refuted : not_proposed C76_seq (lit "hosts ({})") (mkpos 0 8) (lit "name") /\ proposed_instead C76_seq (lit "hosts ({})") (mkpos 0 8) (lit "port").
Proof.
  split.
  - eexists _, _, _, _, _, _, _, _, _, _. split; [apply read_file_ok; vm_compute; reflexivity|]. split; [left; reflexivity|]. split; [tree_tac|].
    split; [eapply ob_entry; [left; reflexivity|eapply ob_item; [left; reflexivity|apply ob_here]]|]. split; [vm_compute; lia|]. split; [reflexivity|]. split.
    + eapply ck_entry; [left; reflexivity|named_entry "hosts"%string|]. eapply ck_seq; [left; reflexivity|apply ck_here].
    + split; [own_field|]. split; [enough_fuel|]. cbn. intuition discriminate.
  - eexists _, _, _, _, _, _, _, _, _. split; [apply read_file_ok; vm_compute; reflexivity|]. split; [left; reflexivity|]. split; [tree_tac|].
    split; [eapply ob_entry; [left; reflexivity|eapply ob_item; [left; reflexivity|apply ob_here]]|]. split; [vm_compute; lia|]. split; [reflexivity|]. split.
    + eapply ck_entry; [left; reflexivity|named_entry "hosts"%string|]. eapply ck_seq; [left; reflexivity|apply ck_here].
    + split; [|split; [enough_fuel|left; reflexivity]]. intros s H. inversion H as [? ? ? I N|? ? ? ? ? ? E I O Fd]; subst; destruct I as [[=]|[]].
Qed.
Print Assumptions C76_sequence_refuted.

(** And in an object whose key is the unit. *)
Definition C76_unit : str := lit "schema {@ @object{port @int, @string @object{name @string}}}".
Theorem C76_unit_key_refuted : not_proposed C76_unit (lit "@ {}") (mkpos 0 3) (lit "name") /\ proposed_instead C76_unit (lit "@ {}") (mkpos 0 3) (lit "port").
Proof.
  assert (CA : forall file fs b s, fs = [(mkkey (Some (lit "port")) None, SInt unit None); (mkkey None (Some (lit "string")), s)] ->
    entry_schema unit schema_md file fs (Val None PNone b) s).
  { intros file fs b s ->. exists None. split; [apply (kn_unit schema_md)|]. right. split; [discriminate|].
    exists [(mkkey (Some (lit "port")) None, SInt unit None)], (mkkey None (Some (lit "string"))), []. split; [reflexivity|]. split; [discriminate|]. repeat constructor. }
  split.
  - eexists _, _, _, _, _, _, _, _, _, _. split; [apply read_file_ok; vm_compute; reflexivity|]. split; [left; reflexivity|]. split; [tree_tac|].
    split; [eapply ob_entry; [left; reflexivity|apply ob_here]|]. split; [vm_compute; lia|]. split; [reflexivity|]. split.
    + eapply ck_entry; [left; reflexivity|apply CA; reflexivity|]. apply ck_here.
    + split; [own_field|]. split; [enough_fuel|]. cbn. intuition discriminate.
  - eexists _, _, _, _, _, _, _, _, _. split; [apply read_file_ok; vm_compute; reflexivity|]. split; [left; reflexivity|]. split; [tree_tac|].
    split; [eapply ob_entry; [left; reflexivity|apply ob_here]|]. split; [vm_compute; lia|]. split; [reflexivity|]. split.
    + eapply ck_entry; [left; reflexivity|apply CA; reflexivity|]. apply ck_here.
    + split; [|split; [enough_fuel|left; reflexivity]]. intros s H. inversion H as [? ? ? I N|? ? ? ? ? ? E I O Fd]; subst; destruct I as [[=]|[]].
Qed.
Print Assumptions C76_unit_key_refuted.

(** A type that is defined as itself, or as itself with a modifier, overflows the stack; an empty @map() panics. *)
Theorem C76_ends_refuted : exists (file : schema_file unit) v,
  reads_as (lit "schema {@ @object{a @A}, A @optional(@A)}") file /\ tree (lit "a {b {}}") (inl v) /\
  forall fuel, completion unit (fun s => s) file fuel (lit "a {b {}}") v (mkpos 0 6) = OutOfFuel.
Proof.
  eexists _, _. split; [apply read_file_ok; vm_compute; reflexivity|]. split; [tree_tac|]. intros fuel. unfold completion.
  match goal with |- context [match ?o with Some c => oc_path c | None => [] end] => let x := eval vm_compute in o in replace o with x by (vm_compute; reflexivity) end.
  cbn [oc_path]. unfold get_schema_fields_at_path, get_schema_at_path. cbn [lookup_type].
  match goal with |- context [schema_at unit ?fl fuel _ _] =>
    assert (G : forall f, schema_at unit fl f (SType _ (Some (lit "A"))) [lit "b"] = OutOfFuel /\ schema_at unit fl f (SOptional _ (SType _ (Some (lit "A")))) [lit "b"] = OutOfFuel) end.
  { induction f as [|f [IH1 IH2]]; [split; reflexivity|]. split; [exact IH2|exact IH1]. }
  destruct fuel as [|fuel]; [reflexivity|]. change (lit "b") with [98%N] in G. change (lit "A") with [65%N] in G.
  cbn [schema_at field_schema k_value k_tag str_eqb]. cbn [N.eqb Pos.eqb andb]. rewrite (proj1 (G fuel)). reflexivity.
Qed.
Print Assumptions C76_ends_refuted.
Theorem C76_map_refuted : exists (file : schema_file unit) v,
  reads_as (lit "schema {@ @object{a @map()}}") file /\ tree (lit "a {b {}}") (inl v) /\
  forall fuel, 20 <= fuel -> completion unit (fun s => s) file fuel (lit "a {b {}}") v (mkpos 0 6) = Panic.
Proof.
  eexists _, _. split; [apply read_file_ok; vm_compute; reflexivity|]. split; [tree_tac|]. enough_fuel.
Qed.
Print Assumptions C76_map_refuted.

(** ** The edit of a proposal *)
Definition replaced (src : str) (p q : position) (text new : str) : Prop :=
  exists a m b, src = a ++ m ++ b /\ place_of a p /\ place_of (a ++ m) q /\ new = a ++ text ++ b.

(** Accepting a proposal behind a comma without a space removes the value before the comma. *)
Theorem C76_edit_refuted : exists (file : schema_file unit) v l p q text new v' w w',
  reads_as (lit "schema {@ @object{o @object{a @int, bar @int}}}") file /\ tree (lit "o {a 1,b}") (inl v) /\
  (forall fuel, 20 <= fuel -> completion unit (fun s => s) file fuel (lit "o {a 1,b}") v (mkpos 0 8) = Ok l) /\ In (lit "bar") (map fst l) /\
  completion_edit (lit "o {a 1,b}") (mkpos 0 8) (lit "bar") = Ok ((p, q), text) /\ replaced (lit "o {a 1,b}") p q text new /\ tree new (inl v') /\
  reaches v [SKey (lit "o"); SKey (lit "a")] w /\ scalar_text w = Some (lit "1") /\
  reaches v' [SKey (lit "o"); SKey (lit "a")] w' /\ scalar_text w' = Some (lit "bar").
Proof.
  eexists _, _, _, (mkpos 0 5), (mkpos 0 8), (lit "bar "), (lit "o {a bar }"), _, _, _. split; [apply read_file_ok; vm_compute; reflexivity|]. split; [tree_tac|].
  split; [enough_fuel|]. split; [left; reflexivity|]. split; [vm_compute; reflexivity|].
  split; [exists (lit "o {a "), (lit "1,b"), (lit "}"); splits; [reflexivity|exact (C29_place (lit "o {a ") (lit "1,b}"))|exact (C29_place (lit "o {a 1,b") (lit "}"))|reflexivity]|].
  split; [tree_tac|].
  split; [eapply reach_step; [apply child_key; eexists [], _, _; splits; [reflexivity|vm_compute; reflexivity|reflexivity|intros []]|eapply reach_step; [apply child_key; eexists [], _, _; splits; [reflexivity|vm_compute; reflexivity|reflexivity|intros []]|apply reach_here]]|].
  split; [reflexivity|].
  split; [eapply reach_step; [apply child_key; eexists [], _, _; splits; [reflexivity|vm_compute; reflexivity|reflexivity|intros []]|eapply reach_step; [apply child_key; eexists [], _, _; splits; [reflexivity|vm_compute; reflexivity|reflexivity|intros []]|apply reach_here]]|].
  reflexivity.
Qed.
Print Assumptions C76_edit_refuted.
