(** C16-C18, C43: the tree. *)
From Coq Require Import String.
From Verif Require Import Base BaseProofs TokModel LexModel LexSpec ParseModel ParseSpec PropParse TreeModel TreeSpec TreeProofs BuildProofs LinkProofs.

(** ** C16 *)

(** [get] finds the first entry with the key and nothing else. *)
Theorem C16_get : forall es k, (forall v, obj_get k es = Some v <-> maps_to es k v) /\ (obj_get k es = None <-> ~ In (Some k) (text_keys es)).
Proof. intros es k. split; [intros v; apply obj_get_iff|apply obj_get_none]. Qed.
Print Assumptions C16_get.

(** After any history of inserts into any object: every key written has its last value, every other key is
    unchanged, and the keys are the old ones in their order followed by the new ones, each once, in the order of
    their first insertion. *)
Theorem C16_inserts : forall h es k,
  (forall v, last_assigned h k v -> obj_get k (inserts h es) = Some v) /\
  ((forall v, ~ In (k, v) h) -> obj_get k (inserts h es) = obj_get k es) /\
  text_keys (inserts h es) = text_keys es ++ map Some (fresh (text_keys es) (map fst h)).
Proof. intros h es k. split; [intros v; apply inserts_last|]. split; [apply inserts_unchanged|apply inserts_keys]. Qed.
Print Assumptions C16_inserts.

Theorem C16_fresh : forall seen ks, NoDup (fresh seen ks) /\ forall k, In k (fresh seen ks) <-> In k ks /\ ~ In (Some k) seen.
Proof. exact fresh_spec. Qed.
Print Assumptions C16_fresh.

(** One insert leaves everything else in the object untouched, values and doc comments of other entries too. *)
Theorem C16_insert : forall k v es,
  (exists a e b, es = a ++ e :: b /\ as_str (e_key e) = Some k /\ ~ In (Some k) (text_keys a) /\
     insert k v es = a ++ Ent (e_key e) v (e_doc e) :: b) \/
  (~ In (Some k) (text_keys es) /\ insert k v es = es ++ [Ent (scalar_value k) v None]).
Proof. exact insert_cut. Qed.
Print Assumptions C16_insert.

(** The unit key behaves the same way. *)
Theorem C16_insert_unit : forall v es,
  obj_get_unit (insert_unit v es) = Some v /\ forall k, obj_get k (insert_unit v es) = obj_get k es.
Proof. intros v es. split; [apply insert_unit_get|intros k; apply insert_unit_get_other]. Qed.
Print Assumptions C16_insert_unit.

Theorem C16_contains : forall k es, contains_key k es = true <-> exists v, maps_to es k v.
Proof. exact contains_key_iff. Qed.
Print Assumptions C16_contains.

Definition C16_h : list (str * value) :=
  [(lit "b", scalar_value (lit "1")); (lit "a", unit_value); (lit "b", scalar_value (lit "2")); (lit "c", unit_value)].
Example C16_example : last_assigned C16_h (lit "b") (scalar_value (lit "2")) /\
  text_keys (inserts C16_h [Ent (scalar_value (lit "a")) unit_value None; Ent unit_value unit_value None]) =
    [Some (lit "a"); None; Some (lit "b"); Some (lit "c")].
Proof.
  split; [|vm_compute; reflexivity]. exists (firstn 2 C16_h), (skipn 3 C16_h). split; [reflexivity|]. intros v' [H|[]]. discriminate.
Qed.

(** ** C17 *)

Definition obj1 (k : string) (v : value) : value := Val None (PObj [Ent (scalar_value (lit k)) v None] None) None.

(** Keys with a dot, a bracket or without characters cannot be reached by their path. *)
Theorem C17_unreachable_refuted : exists k1 k2 k3 w, forall k, In k [k1; k2; k3] ->
  reaches (obj1 k w) [SKey (lit k)] w /\ value_get (obj1 k w) (path_text true [SKey (lit k)]) <> Some w.
Proof.
  exists "a.b"%string, "a[0]"%string, ""%string, (scalar_value (lit "1")).
  intros k [<-|[<-|[<-|[]]]]; (split; [|vm_compute; discriminate]); econstructor; constructor; eexists [], _, []; repeat split; intros [].
Qed.
Print Assumptions C17_unreachable_refuted.

(** An index finds an object entry whose key looks like it. *)
Theorem C17_bracket_refuted : exists v w, value_get v (path_text true [SIdx 0]) = Some w /\ ~ reaches v [SIdx 0] w.
Proof.
  exists (obj1 "[0]" unit_value), unit_value. split; [vm_compute; reflexivity|]. intros H. inversion H as [|? ? ? ? ? Hc]. inversion Hc.
Qed.
Print Assumptions C17_bracket_refuted.

(** Every value reached by keys (non-empty, without dot and opening bracket) and indices (64 bit) is found by its
    path. Missing: the keys excluded here, for which the claim is false (see above). *)
Theorem C17_found_partial : forall l v w, Forall step_ok l -> reaches v l w -> value_get v (path_text true l) = Some w.
Proof. intros l v w H1 H2. unfold value_get. now apply reaches_get. Qed.
Print Assumptions C17_found_partial.

(** Whatever is found by the path is reached by the steps, if no key starts with a bracket. *)
Theorem C17_reached_partial : forall l v w, Forall step_ok l -> no_bracket_keys v ->
  value_get v (path_text true l) = Some w -> reaches v l w.
Proof. intros l v w H1 H2 H3. eapply get_reaches; eauto. Qed.
Print Assumptions C17_reached_partial.

(** For every tree and every string: [get_mut] finds what [get] finds; writing it back changes nothing; after
    writing another value [get] returns that one. *)
Theorem C17_get_mut : forall v path, match value_get_mut v path with
  | Some (w, put) => value_get v path = Some w /\ put w = v /\ forall x, value_get (put x) path = Some x
  | None => value_get v path = None
  end.
Proof. intros v path. exact (get_mut_get (length path) v path). Qed.
Print Assumptions C17_get_mut.

(** Writing through [get_mut] changes nothing elsewhere. *)
Theorem C17_elsewhere_partial : forall l q v u put x z, Forall step_ok l -> Forall step_ok q -> diverge l q ->
  value_get_mut v (path_text true l) = Some (u, put) -> (reaches (put x) q z <-> reaches v q z).
Proof. intros l q v u put x z H1 H2 H3 H4. exact (mut_elsewhere l _ v u put q H1 H2 H3 H4 x z). Qed.
Print Assumptions C17_elsewhere_partial.

Definition C17_v : value := obj1 "a" (Val None (PSeq [unit_value; obj1 "b" (scalar_value (lit "x"))] None) None).
Definition C17_l : list step := [SKey (lit "a"); SIdx 1; SKey (lit "b")].
Example C17_example : Forall step_ok C17_l /\ reaches C17_v C17_l (scalar_value (lit "x")) /\ path_text true C17_l = lit "a[1].b" /\
  diverge C17_l [SKey (lit "a"); SIdx 0] /\ no_bracket_keys C17_v.
Proof.
  split; [|split; [|split; [reflexivity|split]]].
  - repeat constructor; try discriminate; not_in.
  - econstructor; [constructor; eexists [], _, []; repeat split; intros []|]. econstructor; [constructor; reflexivity|].
    econstructor; [constructor; eexists [], _, []; repeat split; intros []|constructor].
  - exists [SKey (lit "a")], (SIdx 1), (SIdx 0), [SKey (lit "b")], []. repeat split. discriminate.
  - constructor; [|discriminate]. intros es osp E. injection E as <- <-. repeat constructor; try discriminate.
    intros items ssp E. injection E as <- <-. repeat constructor; try discriminate. intros es osp E. injection E as <- <-. repeat constructor; discriminate.
Qed.

(** ** C18 *)

(** Stacked tags: only the outermost survives, so different documents give the same tree. *)
Theorem C18_tag_chain_refuted : exists t1 t2, tree (lit "x @a/@b") (inl t1) /\ tree (lit "x @a") (inl t2) /\ erase t1 = erase t2.
Proof.
  eexists _, _. split; [eexists; split; [apply run_parses; vm_compute; reflexivity|vm_compute; reflexivity]|].
  split; [eexists; split; [apply run_parses; vm_compute; reflexivity|vm_compute; reflexivity]|]. vm_compute. reflexivity.
Qed.
Print Assumptions C18_tag_chain_refuted.

(** The events of every document, with comments anywhere, build the tree of that document: all entries in order,
    keys, values, doc comments, places; of stacked tags the outermost. *)
Theorem C18_builds_partial : forall es evs, doc_events es (filter not_comment evs) ->
  build evs = inl (Val None (PObj (map to_entry es) None) None).
Proof. exact doc_build. Qed.
Print Assumptions C18_builds_partial.

(** For every source that the event parser gets through: the tree is an error exactly if there was an error event
    (the first one is reported) or the events are not properly nested (see C05); otherwise the events are those
    of a document and the tree is the tree of that document. *)
Theorem C18_sources_partial : forall src evs, parses src evs ->
  match flat_map (fun e => match ev_kind e with EvError k => [(k, ev_span e)] | _ => [] end) evs with
  | (k, sp) :: _ => build evs = inr (BParse k sp)
  | [] => (balanced evs /\ exists es, doc_events es (filter not_comment evs) /\ build evs = inl (Val None (PObj (map to_entry es) None) None)) \/
          (~ balanced evs /\ build evs = inr BUnclosed)
  end.
Proof. exact tree_of. Qed.
Print Assumptions C18_sources_partial.

Definition C18_doc : list dentry :=
  let z := mkspan 0 1 in
  [DEnt [(z, [lit "about a"]); (z, [lit "more"])] z z None (Some (lit "a")) Bare
     (DTag z (lit "t") (Some (DSeq z [DScalar z (lit "1") Bare; DUnit z] z)) z) z;
   DEnt [] z z (Some (lit "k")) None Bare (DObj z [DEnt [] z z None None Bare (DTag z (lit "u") None z) z] z) z].
Example C18_example : exists evs, doc_events C18_doc (filter not_comment evs) /\ length evs = 26.
Proof.
  exists (mkev (mkspan 0 0) (EvComment (lit "hi")) :: mkev (mkspan 0 0) EvDocStart :: val_events (DObj (mkspan 0 1) C18_doc (mkspan 0 1)) ++ [mkev (mkspan 0 0) EvDocEnd]).
  split; [exact (de_root (mkspan 0 0) (mkspan 0 1) C18_doc (mkspan 0 1) (mkspan 0 0))|vm_compute; reflexivity].
Qed.
Example C18_example_source : exists evs t, parses (lit "/// doc
a.b @t(1 @) // c
k {x ""y""}") evs /\ build evs = inl t.
Proof. eexists _, _. split; [apply run_parses; vm_compute; reflexivity|vm_compute; reflexivity]. Qed.

(** ** C43 *)

(** Dotted paths with a common prefix are not merged: the second entry is invisible to [get]. *)
Theorem C43_dotted_refuted : exists es, tree (lit "a.b 1
a.c 2") (inl (Val None (PObj es None) None)) /\ text_keys es = [Some (lit "a"); Some (lit "a")] /\
  doc_get es (lit "a.b") <> None /\ doc_get es (lit "a.c") = None.
Proof.
  eexists. split; [eexists; split; [apply run_parses; vm_compute; reflexivity|vm_compute; reflexivity]|].
  repeat split; vm_compute; try reflexivity. discriminate.
Qed.
Print Assumptions C43_dotted_refuted.
