(** C88: reading through the C bindings. C89: what a C program can see. *)
From Coq Require Import String Lia.
From Verif Require Import Base BaseProofs TokModel LexModel ParseModel ParseSpec RunProofs TreeModel TreeSpec TreeProofs LinkProofs FmtModel PropParse PropTree FfiModel FfiSpec FfiProofs PropWasm.
Local Open Scope nat_scope.
Notation length := List.length.

(** ** C88 *)

(** A text without NUL in memory gives a document exactly if it has a tree, and its root is that tree; whatever follows in memory. *)
Theorem C88_parse_partial : forall src mem evs fuel, stored src mem -> parses src evs -> length evs < fuel ->
  exists d, styx_parse fuel (Some mem) = Ok d /\ (forall es, d = Some es <-> tree src (inl (Val None (PObj es None) None))) /\ (d = None <-> exists e, tree src (inr e)).
Proof.
  intros src mem evs fuel S P L. unfold styx_parse. rewrite (stored_text _ _ S). pose proof (tree_of src evs P) as T. pose proof P as (ls & f & Ls & E). rewrite Ls. cbn [bind].
  rewrite (events_enough _ _ _ E fuel L). cbn [bind]. assert (forall t, tree src t <-> t = build evs) as U.
  { intros t. split; [|intros ->; now exists evs]. intros (evs' & (ls' & f' & Ls' & E') & <-). rewrite Ls in Ls'. injection Ls' as <-. f_equal.
    assert (Ok evs' = Ok evs) as X by (apply (events_from_fun f' f (parser_new src ls)); auto; discriminate). now injection X. }
  assert ((exists es, build evs = inl (Val None (PObj es None) None)) \/ exists e, build evs = inr e) as [(es & B)|(e & B)].
  { destruct (flat_map _ evs) as [|[k sp] r]; [|right; eauto]. destruct T as [(_ & es & _ & B)|[_ B]]; [left|right]; eauto. }
  - rewrite B. cbn [v_payload]. eexists. split; [reflexivity|]. split.
    + intros es'. rewrite U, B. split; [now intros [= ->]|]. now intros [= ->].
    + split; [discriminate|]. intros (e & He). apply U in He. congruence.
  - rewrite B. eexists. split; [reflexivity|]. split.
    + intros es'. rewrite U, B. split; discriminate.
    + split; [|reflexivity]. intros _. exists e. now apply U.
Qed.
Print Assumptions C88_parse_partial.

(** A text with a NUL is read up to there without an error, also if it is refused as a whole. *)
Theorem C88_refuted : exists src mem fuel es e, mem = src ++ [cNUL] /\ styx_parse fuel (Some mem) = Ok (Some es) /\ tree src (inr e).
Proof.
  exists (lit "a 1" ++ cNUL :: lit " }"), (lit "a 1" ++ cNUL :: lit " }" ++ [cNUL]), 100. do 2 eexists. split; [reflexivity|]. split; [vm_compute; reflexivity|].
  eexists. split; [apply run_parses; vm_compute; reflexivity|vm_compute; reflexivity].
Qed.
Print Assumptions C88_refuted.

(** Null pointers are refused everywhere. *)
Theorem C88_null : forall fuel i path, styx_parse fuel None = Ok None /\ document_get None path = None /\ (forall d, document_get d None = None) /\ (forall v, styx_value_get v None = None) /\
  styx_value_get None path = None /\ object_get None path = None /\ (forall o, object_get o None = None) /\ object_key_at None i = None /\ object_value_at None i = None /\ sequence_get None i = None /\
  object_len None = 0 /\ sequence_len None = 0 /\ value_tag None = None /\ value_scalar None = None /\ value_as_object None = None /\ value_as_sequence None = None /\ value_is_unit None = false.
Proof. intros. splits; try reflexivity; intros [|]; reflexivity. Qed.
Print Assumptions C88_null.

Example C88_example : exists evs es, stored (lit "a {b (1 @t)}") (lit "a {b (1 @t)}" ++ [cNUL; 7; 0]%N) /\ parses (lit "a {b (1 @t)}") evs /\ length evs < 100 /\
  styx_parse 100 (Some (lit "a {b (1 @t)}" ++ [cNUL; 7; 0]%N)) = Ok (Some es) /\ length es = 1.
Proof.
  do 2 eexists. split; [split; [|eexists; reflexivity]|].
  { intros H. vm_compute in H. repeat destruct H as [H|H]; discriminate || contradiction. }
  splits; [apply run_parses; vm_compute; reflexivity|vm_compute; lia|vm_compute; reflexivity|reflexivity].
Qed.

(** ** C89 *)

(** Without NULs, a program can tell two values apart exactly if their trees differ. *)
Theorem C89_view_partial : forall v w, nul_free v -> nul_free w -> ((forall n, alike n (Some v) (Some w)) <-> same_tree v w).
Proof. intros v w Nv Nw. split; [now apply alike_same|]. intros S n. now apply same_alike. Qed.
Print Assumptions C89_view_partial.

(** That nothing else can be seen holds for all values. *)
Theorem C89_sound : forall v w n, same_tree v w -> alike n (Some v) (Some w).
Proof. intros v w n S. now apply same_alike. Qed.
Print Assumptions C89_sound.

(** With NULs, the values of a key in two sources cannot be told apart although their texts differ. *)
Theorem C89_refuted : exists src src' es es' a a' path v w, tree src (inl (Val None (PObj es a) None)) /\ tree src' (inl (Val None (PObj es' a') None)) /\
  document_get (Some es) (Some path) = Some v /\ document_get (Some es') (Some path) = Some w /\ ~ same_tree v w /\ forall n, alike n (Some v) (Some w).
Proof.
  exists (lit "k ""\u{0}a"""), (lit "k ""\u{0}b"""). do 4 eexists. exists (lit "k" ++ [cNUL]). do 2 eexists. split; [eexists; split; [apply run_parses; vm_compute; reflexivity|vm_compute; reflexivity]|].
  split; [eexists; split; [apply run_parses; vm_compute; reflexivity|vm_compute; reflexivity]|]. split; [vm_compute; reflexivity|]. split; [vm_compute; reflexivity|]. split.
  - intros S. inversion S as [? ? ? ? ? ? _ P]; subst. inversion P.
  - assert (forall a b k sa sb va vb, In cNUL a -> In cNUL b -> forall n, alike n (Some (Val None (PScalar a k sa) va)) (Some (Val None (PScalar b k sb) vb))) as G.
    { intros a b k sa sb va vb Ha Hb. assert (forall s, In cNUL s -> c_string s = None) as C. { intros s H. unfold c_string. assert (existsb (N.eqb cNUL) s = true) as -> by (apply existsb_exists; exists cNUL; auto). reflexivity. }
      induction n as [|n IH]; [exact I|]. cbn [alike]. cbn [value_payload_kind v_payload value_is_unit is_unit value_tag value_scalar value_as_sequence value_as_object]. rewrite (C a Ha), (C b Hb).
      splits; try easy; try (intros; now apply same_alike). intros [mem|]; [|now apply same_alike]. unfold styx_value_get, value_get. destruct (c_text mem) as [|x t]; [exact IH|].
      cbn [get_fuel List.length v_payload]. destruct (split_path (x :: t)). now apply same_alike. }
    intros n. apply G; now left.
Qed.
Print Assumptions C89_refuted.

(** The value for a key is the one at the first place whose key is that text. *)
Theorem C89_get : forall es key mem v, stored key mem -> object_get (Some es) (Some mem) = Some v ->
  exists i k, object_key_at (Some es) i = Some k /\ value_scalar (Some k) = Some key /\ value_tag (Some k) = None /\ object_value_at (Some es) i = Some v /\
    forall j k', j < i -> object_key_at (Some es) j = Some k' -> ~ (value_payload_kind (Some k') = KScalar /\ value_tag (Some k') = None /\ v_tag k' = None /\ value_scalar (Some k') = Some key).
Proof.
  intros es key mem v S. cbn [object_get]. rewrite (stored_text _ _ S). unfold obj_get. destruct S as [C _]. induction es as [|e es IH]; [discriminate|]. cbn [find_val]. destruct (key_is key e) eqn:K.
  - intros [= <-]. exists 0, (e_key e). unfold key_is in K. destruct (e_key e) as [[t|] [|s k a| |] sp] eqn:E; try discriminate K. cbn [as_str] in K. destruct (str_eqb_spec s key) as [->|]; [|discriminate].
    splits; try reflexivity; [cbn; now rewrite E|cbn [value_scalar]; now apply c_string_clear|intros j k' H; lia].
  - intros H. destruct (IH H) as (i & k & A & B & D & V & F). exists (S i), k. splits; auto. intros [|j] k' L Hk; [|apply (F j k'); [lia|exact Hk]]. cbn in Hk. injection Hk as <-. intros (P & _ & T & X).
    unfold key_is in K. destruct (e_key e) as [t p sp]. cbn [v_tag] in T. subst t. destruct p as [|s q a| |]; try discriminate P. cbn [value_scalar as_str] in *. unfold c_string in X. destruct (existsb (N.eqb cNUL) s); [discriminate|].
    injection X as ->. destruct (str_eqb_spec key key); [discriminate|congruence].
Qed.
Print Assumptions C89_get.
Theorem C89_get_none : forall es key mem, stored key mem -> object_get (Some es) (Some mem) = None ->
  forall i k, object_key_at (Some es) i = Some k -> v_tag k = None -> value_scalar (Some k) <> Some key.
Proof.
  intros es key mem S. cbn [object_get]. rewrite (stored_text _ _ S). unfold obj_get. induction es as [|e es IH]; intros H [|i] k Hk T X; try discriminate Hk; cbn [find_val] in H; destruct (key_is key e) eqn:K; try discriminate H.
  - cbn in Hk. injection Hk as <-. unfold key_is in K. destruct (e_key e) as [t p sp]. cbn [v_tag] in T. subst t. destruct p as [|s q a| |]; try discriminate X. cbn [value_scalar as_str] in *. unfold c_string in X. destruct (existsb (N.eqb cNUL) s); [discriminate|].
    injection X as ->. destruct (str_eqb_spec key key); [discriminate|congruence].
  - exact (IH H i k Hk T X).
Qed.
Print Assumptions C89_get_none.

(** A path in memory leads from a value to the one reached by its steps (the conditions are those of C17), whatever follows the path. *)
Theorem C89_path_partial : forall l mem v w, Forall step_ok l -> no_bracket_keys v -> stored (path_text true l) mem ->
  styx_value_get (Some v) (Some mem) = Some w <-> reaches v l w.
Proof.
  intros l mem v w H N S. cbn [styx_value_get]. rewrite (stored_text _ _ S). split; intros X.
  - now apply C17_reached_partial.
  - now apply C17_found_partial.
Qed.
Print Assumptions C89_path_partial.
Example C89_path_example : stored (path_text true C17_l) (lit "a[1].b" ++ cNUL :: lit "[7]") /\
  styx_value_get (Some C17_v) (Some (lit "a[1].b" ++ cNUL :: lit "[7]")) = Some (scalar_value (lit "x")).
Proof. split; [split; [unfold clear; vm_compute; intuition discriminate|exists (lit "[7]"); reflexivity]|vm_compute; reflexivity]. Qed.

Definition C89_value : value := Val (Some (lit "t", None)) (PObj [Ent (Val None (PScalar (lit "a") Bare None) None) (Val None (PSeq [Val None PNone None; Val (Some (lit "u", None)) (PScalar (lit "x y") Raw None) None] None) None) (Some (lit "doc"))] None) None.
Definition C89_other : value := Val (Some (lit "t", Some (mkspan 1 2))) (PObj [Ent (Val None (PScalar (lit "a") Quoted None) None) (Val None (PSeq [Val None PNone None; Val (Some (lit "u", None)) (PScalar (lit "x y") Heredoc None) None] None) None) None] None) None.
Example C89_example : nul_free C89_value /\ nul_free C89_other /\ same_tree C89_value C89_other /\ C89_value <> C89_other.
Proof.
  assert (forall s, forallb (fun c => negb (N.eqb cNUL c)) s = true -> clear s) as G. { intros s H I. rewrite forallb_forall in H. now apply H in I. }
  splits; [| | |discriminate].
  - repeat (constructor || (intros ? ? E; discriminate E || (injection E as <- _))); try (apply G; reflexivity).
  - repeat (constructor || (intros ? ? E; discriminate E || (injection E as <- _))); try (apply G; reflexivity).
  - repeat constructor.
Qed.
Example C89_get_example : exists mem v, stored (lit "a") mem /\ object_get (value_as_object (Some C89_value)) (Some mem) = Some v /\ value_payload_kind (Some v) = KSequence.
Proof. exists (lit "a" ++ [cNUL]). eexists. splits; [split; [intros [H|[]]; discriminate H|eexists; reflexivity]|reflexivity|reflexivity]. Qed.
