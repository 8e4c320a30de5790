(** C58-C60: the adapter that hands a document to facet's deserializer. *)
From Coq Require Import String.
From Verif Require Import Base BaseProofs TokModel LexModel LexSpec LexProofs PropLex ParseModel ParseSpec RunProofs PropParse TreeModel TreeSpec LinkProofs SchemaSpec
  GrammarSpec GrammarTreeProofs PropGrammar FacetModel FacetSpec FacetProofs FacetDocProofs.

(** ** C07 on accepted documents *)

(** Every event of an accepted document stands on a piece of the source: both ends are between characters. *)
Theorem C07_characters : forall src evs, clear_escapes src -> parses src evs -> Forall no_err evs -> balanced evs ->
  Forall (fun e => exists t, slice src (sp_start (ev_span e)) (sp_end (ev_span e)) = Some t) evs.
Proof.
  intros src evs Hu Hp Hn Hb. destruct (proj1 (C50_accepts src evs Hu) (conj Hp (conj Hn Hb))) as (ls & es & El & Hg).
  destruct (lexemes_good src ls El) as (Hok & _).
  pose proof (gdoc_ok src ls es evs Hg Hok) as P. pose proof (parses_spans src evs Hp) as S0. unfold spans_in in S0. rewrite Forall_forall in *.
  intros e He. apply on_slice; [apply (P e He)|apply (S0 e He)].
Qed.
Print Assumptions C07_characters.

Example C07_characters_example : exists evs, parses C50_src evs /\ Forall no_err evs /\ balanced evs /\ clear_escapes C50_src.
Proof. destruct C50_example as (H1 & evs & H3 & H4 & H5 & _). exists evs. splits; assumption. Qed.

(** ** C58 *)

(** An accepted document is handed over as a stream of events that says what the document says: all keys, values,
    tags and doc comments in order, without the entries tagged [@schema] of the root. Only a document without
    entries may instead give no event at all. *)
Theorem C58_stream_partial : forall F (parse_f64 : str -> option F) src evs, clear_escapes src ->
  parses src evs -> Forall no_err evs -> balanced evs ->
  exists ls es l, lexemes src = Ok ls /\ gdoc (blen src) ls es evs /\ yields parse_f64 src (facet_new evs) l /\
    (es = [] /\ l = [] \/ says (data_of es) (map fe_kind l)).
Proof.
  intros F p src evs Hu Hp Hn Hb. destruct (proj1 (C50_accepts src evs Hu) (conj Hp (conj Hn Hb))) as (ls & es & El & Hg).
  pose proof (C07_characters src evs Hu Hp Hn Hb) as C.
  destruct (lexemes_good src ls El) as (Hok & _).
  pose proof (gdoc_ok src ls es evs Hg Hok) as P. destruct (doc_tree _ _ _ _ Hg) as (_ & _ & D).
  destruct (doc_yields p src es (filter not_comment evs) D) as (l & Y & H).
  - apply Forall_forall. intros e He. apply filter_In in He as [He _]. rewrite Forall_forall in C, P. unfold readable. destruct (P e He) as [_ Pe]. destruct (ev_kind e); auto; apply (C e He).
  - exists ls, es, l. splits; auto. apply yields_strip. exact Y.
Qed.
Print Assumptions C58_stream_partial.

(** What a stream says is unambiguous. *)
Theorem C58_unambiguous : forall F c c' (s : list (fkind F)), says c s -> says c' s -> c = c'.
Proof. intros F c c' s H H'. destruct (proj1 says_unique c s H c' s [] [] H' eq_refl) as [E _]. auto. Qed.
Print Assumptions C58_unambiguous.

(** A source with a syntax error is never read to its end without the error being raised. *)
Theorem C58_errors : forall F (parse_f64 : str -> option F) src evs l, yields parse_f64 src (facet_new evs) l -> Forall no_err evs.
Proof. intros F p src evs l H. apply yields_no_err in H; [exact H|reflexivity]. Qed.
Print Assumptions C58_errors.

Definition no_floats (t : str) : option unit := None.
Fixpoint drain (fuel : nat) (src : str) (c : core unit) : res (list (fevent unit)) :=
  match fuel with
  | O => OutOfFuel
  | S f => do (c, a) <- next_event no_floats src c;
           match a with AEvent e => do l <- drain f src c; Ok (e :: l) | ANone => Ok [] | AErr _ => Panic end
  end.
Lemma drain_yields : forall fuel src c l, drain fuel src c = Ok l -> yields no_floats src c l.
Proof.
  induction fuel as [|f IH]; intros src c l H; [discriminate|]. cbn [drain] in H. destruct (next_event no_floats src c) as [[c' a]| |] eqn:N; try discriminate. cbn [bind] in H.
  destruct a as [e| |sp]; [|injection H as <-; eapply y_end; exact N|discriminate]. destruct (drain f src c') as [l'| |] eqn:D; try discriminate. injection H as <-. eapply y_more; eauto.
Qed.
Definition run_facet (s : string) : res (list (fkind unit)) :=
  do evs <- run_events (lit s); do l <- drain (10 + 3 * List.length evs) (lit s) (facet_new evs); Ok (map fe_kind l).

Example C58_example : run_facet "@schema {a @string}
/// doc
name @tag(1 @u) // c
p.q x>1
@" = Ok [FStructStart;
  FKey None (Some (lit "name")) [lit "doc"]; FTag (Some (lit "tag")); FSeqStart; FScalar (SStr (lit "1")); FTag (Some (lit "u")); FScalar SUnit; FSeqEnd;
  FKey None (Some (lit "p")) []; FStructStart; FKey None (Some (lit "q")) []; FStructStart; FKey None (Some (lit "x")) []; FScalar (SStr (lit "1")); FStructEnd; FStructEnd;
  FKey None None []; FTag None; FScalar SUnit; FStructEnd].
Proof. vm_compute. reflexivity. Qed.

(** The empty document is accepted like [{}], but says nothing at all. *)
Theorem C58_empty_refuted : exists src, run_facet src = Ok [] /\ run_facet "{}" = Ok [FStructStart; FStructEnd] /\
  exists evs, parses (lit src) evs /\ Forall no_err evs /\ balanced evs.
Proof.
  exists ""%string. splits; [vm_compute; reflexivity|vm_compute; reflexivity|]. eexists. split; [apply run_parses; vm_compute; reflexivity|]. split; [|vm_compute; reflexivity].
  repeat (apply Forall_cons; [intros ?; discriminate|]). apply Forall_nil.
Qed.
Print Assumptions C58_empty_refuted.

(** The written unit [@] is announced by a tag without name, but not inside the payload of a tag; and a key [@]
    without value is taken for one that has the written value [@]. *)
Theorem C58_unit_refuted :
  run_facet "k {a @}" = Ok [FStructStart; FKey None (Some (lit "k")) []; FStructStart; FKey None (Some (lit "a")) []; FTag None; FScalar SUnit; FStructEnd; FStructEnd] /\
  run_facet "k @t{a @}" = Ok [FStructStart; FKey None (Some (lit "k")) []; FTag (Some (lit "t")); FStructStart; FKey None (Some (lit "a")) []; FScalar SUnit; FStructEnd; FStructEnd] /\
  run_facet "k" = Ok [FStructStart; FKey None (Some (lit "k")) []; FScalar SUnit; FStructEnd] /\
  run_facet "@" = Ok [FStructStart; FKey None None []; FTag None; FScalar SUnit; FStructEnd].
Proof. repeat split; vm_compute; reflexivity. Qed.
Print Assumptions C58_unit_refuted.

(** ** C59 *)

(** Peeking returns the event that comes next and changes nothing about what comes. *)
Theorem C59_peek : forall F (parse_f64 : str -> option F) src c l, yields parse_f64 src c l ->
  exists c', peek_event parse_f64 src c = Ok (c', match l with e :: _ => AEvent e | [] => ANone end) /\ yields parse_f64 src c' l.
Proof. intros F p src c [|e l] H; [now apply peek_end|now apply peek_more]. Qed.
Print Assumptions C59_peek.

(** Skipping passes over exactly one value. *)
Theorem C59_skip : forall F (parse_f64 : str -> option F) src c v l1 l2, yields parse_f64 src c (l1 ++ l2) -> says v (map fe_kind l1) ->
  exists c', skip_value parse_f64 src c = Ok (c', None) /\ yields parse_f64 src c' l2.
Proof. intros. eapply skip_value_says; eauto. Qed.
Print Assumptions C59_skip.

(** Restoring gives the parser that was saved, whatever was done in between (other than saving and restoring). *)
Theorem C59_restore : forall F (parse_f64 : str -> option F) src p q, acts parse_f64 src (save p) q -> f_core (restore q) = f_core p.
Proof. intros F f src p q H. apply acts_saved in H. unfold restore. rewrite H. reflexivity. Qed.
Print Assumptions C59_restore.

Definition C59_src : str := lit "a (1 {b 2})".
Example C59_restore_example : exists (p q : facet unit), acts no_floats C59_src (save p) q /\ f_core q <> f_core p /\ f_core (restore q) = f_core p.
Proof.
  pose (c0 := facet_new (F := unit) (match run_events C59_src with Ok evs => evs | _ => [] end)). exists (mkfacet c0 None). eexists. split.
  - apply (act_hint _ _ _ HBool). eapply act_peek; [vm_compute; reflexivity|]. eapply act_next; [vm_compute; reflexivity|]. eapply act_next; [vm_compute; reflexivity|]. eapply act_skip; [vm_compute; reflexivity|]. apply act_none.
  - split; [vm_compute; discriminate|vm_compute; reflexivity].
Qed.
Definition C59_core : core unit := facet_new (match run_events (lit "a {b (1 @t)}
c 3") with Ok evs => evs | _ => [] end).
(** A state between the key [a] and its value. *)
Definition C59_at : core unit :=
  match next_event no_floats (lit "a {b (1 @t)}
c 3") C59_core with Ok (c, _) => match next_event no_floats (lit "a {b (1 @t)}
c 3") c with Ok (c', _) => c' | _ => c end | _ => C59_core end.
Example C59_example : exists l1 l2, yields no_floats (lit "a {b (1 @t)}
c 3") C59_at (l1 ++ l2) /\ says (CObj [CField None (Some (lit "b")) [] (CSeq [CText (lit "1"); CTag (lit "t") CUnit])]) (map fe_kind l1) /\
  map fe_kind l2 = [FKey None (Some (lit "c")) []; FScalar (SStr (lit "3")); FStructEnd].
Proof.
  assert (D : exists l, drain 30 (lit "a {b (1 @t)}
c 3") C59_at = Ok l /\ List.length l = 11) by (eexists; split; vm_compute; reflexivity).
  destruct D as (l & D & _). exists (firstn 8 l), (skipn 8 l). rewrite firstn_skipn. split; [eapply drain_yields; exact D|]. vm_compute in D. injection D as <-. split; [|vm_compute; reflexivity].
  cbn [firstn map fe_kind]. apply (says_obj _ [_; _; _; _; _; _]). apply (sf_cons None (Some (lit "b")) [] _ [] [_; _; _; _; _] []); [|constructor].
  apply (says_seq _ [_; _; _]). apply (si_cons _ _ [_] [_; _]); [constructor|]. apply (si_cons _ _ [_; _] []); [|constructor]. constructor. constructor.
Qed.

(** Two saved places: going back twice does not reach the first. *)
Theorem C59_nested_refuted : exists (p p1 p2 : facet unit) e1 e2,
  next_event no_floats C59_src (f_core (save p)) = Ok (f_core p1, AEvent e1) /\ f_saved p1 = f_saved (save p) /\
  next_event no_floats C59_src (f_core (save p1)) = Ok (f_core p2, AEvent e2) /\ f_saved p2 = f_saved (save p1) /\
  f_core (restore (restore p2)) <> f_core p.
Proof.
  pose (c0 := facet_new (F := unit) (match run_events C59_src with Ok evs => evs | _ => [] end)).
  pose (n := fun c : core unit => match next_event no_floats C59_src c with Ok (c', AEvent e) => (c', e) | _ => (c, mkfe (mkspan 0 0) FSeqEnd) end).
  exists (mkfacet c0 None), (mkfacet (fst (n c0)) (Some c0)), (mkfacet (fst (n (fst (n c0)))) (Some (fst (n c0)))), (snd (n c0)), (snd (n (fst (n c0)))).
  splits; try (vm_compute; reflexivity). vm_compute. discriminate.
Qed.
Print Assumptions C59_nested_refuted.

(** ** C60 *)

(** A scalar asked for with a hint is delivered as the value the hint gives it, and as its text if there is none. *)
Theorem C60_hint : forall F (parse_f64 : str -> option F) src c sp t l h, c_queue c = [] -> c_hint c = None ->
  yields parse_f64 src c (mkfe sp (FScalar (SStr t)) :: l) ->
  exists v c', next_event parse_f64 src (set_hint (Some h) c) = Ok (c', AEvent (mkfe sp (FScalar v))) /\ yields parse_f64 src c' l /\
    (means parse_f64 h t v \/ v = SStr t /\ forall w, ~ means parse_f64 h t w).
Proof.
  intros F p src c sp t l h Q H Y. destruct (next_hint p src c sp t l (Some h) Q H Y) as (c' & N & Y'). eexists _, c'. splits; [exact N|exact Y'|]. now apply parse_scalar_means.
Qed.
Print Assumptions C60_hint.

(** A text has one meaning at most. *)
Theorem C60_unique : forall F (parse_f64 : str -> option F) h t v w, means parse_f64 h t v -> means parse_f64 h t w -> v = w.
Proof. intros F p h t v w H1 H2. rewrite <- (proj2 (parse_scalar_means p h t v) (or_introl H1)). now apply parse_scalar_means; left. Qed.
Print Assumptions C60_unique.

Definition C60_src : str := lit "n -42".
Definition C60_after : nat -> core unit -> core unit := fix go n c :=
  match n with O => c | S n => match next_event no_floats C60_src c with Ok (c', _) => go n c' | _ => c end end.
Definition C60_core : core unit := C60_after 2 (facet_new (match run_events C60_src with Ok evs => evs | _ => [] end)).
Example C60_example : c_queue C60_core = [] /\ c_hint C60_core = None /\
  yields no_floats C60_src C60_core [mkfe (mkspan 2 5) (FScalar (SStr (lit "-42"))); mkfe (mkspan 0 0) FStructEnd] /\ means no_floats HI8 (lit "-42") (SI64 (-42)).
Proof.
  splits; [vm_compute; reflexivity|vm_compute; reflexivity|apply (drain_yields 5); vm_compute; reflexivity|].
  apply m_signed; [left; reflexivity| |lia]. apply (int_minus (lit "42") 42). split; [discriminate|]. split; [repeat constructor|reflexivity].
Qed.

(** Once a scalar was peeked at, a hint does not reach it any more but stays for the next one: here the second
    scalar is delivered as a number although it was asked for without a hint. *)
Theorem C60_peeked_refuted : exists (c c1 c2 c3 : core unit) e2 e3,
  c_queue c = [] /\ c_hint c = None /\
  peek_event no_floats (lit "k (1 2)") c = Ok (c1, AEvent (mkfe (mkspan 3 4) (FScalar (SStr (lit "1"))))) /\
  next_event no_floats (lit "k (1 2)") (set_hint (Some HI64) c1) = Ok (c2, AEvent e2) /\
  next_event no_floats (lit "k (1 2)") c2 = Ok (c3, AEvent e3) /\
  fe_kind e2 = FScalar (SStr (lit "1")) /\ fe_kind e3 = FScalar (SI64 2).
Proof.
  pose (src := lit "k (1 2)"). pose (n := fun c : core unit => match next_event no_floats src c with Ok (c', _) => c' | _ => c end).
  pose (c := n (n (n (facet_new (match run_events src with Ok evs => evs | _ => [] end))))).
  pose (c1 := match peek_event no_floats src c with Ok (c', _) => c' | _ => c end).
  exists c, c1, (n (set_hint (Some HI64) c1)), (n (n (set_hint (Some HI64) c1))), (mkfe (mkspan 3 4) (FScalar (SStr (lit "1")))), (mkfe (mkspan 5 6) (FScalar (SI64 2))).
  splits; vm_compute; reflexivity.
Qed.
Print Assumptions C60_peeked_refuted.

(** The hints for 128-bit numbers do not cover their range: a number that a [u128] holds is delivered as text. *)
Theorem C60_wide_refuted : exists t z, integer t z /\ (0 <= z < 2 ^ 128)%Z /\ parse_scalar no_floats (Some HU128) t = SStr t.
Proof.
  exists (lit "18446744073709551616"), (2 ^ 64)%Z. splits; [|lia|lia|vm_compute; reflexivity].
  apply (int_plain _ (2 ^ 64)%N). split; [discriminate|]. split; [repeat constructor|vm_compute; reflexivity].
Qed.
Print Assumptions C60_wide_refuted.
