(** C69-C70: facet's serializer, and expressions. *)
From Coq Require Import String.
From Verif Require Import Base BaseProofs TokModel LexModel LexSpec LexProofs PropLex ParseModel ParseSpec RunProofs PropParse TreeModel TreeSpec LinkProofs SchemaSpec
  GrammarSpec GrammarProofs GrammarSoundProofs GrammarTreeProofs GrammarRunProofs PropGrammar FmtModel FmtSpec FmtLexProofs FmtNodeProofs AgreeLex WriteSpec RelexProofs LexRunProofs FacetModel FacetSpec FacetProofs FacetDocProofs PropFacet FacetSerModel FacetSerSpec
  FacetSerReadProofs FacetSerWriteProofs ExprProofs.

(** ** C69 *)

(** The text of a struct is read back as a stream that says what the struct says. *)
Theorem C69_roundtrip_partial : forall F (parse_f64 : str -> option F) o fields,
  root_sound (o_heredoc o) fields -> fields <> [] ->
  exists l, stream parse_f64 (to_text o (VStruct fields)) l /\ says (said (VStruct fields)) (map fe_kind l).
Proof.
  intros F p o fields Hs Hne. set (u := to_text o (VStruct fields)) in *.
  destruct (root_doc o fields u (text_layout o fields Hs) (proj2 Hs)) as (ls & ds & evs & Hl & Hg & Ef & Hns).
  pose proof (lexd_lexemes _ _ Hl) as El. destruct (lexemes_good u ls El) as (Hok & _ & Hn & _).
  destruct (doc_runs u ls ds evs Hn Hg) as [fuel E]. assert (Hp : parses u evs) by (exists ls, fuel; auto).
  pose proof (gdoc_ok u ls ds evs Hg Hok) as P. pose proof (parses_spans u evs Hp) as S0. destruct (doc_tree _ _ _ _ Hg) as (_ & _ & D).
  destruct (doc_yields p u ds (filter not_comment evs) D) as (l & Y & H).
  - apply Forall_forall. intros e He. apply filter_In in He as [He _]. unfold spans_in in S0. rewrite Forall_forall in P, S0. unfold readable. destruct (P e He) as [Po Pe].
    destruct (ev_kind e); auto; apply on_slice; auto; apply (S0 e He).
  - exists l. split; [exists evs; split; [exact Hp|now apply yields_strip]|]. destruct H as [[-> ->]|H].
    + cbn in Ef. destruct fields; [congruence|discriminate].
    + unfold data_of in H. replace (filter (fun e => negb (schema_entry e)) ds) with ds in H; [rewrite Ef in H; exact H|].
      clear -Hns. induction Hns as [|e ds He _ IH]; [reflexivity|]. cbn [filter]. rewrite He. cbn [negb]. now f_equal.
Qed.
Print Assumptions C69_roundtrip_partial.

(** The document mode is not enough for a value that is not a struct; see C70. An example with most constructs. *)
Definition field (n : string) (d : data) : datafield := VField None (Some (lit n)) [] d.
Definition C69_fields : list datafield :=
  [VField None (Some (lit "name")) [lit "two lines"; lit "of docs"] (VText (lit "a ""quoted"" text"));
   field "port" (VWord (lit "-8080"));
   field "long" (VText (lit "one
two
three
"));
   field "mode" (VVariant (lit "Fast") (VStruct [field "a.b" (VBytes [222; 173]%N); VField (Some (lit "int")) None [] VUnit; VField (Some []) None [] (VSeq [])]));
   VField (Some (lit "key")) (Some (lit "with name")) [] (VSeq [VVariant (lit "A") (VVariant (lit "B") VUnit); VUnit; VText []; VWord (lit "true"); VVariant (lit "T") (VText (lit "x>y z"))])].

Lemma no_gt s : forallb (fun c => negb (c =? cGT)%N) s = true -> no_gt_word s.
Proof. intros Hs _ Hi. rewrite forallb_forall in Hs. apply Hs in Hi. discriminate. Qed.
Lemma no_dot s : forallb (fun c => negb (c =? cDOT)%N) s = true -> ~ In cDOT s.
Proof. intros Hs Hi. rewrite forallb_forall in Hs. apply Hs in Hi. discriminate. Qed.
Lemma is_tag n : match n with c :: r => is_tag_start c && forallb is_tag_char r | [] => false end = true -> tag_name n.
Proof. destruct n as [|c r]; intros H; [discriminate|]. apply andb_prop in H as [H1 H2]. now exists c, r. Qed.
Lemma no_last (n : str) c : last n 0%N <> c -> forall m, n <> m ++ [c].
Proof. intros H m ->. apply H. apply last_last. Qed.
Definition number_b (c : char) : bool :=
  ((48 <=? c) && (c <=? 57) || (65 <=? c) && (c <=? 90) || (97 <=? c) && (c <=? 122) || (c =? 43) || (c =? 45) || (c =? 46))%N.
Lemma is_number t : negb (str_eqb t []) && forallb number_b t = true -> number_text t.
Proof.
  intros H. apply andb_prop in H as [H1 H2]. split; [intros ->; discriminate|]. apply Forall_forall. intros c Hc. rewrite forallb_forall in H2. apply H2 in Hc. unfold number_b, number_char in *. lia.
Qed.
Lemma not_bare s : can_be_bare s = false -> no_gt_word s.
Proof. intros H Hb. congruence. Qed.

Ltac soundness := repeat match goal with
  | |- sound _ (VText _) => apply so_text
  | |- sound _ _ => econstructor
  | |- sound_items _ _ => econstructor
  | |- sound_fields _ _ => econstructor
  | |- key_sound _ _ _ => econstructor
  | |- no_gt_word _ => first [apply no_gt; reflexivity | apply not_bare; reflexivity]
  | |- tag_name _ => apply is_tag; reflexivity
  | |- number_text _ => apply is_number; reflexivity
  | |- NoDup _ => repeat (constructor; [cbn; intuition discriminate|]); constructor
  | |- payload_sound _ (VText _) => cbn [payload_sound]; apply no_last; discriminate
  | |- payload_sound _ (VBytes _) => cbn [payload_sound]; apply no_last; discriminate
  | |- payload_sound _ _ => exact I
  | |- _ < _ => vm_compute; lia
  | |- (_ < _)%N => reflexivity
  | |- true = true -> can_be_bare _ = true -> _ => intros _ _; apply no_dot; reflexivity
  | |- false = true -> _ => discriminate
  | |- true = true -> _ <> _ => intros _; discriminate
  | |- forall m, _ <> m ++ _ => apply no_last; discriminate
  | |- Forall _ _ => repeat constructor; try discriminate
  end.

Example C69_example : root_sound (o_heredoc default_opts) C69_fields /\
  to_text default_opts (VStruct C69_fields) = lit "/// two lines
/// of docs
name ""a \""quoted\"" text""

port -8080

long <<TEXT
one
two
three
TEXT

mode @Fast{a.b ""dead"", @int @, @ ()}

@key""with name"" (@A/@B @ """" true @T""x>y z"")
".
Proof.
  split.
  - split.
    + unfold C69_fields, field. repeat apply Forall_cons; [| | | | |apply Forall_nil]; (split; [|split]).
      all: try (left; reflexivity).
      all: try (left; soundness; fail).
      all: try (soundness; fail).
      * right. exists [lit "two lines"], (lit "of docs"). splits; [reflexivity|discriminate|]. repeat constructor; cbn; intuition discriminate.
      * right. eexists. splits; [reflexivity|soundness|exists (lit "one
two
three"); reflexivity|]. exists (lit "TEXT"). split; [vm_compute; auto|]. intros Ho. apply contains_sub_iff in Ho. discriminate.
    + intros a x b E. vm_compute in E. repeat (destruct a as [|? a]; cbn [app] in E; [congruence|injection E as _ E]). destruct a; discriminate.
  - vm_compute. reflexivity.
Qed.

(** ** C70 *)

(** In expression mode the parser reports no error exactly on sources that start with a value of the grammar (or
    have only comments), and its events are those of the value. *)
Theorem C70_accepts : forall src evs, clear_escapes src ->
  (parses_expr src evs /\ Forall no_err evs <->
   exists ls, lexemes src = Ok ls /\ (evs = [] /\ Forall is_remark ls \/ exists d rest, gexpr ls d evs rest)).
Proof.
  intros src evs Hu. split.
  - intros ((ls & fuel & El & E) & Hn). destruct (lexemes_good src ls El) as (Hok & _ & Hne & _). exists ls. split; [exact El|].
    destruct (expr_found src ls fuel evs Hne (GrammarSoundProofs.fine_all _ _ Hok (Hu ls El)) E Hn) as [H|(d & rest & H)]; eauto.
  - intros (ls & El & H). destruct (lexemes_good src ls El) as (Hok & _ & Hne & _). destruct H as [[-> Hr]|(d & rest & Hg)].
    + split; [|constructor]. exists ls. destruct (expr_silent src ls Hne Hr) as [fuel E]. eauto.
    + split; [|destruct Hg as (rem & l & tr & _ & _ & Hg & ->); apply Forall_app; split; [apply no_err_remarks; eapply (proj1 g_remarks); eassumption|apply no_err_val]].
      destruct (expr_runs src ls d evs rest Hne Hg) as [fuel E]. exists ls, fuel. auto.
Qed.
Print Assumptions C70_accepts.

(** The stream for an expression says what its value says; doc comments written behind a value on its line are
    excluded, see below. *)
Theorem C70_stream_partial : forall F (parse_f64 : str -> option F) src ls rem l d tr rest, lexemes src = Ok ls ->
  ls = rem ++ l -> Forall is_remark rem -> gval l d tr rest -> Forall plain_comment tr ->
  exists fl, stream_expr parse_f64 src fl /\ says (content_of d) (map fe_kind fl).
Proof.
  intros F p src ls rem l d tr rest El E Hr Hg Ht. destruct (expr_yields F p src ls d tr rem l rest El E Hr Hg Ht) as (fl & Y & S0).
  exists fl. split; [|exact S0]. exists (tr ++ val_events d). split; [|exact Y]. destruct (lexemes_good src ls El) as (_ & _ & Hne & _).
  destruct (expr_runs src ls d (tr ++ val_events d) rest Hne) as [fuel Ef]; [exists rem, l, tr; splits; auto|]. exists ls, fuel. auto.
Qed.
Print Assumptions C70_stream_partial.

(** Compact text: every value, not only a struct, is read back as an expression. *)
Theorem C70_roundtrip_partial : forall F (parse_f64 : str -> option F) d, sound (o_heredoc default_opts) d ->
  exists l, stream_expr parse_f64 (to_compact d) l /\ says (said d) (map fe_kind l).
Proof.
  intros F p d Hs. pose proof (value_layout (inline_opts default_opts) d Hs) as Hl. change (lay (inline_opts default_opts) d (to_compact d)) in Hl.
  destruct (proj1 (layout_rd (inline_opts default_opts)) d _ Hl 0 [] []) as (ls & dv & Hx & Hg & Ec & _).
  { apply softa_follow. split; [apply RelexProofs.ld_end; intros ? []|split; [exact I|right; exact I]]. }
  rewrite app_nil_r in Hx. rewrite <- Ec. eapply C70_stream_partial with (rem := []) (tr := []); eauto. now apply lexd_lexemes.
Qed.
Print Assumptions C70_roundtrip_partial.

(** A value in an example: a variant in a sequence, texts with line feeds and quotes. *)
Definition C70_value : data := VSeq [VVariant (lit "Move") (VStruct [field "x.y" (VWord (lit "1.5e3")); field "to" VUnit]); VText (lit "a>b
c"); VBytes []; VVariant (lit "err") VUnit].
Example C70_example : sound (o_heredoc default_opts) C70_value /\ to_compact C70_value = lit "(@Move{x.y 1.5e3, to @} ""a>b\nc"" """" @err)".
Proof. split; [unfold C70_value, field; soundness|vm_compute; reflexivity]. Qed.

Definition no_lf (t : str) : Prop := ~ In cLF t.
Lemma no_lf_app a b : no_lf a -> no_lf b -> no_lf (a ++ b).
Proof. intros A B H. apply in_app_or in H as [H|H]; auto. Qed.
Lemma no_lf_cons c b : c <> cLF -> no_lf b -> no_lf (c :: b).
Proof. intros A B [H|H]; auto. Qed.
Lemma no_lf_forallb (p : char -> bool) t : p cLF = false -> forallb p t = true -> no_lf t.
Proof. intros P H I. rewrite forallb_forall in H. specialize (H _ I). congruence. Qed.
Lemma hex_of_lf d : hex_of d <> cLF.
Proof. unfold hex_of. destruct (d <? 10)%N; lia. Qed.
Lemma escape_lf s : no_lf (escape_quoted s).
Proof.
  unfold escape_quoted. destruct (existsb (fun c => is_escaped c || is_control c) s) eqn:E.
  - clear E. intros H. apply in_flat_map in H as (c & _ & H). revert H. change (no_lf (escape_char c)). unfold escape_char.
    repeat match goal with |- context [if ?b then _ else _] => destruct b eqn:? end; cbn [app hex4]; repeat (apply no_lf_cons; [try apply hex_of_lf; try discriminate|]); try (now intros []).
    all: match goal with H : (_ =? cLF)%N = false |- _ => now apply N.eqb_neq in H end.
  - intros H. assert (existsb (fun c => is_escaped c || is_control c) s = true) as X by (apply existsb_exists; exists cLF; auto). congruence.
Qed.
Lemma quoted_lf s : no_lf (FmtModel.quoted_text s).
Proof. apply no_lf_cons; [discriminate|]. apply no_lf_app; [apply escape_lf|]. apply no_lf_cons; [discriminate|intros []]. Qed.
Lemma key_lf n : no_lf (FmtModel.key_text n).
Proof.
  unfold FmtModel.key_text. destruct (can_be_bare n) eqn:E; [|apply quoted_lf]. destruct n as [|c n]; [discriminate|]. unfold can_be_bare in E. apply andb_prop in E as [_ E]. apply negb_true_iff in E.
  intros H. assert (existsb bare_special (c :: n) = true) as X by (apply existsb_exists; exists cLF; auto). congruence.
Qed.
Lemma tag_lf n : tag_name n -> no_lf n.
Proof. intros (c & r & -> & Hc & Hr). apply no_lf_cons; [intros ->; discriminate|]. now apply (no_lf_forallb is_tag_char). Qed.
Lemma text_lf o q s : line_feeds s < 1 -> line_feeds s < o_heredoc o -> no_lf (FmtModel.scalar_text o q s).
Proof.
  intros H H0. assert (no_lf s) as N. { intros I. apply (count_occ_In N.eq_dec) in I. unfold line_feeds in H. lia. }
  assert (no_lf (FmtModel.scalar_text o true s)) as Q.
  { destruct (quoted_or_raw o s H0) as [->|(h & _ & _ & ->)]; [apply quoted_lf|].
    assert (no_lf (repeat cHASH h)) as R by (intros I; apply repeat_spec in I; discriminate).
    apply no_lf_cons; [discriminate|]. apply no_lf_app; [exact R|]. apply no_lf_cons; [discriminate|]. apply no_lf_app; [exact N|]. now apply no_lf_cons. }
  destruct q; [exact Q|]. unfold FmtModel.scalar_text. cbn [negb andb]. destruct (can_be_bare s); [exact N|exact Q].
Qed.
Lemma key_shown_lf tag name : key_sound false tag name -> no_lf (key_shown tag name).
Proof.
  intros H. destruct H as [n _ _| | |t T _|t n T _ _ F]; unfold key_shown; cbn [key_raw].
  - apply key_lf.
  - apply no_lf_cons; [discriminate|intros []].
  - apply no_lf_cons; [discriminate|intros []].
  - apply no_lf_cons; [discriminate|now apply tag_lf].
  - apply no_lf_cons; [discriminate|]. apply no_lf_app; [now apply tag_lf|]. apply no_lf_cons; [discriminate|]. apply no_lf_app; [|apply no_lf_cons; [discriminate|intros []]].
    intros I. rewrite Forall_forall in F. destruct (F _ I) as [X _]. lia.
Qed.
Lemma lay_lf o : 1 <= o_heredoc o -> (forall d t, lay o d t -> sound 1 d -> no_lf t) /\ (forall n d t, layc o n d t -> sound 1 d -> no_lf t) /\
  (forall g l u, lays o g l u -> sound_items 1 l -> no_lf u) /\ (forall f l u, layf o f l u -> sound_fields 1 l -> no_lf u).
Proof.
  intros Ho. apply (lay_all o (fun d t _ => sound 1 d -> no_lf t) (fun n d t _ => sound 1 d -> no_lf t) (fun g l u _ => sound_items 1 l -> no_lf u) (fun f l u _ => sound_fields 1 l -> no_lf u)).
  - intros _. apply no_lf_cons; [discriminate|intros []].
  - intros t [_ H] _ I. rewrite Forall_forall in H. specialize (H _ I). unfold number_char in H. lia.
  - intros q s H _ S. inversion S; subst. apply text_lf; auto.
  - intros b H _. apply no_lf_cons; [discriminate|]. apply no_lf_app; [|apply no_lf_cons; [discriminate|intros []]].
    intros I. apply in_flat_map in I as (x & _ & [I|[I|[]]]); now apply hex_of_lf in I.
  - intros l u _ IH S. inversion S; subst. apply no_lf_cons; [discriminate|]. apply no_lf_app; [now apply IH|apply no_lf_cons; [discriminate|intros []]].
  - intros l u _ IH _ S. inversion S; subst. apply no_lf_cons; [discriminate|]. apply no_lf_app; [now apply IH|apply no_lf_cons; [discriminate|intros []]].
  - intros n d t T _ IH S. inversion S; subst. apply no_lf_cons; [discriminate|]. apply no_lf_app; [now apply tag_lf|now apply IH].
  - intros n _ [].
  - intros n d t _ _ IH S. now apply IH.
  - intros n m d t T _ IH S. inversion S; subst. apply no_lf_cons; [discriminate|]. apply no_lf_cons; [discriminate|]. apply no_lf_app; [now apply tag_lf|now apply IH].
  - intros g _ [].
  - intros d r t u _ IH1 _ IH2 S. inversion S; subst. apply no_lf_app; auto.
  - intros g d r t u _ IH1 _ IH2 S. inversion S; subst. apply no_lf_cons; [discriminate|]. apply no_lf_app; auto.
  - intros f _ [].
  - intros f tag name d r t u K _ IH1 _ IH2 S. inversion S; subst. apply no_lf_app; [destruct f; [intros []|repeat (apply no_lf_cons; [discriminate|]); intros []]|].
    apply no_lf_app; [now apply key_shown_lf|]. apply no_lf_cons; [discriminate|]. apply no_lf_app; auto.
Qed.
Lemma sound_mono h k : h <= k -> (forall d, sound h d -> sound k d) /\ (forall l, sound_items h l -> sound_items k l) /\ (forall l, sound_fields h l -> sound_fields k l).
Proof.
  intros L. apply (sound_all h (fun d _ => sound k d) (fun l _ => sound_items k l) (fun l _ => sound_fields k l)); intros; constructor; auto. lia.
Qed.
(** Compact text is one line, if no text in the value has a line feed. Missing: texts with line feeds, for which see the refutation. *)
Theorem C70_one_line_partial : forall d, sound 1 d -> ~ In cLF (to_compact d).
Proof.
  intros d S. assert (1 <= o_heredoc default_opts) as L by (cbn; lia). refine (proj1 (lay_lf (inline_opts default_opts) L) d _ _ S).
  apply (value_layout (inline_opts default_opts)). now apply (proj1 (sound_mono 1 _ L)).
Qed.
Print Assumptions C70_one_line_partial.
Example C70_one_line_example : let d := VSeq [VVariant (lit "Move") (VStruct [field "a
b" (VWord (lit "1.5e3")); field "to" VUnit]); VText (lit "a ""b"" c")] in
  sound 1 d /\ to_compact d = lit "(@Move{""a\nb"" 1.5e3, to @} ""a \""b\"" c"")".
Proof. split; [unfold field; soundness|vm_compute; reflexivity]. Qed.
(** Finding: compact text is documented as a single line, but a text with a line feed and three more characters to escape is written as a raw string over two lines,
    and one with two line feeds as a heredoc. *)
Theorem C70_one_line_refuted : exists d e, sound (o_heredoc default_opts) d /\ In cLF (to_compact d) /\
  to_compact (VSeq [VText e; VUnit]) = lit "(<<TEXT" ++ [cLF] ++ e ++ [cLF] ++ lit "TEXT @)".
Proof.
  exists (VText (lit "a
""b"" 'c' \")), (lit "x

y"). split; [soundness|]. split; [vm_compute; tauto|vm_compute; reflexivity].
Qed.
Print Assumptions C70_one_line_refuted.

(** ** What is not read back *)

(** The events a content is said with. *)
Fixpoint utter (c : content) : list (fkind unit) :=
  match c with
  | CText t => [FScalar (SStr t)]
  | CUnit => [FScalar SUnit]
  | CTag n x => FTag (Some n) :: utter x
  | FacetSpec.CSeq l => FSeqStart :: flat_map utter l ++ [FSeqEnd]
  | CObj l => FStructStart :: flat_map utter_field l ++ [FStructEnd]
  end
with utter_field (f : FacetSpec.field) : list (fkind unit) :=
  match f with CField tag name docs c => FKey tag name docs :: utter c end.

Fixpoint utter_says (c : content) : says c (utter c).
Proof.
  destruct c as [t| |l|l|n x]; cbn [utter].
  - constructor.
  - constructor.
  - constructor. induction l as [|c l IH]; cbn [flat_map]; constructor; auto.
  - constructor. induction l as [|[tag name docs c] l IH]; cbn [flat_map utter_field]; [constructor|]. rewrite <- app_comm_cons. constructor; auto.
  - constructor. apply utter_says.
Qed.

Definition run_expr_events (src : str) : res (list event) := do ls <- lexemes src; events_from (4 + 8 * List.length src) (parser_new_expr src ls).
Lemma run_parses_expr src evs : run_expr_events src = Ok evs -> parses_expr src evs.
Proof. unfold run_expr_events. intros H. apply bind_inv in H as (ls & El & H). exists ls. eauto. Qed.
Definition run_stream (expr : bool) (src : str) : res (list (fevent unit)) :=
  do evs <- (if expr then run_expr_events src else run_events src); drain (10 + 3 * List.length evs) src (if expr then facet_new_expr evs else facet_new evs).
Definition streams (expr : bool) (src : str) (l : list (fevent unit)) : Prop := if expr then stream_expr no_floats src l else stream no_floats src l.
Lemma run_streams expr src l : run_stream expr src = Ok l -> streams expr src l.
Proof.
  unfold run_stream. intros H. apply bind_inv in H as (evs & Ee & H). destruct expr; (exists evs; split; [|now apply drain_yields in H]); [now apply run_parses_expr|now apply run_parses].
Qed.

(** [text] is what the serializer writes for [d]; it is read without error, but says [c] and not what [d] says. *)
Definition changed (expr : bool) (d : data) (text : string) (c : content) : Prop :=
  (if expr then to_compact d else to_text default_opts d) = lit text /\ c <> said d /\
  exists l, streams expr (lit text) l /\ says c (map fe_kind l) /\ ~ says (said d) (map fe_kind l).
(** The text of [d] is not accepted. *)
Definition refused (expr : bool) (d : data) (text : string) : Prop :=
  (if expr then to_compact d else to_text default_opts d) = lit text /\
  exists evs, (if expr then parses_expr (lit text) evs else parses (lit text) evs) /\ ~ Forall no_err evs.

Lemma changed_by (expr : bool) d text c l : (if expr then to_compact d else to_text default_opts d) = lit text -> c <> said d -> run_stream expr (lit text) = Ok l -> map fe_kind l = utter c -> changed expr d text c.
Proof.
  intros E Hc Hr Hu. split; [exact E|split; [exact Hc|]]. exists l. split; [now apply run_streams|]. rewrite Hu. split; [apply utter_says|]. intros H. apply Hc. eapply C58_unambiguous; [apply utter_says|exact H].
Qed.
Ltac change_tac := eapply changed_by; [vm_compute; reflexivity|discriminate|vm_compute; reflexivity|vm_compute; reflexivity].
Definition has_err (e : event) : bool := match ev_kind e with EvError _ => true | _ => false end.
Lemma refused_by (expr : bool) d text evs : (if expr then to_compact d else to_text default_opts d) = lit text -> (if expr then run_expr_events (lit text) else run_events (lit text)) = Ok evs ->
  existsb has_err evs = true -> refused expr d text.
Proof.
  intros E Hr He. split; [exact E|]. exists evs. split; [destruct expr; [now apply run_parses_expr|now apply run_parses]|].
  intros H. apply existsb_exists in He as (e & Hi & He). rewrite Forall_forall in H. specialize (H e Hi). unfold has_err, no_err in *. destruct (ev_kind e); try discriminate. eapply H. reflexivity.
Qed.
Ltac refuse_tac := eapply refused_by; [vm_compute; reflexivity|vm_compute; reflexivity|vm_compute; reflexivity].

(** Numbers and booleans are written directly behind the name of a newtype variant, and become part of it. *)
Theorem C69_number_variant_refuted :
  changed true (VVariant (lit "Port") (VWord (lit "8080"))) "@Port8080" (CTag (lit "Port8080") CUnit) /\
  changed false (VStruct [field "on" (VVariant (lit "Flag") (VWord (lit "true")))]) "on @Flagtrue
" (CObj [CField None (Some (lit "on")) [] (CTag (lit "Flagtrue") CUnit)]).
Proof. split; change_tac. Qed.
Print Assumptions C69_number_variant_refuted.

(** A text behind a variant whose name ends in [r] is read as a raw string of a shorter name. *)
Theorem C69_raw_variant_refuted :
  changed true (VVariant (lit "error") (VText (lit "x"))) "@error""x""" (CTag (lit "erro") (CText (lit "x"))).
Proof. change_tac. Qed.
Print Assumptions C69_raw_variant_refuted.

(** A root key with a dot is read as a path, and a word with [>] as an attribute. *)
Theorem C69_word_refuted :
  changed false (VStruct [field "a.b" (VText (lit "c"))]) "a.b c
" (CObj [CField None (Some (lit "a")) [] (CObj [CField None (Some (lit "b")) [] (CText (lit "c"))])]) /\
  changed true (VStruct [field "a" (VText (lit "x>y"))]) "{a x>y}" (CObj [CField None (Some (lit "a")) [] (CObj [CField None (Some (lit "x")) [] (CText (lit "y"))])]).
Proof. split; change_tac. Qed.
Print Assumptions C69_word_refuted.

(** The name in a key with a tag is not escaped. *)
Theorem C69_tagged_name_refuted :
  changed true (VStruct [VField (Some (lit "t")) (Some (lit "a\nb")) [] (VWord (lit "1"))]) "{@t""a\nb"" 1}" (CObj [CField (Some (lit "t")) (Some (lit "a
b")) [] (CText (lit "1"))]) /\
  refused true (VStruct [VField (Some (lit "t")) (Some (lit "a""b")) [] (VWord (lit "1"))]) "{@t""a""b"" 1}".
Proof. split; [change_tac|refuse_tac]. Qed.
Print Assumptions C69_tagged_name_refuted.

(** A long text is written as a heredoc: it gains a line feed if it has none at its end, and in brackets, or
    behind a tag, the closing bracket ends up in its last line or the heredoc is not seen at all. *)
Definition long_text : str := lit "a
b
c
".
Theorem C69_heredoc_refuted :
  changed false (VStruct [field "k" (VText (lit "a
b
c"))]) "k <<TEXT
a
b
c
TEXT
" (CObj [CField None (Some (lit "k")) [] (CText long_text)]) /\
  refused false (VStruct [field "k" (VSeq [VText long_text])]) "k (<<TEXT
a
b
c
TEXT)
" /\
  refused false (VStruct [field "a" (VStruct [field "k" (VText long_text)])]) "a {k <<TEXT
a
b
c
TEXT}
" /\
  refused false (VStruct [field "k" (VVariant (lit "v") (VText long_text))]) "k @v<<TEXT
a
b
c
TEXT
".
Proof. split; [change_tac|split; [|split]; refuse_tac]. Qed.
Print Assumptions C69_heredoc_refuted.

(** An empty struct is written as an empty document, whose stream has no events. *)
Theorem C69_empty_refuted : to_text default_opts (VStruct []) = [] /\ stream no_floats [] [] /\ ~ says (F := unit) (said (VStruct [])) [].
Proof. split; [reflexivity|split; [apply (run_streams false); vm_compute; reflexivity|]]. intros H. inversion H. Qed.
Print Assumptions C69_empty_refuted.

(** In expression mode, whatever stands behind the first value is ignored, even an unbalanced bracket. *)
Theorem C70_trailing_refuted : exists l, stream_expr no_floats (lit "1 2 )} ""open") l /\ map fe_kind l = [FScalar (SStr (lit "1"))].
Proof. eexists. split; [apply (run_streams true); vm_compute; reflexivity|reflexivity]. Qed.
Print Assumptions C70_trailing_refuted.

(** A doc comment behind an inner value is handed over with the first key of the expression. *)
Theorem C70_docs_refuted : exists l, stream_expr no_floats (lit "{first {a 1 /// about a
}}") l /\ map fe_kind l = utter (CObj [CField None (Some (lit "first")) [lit "about a"] (CObj [CField None (Some (lit "a")) [] (CText (lit "1"))])]).
Proof. eexists. split; [apply (run_streams true); vm_compute; reflexivity|reflexivity]. Qed.
Print Assumptions C70_docs_refuted.

Definition C70_src : str := lit "// a remark
@point{x 1 // first
y (2 @n)} and more".
Example C70_accepts_example : clear_escapes C70_src /\ exists evs, parses_expr C70_src evs /\ Forall no_err evs /\
  flat_map (fun e => if not_comment e then [] else [e]) evs <> [] /\ map ev_kind (filter not_comment evs) =
  [EvTagStart (lit "point"); EvObjStart; EvEntryStart; EvKey None (Some (lit "x")) Bare; EvScalar (lit "1") Bare; EvEntryEnd;
   EvEntryStart; EvKey None (Some (lit "y")) Bare; EvSeqStart; EvScalar (lit "2") Bare; EvTagStart (lit "n"); EvTagEnd; EvSeqEnd; EvEntryEnd; EvObjEnd; EvTagEnd].
Proof.
  split; [apply no_bsl_u_clear, no_bsl_u; not_in|]. eexists. split; [apply run_parses_expr; vm_compute; reflexivity|].
  split; [repeat (constructor; [intros k; discriminate|]); constructor|]. split; [discriminate|reflexivity].
Qed.
