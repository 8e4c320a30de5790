(** What facet-styx's serializer writes is one of the layouts. *)
From Coq Require Import String.
From Verif Require Import Base BaseProofs TokModel LexModel LexSpec FmtModel FmtSpec.
From Verif Require Import ParseModel ParseSpec TreeModel TreeSpec GrammarSpec WriteSpec RoundProofs WriteProofs.
From Verif Require Import FacetModel FacetSpec FacetSerModel FacetSerSpec FacetSerReadProofs.
Notation length := List.length.

Fixpoint drive_items (l : list data) (s : ser) : ser := match l with [] => s | x :: r => drive_items r (drive false x s) end.
Fixpoint drive_fields (l : list datafield) (s : ser) : ser :=
  match l with [] => s | VField t n docs x :: r => drive_fields r (drive false x (ser_key t n docs s)) end.
Lemma drive_seq b l s : drive b (VSeq l) s = ser_end_seq (drive_items l (if b then ser_seq_after_tag s else ser_begin_seq s)).
Proof. reflexivity. Qed.
Lemma drive_struct b l s : drive b (VStruct l) s = ser_end_struct (drive_fields l (if b then ser_struct_after_tag s else ser_begin_struct s)).
Proof. reflexivity. Qed.

Section Writes.
Variable o : opts.

Definition flat_stack (st : list ctx) : Prop := match st with FmtModel.CSeq _ i :: _ => i = true | _ => True end.
(** The gap in front of a value. *)
Definition gapped (st : list ctx) (sk : bool) (g : str) : Prop :=
  g = [] /\ (sk = true \/ forall i r, st <> FmtModel.CSeq false i :: r) \/ g = [cSP] /\ exists i r, st = FmtModel.CSeq false i :: r.

Definition wr (d : data) : Prop := forall out st sk q, flat_stack st -> exists g t sk' q',
  drive false d (mkser (mkw out st o sk q) false false) = mkser (mkw (out ++ g ++ t) (seq_not_first st) o sk' q') false false /\
  lay o d t /\ gapped st sk g /\ (sk' = true -> boxed d = true).
Definition wrp (n : str) (d : data) : Prop := forall out st, flat_stack st -> seq_not_first st = st -> exists t sk' q',
  drive true d (mkser (mkw out st o true true) false true) = mkser (mkw (out ++ t) st o sk' q') false false /\
  layc o n d t /\ (sk' = true -> boxed d = true).
Definition wrs (l : list data) : Prop := forall out first r sk q, exists u first' sk' q',
  drive_items l (mkser (mkw out (FmtModel.CSeq first true :: r) o sk q) false false) = mkser (mkw (out ++ u) (FmtModel.CSeq first' true :: r) o sk' q') false false /\
  forall g, (first = true -> g = true) -> (sk = true -> g = true) -> lays o g l u.
Definition wrf (l : list datafield) : Prop := forall out f cms br r sk q, exists u f' cms' sk' q',
  drive_fields l (mkser (mkw out (CStruct f false false true cms br :: r) o sk q) false false) = mkser (mkw (out ++ u) (CStruct f' false false true cms' br :: r) o sk' q') false false /\
  layf o f l u.

Lemma gapped_before out st sk q : flat_stack st -> exists g, gapped st sk g /\ before_value (mkw out st o sk q) = mkw (out ++ g) (seq_not_first st) o false q.
Proof.
  intros H. rewrite before_value_eq by exact H. eexists. split; [|reflexivity]. unfold gapped, gap. cbn [w_skip w_stack]. destruct sk; [left; auto|]. destruct st as [|[? ? ? ? ? ?|[] i] r].
  - left. split; [reflexivity|]. right. discriminate.
  - left. split; [reflexivity|]. right. discriminate.
  - left. split; [reflexivity|]. right. discriminate.
  - right. eauto.
Qed.
Lemma gapped_skip st sk g : gapped st false g -> gapped st sk g.
Proof. intros [[-> [H|H]]|H]; [discriminate|left; auto|now right]. Qed.
Lemma not_first_twice st : seq_not_first (seq_not_first st) = seq_not_first st.
Proof. destruct st as [|[? ? ? ? ? ?|? ?] r]; reflexivity. Qed.
Lemma flat_not_first st : flat_stack st -> flat_stack (seq_not_first st).
Proof. destruct st as [|[? ? ? ? ? ?|? ?] r]; auto. Qed.

Lemma key_inline tag name out f cms br r sk q : key_sound false tag name -> exists cms',
  ser_key tag name [] (mkser (mkw out (CStruct f false false true cms br :: r) o sk q) false false) =
  mkser (mkw (out ++ (if f then [] else [cCOMMA; cSP]) ++ key_shown tag name ++ [cSP]) (CStruct false false false true cms' br :: r) o false false) false false.
Proof.
  intros Hk. assert (K : forall k, exists cms', field_key_raw k (mkw out (CStruct f false false true cms br :: r) o false false) =
    mkw (out ++ (if f then [] else [cCOMMA; cSP]) ++ k ++ [cSP]) (CStruct false false false true cms' br :: r) o false false).
  { intros k. unfold field_key_raw. cbn [w_stack negb andb orb]. destruct f; cbn [negb andb orb]; eexists; unfold put, set_stack; cbn; rewrite <- ?app_assoc; reflexivity. }
  unfold ser_key, key_shown. cbn [s_w s_root clear_skip_before_value set_flags w_out w_stack w_opts].
  destruct Hk; cbn [key_raw]; match goal with |- context [field_key_raw ?k _] => destruct (K k) as [c E] | |- context [field_key ?n _] => destruct (K (FmtModel.key_text n)) as [c E]; unfold field_key end; exists c; unfold clear_skip_before_value, set_flags; cbn [w_out w_stack w_opts]; rewrite E; reflexivity.
Qed.

Lemma gap_lays st first r sk g d t rest u : st = FmtModel.CSeq first true :: r -> gapped st sk g -> lay o d t -> lays o (boxed d) rest u ->
  forall b, (first = true -> b = true) -> (sk = true -> b = true) -> lays o b (d :: rest) ((g ++ t) ++ u).
Proof.
  intros -> [[-> H]|[-> _]] Hl Hu b H1 H2; cbn [app].
  - assert (b = true) as -> by (destruct H as [->|H]; [auto|]; destruct first; [auto|]; now destruct (H true r)). now apply ly_glue.
  - now apply ly_space.
Qed.

Lemma writes_sound : (forall d, sound (o_heredoc o) d -> wr d /\ forall n, payload_sound n d -> wrp n d) /\
  (forall l, sound_items (o_heredoc o) l -> wrs l) /\ (forall l, sound_fields (o_heredoc o) l -> wrf l).
Proof.
  apply sound_all.
  - split.
    + intros out st sk q Hf. destruct (gapped_before out st sk q Hf) as (g & Hg & E). exists g, [cAT], false, q. cbn [drive ser_unit s_tag s_w]. unfold write_null. rewrite E.
      splits; [unfold put; cbn; now rewrite <- app_assoc|apply l_unit|exact Hg|discriminate].
    + intros n _ out st Hf Hs. exists [], false, false. splits; [cbn; now rewrite app_nil_r|apply lc_unit|discriminate].
  - intros t Ht. split; [|intros n []]. intros out st sk q Hf. destruct (gapped_before out st sk q Hf) as (g & Hg & E). exists g, t, false, q. cbn [drive ser_word s_w]. unfold ser_word, write_word. cbn [s_w]. rewrite E.
    splits; [unfold put; cbn; now rewrite <- app_assoc|now apply l_word|exact Hg|discriminate].
  - intros s H1 H2. split.
    + intros out st sk q Hf. destruct (gapped_before out st sk q Hf) as (g & Hg & E). exists g, (scalar_text o q s), false, false. cbn [drive]. unfold ser_text, write_string. cbn [s_w]. rewrite E.
      splits; [unfold put, set_flags; cbn [w_out w_stack w_opts w_skip w_quote]; now rewrite <- app_assoc|now apply l_text|exact Hg|discriminate].
    + intros n Hn out st Hf Hs. exists (scalar_text o true s), false, false. cbn [drive]. unfold ser_text, write_string, before_value. cbn [s_w w_skip]. unfold put, set_flags, set_stack. cbn [w_out w_stack w_opts w_skip w_quote]. rewrite Hs.
      splits; [reflexivity|apply lc_pay; [split; [reflexivity|exact Hn]|now apply l_text]|discriminate].
  - intros b Hb. split.
    + intros out st sk q Hf. destruct (gapped_before out st sk q Hf) as (g & Hg & E). exists g, (cDQ :: flat_map hex_byte b ++ [cDQ]), false, q. cbn [drive]. unfold ser_bytes, write_bytes. cbn [s_w]. rewrite E.
      splits; [unfold put; cbn [w_out w_stack w_opts w_skip w_quote]; now rewrite <- app_assoc|now apply l_bytes|exact Hg|discriminate].
    + intros n Hn out st Hf Hs. exists (cDQ :: flat_map hex_byte b ++ [cDQ]), false, true. cbn [drive]. unfold ser_bytes, write_bytes, before_value. cbn [s_w w_skip]. unfold put, set_flags, set_stack. cbn [w_out w_stack w_opts w_skip w_quote]. rewrite Hs.
      splits; [reflexivity|apply lc_pay; [exact Hn|now apply l_bytes]|discriminate].
  - intros l _ IH. split.
    + intros out st sk q Hf. rewrite drive_seq. unfold ser_begin_seq, begin_seq. cbn [s_w]. unfold clear_skip_before_value, set_flags. cbn [w_out w_stack w_opts].
      destruct (gapped_before out st false false Hf) as (g & Hg & E). rewrite E. unfold put, push_ctx, set_stack. cbn [w_out w_stack w_opts w_skip w_quote].
      destruct (IH ((out ++ g) ++ [cLP]) true (seq_not_first st) false false) as (u & f' & sk' & q' & E2 & Hu). rewrite E2. exists g, (cLP :: u ++ [cRP]), sk', q'.
      splits; [|apply l_seq, Hu; auto|now apply gapped_skip|auto]. unfold ser_end_seq, end_seq, put, set_stack. cbn [s_w s_root s_tag w_stack w_out w_opts w_skip w_quote]. rewrite andb_false_r. cbn [andb w_out]. now rewrite <- !app_assoc.
    + intros n _ out st Hf Hs. rewrite drive_seq. unfold ser_seq_after_tag, begin_seq_after_tag, put, push_ctx, set_stack, set_flags. cbn [s_w s_root w_out w_stack w_opts w_skip w_quote].
      destruct (IH (out ++ [cLP]) true st true false) as (u & f' & sk' & q' & E2 & Hu). rewrite E2. exists (cLP :: u ++ [cRP]), sk', q'.
      splits; [|apply lc_pay; [exact I|apply l_seq, Hu; auto]|auto]. unfold ser_end_seq, end_seq, put, set_stack. cbn [s_w s_root s_tag w_stack w_out w_opts w_skip w_quote]. rewrite andb_false_r. cbn [andb w_out]. now rewrite <- !app_assoc.
  - intros l _ IH Hnd. split.
    + intros out st sk q Hf. rewrite drive_struct. unfold ser_begin_struct, begin_struct. cbn [s_w s_root]. unfold clear_skip_before_value, set_flags. cbn [w_out w_stack w_opts].
      destruct (gapped_before out st false false Hf) as (g & Hg & E). rewrite E. unfold put, push_ctx, set_stack. cbn [w_out w_stack w_opts w_skip w_quote].
      destruct (IH ((out ++ g) ++ [cLB]) true [] (Some (length ((out ++ g) ++ [cLB]))) (seq_not_first st) false false) as (u & f' & cms & sk' & q' & E2 & Hu). rewrite E2. exists g, (cLB :: u ++ [cRB]), sk', q'.
      splits; [|apply l_struct; assumption|now apply gapped_skip|auto]. unfold ser_end_struct, end_struct, put, set_stack. cbn [s_w s_root s_tag w_stack w_out w_opts w_skip w_quote negb andb orb]. rewrite andb_false_r. cbn [w_out w_stack w_opts w_skip w_quote]. now rewrite <- !app_assoc.
    + intros n _ out st Hf Hs. rewrite drive_struct. unfold ser_struct_after_tag, begin_struct_after_tag, put, push_ctx, set_stack, set_flags. cbn [s_w s_root w_out w_stack w_opts w_skip w_quote].
      destruct (IH (out ++ [cLB]) true [] (Some (length (out ++ [cLB]))) st true false) as (u & f' & cms & sk' & q' & E2 & Hu). rewrite E2. exists (cLB :: u ++ [cRB]), sk', q'.
      splits; [|apply lc_pay; [exact I|apply l_struct; assumption]|auto]. unfold ser_end_struct, end_struct, put, set_stack. cbn [s_w s_root s_tag w_stack w_out w_opts w_skip w_quote negb andb orb]. rewrite andb_false_r. cbn [w_out w_stack w_opts w_skip w_quote]. now rewrite <- !app_assoc.
  - intros n d Hn Hp _ [_ IH]. specialize (IH n Hp). split.
    + intros out st sk q Hf. cbn [drive]. unfold ser_tag, write_tag. cbn [s_tag s_w]. destruct (gapped_before out st sk q Hf) as (g & Hg & E). rewrite E. unfold set_flags, put. cbn [w_out w_stack w_opts].
      destruct (IH ((out ++ g) ++ cAT :: n) (seq_not_first st) (flat_not_first _ Hf) (not_first_twice st)) as (t & sk' & q' & E2 & Ht & Hb). rewrite E2. exists g, (cAT :: n ++ t), sk', q'.
      splits; [now rewrite <- !app_assoc|now apply l_tag|exact Hg|exact Hb].
    + intros m _ out st Hf Hs. cbn [drive]. unfold ser_tag, write_tag_chain_segment. cbn [s_tag s_w]. unfold set_flags, put. cbn [w_out w_stack w_opts].
      destruct (IH (out ++ cSLASH :: cAT :: n) st Hf Hs) as (t & sk' & q' & E2 & Ht & Hb). rewrite E2. exists (cSLASH :: cAT :: n ++ t), sk', q'.
      splits; [now rewrite <- !app_assoc|now apply lc_chain|exact Hb].
  - intros out first r sk q. exists [], first, sk, q. split; [cbn; now rewrite app_nil_r|]. intros. apply ly_nil.
  - intros d l _ [IHd _] _ IHl out first r sk q. cbn [drive_items]. destruct (IHd out (FmtModel.CSeq first true :: r) sk q eq_refl) as (g & t & sk1 & q1 & E & Hl & Hg & Hb). rewrite E. cbn [seq_not_first].
    destruct (IHl (out ++ g ++ t) false r sk1 q1) as (u & f' & sk' & q' & E2 & Hu). rewrite E2. exists ((g ++ t) ++ u), f', sk', q'. split; [now rewrite <- !app_assoc|]. intros b. eapply gap_lays; eauto. apply Hu; [discriminate|exact Hb].
  - intros out f cms br r sk q. exists [], f, cms, sk, q. split; [cbn; now rewrite app_nil_r|apply lf_nil].
  - intros tag name d l Hk _ [IHd _] _ IHl out f cms br r sk q. cbn [drive_fields]. destruct (key_inline tag name out f cms br r sk q Hk) as [c1 E1]. rewrite E1.
    set (st := CStruct false false false true c1 br :: r). set (out1 := out ++ _). destruct (IHd out1 st false false I) as (g & t & sk1 & q1 & E & Hl & Hg & Hb). rewrite E. cbn [st seq_not_first].
    assert (g = []) as -> by (destruct Hg as [[-> _]|(_ & i & r' & E')]; [reflexivity|discriminate]). destruct (IHl (out1 ++ [] ++ t) false c1 br r sk1 q1) as (u & f' & cms' & sk' & q' & E2 & Hu).
    unfold st in *. cbn [seq_not_first]. rewrite E2. eexists _, f', cms', sk', q'. split; [|apply lf_cons; eassumption]. unfold out1. cbn [app]. now rewrite <- !app_assoc.
Qed.

(** ** The root *)
Lemma key_root tag name docs out f multi sk q : key_sound true tag name -> docs_sound docs -> exists m',
  ser_key tag name docs (mkser (mkw out [root_ctx f multi] o sk q) false false) =
  mkser (mkw (out ++ (if f then [] else [cLF; cLF]) ++ flat_map doc_line_text docs ++ key_shown tag name ++ [cSP]) [root_ctx false m'] o false false) false false.
Proof.
  intros Hk Hd. unfold ser_key. cbn [s_w s_root clear_skip_before_value set_flags w_out w_stack w_opts].
  assert (K : forall k, field_key_raw k (mkw out [root_ctx f multi] o false false) = mkw (out ++ (if f then [] else [cLF; cLF]) ++ k ++ [cSP]) [root_ctx false multi] o false false) by (intros k; now apply field_key_root).
  destruct Hd as [->|(ls & l & -> & Hl & Hf)].
  - exists multi. destruct Hk; unfold key_shown; cbn [key_raw flat_map app]; unfold field_key, clear_skip_before_value, set_flags; cbn [w_out w_stack w_opts]; rewrite K; reflexivity.
  - pose proof (str_lines_join ls l Hl Hf) as EL. exists true.
    assert (D : forall k, doc_and_key_raw (join [cLF] (ls ++ [l])) k (mkw out [root_ctx f multi] o false false) = mkw (out ++ (if f then [] else [cLF; cLF]) ++ flat_map doc_line_text (ls ++ [l]) ++ k ++ [cSP]) [root_ctx false true] o false false).
    { intros k. exact (doc_and_key_root _ k (mkw out [root_ctx f multi] o false false) f multi ls l eq_refl EL). }
    unfold clear_skip_before_value, set_flags; cbn [w_out w_stack w_opts]. destruct (ls ++ [l]) as [|x docs] eqn:Ex; [now destruct ls|].
    destruct Hk; unfold key_shown; cbn [key_raw]; rewrite D; reflexivity.
Qed.

Lemma root_writes l : Forall (fun f => match f with VField tag name docs d => key_sound true tag name /\ docs_sound docs /\ root_value (o_heredoc o) d end) l ->
  forall out f multi sk q, exists (u : str) f' m' sk' q', drive_fields l (mkser (mkw out [root_ctx f multi] o sk q) false false) = mkser (mkw (out ++ u) [root_ctx f' m'] o sk' q') false false /\
    layr o f l (u ++ if f' then [] else [cLF]).
Proof.
  induction 1 as [|[tag name docs d] l (Hk & Hd & Hv) _ IH]; intros out f multi sk q.
  - exists [], f, multi, sk, q. split; [cbn; now rewrite app_nil_r|]. cbn [app]. apply lr_nil.
  - cbn [drive_fields]. destruct (key_root tag name docs out f multi sk q Hk Hd) as [m1 E1]. rewrite E1. set (out1 := out ++ _).
    assert (exists t sk1 q1, drive false d (mkser (mkw out1 [root_ctx false m1] o false false) false false) = mkser (mkw (out1 ++ t) [root_ctx false m1] o sk1 q1) false false /\
      (lay o d t \/ exists s, d = VText s /\ line_as s t)) as (t & sk1 & q1 & E & Ht).
    { destruct Hv as [Hv|(s & -> & Hg & He & Hm)].
      - destruct (proj1 (proj1 writes_sound d Hv) out1 [root_ctx false m1] false false I) as (g & t & sk1 & q1 & E & Hl & Hg & _).
        assert (g = []) as -> by (destruct Hg as [[-> _]|(_ & i & r' & E')]; [reflexivity|discriminate]). eauto 8.
      - exists (scalar_text o false s), false, false. split; [reflexivity|]. right. exists s. split; [reflexivity|]. now apply line_text_as. }
    rewrite E. destruct (IH (out1 ++ t) false m1 sk1 q1) as (u & f' & m' & sk' & q' & E2 & Hu). rewrite E2. eexists _, f', m', sk', q'. split; [unfold out1; rewrite <- !app_assoc; reflexivity|].
    assert (Forall (fun x => ~ In cLF x /\ ~ In cCR x) docs) as Hdl by (destruct Hd as [->|(ls & l0 & -> & _ & Hf)]; [constructor|exact Hf]).
    pose proof (lr_cons o f tag name docs d l t _ Hk Hdl Ht Hu) as L. rewrite <- !app_assoc. cbn [app]. rewrite <- ?app_assoc in L |- *. exact L.
Qed.

Lemma layr_line l f u : layr o f l u -> f = true /\ l = [] /\ u = [] \/ exists a, u = a ++ [cLF].
Proof.
  induction 1 as [f|f tag name docs d r t u Hk Hd Hv _ IH]; [destruct f; [left; auto|right; now exists []]|right]. destruct IH as [(H & _)|(a & ->)]; [discriminate|].
  exists ((if f then [] else [cLF; cLF]) ++ flat_map doc_line_text docs ++ key_shown tag name ++ cSP :: t ++ a). rewrite <- !app_assoc. cbn [app]. now rewrite <- !app_assoc.
Qed.

Lemma text_layout l : root_sound (o_heredoc o) l -> layr o true l (to_text o (VStruct l)).
Proof.
  intros [Hf _]. unfold to_text. rewrite drive_struct. change (ser_begin_struct (ser_new o)) with (mkser (mkw [] [root_ctx true false] o false false) false false).
  destruct (root_writes l Hf [] true false false false) as (u & f' & m' & sk' & q' & E & Hu). rewrite E. cbn [app].
  assert (w_out (s_w (ser_end_struct (mkser (mkw u [root_ctx f' m'] o sk' q') false false))) = u ++ if f' then [] else [cLF]) as Eo.
  { unfold ser_end_struct, end_struct, root_ctx. cbn. destruct f'; cbn; [now rewrite app_nil_r|reflexivity]. }
  unfold finish_document. rewrite Eo. destruct (layr_line _ _ _ Hu) as [(_ & -> & Eu)|(a & Ea)].
  - rewrite Eu. apply (lr_nil o true).
  - rewrite Ea in *. destruct (a ++ [cLF]) as [|c x] eqn:Ex; [now destruct a|]. rewrite <- Ex in *. replace (ends_with_char cLF (a ++ [cLF])) with true; [exact Hu|].
    unfold ends_with_char. now rewrite rev_app_distr.
Qed.

Lemma value_layout d : sound (o_heredoc o) d -> lay o d (w_out (s_w (drive false d (compact_new o)))).
Proof.
  intros H. destruct (proj1 (proj1 writes_sound d H) [] [] false false I) as (g & t & sk1 & q1 & E & Hl & Hg & _). assert (g = []) as -> by (destruct Hg as [[-> _]|(_ & i & r' & E')]; [reflexivity|discriminate]).
  change (compact_new o) with (mkser (mkw [] [] o false false) false false). rewrite E. exact Hl.
Qed.
End Writes.
