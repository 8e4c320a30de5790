(** Printed text is a document of the grammar: the layouts the writer can produce, and their derivations. *)
From Verif Require Import GrammarProofs GrammarRunProofs GrammarTreeProofs BuildProofs.
From Verif Require Import Base BaseProofs TokModel TokProofs LexModel LexSpec FmtSpec EscapeProofs LexProofs LexRunProofs ParseModel ParseSpec
  TreeModel TreeSpec PathSpec FmtModel ScalarProofs PropFmt GrammarSpec RelexProofs WriteSpec.

(** ** Layouts *)

(** [t] is read as the string [s] wherever a value can end / at the end of a line. *)
Definition scalar_as (s t : str) : Prop := t <> [] /\ forall rest, soft rest -> exists k, reads t rest s k.
Definition line_as (s t : str) : Prop := t <> [] /\ forall rest, line_ends rest -> exists k, reads t rest s k.

(** Nothing, or a new line. *)
Definition maybe_line (g : str) : Prop := g = [] \/ exists b, g = cLF :: b /\ blanks b.
Definition separator (first : bool) (g : str) : Prop := if first then maybe_line g else g = [cCOMMA; cSP] \/ exists b, g = cLF :: b /\ blanks b.

(** The text in front of an entry, with doc comment lines. *)
Definition doc_marker : str := [cSLASH; cSLASH; cSLASH; cSP].
Definition wlead (first : bool) (d : option str) (g : str) : Prop :=
  match d with
  | None => separator first g
  | Some s => exists lines b, lines <> [] /\ s = join [cLF] lines /\ Forall (fun x => ~ In cLF x /\ ~ In cCR x) lines /\ blanks b /\
      g = flat_map (fun l => cLF :: b ++ doc_marker ++ l) lines ++ cLF :: b
  end.

Inductive wkey (root : bool) : value -> str -> Prop :=
| wk s k a b : key_fine root (Val None (PScalar s k a) b) -> wkey root (Val None (PScalar s k a) b) (FmtModel.key_text s)
| wk_unit b : wkey root (Val None PNone b) [cAT]
| wk_tag n t b : tag_name n -> wkey root (Val (Some (n, t)) PNone b) (cAT :: n)
| wk_both n t s k a b : key_fine root (Val (Some (n, t)) (PScalar s k a) b) -> wkey root (Val (Some (n, t)) (PScalar s k a) b) (cAT :: n ++ FmtModel.key_text s).

Definition wtag (t : option (str * option span)) (x : str) : Prop :=
  match t with Some (n, _) => tag_name n /\ x = cAT :: n | None => x = [] end.

(** [sc s t] says that [t] is a way of writing the scalar [s]. *)
Inductive wvx (sc : str -> str -> Prop) : value -> str -> Prop :=
| wv_scalar s k a b t : sc s t -> wvx sc (Val None (PScalar s k a) b) t
| wv_unit b : wvx sc (Val None PNone b) [cAT]
| wv_tag n t b : tag_name n -> wvx sc (Val (Some (n, t)) PNone b) (cAT :: n)
| wv_seq tg items a b x u : wtag tg x -> wisx sc true items u -> wvx sc (Val tg (PSeq items a) b) (x ++ cLP :: u ++ [cRP])
| wv_obj tg es a b x u : wtag tg x -> wesx sc true es u -> NoDup (map (fun e => key_ident (e_key e)) es) ->
    wvx sc (Val tg (PObj es a) b) (x ++ cLB :: u ++ [cRB])
(** Elements: at the start and after a bracket the next one may follow directly. *)
with wisx (sc : str -> str -> Prop) : bool -> list value -> str -> Prop :=
| wi_nil g : wisx sc g [] []
| wi_glue v r t u : wvx sc v t -> wisx sc (bracketed v) r u -> wisx sc true (v :: r) (t ++ u)
| wi_space g v r t u : wvx sc v t -> wisx sc (bracketed v) r u -> wisx sc g (v :: r) (cSP :: t ++ u)
with wesx (sc : str -> str -> Prop) : bool -> list entry -> str -> Prop :=
| we_nil f g : maybe_line g -> wesx sc f [] g
| we_cons f d g k v r kt t u : wlead f d g -> wkey false k kt -> wvx sc v t -> wesx sc false r u -> wesx sc f (Ent k v d :: r) (g ++ kt ++ cSP :: t ++ u).

Arguments wv_scalar {sc}. Arguments wv_unit {sc}. Arguments wv_tag {sc}. Arguments wv_seq {sc}. Arguments wv_obj {sc}.
Arguments wi_nil {sc}. Arguments wi_glue {sc}. Arguments wi_space {sc}. Arguments we_nil {sc}. Arguments we_cons {sc}.

Scheme wv_mind := Induction for wvx Sort Prop
  with wis_mind := Induction for wisx Sort Prop
  with wes_mind := Induction for wesx Sort Prop.
Combined Scheme layout_all from wv_mind, wis_mind, wes_mind.
Notation wv := (wvx scalar_as).
Notation wis := (wisx scalar_as).
Notation wes := (wesx scalar_as).

(** ** Reading them *)

Definition calm (p : nat) (ls : list lexeme) : Prop := forall t, ~ bare_at p t ls.
Definition softly (p : nat) (rest : str) (ls : list lexeme) : Prop := lexd p rest ls /\ soft rest /\ calm p ls.

Lemma calm_later p q ls : p < q -> Forall (fun l => q <= sp_start (lx_span l)) ls -> calm p ls.
Proof. intros Hpq H t (sp & r' & -> & E). inversion H as [|? ? H1 ?]; subst. cbn in H1. lia. Qed.

Lemma softly_space p r ls : lexd (S p) r ls -> softly p (cSP :: r) ls /\ Forall (fun l => S p <= sp_start (lx_span l)) ls.
Proof.
  intros H. assert (lexd p (cSP :: r) ls) as H1.
  { change (cSP :: r) with ([cSP] ++ r). apply lexd_blanks; [intros c [<-|[]]; now left|]. change (blen [cSP]) with 1. now rewrite Nat.add_1_r. }
  pose proof (lexd_starts _ _ _ H) as Hs. split; [|exact Hs]. split; [exact H1|]. split; [cbn; auto|]. eapply calm_later; [|exact Hs]. lia.
Qed.

Lemma softly_sym c p r ls : In c [cRB; cRP; cCOMMA; cLF] -> lexd (S p) r ls -> softly p (c :: r) (sym_lexeme c (mkspan p (S p)) :: ls).
Proof.
  intros Hc H. split; [apply lexd_sym; [cbn in Hc |- *; tauto|exact H]|]. split; [cbn in Hc |- *; tauto|].
  intros t (sp & r' & E & _). cbn in Hc. decompose [or] Hc; subst; try contradiction; discriminate.
Qed.
Lemma softly_end p : softly p [] [].
Proof. split; [apply ld_end; intros c []|]. split; [exact I|]. intros t (sp & r & [=] & _). Qed.

Lemma softly_line p b r ls : blanks b -> lexd (p + blen (cLF :: b)) r ls -> softly p (cLF :: b ++ r) (LxNewline (mkspan p (S p)) :: ls).
Proof.
  intros Hb H. apply (softly_sym cLF); [cbn; tauto|]. apply lexd_blanks; [exact Hb|]. change (blen (cLF :: b)) with (1 + blen b) in H. now replace (S p + blen b) with (p + (1 + blen b)) by lia.
Qed.

Lemma scalar_lexd s t p rest ls : scalar_as s t -> soft rest -> lexd (p + blen t) rest ls -> exists k, lexd p (t ++ rest) (LxScalar (mkspan p (p + blen t)) s k :: ls).
Proof. intros [Ht H] Hs Hl. destruct (H rest Hs) as [k Hk]. exists k. now apply lexd_scalar. Qed.

Lemma name_chain n : tag_name n -> tag_chain n [n].
Proof. intros H. split; [discriminate|]. split; [auto|reflexivity]. Qed.

Definition same_val (d : dval) (v : value) : Prop := erase (to_value d) = erase v.

(** What reading a value text means. *)
Definition reads_val (v : value) (t : str) : Prop := forall p rest ls', (if bracketed v then lexd (p + blen t) rest ls' else softly (p + blen t) rest ls') ->
  exists ls d, lexd p (t ++ rest) ls /\ gval ls d [] ls' /\ same_val d v.
Definition reads_items (g : bool) (items : list value) (u : str) : Prop := forall p rest ls', lexd (S (p + blen u)) rest ls' ->
  exists ls ds e, lexd p (u ++ cRP :: rest) ls /\ (g = false -> softly p (u ++ cRP :: rest) ls) /\ gitems ls ds [] e ls' /\ map (fun d => erase (to_value d)) ds = map erase items.
Definition reads_ents (f : bool) (es : list entry) (u : str) : Prop := forall p rest ls', lexd (S (p + blen u)) rest ls' ->
  exists ls ks ds e, lexd p (u ++ cRB :: rest) ls /\ (f = false -> softly p (u ++ cRB :: rest) ls /\ gstop ls [] ls) /\ gents [] ls ks ds [] e ls' /\
    map (fun d => erase_entry (to_entry d)) ds = map erase_entry es /\ ks = map (fun e => key_ident (e_key e)) es.

Lemma key_reads s : no_gt_word s -> exists k, k <> Heredoc /\ (k = Bare -> can_be_bare s = true) /\ FmtModel.key_text s <> [] /\ forall rest, soft rest -> reads (FmtModel.key_text s) rest s k.
Proof.
  intros H. unfold FmtModel.key_text. destruct (can_be_bare s) eqn:E.
  - exists Bare. splits; auto; try discriminate; [intros ->; discriminate|]. intros rest Hr. apply C11_lexed_partial; auto; [now apply soft_scalar_ends|]. intros _ x. now apply soft_no_quote.
  - exists Quoted. splits; auto; try discriminate. intros rest Hr. apply reads_quoted_text.
Qed.

Lemma reads_key root k t p rest ls' : wkey root k t -> softly (p + blen t) rest ls' -> exists ls d tag pl kd, lexd p (t ++ rest) ls /\ gval ls d [] ls' /\
  key_is d tag pl kd /\ (forall osp, erase (Val (option_map (fun n => (n, osp)) tag) (match pl with Some t => PScalar t kd osp | None => PNone end) osp) = erase k) /\
  key_id d = key_ident k /\ sp_end (dspan d) <= p + blen t /\ no_open_brace ls /\
  match tag, pl with Some n, _ => cAT :: n | None, Some t => t | None, None => [cAT] end = root_name k /\ (root = true -> ~ dotted_key d /\ forall sp t, d <> DScalar sp t Heredoc).
Proof.
  intros [s k0 a b Hk|b|n tg b Hn|n tg s k0 a b Hk] (Hl & Hs & Hc).
  - inversion Hk as [? ? ? ? Hg Hd| | |]; subst. destruct (key_reads s) as (kd & Hh & Hb & Ht & Hr); [assumption|]. eexists _, _, _, _, _. splits; [apply lexd_scalar; eauto|apply gv_scalar|apply GrammarSpec.key_text|..];
    try reflexivity; cbn; auto; [intros ? ? [=]|]. intros Hrt. split; [|intros ? ? [=]; congruence]. intros (sp & t' & [= <- <- ->] & Hi). eapply Hd; eauto.
  - eexists _, _, _, _, _. splits; [apply lexd_unit; [exact Hs|]; change (blen [cAT]) with 1 in Hl; rewrite Nat.add_1_r in Hl; exact Hl|apply gv_unit|apply key_unit|..]; try reflexivity; cbn; auto; try lia.
    + cbn [sp_end]. change (blen [cAT]) with 1 in Hc. rewrite Nat.add_1_r in Hc. exact Hc.
    + intros ? ? [=].
    + intros _. split; [intros (? & ? & [=] & _)|intros ? ? [=]].
  - change (blen (cAT :: n)) with (1 + blen n) in *. rewrite Nat.add_assoc in *. eexists _, _, _, _, _. splits; [apply lexd_tag with (hp := false); [exact Hn|exact Hs|exact Hl]| |apply key_tag|..].
    + eapply (gv_tag _ _ _ [n]); [now apply name_chain|cbn; discriminate| |cbn [stacked]; reflexivity]. intros t0 H. eapply Hc. exact H.
    + reflexivity.
    + reflexivity.
    + cbn; lia.
    + intros ? ? [=].
    + reflexivity.
    + intros _. split; [intros (? & ? & [=] & _)|intros ? ? [=]].
  - inversion Hk; subst. match goal with H : can_be_bare s = false |- _ => rename H into Hb end. match goal with H : exists v, decodes s v |- _ => rename H into Hd end. match goal with H : tag_name n |- _ => rename H into Hn end.
    unfold FmtModel.key_text in *. rewrite Hb in *. cbn [app]. rewrite <- app_assoc. change (blen (cAT :: n ++ quoted_text s)) with (1 + blen (n ++ quoted_text s)) in *. rewrite blen_app in *.
    eexists _, _, _, _, _. splits.
    + apply lexd_tag with (hp := true); [exact Hn| |].
      * right. eexists (escape_quoted s), rest. splits; [|reflexivity|assumption]. apply escape_safe.
      * apply lexd_scalar; [discriminate|apply reads_quoted_text|]. replace (p + 1 + blen n + blen (quoted_text s)) with (p + (1 + (blen n + blen (quoted_text s)))) by lia. exact Hl.
    + eapply (gv_tag_payload _ _ _ [n]); [now apply name_chain|reflexivity|apply gv_scalar|cbn [stacked]; reflexivity].
    + cbn [dspan]. apply key_tag_text. auto.
    + reflexivity.
    + reflexivity.
    + cbn. lia.
    + intros ? ? [=].
    + reflexivity.
    + intros _. split; [intros (? & ? & [=] & _)|intros ? ? [=]].
Qed.

Lemma not_glued d ls p : sp_end (dspan d) <= p -> Forall (fun l => S p <= sp_start (lx_span l)) ls -> ~ glued d ls.
Proof.
  intros Hd Hf. unfold glued. destruct d as [sp t k| | | |]; try tauto. destruct k; try tauto. destruct ls as [|l ls]; [tauto|]. inversion Hf as [|? ? H _]; subst. cbn in Hd.
  destruct l; try tauto; cbn in H; lia.
Qed.

Lemma either_soft v p rest ls : softly p rest ls -> if bracketed v then lexd p rest ls else softly p rest ls.
Proof. intros H. destruct (bracketed v); [apply H|exact H]. Qed.

Lemma reads_tagged tg x y v p rest ls ls' d : wtag tg x -> (y = cLP \/ y = cLB) -> lexd (p + blen x) (y :: rest) ls -> gval ls d [] ls' -> same_val d (Val None (v_payload v) (v_span v)) -> v_tag v = tg ->
  exists ls0 d', lexd p (x ++ y :: rest) ls0 /\ gval ls0 d' [] ls' /\ same_val d' v.
Proof.
  intros Hx Hy Hl Hg He Ht. destruct tg as [[n nsp]|].
  - destruct Hx as [Hn ->]. eexists _, _. split; [|split].
    + apply lexd_tag with (hp := true); [exact Hn|destruct Hy; subst; left; eauto|]. change (blen (cAT :: n)) with (1 + blen n) in Hl. rewrite Nat.add_assoc in Hl. exact Hl.
    + eapply (gv_tag_payload _ _ _ [n]); [now apply name_chain|reflexivity|exact Hg|cbn [stacked]; reflexivity].
    + unfold same_val in *. cbn [to_value]. destruct v as [tv pv sv], (to_value d) as [td pd sd]. cbn in *. subst tv. injection He as _ He. cbn. now rewrite He.
  - cbn in Hx. subst x. rewrite Nat.add_0_r in Hl. cbn [app]. exists ls, d. splits; auto. destruct v as [tv pv sv]. cbn in *. now subst tv.
Qed.

Lemma not_eol_line l : ~ In cLF l /\ ~ In cCR l -> forallb not_eol l = true.
Proof.
  intros [H1 H2]. apply forallb_forall. intros c Hc. unfold not_eol. apply negb_true_iff, orb_false_iff. split; apply N.eqb_neq; intros ->; contradiction.
Qed.

Lemma nested_docs b lines : blanks b -> Forall (fun x => ~ In cLF x /\ ~ In cCR x) lines -> forall p rest ls',
  let T := flat_map (fun l => cLF :: b ++ doc_marker ++ l) lines ++ cLF :: b in lexd (p + blen T) rest ls' ->
  exists ls new, softly p (T ++ rest) ls /\ gstop ls [] ls /\ (exists r, T = cLF :: r) /\ map snd new = lines /\
    forall docs ks es tr e r', gents (docs ++ new) ls' ks es tr e r' -> gents docs ls ks es tr e r'.
Proof.
  intros Hb Hf. induction Hf as [|l lines Hl _ IH]; intros p rest ls'; cbn [flat_map app]; intros H.
  - eexists _, []. splits; [apply softly_line; [exact Hb|exact H]|apply gs_newline|eauto|reflexivity|]. intros docs ks es tr e r' Hg. rewrite app_nil_r in Hg. apply ge_sep; [left; exact I|exact Hg].
  - set (T := flat_map _ lines ++ cLF :: b) in *. set (t := cSLASH :: cSLASH :: cSLASH :: cSP :: l).
    assert (forall x, (b ++ doc_marker ++ l) ++ x = b ++ t ++ x) as Et by (intros x; rewrite <- app_assoc; reflexivity).
    assert ((cLF :: (b ++ doc_marker ++ l) ++ flat_map (fun l => cLF :: b ++ doc_marker ++ l) lines) ++ cLF :: b = cLF :: b ++ t ++ T) as ET.
    { cbn [app]. f_equal. rewrite <- app_assoc. fold T. apply Et. }
    cbn [app] in ET. rewrite ET in *. change (blen (cLF :: b ++ t ++ T)) with (1 + blen (b ++ t ++ T)) in H. rewrite !blen_app in H.
    destruct (IH (p + blen (cLF :: b) + blen t) rest ls') as (ls & new & (H1 & _) & H2 & (r & Er) & H3 & H4); [change (blen (cLF :: b)) with (1 + blen b); now replace (p + (1 + blen b) + blen t + blen T) with (p + (1 + (blen b + (blen t + blen T)))) by lia|].
    assert (lexd (p + blen (cLF :: b)) (t ++ T ++ rest) (LxDoc (mkspan (p + blen (cLF :: b)) (p + blen (cLF :: b) + blen t)) t :: ls)) as Hd.
    { apply lexd_doc; [cbn [forallb]; rewrite not_eol_line by assumption; reflexivity|rewrite Er; reflexivity|exact H1]. }
    eexists _, (_ :: new). splits.
    + match goal with |- softly _ ?x _ => replace x with (cLF :: b ++ t ++ T ++ rest) end; [apply softly_line; [exact Hb|exact Hd]|].
      cbn [app]. unfold T. rewrite <- !app_assoc. reflexivity.
    + apply gs_newline.
    + eauto.
    + cbn [map]. f_equal; [|exact H3]. instantiate (1 := (mkspan (p + blen (cLF :: b)) (p + blen (cLF :: b) + blen t), l)). reflexivity.
    + intros docs ks es tr e r' Hg. apply ge_sep; [left; exact I|]. apply (ge_doc docs _ t l); [apply dt_space|]. apply H4. now rewrite <- app_assoc.
Qed.

Definition doc_of (docs : list (span * list str)) : option str :=
  match docs with [] => None | _ => Some (join [cLF] (map (fun d => join [cLF] (snd d)) docs)) end.

Lemma lead_reads f d g : wlead f d g -> forall p rest ls', lexd (p + blen g) rest ls' ->
  exists ls docs, lexd p (g ++ rest) ls /\ (f = false -> softly p (g ++ rest) ls /\ gstop ls [] ls) /\ doc_of (doc_block docs) = d /\
    forall ks es tr e r', gents docs ls' ks es tr e r' -> gents [] ls ks es tr e r'.
Proof.
  intros Hg p rest ls' H. destruct d as [s|]; cbn in Hg.
  - destruct Hg as (lines & b & Hn & -> & Hf & Hb & ->). destruct (nested_docs b lines Hb Hf p rest ls' H) as (ls & new & H1 & H2 & _ & H3 & H4). exists ls, new. splits; [apply H1|auto| |].
    + destruct new as [|[sp x] new]; [destruct lines; [congruence|discriminate]|]. cbn [doc_block doc_of map snd join]. now rewrite <- H3.
    + intros ks es tr e r' Hg. exact (H4 [] ks es tr e r' Hg).
  - assert (forall b, blanks b -> g = cLF :: b -> softly p (g ++ rest) (LxNewline (mkspan p (S p)) :: ls')) as Line by (intros b Hb ->; apply (softly_line p b); [exact Hb|exact H]).
    destruct f; cbn [separator] in Hg.
    + destruct Hg as [->|(b & Eg & Hb)].
      * cbn [app blen] in *. rewrite Nat.add_0_r in H. exists ls', []. splits; auto. discriminate.
      * eexists _, []. splits; [apply (Line b Hb Eg)|discriminate|reflexivity|]. intros. apply ge_sep; [left; exact I|assumption].
    + destruct Hg as [->|(b & Eg & Hb)].
      * change (blen [cCOMMA; cSP]) with 2 in H. replace (p + 2) with (S (S p)) in H by lia. destruct (softly_space _ _ _ H) as [[K0 _] _]. pose proof (softly_sym cCOMMA p _ _ ltac:(cbn; tauto) K0) as K.
        eexists _, []. splits; [apply K|intros _; split; [apply K|apply gs_comma]|reflexivity|]. intros. apply ge_sep; [left; exact I|assumption].
      * eexists _, []. splits; [apply (Line b Hb Eg)|intros _; split; [apply (Line b Hb Eg)|apply gs_newline]|reflexivity|]. intros. apply ge_sep; [left; exact I|assumption].
Qed.

Lemma layout_reads : (forall v t, wv v t -> reads_val v t) /\ (forall g items u, wis g items u -> reads_items g items u) /\ (forall f es u, wes f es u -> reads_ents f es u).
Proof.
  apply layout_all.
  - intros s k a b t Ht p rest ls' (Hl & Hs & _). destruct (scalar_lexd s t p rest ls' Ht Hs Hl) as [kd H]. eexists _, _. split; [exact H|]. split; [apply gv_scalar|reflexivity].
  - intros b p rest ls' (Hl & Hs & Hc). change (blen [cAT]) with 1 in *. rewrite Nat.add_1_r in *. eexists _, _. split; [apply lexd_unit; [exact Hs|exact Hl]|]. split; [apply gv_unit; exact Hc|reflexivity].
  - intros n tg b Hn p rest ls' (Hl & Hs & Hc). change (blen (cAT :: n)) with (1 + blen n) in *. rewrite Nat.add_assoc in *. eexists _, _. split; [apply lexd_tag with (hp := false); [exact Hn|exact Hs|exact Hl]|]. split.
    + eapply (gv_tag _ _ _ [n]); [now apply name_chain|cbn; discriminate| |cbn [stacked]; reflexivity]. intros t0 H. eapply Hc. exact H.
    + reflexivity.
  - intros tg items a b x u Hx _ IH p rest ls' Hl. change (lexd (p + blen (x ++ cLP :: u ++ [cRP])) rest ls') in Hl. rewrite blen_app in Hl. change (blen (cLP :: u ++ [cRP])) with (1 + blen (u ++ [cRP])) in Hl. rewrite blen_app in Hl. change (blen [cRP]) with 1 in Hl.
    destruct (IH (S (p + blen x)) rest ls') as (ls & ds & e & H1 & _ & H2 & H3); [now replace (S (S (p + blen x) + blen u)) with (p + (blen x + (1 + (blen u + 1)))) by lia|].
    rewrite <- app_assoc. cbn [app]. rewrite <- app_assoc. cbn [app].
    eapply (reads_tagged tg x cLP (Val tg (PSeq items a) b)); [exact Hx|auto|apply (lexd_sym cLP); [cbn; tauto|exact H1]|eapply gv_seq; exact H2| |reflexivity].
    unfold same_val. cbn. now rewrite map_map, H3.
  - intros tg es a b x u Hx _ IH Hnd p rest ls' Hl. change (lexd (p + blen (x ++ cLB :: u ++ [cRB])) rest ls') in Hl. rewrite blen_app in Hl. change (blen (cLB :: u ++ [cRB])) with (1 + blen (u ++ [cRB])) in Hl. rewrite blen_app in Hl. change (blen [cRB]) with 1 in Hl.
    destruct (IH (S (p + blen x)) rest ls') as (ls & ks & ds & e & H1 & _ & H2 & H3 & H4); [now replace (S (S (p + blen x) + blen u)) with (p + (blen x + (1 + (blen u + 1)))) by lia|].
    rewrite <- app_assoc. cbn [app]. rewrite <- app_assoc. cbn [app].
    eapply (reads_tagged tg x cLB (Val tg (PObj es a) b)); [exact Hx|auto|apply (lexd_sym cLB); [cbn; tauto|exact H1]|eapply gv_obj; [exact H2|now subst ks]| |reflexivity].
    unfold same_val. cbn. now rewrite map_map, H3.
  - intros g p rest ls' Hl. cbn in Hl. rewrite Nat.add_0_r in Hl. pose proof (softly_sym cRP p rest ls' ltac:(cbn; tauto) Hl) as H. eexists _, [], _. splits; [apply H|intros _; apply H|apply gi_end|reflexivity].
  - intros v r t u _ IHv _ IHu p rest ls' Hl. rewrite blen_app in Hl. destruct (IHu (p + blen t) rest ls') as (ls1 & ds & e & H1 & H1s & H2 & H3); [now rewrite <- Nat.add_assoc|].
    destruct (IHv p (u ++ cRP :: rest) ls1) as (ls & d & H4 & H5 & H6); [destruct (bracketed v); auto|].
    rewrite <- app_assoc. exists ls, (d :: ds), e. splits; [exact H4|discriminate| |cbn; now rewrite H3, H6]. apply (gi_item ls d [] ls1 ds [] e ls'); assumption.
  - intros g v r t u _ IHv _ IHu p rest ls' Hl. change (blen (cSP :: t ++ u)) with (1 + blen (t ++ u)) in Hl. rewrite blen_app in Hl.
    destruct (IHu (S p + blen t) rest ls') as (ls1 & ds & e & H1 & H1s & H2 & H3); [now replace (S (S p + blen t + blen u)) with (S (p + (1 + (blen t + blen u)))) by lia|].
    destruct (IHv (S p) (u ++ cRP :: rest) ls1) as (ls & d & H4 & H5 & H6); [destruct (bracketed v); auto|].
    cbn [app]. rewrite <- app_assoc. destruct (softly_space p (t ++ u ++ cRP :: rest) ls H4) as [H7 _]. exists ls, (d :: ds), e. splits; [apply H7|intros _; apply H7| |cbn; now rewrite H3, H6].
    apply (gi_item ls d [] ls1 ds [] e ls'); assumption.
  - intros f g Hg p rest ls' Hl. destruct Hg as [->|(b & -> & Hb)].
    + cbn in Hl. rewrite Nat.add_0_r in Hl. pose proof (softly_sym cRB p rest ls' ltac:(cbn; tauto) Hl) as H. eexists _, [], [], _. splits; [apply H|intros _; split; [apply H|apply gs_brace]|apply ge_end|reflexivity|reflexivity].
    + cbn [app]. pose proof (lexd_sym cRB (p + blen (cLF :: b)) rest ls' ltac:(cbn; tauto) Hl) as H0. pose proof (softly_line p b (cRB :: rest) _ Hb H0) as H.
      eexists _, [], [], _. splits; [apply H|intros _; split; [apply H|apply gs_newline]|apply ge_sep; [left; exact I|apply ge_end]|reflexivity|reflexivity].
  - intros f d0 g k v r kt t u Hg Hk _ IHv _ IHu p rest ls' Hl. repeat (rewrite blen_app in Hl || change (blen (cSP :: t ++ u)) with (1 + blen (t ++ u)) in Hl).
    destruct (IHu (p + blen g + blen kt + 1 + blen t) rest ls') as (ls1 & ks & ds & e & _ & H1 & H2 & H3 & H4); [now replace (S (p + blen g + blen kt + 1 + blen t + blen u)) with (S (p + (blen g + (blen kt + (1 + (blen t + blen u)))))) by lia|].
    destruct (H1 eq_refl) as [H1s H1g]. destruct (IHv (p + blen g + blen kt + 1) (u ++ cRB :: rest) ls1) as (ls2 & d & H5 & H6 & H7); [now apply either_soft|].
    rewrite Nat.add_1_r in H5. destruct (softly_space _ _ _ H5) as [H8 H9]. destruct (reads_key _ _ _ _ _ _ Hk H8) as (ls3 & dk & tag & pl & kd & K1 & K2 & K3 & K4 & K5 & K6 & K7 & _).
    destruct (lead_reads f d0 g Hg p _ _ K1) as (ls4 & docs & L1 & L2 & L3 & L4).
    rewrite <- !app_assoc. cbn [app]. rewrite <- app_assoc.
    exists ls4, (key_id dk :: ks), (DEnt (doc_block docs) (dspan dk) (dspan dk) tag pl kd d (dspan d) :: ds), e. splits; [exact L1|exact L2| | |].
    + apply L4. apply (ge_entry docs ls3 dk d tag pl kd [] ls1 ks ds [] e ls'); [|exact K3|exact H2]. apply (gl_pair ls3 dk [] ls2 d [] ls1 [] ls1); [exact K2|eapply not_glued; [exact K6|exact H9]|exact H6|exact H1g].
    + cbn [map to_entry erase_entry]. rewrite K4, H7, H3. unfold doc_of in L3. now rewrite L3.
    + cbn [map e_key]. now rewrite K5, H4.
Qed.

(** ** The root *)

Definition doc_line_text (l : str) : str := [cSLASH; cSLASH; cSLASH; cSP] ++ l ++ [cLF].
Definition wdoc (d : option str) (t : str) : Prop :=
  match d with
  | None => t = []
  | Some s => exists lines, lines <> [] /\ s = join [cLF] lines /\ Forall (fun x => ~ In cLF x /\ ~ In cCR x) lines /\ t = flat_map doc_line_text lines
  end.

Inductive wrootx (sc ln : str -> str -> Prop) : bool -> list entry -> str -> Prop :=
| wr_nil f : wrootx sc ln f [] (if f then [] else [cLF])
| wr_cons f k v d r dt kt t u : wdoc d dt -> wkey true k kt -> (wvx sc v t \/ exists s kd a b, v = Val None (PScalar s kd a) b /\ ln s t) -> wrootx sc ln false r u ->
    wrootx sc ln f (Ent k v d :: r) ((if f then [] else [cLF; cLF]) ++ dt ++ kt ++ cSP :: t ++ u).
Arguments wr_nil {sc ln}. Arguments wr_cons {sc ln}.
Notation wroot := (wrootx scalar_as line_as).

Lemma docs_lead lines : Forall (fun x => ~ In cLF x /\ ~ In cCR x) lines -> forall p rest ls', lexd (p + blen (flat_map doc_line_text lines)) rest ls' ->
  exists ls new, lexd p (flat_map doc_line_text lines ++ rest) ls /\ map snd new = map (fun l => [l]) lines /\
    forall opened docs es h, (forall op, exists evs, groot op (docs ++ new) ls' es evs h) -> exists evs, groot opened docs ls es evs h.
Proof.
  induction 1 as [|l lines Hl _ IH]; intros p rest ls' H.
  - exists ls', []. cbn in *. rewrite Nat.add_0_r in H. splits; auto. intros opened docs es h Hg. destruct (Hg opened) as [evs Hg']. rewrite app_nil_r in Hg'. eauto.
  - cbn [flat_map] in *. rewrite blen_app, Nat.add_assoc in H. destruct (IH _ _ _ H) as (ls & new & H1 & H2 & H3). set (dt := flat_map doc_line_text lines) in *.
    rewrite <- app_assoc. unfold doc_line_text in *. rewrite <- !app_assoc. set (t := cSLASH :: cSLASH :: cSLASH :: cSP :: l).
    change ([cSLASH; cSLASH; cSLASH; cSP] ++ l ++ [cLF] ++ dt ++ rest) with (t ++ cLF :: dt ++ rest).
    assert (blen ([cSLASH; cSLASH; cSLASH; cSP] ++ l ++ [cLF]) = blen t + 1) as E.
    { change ([cSLASH; cSLASH; cSLASH; cSP] ++ l ++ [cLF]) with (t ++ [cLF]). rewrite blen_app. reflexivity. }
    rewrite E in H1. eexists _, (_ :: new). splits.
    + apply lexd_doc; [cbn [forallb]; rewrite not_eol_line by assumption; reflexivity|reflexivity|]. apply (lexd_sym cLF); [cbn; tauto|]. fold t. replace (S (p + blen t)) with (p + (blen t + 1)) by lia. exact H1.
    + cbn [map]. f_equal; [|exact H2]. instantiate (1 := (mkspan p (p + blen t), [l])). reflexivity.
    + intros opened docs es h Hg. destruct (H3 true (docs ++ [(mkspan p (p + blen t), [l])]) es h) as [evs Hv].
      * intros op. destruct (Hg op) as [evs Hv]. exists evs. now rewrite <- app_assoc.
      * eexists. eapply gr_doc; [apply dt_space|]. apply gr_sep; [exact I|]. exact Hv.
Qed.

Lemma doc_of_lines (new : list (span * list str)) lines : lines <> [] -> map snd new = map (fun l => [l]) lines ->
  match new with [] => None | _ => Some (join [cLF] (map (fun d => join [cLF] (snd d)) new)) end = Some (join [cLF] lines).
Proof.
  intros Hl H. assert (map (fun d : span * list str => join [cLF] (snd d)) new = lines) as E.
  { rewrite <- (map_map snd (join [cLF])), H, map_map. clear. induction lines as [|l r IH]; [reflexivity|]. cbn [map]. now rewrite IH. }
  destruct new; [destruct lines; [congruence|discriminate]|now rewrite E].
Qed.

Lemma root_reads f es u : wroot f es u -> forall p, exists ls ds, lexd p u ls /\ (f = false -> softly p u ls /\ gstop ls [] ls /\ exists r, u = cLF :: r) /\
  map erase_entry (map to_entry ds) = map erase_entry es /\ exists h, map as_path h = map (fun e => [root_name (e_key e)]) es /\ forall opened, exists evs, groot opened [] ls ds evs h.
Proof.
  induction 1 as [f|f k v d r dt kt t u Hd Hk Hv _ IH]; intros p.
  - destruct f.
    + exists [], []. splits; [apply ld_end; intros c []|discriminate|reflexivity|]. exists []. split; [reflexivity|]. intros opened. eexists. apply gr_end.
    + pose proof (softly_sym cLF p [] [] ltac:(cbn; tauto) ltac:(apply ld_end; intros c [])) as H. eexists _, []. splits; [apply H|intros _; splits; [apply H|apply gs_newline|eauto]|reflexivity|].
      exists []. split; [reflexivity|]. intros opened. eexists. apply gr_sep; [exact I|apply gr_end].
  - set (p1 := p + blen (if f then [] else [cLF; cLF])). destruct (IH (p1 + blen dt + blen kt + 1 + blen t)) as (ls1 & ds & _ & H1 & H2 & h & H3 & H4). destruct (H1 eq_refl) as (H1s & H1g & ur & Eu).
    assert (exists ls2 dv, lexd (p1 + blen dt + blen kt + 1) (t ++ u) ls2 /\ gval ls2 dv [] ls1 /\ same_val dv v) as (ls2 & dv & H5 & H6 & H7).
    { destruct Hv as [Hv|(s & kd & a & b & -> & Ht & Hr)].
      - apply (proj1 layout_reads _ _ Hv). now apply either_soft.
      - destruct (Hr u) as [kd' Hr']; [right; left; eauto|]. eexists _, _. split; [apply lexd_scalar; [exact Ht|exact Hr'|apply H1s]|]. split; [apply gv_scalar|reflexivity]. }
    rewrite Nat.add_1_r in H5. destruct (softly_space _ _ _ H5) as [H8 H9]. destruct (reads_key _ _ _ _ _ _ Hk H8) as (ls3 & dk & tag & pl & kd & K1 & K2 & K3 & K4 & K5 & K6 & K7 & K8 & K9).
    destruct (K9 eq_refl) as [K9a K9b].
    assert (exists ls4 new, lexd p1 (dt ++ kt ++ cSP :: t ++ u) ls4 /\ match new with [] => None | _ => Some (join [cLF] (map (fun d : span * list str => join [cLF] (snd d)) new)) end = d /\
      forall opened docs es h, (forall op, exists evs, groot op (docs ++ new) ls3 es evs h) -> exists evs, groot opened docs ls4 es evs h) as (ls4 & new & D1 & D2 & D3).
    { destruct d as [s|].
      - destruct Hd as (lines & Hn & -> & Hf & ->). destruct (docs_lead lines Hf p1 (kt ++ cSP :: t ++ u) ls3 K1) as (ls4 & new & D1 & D2 & D3). exists ls4, new. splits; auto. now apply doc_of_lines.
      - cbn in Hd. subst dt. cbn in K1. rewrite Nat.add_0_r in K1. exists ls3, []. splits; auto. intros opened docs es h0 Hg. destruct (Hg opened) as [evs Hg']. rewrite app_nil_r in Hg'. eauto. }
    set (e0 := DEnt new (dspan dk) (dspan dk) tag pl kd dv (dspan dv)).
    assert (map erase_entry (map to_entry (e0 :: ds)) = map erase_entry (Ent k v d :: r)) as Ee by (cbn [map to_entry erase_entry e0]; rewrite K4, H7, H2, D2; reflexivity).
    assert (exists h', map as_path h' = map (fun e => [root_name (e_key e)]) (Ent k v d :: r) /\ forall opened, exists evs, groot opened [] ls4 (e0 :: ds) evs h') as (h' & Hh & Hg).
    { eexists ((_, dspan dk, value_shape dv) :: h). split; [cbn [map as_path fst e_key]; rewrite H3; f_equal; instantiate (1 := [root_name k]); reflexivity|]. intros opened. apply D3. intros op. destruct (H4 true) as [evs Hv']. eexists.
      eapply (gr_entry op new ls3 dk dv [] ls1); [exact K7|apply (gl_pair ls3 dk [] ls2 dv [] ls1 [] ls1); [exact K2|eapply not_glued; [exact K6|exact H9]|exact H6|exact H1g]| |exact Hv'].
      cbn [docs_in flat_map]. rewrite app_nil_r, <- K8. apply re_plain; assumption. }
    destruct f; cbn [app] in *.
    + subst p1. cbn in D1. rewrite Nat.add_0_r in D1. exists ls4, (e0 :: ds). splits; [exact D1|discriminate|exact Ee|]. exists h'. auto.
    + replace p1 with (S (S p)) in D1 by (subst p1; change (blen [cLF; cLF]) with 2; lia). pose proof (lexd_sym cLF (S p) _ _ ltac:(cbn; tauto) D1) as D. pose proof (softly_sym cLF p _ _ ltac:(cbn; tauto) D) as D'.
      eexists _, (e0 :: ds). splits; [apply D'|intros _; splits; [exact D'|apply gs_newline|eauto]|exact Ee|]. exists h'. split; [exact Hh|]. intros opened. destruct (Hg opened) as [evs Hv']. eexists.
      apply gr_sep; [exact I|]. apply gr_sep; [exact I|]. exact Hv'.
Qed.

Lemma str_eqb_false a b : a <> b -> str_eqb a b = false.
Proof. intros H. apply not_true_iff_false. intros E. apply H. now apply str_eqb_eq. Qed.

Lemma names_accepted ns h : map as_path h = map (fun n => [n]) ns -> neighbours_differ ns -> forall segs, (segs = [] \/ exists s, segs = [s] /\ forall m, ns <> sg_key s :: m) ->
  Forall (fun e => e = None) (snd (path_run segs h)).
Proof.
  revert h. induction ns as [|n ns IH]; intros [|[[pth sp] kd] h] E Hn segs Hs; try discriminate; [constructor|]. cbn [map as_path fst] in E. injection E as -> E.
  assert (neighbours_differ ns) as Hn' by (intros a x b ->; exact (Hn (n :: a) x b eq_refl)).
  assert (forall m, ns <> n :: m) as Hd by (intros m ->; exact (Hn [] n m eq_refl)).
  assert (check_and_update segs [n] sp kd = ([mkseg n sp kd []], None)) as Ec.
  { destruct Hs as [->|(s & -> & Hs)]; [reflexivity|]. unfold check_and_update. cbn [common_len rev app]. rewrite str_eqb_false by (intros <-; exact (Hs ns eq_refl)). reflexivity. }
  cbn [path_run]. rewrite Ec. specialize (IH h E Hn' [mkseg n sp kd []]). destruct (path_run _ h) as [s2 es]. cbn [snd] in *. constructor; [reflexivity|]. apply IH. right. eauto.
Qed.

Lemma root_tree_back es u : wroot true es u -> neighbours_differ (map (fun e => root_name (e_key e)) es) ->
  exists es', tree u (inl (Val None (PObj es' None) None)) /\ map erase_entry es' = map erase_entry es.
Proof.
  intros Hw Hn. destruct (root_reads _ _ _ Hw 0) as (ls & ds & Hl & _ & He & h & Hh & Hg). destruct (Hg false) as [evs Hv].
  assert (gdoc (blen u) ls ds (mkev (empty_at 0) EvDocStart :: evs ++ [mkev (empty_at (blen u)) EvDocEnd])) as Hd.
  { apply (gdoc_plain _ _ _ _ h Hv). apply PathProofs.accepted_fine; [now apply (root_paths _ _ _ _ _ _ Hv)|]. apply (names_accepted _ _ (eq_trans Hh (eq_sym (map_map _ (fun n => [n]) _))) Hn). now left. }
  destruct (doc_runs u ls ds _ (lexd_no_eof _ _ _ Hl) Hd) as [fuel Hr]. destruct (doc_tree _ _ _ _ Hd) as (_ & _ & Ht).
  exists (map to_entry ds). split; [|exact He]. eexists. split; [exists ls, fuel; split; [now apply lexd_lexemes|exact Hr]|]. now apply doc_build.
Qed.
