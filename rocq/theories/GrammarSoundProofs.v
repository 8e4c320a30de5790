(** What the event parser accepts without error is a document of the grammar. *)
From Verif Require Import Base BaseProofs TokModel TokProofs LexModel LexSpec LexProofs ParseModel ParseSpec ParseProofs EmitProofs RunProofs
  PathSpec PathProofs TreeModel TreeSpec BuildProofs LinkProofs EscapeProofs GrammarSpec GrammarProofs GrammarRunProofs.

(** ** Atoms that are reported without error *)

Definition good (a : atom) : Prop := exists evs, emit_value a = Ok evs /\ Forall no_err evs.
Definition gkey (a : atom) : Prop := exists evs, emit_key a = Ok evs /\ Forall no_err evs.
Definition gentry (e : oentry) : Prop := let '(k, v, _, tm) := e in gkey k /\ good v /\ tm = None.

Lemma err_off (i : bool) sp k : Forall no_err (if i then [mkerr sp k] else []) -> i = false.
Proof. destruct i; [|reflexivity]. intros H. inversion_clear H. exfalso. eapply mkerr_no; eauto. Qed.
Lemma err_map {A} (g : A -> span) (h : A -> errkind) l : Forall no_err (map (fun x => mkerr (g x) (h x)) l) -> l = [].
Proof. destruct l; [reflexivity|]. intros H. inversion_clear H. exfalso. eapply mkerr_no; eauto. Qed.

Lemma good_error sp m : ~ good (AError sp m).
Proof. intros (evs & [= <-] & H). inversion_clear H. eapply mkerr_no; eauto. Qed.

Lemma good_tag sp n p i e : good (ATag sp n p i e) -> i = false /\ match p with Some q => good q | None => True end.
Proof.
  intros (evs & E & H). cbn [emit_value] in E. apply bind_inv in E as (e1 & E1 & E). injection E as <-. apply Forall_app in H as [H0 H].
  split; [now apply err_off in H0|]. destruct p as [q|]; [|exact I]. exists e1. split; [exact E1|]. inversion_clear H as [|? ? _ H']. now apply Forall_app in H' as [H' _].
Qed.

Lemma good_seq sp xs u c : good (ASeq sp xs u c) -> u = false /\ c = [] /\ Forall good xs.
Proof.
  intros (evs & E & H). cbn [emit_value] in E. apply bind_inv in E as (e1 & E1 & E). injection E as <-. inversion_clear H as [|? ? _ H']. rewrite <- app_assoc in H'.
  apply Forall_app in H' as [H0 H]. apply Forall_app in H as [Hc H]. apply Forall_app in H as [H _].
  split; [now apply err_off in H0|]. split; [now apply (err_map (fun d => d) (fun _ => ECommaInSequence)) in Hc|].
  clear - E1 H. revert e1 E1 H. induction xs as [|x xs IH]; intros e1 E1 H; [constructor|].
  apply bind_inv in E1 as (ex & Ex & E1). apply bind_inv in E1 as (er & Er & E1). injection E1 as <-. apply Forall_app in H as [H1 H2].
  constructor; [now exists ex|]. now apply (IH er).
Qed.

Lemma good_obj sp es d dg u : good (AObject sp es d dg u) -> u = false /\ d = [] /\ dg = [] /\ Forall gentry es.
Proof.
  intros (evs & E & H). cbn [emit_value] in E. apply bind_inv in E as (e1 & E1 & E). injection E as <-. inversion_clear H as [|? ? _ H'].
  rewrite <- !app_assoc in H'. apply Forall_app in H' as [H0 H]. apply Forall_app in H as [Hd H]. apply Forall_app in H as [Hg H]. apply Forall_app in H as [H _].
  split; [now apply err_off in H0|]. split; [now apply (err_map snd (fun d => EDuplicateKey (fst d))) in Hd|]. split; [now apply (err_map (fun d => d) (fun _ => EDanglingDoc)) in Hg|].
  clear - E1 H. revert e1 E1 H. induction es as [|[[[k v] doc] tm] es IH]; intros e1 E1 H; [constructor|].
  apply bind_inv in E1 as (ek & Ek & E1). apply bind_inv in E1 as (ev & Ev & E1). apply bind_inv in E1 as (er & Er & E1). injection E1 as <-.
  apply Forall_app in H as [_ H]. inversion_clear H as [|? ? _ H']. apply Forall_app in H' as [H1 H]. apply Forall_app in H as [H2 H]. apply Forall_app in H as [H3 H].
  constructor; [|now apply (IH er)]. split; [now exists ek|]. split; [now exists ev|]. destruct tm; [|reflexivity]. inversion_clear H3. exfalso. eapply mkerr_no; eauto.
Qed.

Lemma good_attrs sp xs : good (AAttrs sp xs) -> Forall (fun x => good (snd x)) xs.
Proof.
  intros (evs & E & H). cbn [emit_value] in E. apply bind_inv in E as (e1 & E1 & E). injection E as <-. inversion_clear H as [|? ? _ H']. apply Forall_app in H' as [H _].
  revert e1 E1 H. induction xs as [|[[k ksp] v] xs IH]; intros e1 E1 H; [constructor|].
  apply bind_inv in E1 as (ev & Ev & E1). apply bind_inv in E1 as (er & Er & E1). injection E1 as <-.
  inversion_clear H as [|? ? _ H']. inversion_clear H' as [|? ? _ H]. apply Forall_app in H as [H1 H]. inversion_clear H as [|? ? _ H2].
  constructor; [now exists ev|]. now apply (IH er).
Qed.

Lemma good_tag_intro sp n p e : match p with Some q => good q | None => True end -> good (ATag sp n p false e).
Proof.
  intros H. assert (exists e1, match p with Some q => emit_value q | None => Ok [] end = Ok e1 /\ Forall no_err e1) as (e1 & E1 & H1).
  { destruct p as [q|]; [exact H|]. exists []. split; [reflexivity|constructor]. }
  eexists. split; [cbn [emit_value]; rewrite E1; reflexivity|]. cbn [app]. constructor; [intros ?; discriminate|]. apply Forall_app. split; [exact H1|]. constructor; [intros ?; discriminate|constructor].
Qed.

Lemma gkey_good a : gkey a -> good a.
Proof.
  intros (evs & E & H).
  assert (Hs : forall sp v k, good (AScalar sp v k)) by (intros; eexists; split; [reflexivity|]; constructor; [intros ?; discriminate|constructor]).
  assert (Hu : forall sp, good (AUnit sp)) by (intros; eexists; split; [reflexivity|]; constructor; [intros ?; discriminate|constructor]).
  assert (Hbad : forall l sp e, ~ Forall no_err (l ++ [mkerr sp e])). { intros l sp e Hn. apply Forall_app in Hn as [_ Hn]. inversion_clear Hn. eapply mkerr_no; eauto. }
  destruct a as [sp v k|sp|sp name p i esp|sp es ds dg u|sp es u cs|sp es|sp raw|sp m]; cbn [emit_key] in E; auto;
    try (injection E as <-; exfalso; apply (Hbad [] _ _ H)).
  - destruct p as [q|].
    + destruct q; try (injection E as <-; exfalso; apply (Hbad _ _ _ H)).
      * apply bind_inv in E as (e1 & E1 & E). injection E as <-. apply Forall_app in H as [H _]. apply err_off in H as ->. now apply good_tag_intro.
      * injection E as <-. apply Forall_app in H as [H _]. apply err_off in H as ->. now apply good_tag_intro.
    + injection E as <-. apply Forall_app in H as [H _]. apply err_off in H as ->. now apply good_tag_intro.
  - apply bind_inv in E as (e1 & E1 & E). injection E as <-. apply Forall_app in H as [H _]. eexists. split; [cbn [emit_value]; rewrite E1; reflexivity|].
    apply Forall_app. split; [exact H|]. constructor; [intros ?; discriminate|constructor].
Qed.

(** ** The shape of what the loops return *)

Section Shapes.
Variable input : str.

Lemma seq_shape f : forall start elems commas s a tr s', seq_loop input f start elems commas s = Ok (a, tr, s') ->
  exists sp xs u c, a = ASeq sp (elems ++ xs) u (commas ++ c).
Proof.
  induction f as [|f IH]; intros start elems commas s a tr s' E; [discriminate|]. cbn [seq_loop] in E. destruct (src_next s) as [l s1].
  assert (Hd : (do (a0, ev, s2) <- parse_atom input f l s1; do (r, ev2, s3) <- seq_loop input f start (elems ++ [a0]) commas s2; Ok (r, ev ++ ev2, s3)) = Ok (a, tr, s') ->
    exists sp xs u c, a = ASeq sp (elems ++ xs) u (commas ++ c)).
  { clear E. intros E. apply bind_inv in E as ([[a0 ev] s2] & _ & E). apply bind_inv in E as ([[r ev2] s3] & E1 & E). injection E as <- _ _.
    destruct (IH _ _ _ _ _ _ _ E1) as (sp & xs & u & c & ->). exists sp, (a0 :: xs), u, c. now rewrite <- app_assoc. }
  destruct l; try (now apply Hd); try (now apply IH in E); try (injection E as <- _ _; exists (mkspan (sp_start start) (sp_end start)), [], true, []; now rewrite !app_nil_r);
    try (injection E as <- _ _; eexists _, [], false, []; now rewrite !app_nil_r).
  apply IH in E as (sp' & xs & u & c & ->). exists sp', xs, u, (sp :: c). now rewrite <- app_assoc.
Qed.

Lemma add_entry_shape atoms doc entries seen dups entries' seen' dups' : ParseModel.add_entry atoms doc entries seen dups = (entries', seen', dups') ->
  (exists x, entries' = entries ++ x) /\ exists d, dups' = dups ++ d.
Proof.
  destruct atoms as [|k rest]; cbn [ParseModel.add_entry]; [intros [= <- <- <-]; split; exists []; now rewrite app_nil_r|].
  destruct (match rest with [] => _ | _ => _ end) as [value tm]. destruct (seen_get (key_of_atom k) seen); intros [= <- <- <-]; (split; [eauto|]); [eauto|exists []; now rewrite app_nil_r].
Qed.

Lemma obj_shape f : forall start entries seen dups pend s a tr s', obj_loop input f start entries seen dups pend s = Ok (a, tr, s') ->
  exists sp xs d dg u, a = AObject sp (entries ++ xs) (dups ++ d) dg u.
Proof.
  induction f as [|f IH]; intros start entries seen dups pend s a tr s' E; [discriminate|]. cbn [obj_loop] in E. destruct (src_next s) as [l s1].
  assert (Hd : (do (a0, ev, s2) <- parse_atom input f l s1;
     do (atoms, ev2, s3) <- collect_loop input f (sp_end (a_span a0)) (is_bare_atom a0) [a0] s2;
     let '(entries', seen', dups') := ParseModel.add_entry atoms (take_docs pend) entries seen dups in
     do (r, ev3, s4) <- obj_loop input f start entries' seen' dups' [] s3;
     Ok (r, ev ++ ev2 ++ ev3, s4)) = Ok (a, tr, s') ->
    exists sp xs d dg u, a = AObject sp (entries ++ xs) (dups ++ d) dg u).
  { clear E. intros E. apply bind_inv in E as ([[a0 ev] s2] & _ & E). apply bind_inv in E as ([[atoms ev2] s3] & _ & E).
    destruct (ParseModel.add_entry atoms (take_docs pend) entries seen dups) as [[entries' seen'] dups'] eqn:Ea. destruct (add_entry_shape _ _ _ _ _ _ _ _ Ea) as [[x ->] [d ->]].
    apply bind_inv in E as ([[r ev3] s4] & E1 & E). injection E as <- _ _. destruct (IH _ _ _ _ _ _ _ _ _ E1) as (sp & xs & d' & dg & u & ->).
    exists sp, (x ++ xs), (d ++ d'), dg, u. now rewrite <- !app_assoc. }
  destruct l; try (now apply Hd); try (now apply IH in E); injection E as <- _ _; eexists _, [], [], _, _; now rewrite !app_nil_r.
Qed.

Lemma collect_shape f : forall fe fb acc s atoms tr s', collect_loop input f fe fb acc s = Ok (atoms, tr, s') -> exists xs, atoms = acc ++ xs.
Proof.
  induction f as [|f IH]; intros fe fb acc s atoms tr s' E; [discriminate|]. cbn [collect_loop] in E. destruct (src_next s) as [l s1].
  assert (Hd : forall ev0, (do (a0, ev, s2) <- parse_atom input f l s1; do (r, ev2, s3) <- collect_loop input f fe fb (acc ++ [a0]) s2; Ok (r, ev0 ++ ev ++ ev2, s3)) = Ok (atoms, tr, s') ->
    exists xs, atoms = acc ++ xs).
  { clear E. intros ev0 E. apply bind_inv in E as ([[a0 ev] s2] & _ & E). apply bind_inv in E as ([[r ev2] s3] & E1 & E). injection E as <- _ _.
    destruct (IH _ _ _ _ _ _ _ E1) as (xs & ->). exists (a0 :: xs). now rewrite <- app_assoc. }
  destruct l; try (now apply (Hd [])); try (now apply Hd in E); try (apply bind_inv in E as (s2 & _ & E)); injection E as <- _ _; exists []; now rewrite app_nil_r.
Qed.

Lemma attr_shape f : forall first attrs s a tr s', attr_loop input f first attrs s = Ok (a, tr, s') -> exists sp xs, a = AAttrs sp (attrs ++ xs).
Proof.
  induction f as [|f IH]; intros first attrs s a tr s' E; [discriminate|]. cbn [attr_loop] in E. destruct (src_next s) as [l s1].
  destruct l; try (apply bind_inv in E as (s2 & _ & E); injection E as <- _ _; eexists _, []; now rewrite app_nil_r).
  destruct (src_next s1) as [nx s2]. apply bind_inv in E as ([[v ev] s3] & _ & E). apply bind_inv in E as ([[r ev2] s4] & E1 & E). injection E as <- _ _.
  destruct (IH _ _ _ _ _ _ E1) as (sp' & xs & ->). eexists sp', (_ :: xs). now rewrite <- app_assoc.
Qed.

End Shapes.

(** ** Reading *)

Definition lex_fine (input : str) (l : lexeme) : Prop := lexeme_ok input l /\ clear_escape input l.

Lemma fine_all input ls : Forall (lexeme_ok input) ls -> Forall (clear_escape input) ls -> Forall (lex_fine input) ls.
Proof. intros H1 H2. rewrite Forall_forall in *. intros l Hl. split; auto. Qed.

(** A source without backslash-u is clear. *)
Lemma no_bsl_u_clear src : ~ has_bsl_u src -> clear_escapes src.
Proof.
  intros Hu ls El. destruct (lexemes_good src ls El) as (Hok & _). rewrite Forall_forall in *. intros l Hl. apply Hok in Hl. destruct l as [sp v k| | | | | | | | | | | | |sp m]; try exact I.
  - destruct k; try exact I. cbn. intros Hb. apply Hu. destruct (quoted_fits src _ _ Hl) as [_ F]. auto.
  - cbn. intros t Ht (a & b & ->). apply Hu. apply slice_some in Ht as (x & y & -> & _). exists (x ++ a), (b ++ y). now rewrite <- !app_assoc.
Qed.

Section Sound.
Variable input : str.

Definition fed (s : lsrc) (l : list lexeme) : Prop := feeds s l /\ Forall (lex_fine input) l.

Lemma fed_next s l : fed s l -> exists s1, src_next s = (head l, s1) /\ fed s1 (tl l) /\ (l <> [] -> lex_fine input (head l)).
Proof.
  intros [H Ho]. destruct (feeds_next _ _ H) as (s1 & E & H1). exists s1. split; [exact E|]. destruct l as [|x l]; cbn [head tl] in *; [split; [split; auto|congruence]|].
  inversion_clear Ho. split; [split; auto|auto].
Qed.

Lemma fed_stash s l s1 s2 : fed s l -> src_next s = (head l, s1) -> src_stash (head l) s1 = Ok s2 -> fed s2 l.
Proof. intros [H Ho] E E2. destruct (feeds_stash _ _ _ H E) as (s3 & E3 & H3). assert (s3 = s2) by congruence. subst s3. split; auto. Qed.

Lemma doc_text_of sp t : lex_fine input (LxDoc sp t) -> doc_text t (doc_line t).
Proof. intros ((x & _ & -> & H) & _). apply doc_text_line. auto. Qed.

Lemma inv_esc_bad f sp m s a tr s' : lex_fine input (LxError sp m) -> parse_atom input f (LxError sp m) s = Ok (a, tr, s') -> ~ good a.
Proof.
  intros [Hok Hcl] E. destruct f as [|f]; [discriminate|]. cbn [parse_atom] in E. destruct (msg_has_escape m) eqn:Em; [|injection E as <- _ _; apply good_error].
  assert (exists a, slice input (sp_start sp) (sp_end sp) = Some (cDQ :: a ++ [cDQ]) /\ forall v, ~ decodes a v) as (b & Hsl & Hnd).
  { destruct Hok as (t & Htx & Hx). unfold lexeme_text in Htx. cbn [lx_span] in Htx. destruct m; try discriminate; destruct Hx as (b & -> & Hd); eauto. }
  rewrite Hsl in E. cbn [of_opt bind] in E.
  assert (starts_with_char cDQ (cDQ :: b ++ [cDQ]) && ends_with_char cDQ (cDQ :: b ++ [cDQ]) = true) as Eq.
  { unfold starts_with_char, ends_with_char. rewrite N.eqb_refl. cbn [andb].
    change (cDQ :: b ++ [cDQ]) with ((cDQ :: b) ++ [cDQ]). rewrite rev_app_distr. reflexivity. }
  rewrite Eq, quoted_inner in E. cbn [of_opt bind] in E. injection E as <- _ _.
  intros (evs & Ev & Hn). cbn [emit_value] in Ev. apply bind_inv in Ev as (e1 & E1 & Ev). injection Ev as <-. apply Forall_app in Hn as [Hn _].
  unfold escape_errors in E1. destruct (validate_escapes_iff b) as (l & El & Hl); [intros Hb; apply (Hcl _ Hsl), has_bsl_u_cons, has_bsl_u_app_r, Hb|].
  rewrite El in E1. cbn [bind] in E1. injection E1 as <-. destruct l; [|inversion_clear Hn; eapply mkerr_no; eauto].
  destruct (proj1 Hl eq_refl) as [v Hv]. now apply (Hnd v).
Qed.

Definition S_val (f : nat) : Prop := forall x l s a tr s', parse_atom input f x s = Ok (a, tr, s') -> fed s l -> (x = LxEof \/ lex_fine input x) ->
  Forall no_err tr -> good a -> exists d r, gval (x :: l) d tr r /\ fed s' r /\ stands a d.
Definition S_items (f : nat) : Prop := forall l s start elems commas a tr s', seq_loop input f start elems commas s = Ok (a, tr, s') -> fed s l ->
  Forall no_err tr -> good a -> exists xs e ds r, a = ASeq (cover start e) (elems ++ xs) false [] /\ commas = [] /\ gitems l ds tr e r /\ fed s' r /\ stands_l xs ds.
Definition S_ents (f : nat) : Prop := forall l s start entries seen dups pend a tr s', obj_loop input f start entries seen dups pend s = Ok (a, tr, s') -> fed s l ->
  Forall no_err tr -> good a -> exists xs e ks es r, a = AObject (cover start e) (entries ++ xs) [] [] false /\ dups = [] /\
    gents (map (fun x => (fst x, doc_line (snd x))) pend) l ks es tr e r /\ fed s' r /\ stands_e xs es /\ NoDup ks /\ (forall k, In k ks -> seen_get k seen = None).
Definition S_attrs (f : nat) : Prop := forall l s first attrs0 a tr s', attr_loop input f first attrs0 s = Ok (a, tr, s') -> fed s l ->
  Forall no_err tr -> good a -> exists xs attrs r,
    a = AAttrs (mkspan (sp_start first) (match rev (attrs0 ++ xs) with (_, _, v) :: _ => sp_end (a_span v) | [] => sp_end first end)) (attrs0 ++ xs)
    /\ gattrs l attrs tr r /\ fed s' r /\ stands_a xs attrs.
Definition S_one (f : nat) : Prop := forall fe fb k v l s tr s', collect_loop input f fe fb [k] s = Ok ([k; v], tr, s') -> fed s l ->
  Forall no_err tr -> good v -> exists d tr1 r1 tr2 r, gval l d tr1 r1 /\ gstop r1 tr2 r /\ fed s' r /\ stands v d /\ tr = tr1 ++ tr2 /\
    match l with (LxObjStart sp | LxSeqStart sp) :: _ => fb && (fe =? sp_start sp) = false | _ => True end.

Lemma collect_stop f fe fb acc l s tr s' : collect_loop input f fe fb acc s = Ok (acc, tr, s') -> fed s l -> exists r, gstop l tr r /\ fed s' r.
Proof.
  intros E Hs. destruct f as [|f]; [discriminate|]. cbn [collect_loop] in E. destruct (fed_next _ _ Hs) as (s1 & En & H1 & Hok). rewrite En in E.
  assert (Hd : forall ev0, (do (a0, ev, s2) <- parse_atom input f (head l) s1; do (r, ev2, s3) <- collect_loop input f fe fb (acc ++ [a0]) s2; Ok (r, ev0 ++ ev ++ ev2, s3)) <> Ok (acc, tr, s')).
  { clear E. intros ev0 E. apply bind_inv in E as ([[a0 ev] s2] & _ & E). apply bind_inv in E as ([[r ev2] s3] & E1 & E). injection E as -> _ _.
    apply collect_shape in E1 as (xs & E1). rewrite <- app_assoc in E1. apply (f_equal (@length _)) in E1. rewrite !app_length in E1. cbn in E1. lia. }
  assert (Hst : (do s2 <- src_stash (head l) s1; Ok (acc, [], s2)) = Ok (acc, tr, s') -> tr = [] /\ fed s' l).
  { clear E Hd. intros E. apply bind_inv in E as (s2 & E2 & E). injection E as <- <-. split; [reflexivity|]. eapply fed_stash; eauto. }
  destruct l as [|x l]; cbn [head tl] in *; [destruct (Hst E) as [-> Hf]; exists []; split; [constructor|exact Hf]|]. specialize (Hok ltac:(discriminate)).
  destruct x; try (destruct (Hst E) as [-> Hf]; eexists; split; [|exact Hf]; constructor; fail);
    try (exfalso; exact (Hd [] E)); try (exfalso; exact (Hd _ E)).
  - injection E as <- <-. eexists. split; [|exact H1]. constructor.
  - injection E as <- <-. eexists. split; [|exact H1]. constructor. eapply doc_text_of; eauto.
  - destruct Hs as [(_ & Hne & _) _]. destruct Hne. now left.
Qed.

Lemma chain_good ns : forall start p a, build_chain (chain_spans start ns) p = Ok a -> good a ->
  ns <> [] /\ Forall tag_name ns /\ match p with Some q => good q | None => True end.
Proof.
  induction ns as [|n ns IH]; intros start p a E H; [discriminate|]. cbn [chain_spans build_chain] in E. apply bind_inv in E as (q & Eq & E). injection E as <-.
  apply good_tag in H as [Hi Hq]. apply negb_false_iff, tag_name_valid in Hi. split; [discriminate|]. destruct ns as [|m ns].
  - cbn [chain_spans] in Eq. injection Eq as <-. auto.
  - change ((do a0 <- build_chain (chain_spans (start + 1 + blen n + 1) (m :: ns)) p; Ok (Some a0)) = Ok q) in Eq.
    apply bind_inv in Eq as (b & Eb & Eq). injection Eq as <-. destruct (IH _ _ _ Eb Hq) as (_ & H1 & H2). auto.
Qed.

Lemma val_step f : S_val f -> S_items f -> S_ents f -> S_attrs f -> S_val (S f).
Proof.
  intros IHv IHs IHo IHa x l s a tr s' E Hs Hx Hn Hg.
  destruct x as [sp v k|sp|sp name hp|sp|sp|sp|sp|sp ksp key|sp|sp|sp t|sp t| |sp m].
  - injection E as <- <- <-. eexists _, l. split; [constructor|]. split; [exact Hs|constructor].
  - cbn [parse_atom] in E. destruct (fed_next _ _ Hs) as (s1 & En & H1 & _). rewrite En in E.
    assert (Hst : (do s2 <- src_stash (head l) s1; Ok (AUnit sp, [], s2)) = Ok (a, tr, s') -> (forall t, ~ bare_at (sp_end sp) t l) ->
      exists d r, gval (LxUnit sp :: l) d tr r /\ fed s' r /\ stands a d).
    { clear E. intros E Hb. apply bind_inv in E as (s2 & E2 & E). injection E as <- <- <-. eexists _, l. split; [constructor; exact Hb|]. split; [eapply fed_stash; eauto|constructor]. }
    destruct l as [|y l]; cbn [head tl] in *; [apply Hst; [exact E|intros t (? & ? & [=] & _)]|].
    destruct y as [ssp v k| | | | | | | | | | | | |]; try (apply Hst; [exact E|intros t (? & ? & [=] & _)]).
    destruct k; try (apply Hst; [exact E|intros t (? & ? & [=] & _)]).
    destruct (Nat.eqb_spec (sp_start ssp) (sp_end sp)) as [Hq|Hq].
    + injection E as <- _ _. apply good_tag in Hg as [[=] _].
    + apply Hst; [exact E|]. intros t (? & ? & [= <- -> <-] & Hb). congruence.
  - cbn [parse_atom] in E. destruct (fed_next _ _ Hs) as (s1 & En & H1 & Hok). rewrite En in E. unfold split_chain in E. rewrite chain_spans_length in E.
    set (ns := split_sub2 cSLASH cAT name) in *.
    assert (Hjoin : join [cSLASH; cAT] ns = name) by apply join_split_chain.
    assert (Hno : (do s2 <- src_stash (head l) s1; do a0 <- build_chain (chain_spans (sp_start sp) ns) None; Ok (a0, [], s2)) = Ok (a, tr, s') ->
      ~ has_payload sp ns hp l -> (forall t, ~ bare_at (sp_end sp) (cDOT :: t) l) -> exists d r, gval (LxTag sp name hp :: l) d tr r /\ fed s' r /\ stands a d).
    { clear E. intros E Hp Hb. apply bind_inv in E as (s2 & E2 & E). apply bind_inv in E as (b & Eb & E). injection E as -> <- <-.
      destruct (chain_good _ _ _ _ Eb Hg) as (Hne & Hns & _). destruct (stacked_some ns (sp_start sp) None Hne) as [d Hd].
      destruct (build_chain_stands ns Hne Hns (sp_start sp) None None d I Hd) as (b & Eb' & Hb'). assert (b = a) by congruence. subst b.
      exists d, l. split; [apply (gv_tag _ _ _ ns); auto; split; auto|]. split; [eapply fed_stash; eauto|exact Hb']. }
    assert (Hpay : (do (p, ev, s2) <- parse_atom input f (head l) s1; do a0 <- build_chain (chain_spans (sp_start sp) ns) (Some p); Ok (a0, ev, s2)) = Ok (a, tr, s') ->
      has_payload sp ns hp l -> exists d r, gval (LxTag sp name hp :: l) d tr r /\ fed s' r /\ stands a d).
    { clear E. intros E Hp. apply bind_inv in E as ([[p ev] s2] & E2 & E). apply bind_inv in E as (b & Eb & E). injection E as -> -> ->.
      destruct (chain_good _ _ _ _ Eb Hg) as (Hne & Hns & Hgp). destruct l as [|y l].
      - cbn [head] in E2. destruct f as [|f']; [discriminate|]. injection E2 as <- _ _. now apply good_error in Hgp.
      - cbn [head tl] in *. destruct (IHv _ _ _ _ _ _ E2 H1 (or_intror (Hok ltac:(discriminate))) Hn Hgp) as (pd & r & Hv & Hf & Hst).
        destruct (stacked_some ns (sp_start sp) (Some pd) Hne) as [d Hd].
        destruct (build_chain_stands ns Hne Hns (sp_start sp) (Some p) (Some pd) d Hst Hd) as (b & Eb' & Hb'). assert (b = a) by congruence. subst b.
        exists d, r. split; [apply (gv_tag_payload _ _ _ ns pd); auto; split; auto|]. auto. }
    assert (Hns1 : length ns <> 0) by (destruct ns eqn:Ens; [now apply split_sub2_nonempty in Ens|discriminate]).
    destruct ns as [|n0 [|n1 ns']] eqn:Ens; [now destruct Hns1| |]; cbn [length] in E.
    + change (1 <? 1) with false in E. cbn [negb] in E. rewrite andb_true_r in E. destruct hp; cbn [negb] in E; [now apply Hpay|].
      destruct l as [|y l]; cbn [head tl] in *; [apply Hno; [exact E|discriminate|intros t (? & ? & [=] & _)]|].
      destruct y as [ssp v k| | | | | | | | | | | | |]; try (apply Hno; [exact E|discriminate|intros t (? & ? & [=] & _)]).
      destruct k; try (apply Hno; [exact E|discriminate|intros t (? & ? & [=] & _)]).
      destruct ((sp_start ssp =? sp_end sp) && starts_with_char cDOT v) eqn:Eb.
      * injection E as <- _ _. apply good_tag in Hg as [[=] _].
      * apply Hno; [exact E|discriminate|]. intros t (ssp' & r' & [= <- -> <-] & Hb). rewrite Hb, Nat.eqb_refl in Eb. discriminate Eb.
    + change (1 <? S (S (length ns'))) with true in E. cbn [negb] in E. rewrite andb_false_r in E.
      destruct ((sp_start (lx_span (head l)) =? sp_end sp) && can_be_payload (head l)) eqn:Ep.
      * apply Hpay; [exact E|]. apply andb_prop in Ep as [Ep1 Ep2]. apply Nat.eqb_eq in Ep1. destruct l as [|y l]; [discriminate Ep2|]. cbn [head] in *.
        split; [exists y, l; auto|]. cbn. destruct y; try discriminate Ep2; exact I.
      * assert (Hnp : forall r', l = r' -> ~ (next_at (sp_end sp) r' /\ payload_start r')).
        { intros r' <- [(y & l' & -> & Hy) Hp]. cbn [head] in Ep. rewrite Hy, Nat.eqb_refl in Ep. cbn [payload_start] in Hp. destruct y; try contradiction; discriminate Ep. }
        apply Hno; [exact E|now apply Hnp|]. intros t (ssp & r' & -> & Hb). apply (Hnp _ eq_refl). split; [|exact I]. exists (LxScalar ssp (cDOT :: t) Bare), r'. auto.
  - change (obj_loop input f sp [] [] [] [] s = Ok (a, tr, s')) in E. destruct (IHo _ _ _ _ _ _ _ _ _ _ E Hs Hn Hg) as (xs & e & ks & es & r & -> & _ & Hge & Hf & Hst & Hnd & _).
    eexists _, r. split; [apply (gv_obj sp l ks es tr e r); assumption|]. split; [exact Hf|now constructor].
  - injection E as <- _ _. now apply good_error in Hg.
  - change (seq_loop input f sp [] [] s = Ok (a, tr, s')) in E. destruct (IHs _ _ _ _ _ _ _ _ E Hs Hn Hg) as (xs & e & ds & r & -> & _ & Hge & Hf & Hst).
    eexists _, r. split; [apply (gv_seq sp l ds tr e r); assumption|]. split; [exact Hf|now constructor].
  - injection E as <- _ _. now apply good_error in Hg.
  - rewrite parse_attr_step in E. destruct (fed_next _ _ Hs) as (s1 & En & H1 & Hok). rewrite En in E.
    apply bind_inv in E as ([[v ev] s2] & Ev & E). apply bind_inv in E as ([[b ev2] s3] & Eb & E). injection E as -> <- ->.
    apply Forall_app in Hn as [Hn1 Hn2]. destruct (attr_shape _ _ _ _ _ _ _ _ Eb) as (asp & ys & ->). pose proof (good_attrs _ _ Hg) as Hga. inversion_clear Hga as [|? ? Hgv _]. cbn [snd] in Hgv.
    destruct l as [|y l]; [cbn [head] in Ev; destruct f as [|f']; [discriminate|]; injection Ev as <- _ _; now apply good_error in Hgv|]. cbn [head tl] in *.
    destruct (IHv _ _ _ _ _ _ Ev H1 (or_intror (Hok ltac:(discriminate))) Hn1 Hgv) as (d & r & Hv & Hf & Hst).
    destruct (IHa _ _ _ _ _ _ _ Eb Hf Hn2 Hg) as (xs & attrs & r2 & Ea & Hga & Hf2 & Hsta).
    assert (stands_a ((key, ksp, v) :: xs) ((key, ksp, d) :: attrs)) as Hall by now constructor.
    cbn [app] in Ea. rewrite (rev_last_attr _ _ ksp Hall) in Ea by discriminate. cbn [app]. rewrite Ea.
    eexists _, r2. split; [apply (gv_attrs sp ksp key (y :: l) d ev r attrs ev2 r2); assumption|]. split; [exact Hf2|now constructor].
  - injection E as <- _ _. now apply good_error in Hg.
  - injection E as <- _ _. now apply good_error in Hg.
  - injection E as <- _ _. now apply good_error in Hg.
  - injection E as <- _ _. now apply good_error in Hg.
  - injection E as <- _ _. now apply good_error in Hg.
  - destruct Hx as [Hx|Hx]; [discriminate|]. exfalso. now apply (inv_esc_bad _ _ _ _ _ _ _ Hx E).
Qed.

Lemma items_step f : S_val f -> S_items f -> S_items (S f).
Proof.
  intros IHv IHs l s start elems commas a tr s' E Hs Hn Hg. cbn [seq_loop] in E. destruct (fed_next _ _ Hs) as (s1 & En & H1 & Hok). rewrite En in E.
  assert (Hd : (do (a0, ev, s2) <- parse_atom input f (head l) s1; do (r, ev2, s3) <- seq_loop input f start (elems ++ [a0]) commas s2; Ok (r, ev ++ ev2, s3)) = Ok (a, tr, s') -> l <> [] ->
    exists xs e ds r, a = ASeq (cover start e) (elems ++ xs) false [] /\ commas = [] /\ gitems l ds tr e r /\ fed s' r /\ stands_l xs ds).
  { clear E. intros E Hl. apply bind_inv in E as ([[a0 ev] s2] & E0 & E). apply bind_inv in E as ([[r0 ev2] s3] & E1 & E). injection E as -> <- ->. apply Forall_app in Hn as [Hn1 Hn2].
    assert (good a0) as Hg0.
    { destruct (seq_shape _ _ _ _ _ _ _ _ _ E1) as (sp & xs & u & c & Ea). rewrite Ea in Hg. apply good_seq in Hg as (_ & _ & Hg). rewrite <- app_assoc in Hg. apply Forall_app in Hg as [_ Hg]. now inversion_clear Hg. }
    destruct l as [|x l]; [congruence|]. cbn [head tl] in *.
    destruct (IHv _ _ _ _ _ _ E0 H1 (or_intror (Hok Hl)) Hn1 Hg0) as (d & r & Hv & Hf & Hst).
    destruct (IHs _ _ _ _ _ _ _ _ E1 Hf Hn2 Hg) as (xs & e & ds & r2 & -> & -> & Hi & Hf2 & Hsts).
    exists (a0 :: xs), e, (d :: ds), r2. rewrite <- app_assoc. splits; auto; [eapply gi_item; eauto|now constructor]. }
  destruct l as [|x l]; cbn [head tl] in *.
  - injection E as <- _ _. apply good_seq in Hg as ([=] & _).
  - specialize (Hok ltac:(discriminate)). destruct x; try (apply Hd; [exact E|discriminate]).
    + injection E as <- <- <-. apply good_seq in Hg as (_ & -> & _). exists [], sp, [], l. rewrite app_nil_r. splits; auto; constructor.
    + destruct (IHs _ _ _ _ _ _ _ _ E H1 Hn Hg) as (xs & e & ds & r2 & _ & Hc & _). destruct commas; discriminate Hc.
    + destruct (IHs _ _ _ _ _ _ _ _ E H1 Hn Hg) as (xs & e & ds & r2 & -> & -> & Hi & Hf2 & Hsts). exists xs, e, ds, r2. splits; auto. apply gi_remark; [exact I|exact Hi].
    + destruct (IHs _ _ _ _ _ _ _ _ E H1 Hn Hg) as (xs & e & ds & r2 & -> & -> & Hi & Hf2 & Hsts). exists xs, e, ds, r2. splits; auto. apply gi_remark; [exact I|exact Hi].
    + destruct (IHs _ _ _ _ _ _ _ _ E H1 Hn Hg) as (xs & e & ds & r2 & -> & -> & Hi & Hf2 & Hsts). exists xs, e, ds, r2. splits; auto. now apply gi_doc.
    + injection E as <- _ _. apply good_seq in Hg as ([=] & _).
Qed.

Lemma attrs_step f : S_val f -> S_attrs f -> S_attrs (S f).
Proof.
  intros IHv IHa l s first attrs0 a tr s' E Hs Hn Hg. destruct (fed_next _ _ Hs) as (s1 & En & H1 & Hok).
  assert (Hd : (do s2 <- src_stash (head l) s1; Ok (AAttrs (mkspan (sp_start first) (match rev attrs0 with (_, _, v) :: _ => sp_end (a_span v) | [] => sp_end first end)) attrs0, [], s2)) = Ok (a, tr, s') ->
    (forall asp ksp key r', l <> LxAttrKey asp ksp key :: r') -> exists xs attrs r,
    a = AAttrs (mkspan (sp_start first) (match rev (attrs0 ++ xs) with (_, _, v) :: _ => sp_end (a_span v) | [] => sp_end first end)) (attrs0 ++ xs)
    /\ gattrs l attrs tr r /\ fed s' r /\ stands_a xs attrs).
  { clear E. intros E Hl. apply bind_inv in E as (s2 & E2 & E). injection E as <- <- <-. exists [], [], l. rewrite app_nil_r. splits; auto; [now constructor|eapply fed_stash; eauto|constructor]. }
  destruct l as [|x l]; cbn [head tl] in *; [cbn [attr_loop] in E; rewrite En in E; apply Hd; [exact E|discriminate]|].
  destruct x; try (cbn [attr_loop] in E; rewrite En in E; apply Hd; [exact E|discriminate]).
  rewrite (attr_loop_step _ _ _ _ _ _ _ _ _ En) in E. destruct (fed_next _ _ H1) as (s2 & En2 & H2 & Hok2). rewrite En2 in E.
  apply bind_inv in E as ([[v ev] s3] & Ev & E). apply bind_inv in E as ([[b ev2] s4] & Eb & E). injection E as -> <- ->. apply Forall_app in Hn as [Hn1 Hn2].
  assert (good v) as Hgv. { destruct (attr_shape _ _ _ _ _ _ _ _ Eb) as (asp & ys & ->). apply good_attrs in Hg. rewrite <- app_assoc in Hg. apply Forall_app in Hg as [_ Hg]. now inversion_clear Hg. }
  destruct l as [|y l]; [cbn [head] in Ev; destruct f as [|f']; [discriminate|]; injection Ev as <- _ _; now apply good_error in Hgv|]. cbn [head tl] in *.
  destruct (IHv _ _ _ _ _ _ Ev H2 (or_intror (Hok2 ltac:(discriminate))) Hn1 Hgv) as (d & r & Hv & Hf & Hst).
  destruct (IHa _ _ _ _ _ _ _ Eb Hf Hn2 Hg) as (xs & attrs & r2 & Ea & Hga & Hf2 & Hsta).
  exists ((key, ksp, v) :: xs), ((key, ksp, d) :: attrs), r2. rewrite <- app_assoc in Ea. splits; auto; [eapply ga_more; eauto|now constructor].
Qed.

Lemma one_step f : S_val f -> S_one (S f).
Proof.
  intros IHv fe fb k v l s tr s' E Hs Hn Hg. cbn [collect_loop] in E. destruct (fed_next _ _ Hs) as (s1 & En & H1 & Hok). rewrite En in E.
  assert (Hd : forall ev0, (do (a0, ev, s2) <- parse_atom input f (head l) s1; do (r, ev2, s3) <- collect_loop input f fe fb ([k] ++ [a0]) s2; Ok (r, ev0 ++ ev ++ ev2, s3)) = Ok ([k; v], tr, s') ->
    l <> [] -> Forall no_err ev0 /\ (ev0 = [] -> exists d tr1 r1 tr2 r, gval l d tr1 r1 /\ gstop r1 tr2 r /\ fed s' r /\ stands v d /\ tr = tr1 ++ tr2)).
  { clear E. intros ev0 E Hl. apply bind_inv in E as ([[a0 ev] s2] & E0 & E). apply bind_inv in E as ([[r0 ev2] s3] & E1 & E). injection E as -> Et ->.
    assert (a0 = v) as -> by (apply collect_shape in E1 as (xs & Ex); cbn in Ex; now injection Ex). subst tr.
    apply Forall_app in Hn as [Hn0 Hn]. apply Forall_app in Hn as [Hn1 Hn2]. split; [exact Hn0|]. intros ->.
    destruct l as [|x l]; [congruence|]. cbn [head tl] in *.
    destruct (IHv _ _ _ _ _ _ E0 H1 (or_intror (Hok Hl)) Hn1 Hg) as (d & r & Hv & Hf & Hst).
    destruct (collect_stop _ _ _ _ _ _ _ _ E1 Hf) as (r2 & Hgs & Hf2). exists d, ev, r, ev2, r2. auto. }
  assert (Hst : forall (tr0 : list event) (s0 : lsrc), Ok ([k], tr0, s0) <> Ok ([k; v], tr, s')) by (intros; discriminate).
  assert (Hst2 : (do s2 <- src_stash (head l) s1; Ok ([k], [], s2)) <> Ok ([k; v], tr, s')) by (intros X; apply bind_inv in X as (s2 & _ & X); discriminate X).
  destruct l as [|x l]; cbn [head tl] in *; [exfalso; exact (Hst2 E)|]. specialize (Hok ltac:(discriminate)).
  destruct x; try (exfalso; exact (Hst2 E)); try (exfalso; exact (Hst _ _ E));
    try (destruct (Hd [] E ltac:(discriminate)) as [_ H]; destruct (H eq_refl) as (d & tr1 & r1 & tr2 & r & G1 & G2 & G3 & G4 & G5);
         exists d, tr1, r1, tr2, r; splits; auto; fail);
    (cbn [length Nat.eqb andb] in E; destruct (fb && (fe =? sp_start sp)) eqn:Eg;
     [destruct (Hd _ E ltac:(discriminate)) as [H _]; inversion_clear H; exfalso; eapply mkerr_no; eauto|];
     destruct (Hd [] E ltac:(discriminate)) as [_ H]; destruct (H eq_refl) as (d & tr1 & r1 & tr2 & r & G1 & G2 & G3 & G4 & G5);
     exists d, tr1, r1, tr2, r; splits; auto).
Qed.

Lemma stacked_tag start ns p d : ns <> [] -> stacked start ns p = Some d -> exists n ns' sp, ns = n :: ns' /\ d = DTag sp n (stacked (start + blen n + 2) ns' p) sp.
Proof. destruct ns as [|n ns]; [congruence|]. intros _ [= <-]. eexists _, _, _. split; reflexivity. Qed.

Lemma scalar_in l sp t k tr r : gval l (DScalar sp t k) tr r -> In (LxScalar sp t k) l.
Proof.
  intros H. inversion H; subst; [now left| |].
  - match goal with E : stacked _ _ _ = Some _, C : tag_chain _ _ |- _ => apply stacked_tag in E as (n & ns' & sp' & _ & [=]); apply C end.
  - match goal with E : stacked _ _ _ = Some _, C : tag_chain _ _ |- _ => apply stacked_tag in E as (n & ns' & sp' & _ & [=]); apply C end.
Qed.

Lemma tag_text_in l sp n isp t k s2 tr r : gval l (DTag sp n (Some (DScalar isp t k)) s2) tr r -> In (LxScalar isp t k) l.
Proof.
  intros H. inversion H as [| |? ? ? ? ? ? Hc Hp Hb Est|? ? ? ? ? ? ? ? ? Hc Hp Hv Est| | |]; subst.
  - apply stacked_tag in Est as (m & ns' & sp' & -> & E); [|apply Hc]. injection E as _ _ E _. destruct ns' as [|m2 ns']; discriminate E.
  - apply stacked_tag in Est as (m & ns' & sp' & -> & E); [|apply Hc]. injection E as _ _ E _. destruct ns' as [|m2 ns'].
    + cbn in E. injection E as <-. right. eapply scalar_in; eauto.
    + symmetry in E. apply stacked_tag in E as (? & ? & ? & _ & [=]). discriminate.
Qed.

Lemma key_found l kd tr r ka : gval l kd tr r -> Forall (lex_fine input) l -> stands ka kd -> gkey ka -> exists tag pl kk, key_is kd tag pl kk.
Proof.
  intros Hv Hok Hst (evs & E & Hn).
  assert (Hbad : forall l sp e, ~ Forall no_err (l ++ [mkerr sp e])). { intros q sp e Hq. apply Forall_app in Hq as [_ Hq]. inversion_clear Hq. eapply mkerr_no; eauto. }
  destruct Hst as [sp t k|sp|sp n|sp n a d Ha|sp xs ds Hl|sp xs es He|sp xs es He]; try (eexists _, _, _; constructor; fail);
    try (injection E as <-; exfalso; apply (Hbad [] _ _ Hn)).
  destruct Ha as [isp t k|isp|isp m|isp m a d Ha|isp xs ds Hl|isp xs es He|isp xs es He]; try (injection E as <-; exfalso; exact (Hbad [] _ _ Hn)); [|exists (Some n), None, Bare; apply key_tag_unit].
  exists (Some n), (Some t), k. constructor. intros ->. cbn [emit_key] in E. apply bind_inv in E as (e1 & E1 & E). injection E as <-. cbn [app] in Hn. apply Forall_app in Hn as [Hn _].
  apply tag_text_in in Hv. rewrite Forall_forall in Hok. apply Hok in Hv. destruct Hv as [_ Hcl]. cbn [clear_escape] in Hcl.
  destruct (validate_escapes_iff t) as (q & Eq & Hq); [exact Hcl|]. unfold escape_errors in E1. rewrite Eq in E1. cbn [bind] in E1. injection E1 as <-.
  apply Hq. destruct q; [reflexivity|]. inversion_clear Hn. exfalso. eapply mkerr_no; eauto.
Qed.

(** One line. *)
Lemma line_found f x l s ka ev s1 rest ev2 s2 : S_val f -> S_one f -> parse_atom input f x s = Ok (ka, ev, s1) ->
  collect_loop input f (sp_end (a_span ka)) (is_bare_atom ka) [ka] s1 = Ok (ka :: rest, ev2, s2) -> fed s l -> lex_fine input x ->
  Forall no_err (ev ++ ev2) -> gkey ka -> (rest = [] \/ exists va, rest = [va] /\ good va) ->
  exists k v r tag pl kd, gline (x :: l) k v (ev ++ ev2) r /\ fed s2 r /\ stands ka k /\ values k rest v /\ key_is k tag pl kd.
Proof.
  intros IHv IH1 E1 E2 Hs Hx Hn Hk Hr. apply Forall_app in Hn as [Hn1 Hn2].
  destruct (IHv _ _ _ _ _ _ E1 Hs (or_intror Hx) Hn1 (gkey_good _ Hk)) as (k & r & Hv & Hf & Hst).
  assert (Forall (lex_fine input) (x :: l)) as Hall by (constructor; [exact Hx|apply Hs]).
  destruct (key_found _ _ _ _ _ Hv Hall Hst Hk) as (tag & pl & kd & Hkey).
  destruct Hr as [->|(va & -> & Hg)].
  - destruct (collect_stop _ _ _ _ _ _ _ _ E2 Hf) as (r2 & Hgs & Hf2). exists k, (DUnit (dspan k)), r2, tag, pl, kd. splits; auto; [eapply gl_key; eauto|]. left. auto.
  - destruct (IH1 _ _ _ _ _ _ _ _ E2 Hf Hn2 Hg) as (d & tr1 & r1 & tr2 & r2 & Hv2 & Hgs & Hf2 & Hst2 & -> & Hgl). exists k, d, r2, tag, pl, kd.
    splits; auto; [|right; eauto]. eapply gl_pair; eauto. rewrite (stands_bare _ _ Hst), (stands_span _ _ Hst) in Hgl. unfold glued.
    destruct k as [ksp kt kk| | | |]; auto. destruct kk; auto. destruct r as [|y r]; auto. cbn [dspan andb] in Hgl. destruct y; auto; now apply Nat.eqb_neq in Hgl.
Qed.

Lemma ents_step f : S_val f -> S_one f -> S_ents f -> S_ents (S f).
Proof.
  intros IHv IH1 IHo l s start entries seen dups pend a tr s' E Hs Hn Hg. cbn [obj_loop] in E. destruct (fed_next _ _ Hs) as (s1 & En & H1 & Hok). rewrite En in E.
  assert (Hd : (do (a0, ev, s2) <- parse_atom input f (head l) s1;
     do (atoms, ev2, s3) <- collect_loop input f (sp_end (a_span a0)) (is_bare_atom a0) [a0] s2;
     let '(entries', seen', dups') := ParseModel.add_entry atoms (take_docs pend) entries seen dups in
     do (r, ev3, s4) <- obj_loop input f start entries' seen' dups' [] s3;
     Ok (r, ev ++ ev2 ++ ev3, s4)) = Ok (a, tr, s') -> l <> [] ->
    exists xs e ks es r, a = AObject (cover start e) (entries ++ xs) [] [] false /\ dups = [] /\
    gents (map (fun x => (fst x, doc_line (snd x))) pend) l ks es tr e r /\ fed s' r /\ stands_e xs es /\ NoDup ks /\ (forall k, In k ks -> seen_get k seen = None)).
  { clear E. intros E Hl. apply bind_inv in E as ([[a0 ev] s2] & E0 & E). apply bind_inv in E as ([[atoms ev2] s3] & E1 & E).
    destruct (collect_shape _ _ _ _ _ _ _ _ _ E1) as (rest & ->). cbn [app ParseModel.add_entry] in E, E1.
    destruct (match rest with [] => _ | _ => _ end) as [value tm] eqn:Er.
    destruct (match seen_get (key_of_atom a0) seen with Some o => _ | None => _ end) as [seen' dups'] eqn:Es.
    apply bind_inv in E as ([[b ev3] s4] & Eb & E). injection E as -> <- ->. rewrite app_assoc in Hn. apply Forall_app in Hn as [Hn1 Hn2].
    assert (gentry (a0, value, take_docs pend, tm) /\ dups' = []) as [(Hk & Hgv & ->) ->].
    { destruct (obj_shape _ _ _ _ _ _ _ _ _ _ _ Eb) as (sp & xs & d & dg & u & Ea). rewrite Ea in Hg. apply good_obj in Hg as (_ & Hd & _ & Hg). apply app_eq_nil in Hd as [-> _].
      rewrite <- app_assoc in Hg. apply Forall_app in Hg as [_ Hg]. inversion_clear Hg. auto. }
    assert (rest = [] \/ exists va, rest = [va] /\ good va) as Hrest.
    { destruct rest as [|v1 [|v2 rest]]; [now left| |discriminate Er]. injection Er as -> . right. eauto. }
    destruct l as [|x l]; [congruence|]. cbn [head tl] in *.
    destruct (line_found f x l s1 a0 ev s2 rest ev2 s3 IHv IH1 E0 E1 H1 (Hok Hl) Hn1 Hk Hrest) as (k & v & r & tag & pl & kd & Hline & Hf & Hst & Hvals & Hkey).
    destruct (stands_key _ _ _ _ _ Hst Hkey) as [_ Hid]. rewrite Hid in Es.
    destruct (seen_get (key_id k) seen) eqn:Esn; [injection Es as _ Es; now apply app_eq_nil in Es as [_ Es]|]. injection Es as <- ->.
    destruct (IHo _ _ _ _ _ _ _ _ _ _ Eb Hf Hn2 Hg) as (xs & e & ks & es & r2 & -> & _ & Hge & Hf2 & Hsts & Hnd & Hsn).
    exists ((a0, value, take_docs pend, None) :: xs), e, (key_id k :: ks), (DEnt (doc_block (map (fun x => (fst x, doc_line (snd x))) pend)) (dspan k) (dspan k) tag pl kd v (dspan v) :: es), r2.
    rewrite <- app_assoc. splits; auto.
    - rewrite app_assoc. eapply ge_entry; eauto.
    - rewrite take_docs_block. econstructor; eauto. destruct Hvals as [[-> ->]|(va & -> & Hva)]; injection Er as <-; [|exact Hva]. rewrite (stands_span _ _ Hst). constructor.
    - constructor; [|exact Hnd]. intros Hi. apply Hsn in Hi. cbn [seen_insert seen_get] in Hi. rewrite (proj2 (keyval_eqb_eq _ _) eq_refl) in Hi. discriminate.
    - intros k' [<-|Hi]; [exact Esn|]. apply Hsn in Hi. cbn [seen_insert seen_get] in Hi. destruct (keyval_eqb (key_id k) k'); [discriminate|exact Hi]. }
  destruct l as [|x l]; cbn [head tl] in *.
  - injection E as <- _ _. apply good_obj in Hg as ([=] & _).
  - specialize (Hok ltac:(discriminate)). destruct x; try (apply Hd; [exact E|discriminate]).
    + injection E as <- <- <-. apply good_obj in Hg as (_ & -> & Hp & _). destruct pend; [|discriminate Hp]. exists [], sp, [], [], l. rewrite app_nil_r. splits; auto; try constructor. intros k [].
    + destruct (IHo _ _ _ _ _ _ _ _ _ _ E H1 Hn Hg) as (xs & e & ks & es & r2 & -> & -> & Hge & R). exists xs, e, ks, es, r2. splits; auto; try apply R. apply ge_sep; [left; exact I|exact Hge].
    + destruct (IHo _ _ _ _ _ _ _ _ _ _ E H1 Hn Hg) as (xs & e & ks & es & r2 & -> & -> & Hge & R). exists xs, e, ks, es, r2. splits; auto; try apply R. apply ge_sep; [left; exact I|exact Hge].
    + destruct (IHo _ _ _ _ _ _ _ _ _ _ E H1 Hn Hg) as (xs & e & ks & es & r2 & -> & -> & Hge & R). exists xs, e, ks, es, r2. splits; auto; try apply R. apply ge_sep; [right; exact I|exact Hge].
    + destruct (IHo _ _ _ _ _ _ _ _ _ _ E H1 Hn Hg) as (xs & e & ks & es & r2 & -> & -> & Hge & R). exists xs, e, ks, es, r2. splits; auto; try apply R.
      rewrite map_app in Hge. eapply ge_doc; [eapply doc_text_of; eauto|exact Hge].
    + injection E as <- _ _. apply good_obj in Hg as ([=] & _).
Qed.

Lemma sound_all f : S_val f /\ S_items f /\ S_ents f /\ S_attrs f /\ S_one f.
Proof.
  induction f as [|f (IHv & IHs & IHo & IHa & IH1)]; [splits; repeat intro; discriminate|].
  splits; [now apply val_step|now apply items_step|now apply ents_step|now apply attrs_step|now apply one_step].
Qed.

Lemma entry_found f x l s ka rest tr s2 : collect_entry input f x s = Ok (ka :: rest, tr, s2) -> fed s l -> lex_fine input x -> Forall no_err tr -> gkey ka ->
  (rest = [] \/ exists va, rest = [va] /\ good va) ->
  exists k v r tag pl kd, gline (x :: l) k v tr r /\ fed s2 r /\ stands ka k /\ values k rest v /\ key_is k tag pl kd.
Proof.
  intros E Hs Hx Hn Hk Hr. unfold collect_entry in E. apply bind_inv in E as ([[a ev] s1] & E1 & E). apply bind_inv in E as ([[atoms ev2] s3] & E2 & E). injection E as -> <- ->.
  fold (is_bare_atom a) in E2. destruct (collect_shape _ _ _ _ _ _ _ _ _ E2) as (xs & Ex). injection Ex as -> ->.
  destruct (sound_all f) as (IHv & _ & _ & _ & IH1). eapply line_found; eauto.
Qed.

End Sound.

(** ** Only comments are reported on the way *)

Definition remark_ev (e : event) : Prop := match ev_kind e with EvComment _ | EvDoc _ => True | _ => False end.

Lemma stop_remarks r tr r' : gstop r tr r' -> Forall remark_ev tr.
Proof. destruct 1; repeat constructor. Qed.

Lemma g_remarks : (forall l d tr r, gval l d tr r -> Forall remark_ev tr) /\ (forall l ds tr e r, gitems l ds tr e r -> Forall remark_ev tr) /\
  (forall docs l ks es tr e r, gents docs l ks es tr e r -> Forall remark_ev tr) /\ (forall l k v tr r, gline l k v tr r -> Forall remark_ev tr) /\
  (forall l attrs tr r, gattrs l attrs tr r -> Forall remark_ev tr).
Proof.
  apply g_all; intros; try (repeat (apply Forall_app; split)); auto; eapply stop_remarks; eauto.
Qed.
Lemma line_remarks l k v tr r : gline l k v tr r -> Forall remark_ev tr.
Proof. apply g_remarks. Qed.

Definition neutral (evs : list event) : Prop := forall st r, nest st (evs ++ r) = nest st r.
Lemma neutral_remarks tr : Forall remark_ev tr -> neutral tr.
Proof. induction 1 as [|[sp k] tr Hk _ IH]; intros st r; [reflexivity|]. cbn [app nest ev_kind]. destruct k; try contradiction; destruct st as [|[] st]; apply IH. Qed.
Lemma neutral_app a b : neutral a -> neutral b -> neutral (a ++ b).
Proof. intros Ha Hb st r. rewrite <- app_assoc, Ha. apply Hb. Qed.
Lemma neutral_ent e : neutral (ent_events e).
Proof. intros st r. pose proof (nest_ents [e] st r) as H. cbn [flat_map] in H. now rewrite app_nil_r in H. Qed.
Lemma body_neutral docs l ks es evs e r : gbody docs l ks es evs e r -> neutral evs.
Proof.
  induction 1; try assumption.
  - intros ? ?. reflexivity.
  - refine (neutral_app _ _ _ _); [refine (neutral_remarks _ _); eapply line_remarks; eauto|]. refine (neutral_app _ _ _ _); [exact (neutral_ent _)|assumption].
Qed.

(** ** Entries of the root *)

Lemma entry_value_good usp rest ev : emit_entry_value usp rest = Ok ev -> Forall no_err ev -> rest = [] \/ exists va, rest = [va] /\ good va.
Proof.
  destruct rest as [|v more]; [now left|]. cbn [emit_entry_value]. intros E Hn. apply bind_inv in E as (e1 & E1 & E). injection E as <-. apply Forall_app in Hn as [H1 H2].
  destruct more as [|x more]; [right; exists v; split; [reflexivity|now exists e1]|]. inversion_clear H2. exfalso. eapply mkerr_no; eauto.
Qed.

Lemma simple_entry_good ka rest ev : emit_simple_entry ka rest = Ok ev -> Forall no_err ev -> gkey ka /\ (rest = [] \/ exists va, rest = [va] /\ good va).
Proof.
  unfold emit_simple_entry. intros E Hn. apply bind_inv in E as (ek & Ek & E). apply bind_inv in E as (e1 & E1 & E). injection E as <-.
  inversion_clear Hn as [|? ? _ Hn']. apply Forall_app in Hn' as [H1 H2]. apply Forall_app in H2 as [H2 _]. split; [now exists ek|]. eapply entry_value_good; eauto.
Qed.

Lemma dotted_atom a v : is_dotted a = Some v -> exists sp, a = AScalar sp v Bare /\ In cDOT v.
Proof.
  destruct a as [sp t k| | | | | | |]; try discriminate. destruct k; try discriminate. cbn [is_dotted]. destruct (contains_char cDOT t) eqn:E; [|discriminate]. intros [= <-].
  exists sp. split; [reflexivity|]. apply existsb_exists in E as (c & Hc & E). apply N.eqb_eq in E. now subst.
Qed.

Lemma dotted_good text sp rest path ev p : emit_dotted text sp rest path = Ok (ev, p) -> Forall no_err ev ->
  (rest = [] \/ exists va, rest = [va] /\ good va) /\ existsb is_nil (split_on cDOT text) = false /\
  match path with Some ps => exists ps', p = Some ps' /\ check_and_update ps (split_on cDOT text) sp (value_kind rest) = (ps', None) | None => True end.
Proof.
  unfold emit_dotted. intros E Hn. destruct (existsb is_nil (split_on cDOT text)) eqn:Ee; [injection E as <- _; inversion_clear Hn; exfalso; eapply mkerr_no; eauto|].
  destruct (match path with Some ps => _ | None => _ end) as [path' perr] eqn:Ep. apply bind_inv in E as (e1 & E1 & E). injection E as <- <-.
  apply Forall_app in Hn as [H0 Hn]. apply Forall_app in Hn as [_ Hn]. apply Forall_app in Hn as [H1 _]. split; [eapply entry_value_good; eauto|]. split; [reflexivity|].
  destruct path as [ps|]; [|exact I]. destruct (check_and_update ps (split_on cDOT text) sp (value_kind rest)) as [ps' o]. injection Ep as <- <-. exists ps'. split; [reflexivity|].
  destruct o; [|reflexivity]. inversion_clear H0. exfalso. eapply mkerr_no; eauto.
Qed.

Lemma scalar_gkey sp v k : gkey (AScalar sp v k).
Proof. eexists. split; [reflexivity|]. constructor; [intros ?; discriminate|constructor]. Qed.

Lemma at_root_good input ka rest path ev path' : emit_at_root input ka rest path = Ok (ev, path') -> Forall no_err ev ->
  gkey ka /\ (rest = [] \/ exists va, rest = [va] /\ good va).
Proof.
  unfold emit_at_root. intros E Hn. apply bind_inv in E as (e0 & _ & E). destruct (is_dotted ka) as [t|] eqn:Ed.
  - apply dotted_atom in Ed as (sp & -> & _). apply bind_inv in E as ([ev1 p] & E1 & E). injection E as <- _. apply Forall_app in Hn as [_ Hn].
    split; [apply scalar_gkey|]. eapply dotted_good; eauto.
  - destruct (check_and_update _ _ _ _) as [p1 o]. apply bind_inv in E as (ev1 & E1 & E). injection E as <- _. apply Forall_app in Hn as [_ Hn]. apply Forall_app in Hn as [_ Hn]. eapply simple_entry_good; eauto.
Qed.

Lemma in_object_good ka rest seen ev seen' : emit_in_object ka rest seen = Ok (ev, seen') -> Forall no_err ev ->
  gkey ka /\ (rest = [] \/ exists va, rest = [va] /\ good va).
Proof.
  unfold emit_in_object. intros E Hn. destruct (is_dotted ka) as [t|] eqn:Ed.
  - apply dotted_atom in Ed as (sp & -> & _). apply bind_inv in E as ([ev1 p] & E1 & E). injection E as <- _.
    split; [apply scalar_gkey|]. eapply dotted_good; eauto.
  - destruct (match seen_get _ _ with Some o => _ | None => _ end) as [p1 o]. apply bind_inv in E as (ev1 & E1 & E). injection E as <- _. apply Forall_app in Hn as [_ Hn]. apply Forall_app in Hn as [_ Hn]. eapply simple_entry_good; eauto.
Qed.

Lemma not_dotted ka k : stands ka k -> is_dotted ka = None -> ~ dotted_key k.
Proof. intros H E (sp & t & -> & Hi). inversion H; subst. rewrite is_dotted_yes in E by assumption. discriminate. Qed.

Lemma not_heredoc_key ka k : stands ka k -> (forall sp t, ka <> AScalar sp t Heredoc) -> forall sp t, k <> DScalar sp t Heredoc.
Proof. intros H Hn sp t ->. inversion H; subst. now apply (Hn sp t). Qed.

Lemma path_entry_some docs ksp segs v : segs <> [] -> forall off, exists e, path_entry docs off ksp segs v = Some e.
Proof.
  revert docs. induction segs as [|s segs IH]; [congruence|]. intros docs _ off. cbn [path_entry]. destruct segs as [|s2 segs]; [eauto|].
  destruct (IH [] ltac:(discriminate) (off + blen s + 1)) as [e ->]. eauto.
Qed.

Lemma path_found sp t v docs : In cDOT t -> existsb is_nil (split_on cDOT t) = false -> exists e, root_entry (DScalar sp t Bare) v docs (split_on cDOT t) e.
Proof.
  intros Hd Hn. assert (split_on cDOT t <> []) as Hne by (destruct t as [|c t]; [discriminate|]; cbn [split_on]; destruct (c =? cDOT)%N; [discriminate|]; destruct (split_on cDOT t); discriminate).
  destruct (path_entry_some docs sp _ v Hne (sp_start sp)) as [e He]. exists e. apply re_path; auto; [symmetry; apply join_split_dot|].
  pose proof (split_dot_clean t) as Hc. clear - Hn Hc. induction Hc as [|s segs Hs _ IH]; [constructor|]. cbn [existsb] in Hn. apply orb_false_iff in Hn as [H1 H2]. constructor; [|auto]. split; [intros ->; discriminate|exact Hs].
Qed.

Lemma at_root_found input ka rest path ev path' k v docs tag pl kd : emit_at_root input ka rest path = Ok (ev, path') -> Forall no_err ev ->
  stands ka k -> values k rest v -> key_is k tag pl kd ->
  exists p e, root_entry k v docs p e /\ check_and_update path p (dspan k) (value_shape v) = (path', None) /\ ev = ent_events (undocumented e).
Proof.
  intros E Hn Hk Hv Hkey. assert (H : exists p e, root_entry k v docs p e /\ check_and_update path p (dspan k) (value_shape v) = (path', None)).
  { unfold emit_at_root in E. apply bind_inv in E as (e0 & E0 & E). destruct (is_dotted ka) as [t|] eqn:Ed.
    - apply dotted_atom in Ed as (sp & -> & Hd). inversion Hk; subst. apply bind_inv in E as ([ev1 p] & E1 & E). injection E as <- <-. apply Forall_app in Hn as [_ Hn].
      destruct (dotted_good _ _ _ _ _ _ E1 Hn) as (_ & Hs & ps' & -> & Hc). destruct (path_found sp t v docs Hd Hs) as [e He]. exists (split_on cDOT t), e.
      split; [exact He|]. rewrite (values_kind _ _ _ Hv) in Hc. exact Hc.
    - destruct (check_and_update _ _ _ _) as [p1 o] eqn:Ec. apply bind_inv in E as (ev1 & E1 & E). injection E as <- ->. apply Forall_app in Hn as [Hn0 Hn]. apply Forall_app in Hn as [Hn1 Hn2].
      eexists _, _. split; [apply (re_plain _ _ _ tag pl kd); [| |exact Hkey]|].
      + eapply not_dotted; eauto.
      + eapply not_heredoc_key; eauto. intros sp t ->. apply bind_inv in E0 as (x & _ & E0). injection E0 as <-. inversion_clear Hn0. eapply mkerr_no; eauto.
      + rewrite (proj2 (stands_key _ _ _ _ _ Hk Hkey)), (key_path _ _ _ _ Hkey), (stands_span _ _ Hk), (values_kind _ _ _ Hv) in Ec. rewrite Ec. destruct o; [|reflexivity].
        inversion_clear Hn1. exfalso. eapply mkerr_no; eauto. }
  destruct H as (p & e & He & Hc). exists p, e. splits; auto. rewrite (root_emits input _ _ _ _ _ _ _ _ _ Hk Hv He Hc) in E. now injection E.
Qed.

Lemma in_object_found ka rest seen ev seen' k v docs tag pl kd : emit_in_object ka rest seen = Ok (ev, seen') -> Forall no_err ev ->
  stands ka k -> values k rest v -> key_is k tag pl kd ->
  exists p e, root_entry k v docs p e /\ ev = ent_events (undocumented e) /\
   (dotted_key k /\ seen' = seen \/ ~ dotted_key k /\ seen_get (key_id k) seen = None /\ seen' = seen_insert (key_id k) (dspan k) seen).
Proof.
  intros E Hn Hk Hv Hkey. assert (H : exists p e, root_entry k v docs p e /\ (~ dotted_key k -> seen_get (key_id k) seen = None)).
  { unfold emit_in_object in E. destruct (is_dotted ka) as [t|] eqn:Ed.
    - apply dotted_atom in Ed as (sp & -> & Hd). inversion Hk; subst. apply bind_inv in E as ([ev1 p] & E1 & E). injection E as <- <-.
      destruct (dotted_good _ _ _ _ _ _ E1 Hn) as (_ & Hs & _). destruct (path_found sp t v docs Hd Hs) as [e He]. exists (split_on cDOT t), e.
      split; [exact He|]. intros Hnd. destruct Hnd. eexists _, _. eauto.
    - destruct (match seen_get _ _ with Some o => _ | None => _ end) as [p1 o] eqn:Ec. apply bind_inv in E as (ev1 & E1 & E). injection E as <- ->. apply Forall_app in Hn as [Hn0 Hn]. apply Forall_app in Hn as [Hn1 Hn2].
      eexists _, _. split; [apply (re_plain _ _ _ tag pl kd); [| |exact Hkey]|].
      + eapply not_dotted; eauto.
      + eapply not_heredoc_key; eauto. intros sp t ->. inversion_clear Hn0. eapply mkerr_no; eauto.
      + intros _. rewrite (proj2 (stands_key _ _ _ _ _ Hk Hkey)) in Ec. destruct (seen_get (key_id k) seen); [|reflexivity]. injection Ec as _ <-. inversion_clear Hn1. exfalso. eapply mkerr_no; eauto. }
  destruct H as (p & e & He & Hc). exists p, e. destruct (object_emits _ _ _ _ _ _ _ seen Hk Hv He Hc) as (seen2 & E2 & H2). rewrite E2 in E. injection E as <- <-. splits; auto.
  destruct H2 as [H2|[H2 H3]]; [now left|right; auto].
Qed.

(** ** Running *)

Section Run.
Variable input : str.
Notation fed := (fed input).

Lemma queue_inv i s st q : forall fuel evs, events_from fuel (mkp i s st q) = Ok evs -> exists k evs', k <= fuel /\ events_from k (mkp i s st []) = Ok evs' /\ evs = q ++ evs'.
Proof.
  induction q as [|e q IH]; intros fuel evs E; [exists fuel, evs; auto|]. destruct fuel as [|fuel]; [discriminate|]. cbn [events_from next_event p_queue p_input p_src p_state bind] in E.
  apply bind_inv in E as (r & Er & E). injection E as <-. destruct (IH _ _ Er) as (k & evs' & Hk & Ek & ->). exists k, evs'. splits; auto.
Qed.

Lemma step_inv fuel s st s' st' q evs : events_from (S fuel) (mkp input s st []) = Ok evs -> advance (mkp input s st []) = Ok (pop_queue input s' st' q) -> q <> [] ->
  exists k evs', k <= fuel /\ events_from k (mkp input s' st' []) = Ok evs' /\ evs = q ++ evs'.
Proof.
  intros E Ea Hq. cbn [events_from next_event p_queue] in E. rewrite Ea in E. destruct q as [|e q]; [congruence|]. cbn [pop_queue bind] in E.
  apply bind_inv in E as (r & Er & E). injection E as <-. destruct (queue_inv _ _ _ _ _ _ Er) as (k & evs' & Hk & Ek & ->). exists k, evs'. auto.
Qed.

Lemma same_inv fuel s st s' st' evs : events_from fuel (mkp input s st []) = Ok evs -> advance (mkp input s st []) = advance (mkp input s' st' []) -> events_from fuel (mkp input s' st' []) = Ok evs.
Proof. intros E Ea. destruct fuel as [|fuel]; [discriminate|]. cbn [events_from next_event p_queue] in *. now rewrite <- Ea. Qed.

Lemma fed_cons s x l : fed s (x :: l) -> exists s1, src_next s = (x, s1) /\ fed s1 l /\ lex_fine input x /\ src_size s = S (src_size s1) /\ x <> LxEof.
Proof.
  intros H. destruct (fed_next _ _ _ H) as (s1 & E & H1 & Ho). exists s1. cbn [head tl] in *. splits; auto; [apply Ho; discriminate| |].
  - destruct H as [H _], H1 as [H1 _]. now rewrite (feeds_size _ _ H), (feeds_size _ _ H1).
  - intros ->. destruct H as [(_ & Hn & _) _]. apply Hn. now left.
Qed.

Lemma after_found fuel evs : forall l s, events_from fuel (mkp input s PAfterDoc []) = Ok evs -> fed s l -> Forall no_err evs -> evs = [] /\ Forall is_remark l.
Proof.
  induction l as [|x l IH]; intros s E Hs Hn.
  - split; [|constructor]. destruct fuel as [|fuel]; [discriminate|]. cbn [events_from next_event p_queue advance p_src p_state p_input plus check_trailing] in E.
    destruct (fed_next _ _ _ Hs) as (s1 & En & _). rewrite En in E. now injection E as <-.
  - destruct (fed_cons _ _ _ Hs) as (s1 & En & H1 & Hok & Hsz & Hne).
    assert (Hsame : is_remark x -> evs = [] /\ Forall is_remark (x :: l)).
    { intros Hx. destruct (IH s1) as [-> Hr]; auto. apply (same_inv _ s PAfterDoc); [exact E|]. cbn [advance p_src p_state p_input p_queue]. rewrite Hsz.
      cbn [plus check_trailing]. rewrite En. destruct x; try contradiction; reflexivity. }
    assert (Hbad : (do (e, s2) <- drain_end (2 + src_size s1) (sp_end (lx_span x)) s1; Ok (Some (mkerr (mkspan (sp_start (lx_span x)) e) ETrailing), mkp input s2 PAfterDoc [])) = advance (mkp input s PAfterDoc []) ->
      evs = [] /\ Forall is_remark (x :: l)).
    { intros Ea. destruct fuel as [|fuel]; [discriminate|]. cbn [events_from next_event p_queue] in E. rewrite <- Ea in E.
      apply bind_inv in E as ([o p] & E1 & E). apply bind_inv in E1 as ([e s2] & E2 & E1). injection E1 as <- <-. apply bind_inv in E as (r & _ & E). injection E as <-. inversion_clear Hn. exfalso. eapply mkerr_no; eauto. }
    destruct x; try (now apply Hsame); try congruence; apply Hbad; cbn [advance p_src p_state p_input p_queue plus check_trailing]; rewrite En; reflexivity.
Qed.

Lemma body_found fuel : forall l s start seen pend evs docs, events_from fuel (mkp input s (PInObj start seen pend PAfterDoc) []) = Ok evs -> fed s l -> Forall no_err evs ->
  (pend = None -> docs = []) -> exists ks es body e r, evs = body ++ [mkev e EvObjEnd; doc_end input] /\ gbody docs l ks es body e r /\ NoDup ks /\
    (forall k, In k ks -> seen_get k seen = None) /\ Forall is_remark r.
Proof.
  induction fuel as [fuel IHf] using lt_wf_ind. induction l as [|x l IHl]; intros s start seen pend evs docs E Hs Hn Hd; (destruct fuel as [|fuel]; [discriminate|]).
  - destruct (fed_next _ _ _ Hs) as (s1 & En & _).
    destruct (step_inv _ _ _ s1 PAfterDoc (dangling pend ++ [mkerr start EUnclosedObject; mkev start EvObjEnd; doc_end input]) _ E) as (k & evs' & _ & _ & ->).
    + cbn [advance p_src p_state p_input p_queue plus advance_obj]. rewrite En. reflexivity.
    + destruct pend; discriminate.
    + apply Forall_app in Hn as [Hn _]. apply Forall_app in Hn as [_ Hn]. inversion_clear Hn. exfalso. eapply mkerr_no; eauto.
  - destruct (fed_cons _ _ _ Hs) as (s1 & En & H1 & Hok & Hsz & Hne).
    assert (Hsep : is_sep x -> exists ks es body e r, evs = body ++ [mkev e EvObjEnd; doc_end input] /\ gbody docs (x :: l) ks es body e r /\ NoDup ks /\ (forall k, In k ks -> seen_get k seen = None) /\ Forall is_remark r).
    { intros Hx. destruct (IHl s1 start seen pend evs docs) as (ks & es & body & e & r & Ee & Hb & R); auto.
      - apply (same_inv _ s (PInObj start seen pend PAfterDoc)); [exact E|]. cbn [advance p_src p_state p_input p_queue]. rewrite Hsz.
        cbn [plus advance_obj]. rewrite En. destruct x; try contradiction; reflexivity.
      - exists ks, es, body, e, r. splits; try apply R; auto. now apply gb_sep. }
    assert (Hent : advance (mkp input s (PInObj start seen pend PAfterDoc) []) =
      (do (atoms, ev, s2) <- collect_entry input (parse_fuel s1) x s1;
      match atoms with
      | [] => Ok (pop_queue input s2 (PInObj start seen None PAfterDoc) ([] ++ ev))
      | key :: rest =>
        do (ev2, seen') <- emit_in_object key rest seen;
        Ok (pop_queue input s2 (PInObj start seen' None PAfterDoc) ([] ++ ev ++ ev2))
      end) -> exists ks es body e r, evs = body ++ [mkev e EvObjEnd; doc_end input] /\ gbody docs (x :: l) ks es body e r /\ NoDup ks /\ (forall k, In k ks -> seen_get k seen = None) /\ Forall is_remark r).
    { intros Ea. assert (exists y, advance (mkp input s (PInObj start seen pend PAfterDoc) []) = Ok y) as [y Ey].
      { cbn [events_from next_event p_queue] in E. apply bind_inv in E as (y & Ey & _). eauto. }
      rewrite Ey in Ea. symmetry in Ea. apply bind_inv in Ea as ([[atoms ev] s2] & Ec & Ea). destruct (collect_entry_aside _ _ _ _ _ _ _ Ec) as [_ (ka & rest & ->)].
      apply bind_inv in Ea as ([ev2 seen'] & Em & Ea). cbn [app] in Ea. injection Ea as <-.
      destruct (step_inv _ _ _ s2 (PInObj start seen' None PAfterDoc) (ev ++ ev2) _ E Ey) as (k & evs' & Hk & Ek & ->).
      { destruct ev2 as [|e2 ev2]; [|now destruct ev]. exfalso. clear - Em. unfold emit_in_object in Em. destruct (is_dotted ka).
        - apply bind_inv in Em as ([ev1 p] & E1 & Em). injection Em as Em _. apply app_eq_nil in Em as [_ ->]. unfold emit_dotted in E1. destruct (existsb is_nil (split_on cDOT s)); [discriminate|].
          apply bind_inv in E1 as (e1 & _ & E1). injection E1 as E1 _. apply app_eq_nil in E1 as [E1 _]. destruct s as [|c s]; [discriminate|]. cbn [split_on] in E1. destruct (c =? cDOT)%N; [discriminate|]. destruct (split_on cDOT s); discriminate.
        - destruct (match seen_get _ _ with Some o => _ | None => _ end) as [p1 o]. apply bind_inv in Em as (ev1 & E1 & Em). injection Em as Em _. apply app_eq_nil in Em as [_ Em]. apply app_eq_nil in Em as [_ ->].
          unfold emit_simple_entry in E1. apply bind_inv in E1 as (ek & _ & E1). apply bind_inv in E1 as (e1 & _ & E1). discriminate. }
      apply Forall_app in Hn as [Hn1 Hn2]. apply Forall_app in Hn1 as [Hn0 Hn1]. destruct (in_object_good _ _ _ _ _ Em Hn1) as [Hgk Hgr].
      destruct (entry_found input _ _ _ _ _ _ _ _ Ec H1 Hok Hn0 Hgk Hgr) as (k1 & v & r & tag & pl & kd & Hline & Hf & Hst & Hvals & Hkey).
      destruct (in_object_found _ _ _ _ _ _ _ (docs ++ docs_in ev) _ _ _ Em Hn1 Hst Hvals Hkey) as (p & e & He & -> & Hseen).
      destruct (IHf k ltac:(lia) r s2 start seen' None evs' [] Ek Hf Hn2 ltac:(auto)) as (ks & es & body & ee & r2 & -> & Hb & Hnd & Hsn & Hrem).
      destruct Hseen as [[Hdk ->]|(Hdk & Hsg & ->)].
      - exists ks, (e :: es), (ev ++ ent_events (undocumented e) ++ body), ee, r2. splits; auto; [rewrite <- !app_assoc; reflexivity|]. eapply gb_entry; eauto.
      - exists (key_id k1 :: ks), (e :: es), (ev ++ ent_events (undocumented e) ++ body), ee, r2. splits; auto.
        + rewrite <- !app_assoc. reflexivity.
        + eapply gb_entry; eauto.
        + constructor; [|exact Hnd]. intros Hi. apply Hsn in Hi. cbn [seen_insert seen_get] in Hi. rewrite (proj2 (keyval_eqb_eq _ _) eq_refl) in Hi. discriminate.
        + intros k' [<-|Hi]; [exact Hsg|]. apply Hsn in Hi. cbn [seen_insert seen_get] in Hi. destruct (keyval_eqb (key_id k1) k'); [discriminate|exact Hi]. }
    destruct x; try (apply Hent; cbn [advance p_src p_state p_input p_queue plus advance_obj]; rewrite En; reflexivity); try (now apply Hsep); try congruence.
    + destruct (step_inv _ _ _ s1 PAfterDoc (mkev sp EvObjEnd :: dangling pend ++ [doc_end input]) _ E) as (k & evs' & _ & Ek & ->).
      * cbn [advance p_src p_state p_input p_queue plus advance_obj]. rewrite En. reflexivity.
      * discriminate.
      * apply Forall_app in Hn as [Hn1 Hn2]. inversion_clear Hn1 as [|? ? _ Hn3]. apply Forall_app in Hn3 as [Hn3 _].
        destruct pend; [inversion_clear Hn3; exfalso; eapply mkerr_no; eauto|]. rewrite (Hd eq_refl). destruct (after_found _ _ _ _ Ek H1 Hn2) as [-> Hr].
        exists [], [], [], sp, l. splits; auto; [constructor|constructor|]. intros k0 [].
    + destruct (step_inv _ _ _ s1 (PInObj start seen pend PAfterDoc) [mkev sp (EvComment text)] _ E) as (k & evs' & Hk & Ek & ->).
      * cbn [advance p_src p_state p_input p_queue plus advance_obj]. rewrite En. reflexivity.
      * discriminate.
      * apply Forall_app in Hn as [_ Hn]. destruct (IHf k ltac:(lia) l s1 start seen pend evs' docs Ek H1 Hn Hd) as (ks & es & body & e & r & -> & Hb & R).
        exists ks, es, (mkev sp (EvComment text) :: body), e, r. splits; try apply R; [reflexivity|now constructor].
    + destruct (step_inv _ _ _ s1 (PInObj start seen (Some sp) PAfterDoc) [mkev sp (EvDoc [doc_line text])] _ E) as (k & evs' & Hk & Ek & ->).
      * cbn [advance p_src p_state p_input p_queue plus advance_obj]. rewrite En. reflexivity.
      * discriminate.
      * apply Forall_app in Hn as [_ Hn]. destruct (IHf k ltac:(lia) l s1 start seen (Some sp) evs' (docs ++ [(sp, [doc_line text])]) Ek H1 Hn ltac:(discriminate)) as (ks & es & body & e & r & -> & Hb & R).
        exists ks, es, (mkev sp (EvDoc [doc_line text]) :: body), e, r. splits; try apply R; [reflexivity|]. apply gb_doc; [eapply doc_text_of; eauto|exact Hb].
Qed.

Definition plain_found (l : list lexeme) (path : list pseg) (opened : bool) (docs : list (span * list str)) (evs : list event) : Prop :=
  exists es body h, evs = body ++ [doc_end input] /\ groot opened docs l es body h /\ Forall (fun e => e = None) (snd (path_run path h)).
Definition braces_found (l : list lexeme) (evs : list event) : Prop :=
  exists lead sp r0 ks es body e r, evs = lead ++ mkev sp EvObjStart :: body ++ [mkev e EvObjEnd; doc_end input] /\ glead l lead (LxObjStart sp :: r0) /\
    gbody [] r0 ks es body e r /\ NoDup ks /\ Forall is_remark r.

Lemma root_found fuel : forall l s pend path opened evs docs, events_from fuel (mkp input s (PRoot pend path opened) []) = Ok evs -> fed s l -> Forall no_err evs ->
  nest (if opened then [ParseSpec.FObj] else []) evs = Some [] -> (pend = None -> docs = []) ->
  plain_found l path opened docs evs \/ opened = false /\ braces_found l evs.
Proof.
  induction fuel as [fuel IHf] using lt_wf_ind. induction l as [|x l IHl]; intros s pend path opened evs docs E Hs Hn Hne Hd; (destruct fuel as [|fuel]; [discriminate|]).
  - destruct (fed_next _ _ _ Hs) as (s1 & En & H1 & _).
    destruct (step_inv _ _ _ s1 PAfterDoc (dangling pend ++ (if opened then [mkev (empty_span 0) EvObjEnd] else []) ++ [doc_end input]) _ E) as (k & evs' & _ & Ek & ->).
    + cbn [advance p_src p_state p_input p_queue plus advance_root]. rewrite En. reflexivity.
    + destruct pend, opened; discriminate.
    + apply Forall_app in Hn as [Hn1 Hn2]. apply Forall_app in Hn1 as [Hn1 _]. destruct pend; [inversion_clear Hn1; exfalso; eapply mkerr_no; eauto|]. rewrite (Hd eq_refl).
      destruct (after_found _ _ _ _ Ek H1 Hn2) as [-> _]. left. exists [], (if opened then [mkev (empty_at 0) EvObjEnd] else []), []. rewrite app_nil_r. splits; [reflexivity|constructor|constructor].
  - destruct (fed_cons _ _ _ Hs) as (s1 & En & H1 & Hok & Hsz & Hneof).
    assert (Hsep : is_sep x -> plain_found (x :: l) path opened docs evs \/ opened = false /\ braces_found (x :: l) evs).
    { intros Hx. destruct (IHl s1 pend path opened evs docs) as [(es & body & h & Ee & Hb & Hp)|(Ho & lead & sp & r0 & ks & es & body & e & r & Ee & Hl & R)]; auto.
      - apply (same_inv _ s (PRoot pend path opened)); [exact E|]. cbn [advance p_src p_state p_input p_queue]. rewrite Hsz.
        cbn [plus advance_root]. rewrite En. destruct x; try contradiction; reflexivity.
      - left. exists es, body, h. splits; auto. now apply gr_sep.
      - right. split; [exact Ho|]. exists lead, sp, r0, ks, es, body, e, r. splits; try apply R; auto. now apply gd_sep. }
    assert (Hent : no_open_brace (x :: l) -> advance (mkp input s (PRoot pend path opened) []) =
      (do (atoms, ev, s2) <- collect_entry input (parse_fuel s1) x s1;
      match atoms with
      | [] => Ok (pop_queue input s2 (PRoot None path true) ([] ++ (if opened then [] else [mkev (empty_span 0) EvObjStart]) ++ ev))
      | key :: rest =>
        do (ev2, path') <- emit_at_root input key rest path;
        Ok (pop_queue input s2 (PRoot None path' true) ([] ++ (if opened then [] else [mkev (empty_span 0) EvObjStart]) ++ ev ++ ev2))
      end) -> plain_found (x :: l) path opened docs evs \/ opened = false /\ braces_found (x :: l) evs).
    { intros Hnb Ea. left. assert (exists y, advance (mkp input s (PRoot pend path opened) []) = Ok y) as [y Ey].
      { cbn [events_from next_event p_queue] in E. apply bind_inv in E as (y & Ey & _). eauto. }
      rewrite Ey in Ea. symmetry in Ea. apply bind_inv in Ea as ([[atoms ev] s2] & Ec & Ea). destruct (collect_entry_aside _ _ _ _ _ _ _ Ec) as [_ (ka & rest & ->)].
      apply bind_inv in Ea as ([ev2 path'] & Em & Ea). cbn [app] in Ea. injection Ea as <-. fold (open_root opened) in *.
      change (if opened then [] else [mkev (empty_span 0) EvObjStart]) with (open_root opened) in *.
      destruct (step_inv _ _ _ s2 (PRoot None path' true) (open_root opened ++ ev ++ ev2) _ E Ey) as (k & evs' & Hk & Ek & ->).
      { destruct ev2 as [|e2 ev2]; [|now destruct opened, ev]. exfalso. clear - Em. unfold emit_at_root in Em. apply bind_inv in Em as (e0 & _ & Em). destruct (is_dotted ka).
        - apply bind_inv in Em as ([ev1 p] & E1 & Em). injection Em as Em _. apply app_eq_nil in Em as [_ ->]. unfold emit_dotted in E1. destruct (existsb is_nil (split_on cDOT s)); [discriminate|].
          destruct (check_and_update path (split_on cDOT s) (a_span ka) (value_kind rest)) as [ps' o].
          apply bind_inv in E1 as (e1 & _ & E1). injection E1 as E1 _. apply app_eq_nil in E1 as [_ E1]. apply app_eq_nil in E1 as [E1 _]. destruct s as [|c s]; [discriminate|]. cbn [split_on] in E1. destruct (c =? cDOT)%N; [discriminate|]. destruct (split_on cDOT s); discriminate.
        - destruct (check_and_update _ _ _ _) as [p1 o]. apply bind_inv in Em as (ev1 & E1 & Em). injection Em as Em _. apply app_eq_nil in Em as [_ Em]. apply app_eq_nil in Em as [_ ->].
          unfold emit_simple_entry in E1. apply bind_inv in E1 as (ek & _ & E1). apply bind_inv in E1 as (e1 & _ & E1). discriminate. }
      apply Forall_app in Hn as [Hn1 Hn2]. apply Forall_app in Hn1 as [_ Hn1]. apply Forall_app in Hn1 as [Hn0 Hn1]. destruct (at_root_good _ _ _ _ _ _ Em Hn1) as [Hgk Hgr].
      destruct (entry_found input _ _ _ _ _ _ _ _ Ec H1 Hok Hn0 Hgk Hgr) as (k1 & v & r & tag & pl & kd & Hline & Hf & Hst & Hvals & Hkey).
      destruct (at_root_found _ _ _ _ _ _ _ _ (docs ++ docs_in ev) _ _ _ Em Hn1 Hst Hvals Hkey) as (p & e & He & Hc & ->).
      destruct (IHf k ltac:(lia) r s2 None path' true evs' [] Ek Hf Hn2) as [(es & body & h & -> & Hb & Hp)|[[=] _]].
      - assert (nest [ParseSpec.FObj] ((ev ++ ent_events (undocumented e)) ++ evs') = Some []) as Hx.
        { rewrite <- app_assoc in Hne. destruct opened; exact Hne. }
        rewrite neutral_app in Hx; [exact Hx|apply neutral_remarks; eapply line_remarks; eauto|apply neutral_ent].
      - auto.
      - exists (e :: es), (open_root opened ++ ev ++ ent_events (undocumented e) ++ body), ((p, dspan k1, value_shape v) :: h). splits.
        + rewrite <- !app_assoc. reflexivity.
        + eapply gr_entry; eauto.
        + cbn [path_run]. rewrite Hc. destruct (path_run path' h) as [q1 q2]. constructor; [reflexivity|exact Hp]. }
    destruct x; try (apply Hent; [intros ? ?; discriminate|cbn [advance p_src p_state p_input p_queue plus advance_root]; rewrite En; reflexivity]); try (now apply Hsep); try congruence.
    + destruct (step_inv _ _ _ s1 (PInObj sp [] None PAfterDoc) [mkev sp EvObjStart] _ E) as (k & evs' & Hk & Ek & ->).
      * cbn [advance p_src p_state p_input p_queue plus advance_root]. rewrite En. reflexivity.
      * discriminate.
      * apply Forall_app in Hn as [_ Hn]. destruct (body_found _ _ _ _ _ _ _ [] Ek H1 Hn ltac:(auto)) as (ks & es & body & e & r & -> & Hb & Hnd & _ & Hr).
        right. destruct opened.
        -- exfalso. cbn [app nest ev_kind] in Hne. rewrite (body_neutral _ _ _ _ _ _ _ Hb) in Hne. discriminate Hne.
        -- split; [reflexivity|]. exists [], sp, l, ks, es, body, e, r. splits; auto. constructor.
    + destruct (step_inv _ _ _ s1 (PRoot pend path opened) [mkev sp (EvComment text)] _ E) as (k & evs' & Hk & Ek & ->).
      * cbn [advance p_src p_state p_input p_queue plus advance_root]. rewrite En. reflexivity.
      * discriminate.
      * apply Forall_app in Hn as [_ Hn]. assert (nest (if opened then [ParseSpec.FObj] else []) evs' = Some []) as Hne' by (cbn [app nest ev_kind] in Hne; destruct opened; exact Hne).
        destruct (IHf k ltac:(lia) l s1 pend path opened evs' docs Ek H1 Hn Hne' Hd) as [(es & body & h & -> & Hb & Hp)|(Ho & lead & sp1 & r0 & ks & es & body & e & r & -> & Hl & R)].
        -- left. exists es, (mkev sp (EvComment text) :: body), h. splits; auto. now constructor.
        -- right. split; [exact Ho|]. exists (mkev sp (EvComment text) :: lead), sp1, r0, ks, es, body, e, r. splits; try apply R; auto. now constructor.
    + destruct (step_inv _ _ _ s1 (PRoot (Some sp) path true) (open_root opened ++ [mkev sp (EvDoc [doc_line text])]) _ E) as (k & evs' & Hk & Ek & ->).
      * cbn [advance p_src p_state p_input p_queue plus advance_root]. rewrite En. reflexivity.
      * now destruct opened.
      * apply Forall_app in Hn as [_ Hn]. assert (nest [ParseSpec.FObj] evs' = Some []) as Hne' by (destruct opened; cbn [open_root app nest ev_kind] in Hne; exact Hne).
        destruct (IHf k ltac:(lia) l s1 (Some sp) path true evs' (docs ++ [(sp, [doc_line text])]) Ek H1 Hn Hne' ltac:(discriminate)) as [(es & body & h & -> & Hb & Hp)|[[=] _]].
        left. exists es, (open_root opened ++ mkev sp (EvDoc [doc_line text]) :: body), h. splits; auto; [rewrite <- !app_assoc; reflexivity|]. apply gr_doc; [eapply doc_text_of; eauto|exact Hb].
Qed.

Lemma doc_found fuel ls evs : ~ In LxEof ls -> Forall (lex_fine input) ls -> events_from fuel (parser_new input ls) = Ok evs -> Forall no_err evs -> balanced evs ->
  exists es, gdoc (blen input) ls es evs.
Proof.
  intros Hn Hok E Hne Hb. destruct fuel as [|fuel]; [discriminate|]. assert (fed (mksrc ls None) ls) as Hs by (split; [now apply feeds_new|exact Hok]).
  destruct (step_inv _ _ _ (mksrc ls None) (PRoot None [] false) [mkev (empty_at 0) EvDocStart] _ E eq_refl ltac:(discriminate)) as (k & evs' & _ & Ek & ->).
  apply Forall_app in Hne as [_ Hne]. destruct (root_found k ls _ _ _ _ evs' [] Ek Hs Hne Hb ltac:(auto)) as [(es & body & h & -> & Hg & Hp)|(_ & lead & sp & r0 & ks & es & body & e & r & -> & Hl & Hg & Hnd & Hr)].
  - exists es. cbn [app]. apply (gdoc_plain _ _ _ _ h Hg). apply accepted_fine; [now apply (root_paths _ _ _ _ _ _ Hg)|exact Hp].
  - exists es. cbn [app]. eapply gdoc_braces; eauto.
Qed.

End Run.
