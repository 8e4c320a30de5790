(** Lemmas about the tokenizer model. *)
From Verif Require Import Base BaseProofs TokModel.

(** ** The scans split their input *)

Lemma scan_tag_app s a b : scan_tag s = (a, b) -> s = a ++ b.
Proof.
  remember (length s) as n eqn:En. revert s En a b.
  induction n as [n IH] using lt_wf_ind; intros s En a b H.
  destruct s as [|c s]; cbn [scan_tag] in H; [now injection H as <- <-|].
  cbn [length] in En.
  destruct (_ && opt_is _ _); [now injection H as <- <-|].
  destruct (is_tag_char c).
  { destruct (scan_tag s) as [a' b'] eqn:E. injection H as <- <-. cbn. f_equal.
    apply (IH (length s)); [lia|reflexivity|exact E]. }
  destruct (c =? cSLASH)%N; [|now injection H as <- <-].
  destruct s as [|d [|e r2]]; try now injection H as <- <-.
  destruct (_ && _); [|now injection H as <- <-].
  destruct (scan_tag r2) as [a' b'] eqn:E. injection H as <- <-. cbn. do 3 f_equal.
  apply (IH (length r2)); [cbn in En; lia|reflexivity|exact E].
Qed.

Lemma scan_quoted_app s a b k : scan_quoted s = (a, b, k) -> s = a ++ b.
Proof.
  remember (length s) as n eqn:En. revert s En a b k.
  induction n as [n IH] using lt_wf_ind; intros s En a b k H.
  destruct s as [|c s]; cbn [scan_quoted] in H; [now injection H as <- <- <-|].
  cbn [length] in En.
  destruct (c =? cDQ)%N; [now injection H as <- <- <-|].
  destruct (c =? cBSL)%N.
  - destruct s as [|d s]; [now injection H as <- <- <-|].
    destruct (scan_quoted s) as [[a' b'] k'] eqn:E. injection H as <- <- <-. cbn. do 2 f_equal.
    apply (IH (length s)) with (k := k'); [cbn in En; lia|reflexivity|exact E].
  - destruct (scan_quoted s) as [[a' b'] k'] eqn:E. injection H as <- <- <-. cbn. f_equal.
    apply (IH (length s)) with (k := k'); [lia|reflexivity|exact E].
Qed.

Lemma scan_heredoc_app d s a b k : scan_heredoc d s = (a, b, k) -> s = a ++ b.
Proof.
  remember (length s) as n eqn:En. revert s En a b k.
  induction n as [n IH] using lt_wf_ind; intros s En a b k H.
  destruct s as [|c s]; cbn [scan_heredoc] in H; [now injection H as <- <- _|].
  cbn [length] in En.
  assert (Hdef : forall k0, (let '(a, b, k) := scan_heredoc d s in (c :: a, b, k)) = (a, b, k0) ->
                 c :: s = a ++ b).
  { intros k0 H0. destruct (scan_heredoc d s) as [[a' b'] k'] eqn:E.
    injection H0 as <- <- <-. cbn. f_equal.
    apply (IH (length s)) with (k := k'); [lia|reflexivity|exact E]. }
  destruct (c =? cLF)%N.
  { destruct (find_delim d s); [now injection H as <- <- _|]. now apply (Hdef k). }
  destruct s as [|e r2]; [now apply (Hdef k)|].
  destruct (_ && _); [|now apply (Hdef k)].
  destruct (find_delim d r2); [now injection H as <- <- _|].
  destruct (scan_heredoc d r2) as [[a' b'] k'] eqn:E. injection H as <- <- <-. cbn. do 2 f_equal.
  apply (IH (length r2)) with (k := k'); [cbn in En; lia|reflexivity|exact E].
Qed.

Lemma scan_heredoc_nil d s b k : scan_heredoc d s = ([], b, k) -> s = [].
Proof.
  destruct s as [|c s]; cbn [scan_heredoc]; [reflexivity|]. intros H.
  destruct (c =? cLF)%N.
  { destruct (find_delim d s); [discriminate|]. destruct (scan_heredoc d s) as [[? ?] ?]. discriminate. }
  destruct s as [|e r2].
  { destruct (scan_heredoc d []) as [[? ?] ?]. discriminate. }
  destruct (_ && _).
  - destruct (find_delim d r2); [discriminate|]. destruct (scan_heredoc d r2) as [[? ?] ?]. discriminate.
  - destruct (scan_heredoc d (e :: r2)) as [[? ?] ?]. discriminate.
Qed.

Lemma scan_heredoc_none d s a b : scan_heredoc d s = (a, b, None) -> b = [].
Proof.
  remember (length s) as n eqn:En. revert s En a b.
  induction n as [n IH] using lt_wf_ind; intros s En a b H.
  destruct s as [|c s]; cbn [scan_heredoc] in H; [now injection H as <- <- _|].
  cbn [length] in En.
  assert (Hdef : (let '(a, b, k) := scan_heredoc d s in (c :: a, b, k)) = (a, b, None) -> b = []).
  { intros H0. destruct (scan_heredoc d s) as [[a' b'] k'] eqn:E.
    injection H0 as <- <- ->. 
    eapply (IH (length s)); [lia|reflexivity|exact E]. }
  destruct (c =? cLF)%N.
  { destruct (find_delim d s); [discriminate|]. now apply Hdef. }
  destruct s as [|e r2]; [now apply Hdef|].
  destruct (_ && _); [|now apply Hdef].
  destruct (find_delim d r2); [discriminate|].
  destruct (scan_heredoc d r2) as [[a' b'] k'] eqn:E. injection H as <- <- ->.
  eapply (IH (length r2)); [cbn in En; lia|reflexivity|exact E].
Qed.

Lemma scan_raw_app h s a b k : scan_raw h s = (a, b, k) -> s = a ++ b.
Proof.
  revert a b k. induction s as [|c s IH]; cbn [scan_raw]; intros a b k H; [now injection H as <- <- <-|].
  destruct (c =? cDQ)%N.
  - destruct (strip_prefix _ s) as [r|] eqn:E.
    + injection H as <- <- <-. apply strip_prefix_some in E. cbn. now rewrite E.
    + destruct (scan_raw h s) as [[a' b'] k']. injection H as <- <- <-. cbn. f_equal. now apply (IH a' b' k').
  - destruct (scan_raw h s) as [[a' b'] k']. injection H as <- <- <-. cbn. f_equal. now apply (IH a' b' k').
Qed.

Lemma scan_lang_app s a b : scan_lang s = (a, b) -> s = a ++ b.
Proof.
  unfold scan_lang. destruct s as [|c s]; [now injection 1 as <- <-|].
  destruct (c =? cCOMMA)%N; [|now injection 1 as <- <-].
  destruct s as [|d s]; [now injection 1 as <- <-|].
  destruct (is_lower d); [|now injection 1 as <- <-].
  destruct (span_while is_lang_char (d :: s)) as [a' b'] eqn:E. injection 1 as <- <-.
  apply span_while_app in E. now rewrite E.
Qed.

Lemma scan_eol_app s a b : scan_eol s = (a, b) -> s = a ++ b.
Proof.
  unfold scan_eol. destruct s as [|c s]; [now injection 1 as <- <-|].
  destruct (c =? cCR)%N.
  - destruct s as [|d s]; [now injection 1 as <- <-|].
    destruct (d =? cLF)%N; now injection 1 as <- <-.
  - destruct (c =? cLF)%N; now injection 1 as <- <-.
Qed.

(** ** One step of the tokenizer *)

Definition step_ok (rem : str) (pos : nat) (t : token) (st' : tstate) : Prop :=
  rem = tk_text t ++ ts_rem st' /\
  tk_span t = mkspan pos (pos + blen (tk_text t)) /\
  ts_pos st' = pos + blen (tk_text t).

Lemma emit_ok k used rest pos hd rem : rem = used ++ rest ->
  step_ok rem pos (fst (emit k used rest pos hd)) (snd (emit k used rest pos hd)).
Proof. intros ->. repeat split. Qed.

Ltac tok_emit :=
  match goal with
  | H : emit _ _ _ _ _ = (_, _) |- _ => unfold emit in H; injection H as <- <-; cbn
  end.

Lemma next_token_step0 st :
  step_ok (ts_rem st) (ts_pos st) (fst (next_token st)) (snd (next_token st)).
Proof.
  destruct st as [rem pos hd]. unfold next_token. cbn [ts_rem ts_pos ts_hd].
  destruct hd as [hs|].
  { unfold tok_heredoc_content. destruct (find_delim _ rem).
    - apply emit_ok. symmetry. apply firstn_skipn.
    - destruct (scan_heredoc _ rem) as [[a b] found] eqn:E.
      pose proof (scan_heredoc_app _ _ _ _ _ E) as Ha.
      destruct found as [i|]; [|now apply emit_ok].
      destruct a as [|x a]; [|now apply emit_ok].
      apply emit_ok. rewrite firstn_skipn. exact Ha. }
  destruct rem as [|c r]; [now apply emit_ok|].
  repeat match goal with
  | |- context [if (c =? ?k)%N then emit _ [c] r pos None else _] =>
      destruct (c =? k)%N; [now apply emit_ok|]
  end.
  destruct (c =? cAT)%N.
  { unfold tok_at_or_tag. destruct r as [|d r]; [now apply emit_ok|].
    destruct (is_tag_start d); [|now apply emit_ok].
    destruct (scan_tag r) as [a b] eqn:E. apply emit_ok. apply scan_tag_app in E. now rewrite E. }
  destruct (c =? cDQ)%N.
  { unfold tok_quoted. destruct (scan_quoted r) as [[a b] k] eqn:E.
    apply emit_ok. apply scan_quoted_app in E. now rewrite E. }
  destruct (c =? cSLASH)%N.
  { destruct (starts_with [cSLASH; cSLASH] r).
    { destruct (span_while not_eol _) as [a b] eqn:E. apply emit_ok. now apply span_while_app in E. }
    destruct (starts_with [cSLASH] r).
    { destruct (span_while not_eol _) as [a b] eqn:E. apply emit_ok. now apply span_while_app in E. }
    destruct (span_while is_bare_char _) as [a b] eqn:E. apply emit_ok. now apply span_while_app in E. }
  destruct (_ && starts_with [cLT] r) eqn:Elt.
  { apply andb_prop in Elt as [Ec Er]. apply N.eqb_eq in Ec as ->.
    destruct r as [|d r]; [now apply emit_ok|].
    apply starts_with_iff in Er as (r0 & Er). cbn in Er. injection Er as -> ->.
    destruct (opt_is _ _); [|now apply emit_ok].
    unfold tok_heredoc_start. destruct (span_while is_delim_char r0) as [dl r1] eqn:E1.
    apply span_while_app in E1 as ->.
    destruct (16 <? _); [now apply emit_ok|].
    destruct (scan_lang r1) as [lg r2] eqn:E2. apply scan_lang_app in E2 as ->.
    destruct (scan_eol r2) as [nl r3] eqn:E3. apply scan_eol_app in E3 as ->.
    apply emit_ok. cbn. now rewrite <- !app_assoc. }
  destruct (_ && opt_is is_hash_or_dq _).
  { unfold tok_raw. destruct (span_while _ r) as [hs r1] eqn:E. apply span_while_app in E as ->.
    destruct r1 as [|q r2]; [now apply emit_ok|].
    destruct (q =? cDQ)%N; [|now apply emit_ok].
    destruct (scan_raw _ r2) as [[a b] k] eqn:E. apply scan_raw_app in E as ->.
    apply emit_ok. cbn. rewrite <- app_assoc. reflexivity. }
  destruct (is_blank c).
  { destruct (span_while is_blank _) as [a b] eqn:E. apply emit_ok. now apply span_while_app in E. }
  destruct (c =? cLF)%N; [now apply emit_ok|].
  destruct (_ && opt_is _ _).
  { apply emit_ok. cbn [app]. now rewrite firstn_skipn. }
  destruct (is_bare_start c).
  { destruct (span_while is_bare_char _) as [a b] eqn:E. apply emit_ok. now apply span_while_app in E. }
  now apply emit_ok.
Qed.

Lemma next_token_step st t st' : next_token st = (t, st') -> step_ok (ts_rem st) (ts_pos st) t st'.
Proof. intros H. pose proof (next_token_step0 st) as G. now rewrite H in G. Qed.

(** ** Shapes of tokens *)

Definition is_tag_text_char (c : char) : bool :=
  is_tag_char c || (c =? cSLASH)%N || (c =? cAT)%N.

Definition tok_shape (k : tkind) (text : str) : Prop :=
  match k with
  | LBrace => text = [cLB] | RBrace => text = [cRB]
  | LParen => text = [cLP] | RParen => text = [cRP]
  | Comma => text = [cCOMMA] | Gt => text = [cGT] | At => text = [cAT]
  | Tag => exists d a, text = cAT :: d :: a /\ is_tag_start d = true /\ forallb is_tag_text_char a = true
  | BareScalar => text <> [] /\ forallb is_bare_char text = true
  | QuotedScalar => exists a, text = cDQ :: a ++ [cDQ]
  | RawScalar => exists n a, text = cr :: repeat cHASH n ++ cDQ :: a ++ cDQ :: repeat cHASH (Nat.min 255 n)
  | HeredocStart => exists d a, text = cLT :: cLT :: d ++ a /\ d <> [] /\ forallb is_delim_char d = true
                                /\ length d <= 16
  | HeredocContent => text <> []
  | HeredocEnd => exists i d, text = i ++ d /\ d <> [] /\ forallb is_blank i = true
                              /\ forallb is_delim_char d = true
  | LineComment => exists a, text = cSLASH :: cSLASH :: a /\ forallb not_eol a = true
  | DocComment => exists a, text = cSLASH :: cSLASH :: cSLASH :: a /\ forallb not_eol a = true
  | Whitespace => text <> [] /\ forallb is_blank text = true
  | Newline => text = [cLF] \/ text = [cCR; cLF]
  | Eof => text = []
  | TError => True
  end.

Definition hd_ok (o : option hstate) : Prop :=
  match o with
  | None => True
  | Some hs => hs_delim hs <> [] /\ forallb is_delim_char (hs_delim hs) = true /\ length (hs_delim hs) <= 16
  end.

Lemma find_delim_some d rem i : find_delim d rem = Some i ->
  exists ind rest, rem = ind ++ d ++ rest /\ length ind = i /\ forallb is_blank ind = true /\
    (rest = [] \/ (exists r, rest = cLF :: r) \/ (exists r, rest = cCR :: cLF :: r)).
Proof.
  unfold find_delim. destruct (span_while is_blank rem) as [ind after] eqn:E.
  destruct (strip_prefix d after) as [ad|] eqn:Ed; [|discriminate].
  apply strip_prefix_some in Ed as ->.
  destruct (match ad with [] => true | _ => _ end) eqn:Eb; [|discriminate].
  injection 1 as <-. exists ind, ad. split; [now apply span_while_app in E|].
  split; [reflexivity|]. split; [now apply span_while_all in E|].
  destruct ad as [|c ad]; [now left|right].
  apply orb_prop in Eb as [Eb|Eb].
  - apply N.eqb_eq in Eb as ->. left. eauto.
  - apply andb_prop in Eb as [Eb1 Eb2]. apply N.eqb_eq in Eb1 as ->.
    apply opt_is_peek_eqb in Eb2 as (r' & ->). right. eauto.
Qed.

Lemma find_delim_firstn d rem i : find_delim d rem = Some i ->
  exists ind rest, rem = ind ++ d ++ rest /\ length ind = i /\ forallb is_blank ind = true
    /\ firstn (i + length d) rem = ind ++ d /\ skipn (i + length d) rem = rest.
Proof.
  intros H. apply find_delim_some in H as (ind & rest & -> & Hl & Hb & _).
  exists ind, rest. repeat split; try assumption.
  - rewrite app_assoc. rewrite <- Hl, <- app_length. rewrite firstn_app, Nat.sub_diag, firstn_all.
    cbn. now rewrite app_nil_r.
  - rewrite app_assoc. rewrite <- Hl, <- app_length. rewrite skipn_app, Nat.sub_diag, skipn_all. reflexivity.
Qed.

Lemma scan_heredoc_found d s a b i : scan_heredoc d s = (a, b, Some i) -> find_delim d b = Some i.
Proof.
  remember (length s) as n eqn:En. revert s En a b.
  induction n as [n IH] using lt_wf_ind; intros s En a b H.
  destruct s as [|c s]; cbn [scan_heredoc] in H; [injection H as <- <- H; exact H|].
  cbn [length] in En.
  assert (Hdef : (let '(a, b, k) := scan_heredoc d s in (c :: a, b, k)) = (a, b, Some i) -> find_delim d b = Some i).
  { intros H0. destruct (scan_heredoc d s) as [[a' b'] k'] eqn:E.
    injection H0 as <- <- ->. eapply (IH (length s)); [lia|reflexivity|exact E]. }
  destruct (c =? cLF)%N.
  { destruct (find_delim d s) eqn:Ef; [injection H as <- <- <-; exact Ef|]. now apply Hdef. }
  destruct s as [|e r2]; [now apply Hdef|].
  destruct (_ && _); [|now apply Hdef].
  destruct (find_delim d r2) eqn:Ef; [injection H as <- <- <-; exact Ef|].
  destruct (scan_heredoc d r2) as [[a' b'] k'] eqn:E. injection H as <- <- ->.
  eapply (IH (length r2)); [cbn in En; lia|reflexivity|exact E].
Qed.

Lemma scan_tag_chars s a b : scan_tag s = (a, b) -> forallb is_tag_text_char a = true.
Proof.
  remember (length s) as n eqn:En. revert s En a b.
  induction n as [n IH] using lt_wf_ind; intros s En a b H.
  destruct s as [|c s]; cbn [scan_tag] in H; [now injection H as <- <-|].
  cbn [length] in En.
  destruct (_ && opt_is _ _); [now injection H as <- <-|].
  destruct (is_tag_char c) eqn:Ec.
  { destruct (scan_tag s) as [a' b'] eqn:E. injection H as <- <-. cbn.
    unfold is_tag_text_char at 1. rewrite Ec. cbn.
    eapply (IH (length s)); [lia|reflexivity|exact E]. }
  destruct (c =? cSLASH)%N eqn:Es; [|now injection H as <- <-].
  destruct s as [|d [|e r2]]; try now injection H as <- <-.
  destruct (_ && _) eqn:Ed; [|now injection H as <- <-].
  apply andb_prop in Ed as [Ed Ee].
  destruct (scan_tag r2) as [a' b'] eqn:E. injection H as <- <-. cbn.
  unfold is_tag_text_char at 1 2 3. rewrite Es, Ed.
  assert (is_tag_char e = true) as ->.
  { unfold is_tag_char, is_tag_start, is_alnum in *. destruct (is_alpha e), (e =? cUS)%N; cbn in *; auto; try discriminate. now rewrite orb_true_r. }
  rewrite !orb_true_r. cbn.
  eapply (IH (length r2)); [cbn in En; lia|reflexivity|exact E].
Qed.

Lemma scan_quoted_closed s a b : scan_quoted s = (a, b, true) -> exists a', a = a' ++ [cDQ].
Proof.
  remember (length s) as n eqn:En. revert s En a b.
  induction n as [n IH] using lt_wf_ind; intros s En a b H.
  destruct s as [|c s]; cbn [scan_quoted] in H; [discriminate|].
  cbn [length] in En.
  destruct (c =? cDQ)%N eqn:Ec.
  { injection H as <- <-. apply N.eqb_eq in Ec as ->. now exists []. }
  destruct (c =? cBSL)%N.
  - destruct s as [|d s]; [discriminate|].
    destruct (scan_quoted s) as [[a' b'] k'] eqn:E. injection H as <- <- ->.
    apply (IH (length s)) in E; [|cbn in En; lia|reflexivity]. destruct E as (x & ->). now exists (c :: d :: x).
  - destruct (scan_quoted s) as [[a' b'] k'] eqn:E. injection H as <- <- ->.
    apply (IH (length s)) in E; [|lia|reflexivity]. destruct E as (x & ->). now exists (c :: x).
Qed.

Lemma scan_raw_closed h s a b : scan_raw h s = (a, b, true) -> exists a', a = a' ++ cDQ :: repeat cHASH h.
Proof.
  revert a b. induction s as [|c s IH]; cbn [scan_raw]; intros a b H; [discriminate|].
  destruct (N.eqb_spec c cDQ) as [->|Hc].
  - destruct (strip_prefix _ s) as [r|] eqn:E.
    + injection H as <- <-. now exists [].
    + destruct (scan_raw h s) as [[a' b'] k']. injection H as <- <- ->.
      destruct (IH _ _ eq_refl) as (x & ->). now exists (cDQ :: x).
  - destruct (scan_raw h s) as [[a' b'] k']. injection H as <- <- ->.
    destruct (IH _ _ eq_refl) as (x & ->). now exists (c :: x).
Qed.

Lemma forallb_eqb_repeat x l : forallb (N.eqb x) l = true -> l = repeat x (length l).
Proof.
  induction l as [|y l IH]; cbn; [reflexivity|]. intros H. apply andb_prop in H as [H1 H2].
  apply N.eqb_eq in H1 as <-. f_equal. now apply IH.
Qed.

Definition step_good (st : tstate) (x : token * tstate) : Prop :=
  tok_shape (tk_kind (fst x)) (tk_text (fst x)) /\
  hd_ok (ts_hd (snd x)) /\
  (tk_kind (fst x) = Eof -> ts_hd st = None /\ ts_rem st = []) /\
  (tk_kind (fst x) = TError -> tk_text (fst x) = [] -> 
     ts_rem st = [] /\ ts_hd st <> None /\ ts_hd (snd x) = None).

Lemma step_good_intro st k used rest pos hd : k <> Eof ->
  tok_shape k used -> hd_ok hd -> (k = TError -> used <> []) -> step_good st (emit k used rest pos hd).
Proof. intros H1 H2 H3 H4. unfold step_good, emit. cbn. repeat split; auto; try congruence; intros; exfalso; now apply H4. Qed.

Lemma span_while_cons_nonempty p c r a b : p c = true -> span_while p (c :: r) = (a, b) -> exists a', a = c :: a'.
Proof. intros H. cbn. rewrite H. destruct (span_while p r). injection 1 as <- _. eauto. Qed.

Lemma next_token_good st : hd_ok (ts_hd st) -> step_good st (next_token st).
Proof.
  destruct st as [rem pos hd]. unfold next_token. cbn [ts_rem ts_pos ts_hd]. intros Hhd.
  destruct hd as [hs|].
  { unfold tok_heredoc_content. destruct Hhd as (Hd1 & Hd2 & Hd3).
    destruct (find_delim _ rem) as [i|] eqn:Ef.
    - apply find_delim_firstn in Ef as (ind & rest & Hrem & Hl & Hb & Hf & Hs).
      rewrite Hf. apply step_good_intro; try easy. exists ind, (hs_delim hs). repeat split; auto.
    - destruct (scan_heredoc _ rem) as [[a b] found] eqn:E.
      destruct found as [i|].
      + destruct a as [|x a].
        * pose proof (scan_heredoc_app _ _ _ _ _ E) as Happ.
          apply scan_heredoc_found in E. cbn in Happ. subst rem. congruence.
        * apply step_good_intro; try easy.
      + unfold step_good, emit; cbn. split; [exact I|]. split; [exact I|].
        split; [easy|]. intros _ ->. apply scan_heredoc_nil in E. easy. }
  destruct rem as [|c r].
  { unfold step_good, emit; cbn. repeat split; auto; easy. }
  destruct (N.eqb_spec c cLB) as [->|H1]; [apply step_good_intro; easy|].
  destruct (N.eqb_spec c cRB) as [->|H2]; [apply step_good_intro; easy|].
  destruct (N.eqb_spec c cLP) as [->|H3]; [apply step_good_intro; easy|].
  destruct (N.eqb_spec c cRP) as [->|H4]; [apply step_good_intro; easy|].
  destruct (N.eqb_spec c cCOMMA) as [->|H5]; [apply step_good_intro; easy|].
  destruct (N.eqb_spec c cGT) as [->|H6]; [apply step_good_intro; easy|].
  destruct (N.eqb_spec c cAT) as [->|H7].
  { unfold tok_at_or_tag. destruct r as [|d r]; [apply step_good_intro; easy|].
    destruct (is_tag_start d) eqn:Ed; [|apply step_good_intro; easy].
    destruct (scan_tag r) as [a b] eqn:E. apply scan_tag_chars in E.
    apply step_good_intro; try easy. cbn. eauto. }
  destruct (N.eqb_spec c cDQ) as [->|H8].
  { unfold tok_quoted. destruct (scan_quoted r) as [[a b] k] eqn:E.
    destruct k; [|apply step_good_intro; easy].
    apply scan_quoted_closed in E as (a' & ->). apply step_good_intro; try easy. now exists a'. }
  destruct (N.eqb_spec c cSLASH) as [->|H9].
  { destruct (starts_with [cSLASH; cSLASH] r) eqn:E1.
    { apply starts_with_iff in E1 as (r0 & ->).
      destruct (span_while not_eol _) as [a b] eqn:E. cbn in E.
      destruct (span_while not_eol r0) as [a' b'] eqn:E2. injection E as <- <-.
      apply span_while_all in E2. apply step_good_intro; try easy. cbn. eauto. }
    destruct (starts_with [cSLASH] r) eqn:E2.
    { apply starts_with_iff in E2 as (r0 & ->).
      destruct (span_while not_eol _) as [a b] eqn:E. cbn in E.
      destruct (span_while not_eol r0) as [a' b'] eqn:E2. injection E as <- <-.
      apply span_while_all in E2. apply step_good_intro; try easy. cbn. eauto. }
    destruct (span_while is_bare_char _) as [a b] eqn:E.
    pose proof (span_while_all _ _ _ _ E) as Ha.
    apply span_while_cons_nonempty in E as (a' & ->); [|reflexivity].
    apply step_good_intro; easy. }
  destruct (_ && starts_with [cLT] r) eqn:Elt.
  { apply andb_prop in Elt as [Ec Er].
    destruct r as [|d r]; [apply step_good_intro; easy|].
    destruct (opt_is _ _) eqn:Eu; [|apply step_good_intro; easy].
    unfold tok_heredoc_start. destruct (span_while is_delim_char r) as [dl r1] eqn:E1.
    pose proof (span_while_all _ _ _ _ E1) as Ha.
    assert (dl <> []) as Hdl.
    { destruct r as [|u r]; [discriminate|]. cbn in Eu. cbn [span_while] in E1.
      unfold is_delim_char in E1 at 1. rewrite Eu in E1. cbn in E1.
      destruct (span_while is_delim_char r). injection E1 as <- _. discriminate. }
    destruct (16 <? _) eqn:E16; [apply step_good_intro; easy|].
    apply Nat.ltb_ge in E16.
    destruct (scan_lang r1) as [lg r2] eqn:E2.
    destruct (scan_eol r2) as [nl r3] eqn:E3.
    apply step_good_intro; try easy. exists dl, (lg ++ nl). auto. }
  destruct (N.eqb_spec c cr) as [->|H10]; cbn [andb].
  { destruct (opt_is is_hash_or_dq (peek r)) eqn:Eh.
    - unfold tok_raw. destruct (span_while _ r) as [hs r1] eqn:E.
      apply span_while_all, forallb_eqb_repeat in E.
      destruct r1 as [|q r2]; [apply step_good_intro; easy|].
      destruct (N.eqb_spec q cDQ) as [->|Hq]; [|apply step_good_intro; easy].
      destruct (scan_raw _ r2) as [[a b] k] eqn:Er. destruct k; [|apply step_good_intro; easy].
      apply scan_raw_closed in Er as (a' & ->). apply step_good_intro; try easy.
      cbn. exists (length hs), a'. now rewrite E at 1.
    - change (is_blank cr) with false. cbv iota. change (cr =? cLF)%N with false. cbv iota.
      change (cr =? cCR)%N with false. cbn [andb]. change (is_bare_start cr) with true. cbv iota.
      destruct (span_while is_bare_char _) as [a b] eqn:E1.
      pose proof (span_while_all _ _ _ _ E1) as Ha.
      apply span_while_cons_nonempty in E1 as (a' & ->); [|reflexivity].
      apply step_good_intro; easy. }
  destruct (is_blank c) eqn:Eb.
  { destruct (span_while is_blank _) as [a b] eqn:E.
    pose proof (span_while_all _ _ _ _ E) as Ha.
    apply span_while_cons_nonempty in E as (a' & ->); [|exact Eb].
    apply step_good_intro; easy. }
  destruct (N.eqb_spec c cLF) as [->|H11]; [apply step_good_intro; try easy; now left|].
  destruct (_ && opt_is _ _) eqn:Ecr.
  { apply andb_prop in Ecr as [Ec El]. apply N.eqb_eq in Ec as ->.
    apply opt_is_peek_eqb in El as (r' & ->).
    apply step_good_intro; try easy. right. reflexivity. }
  destruct (is_bare_start c) eqn:Es.
  { destruct (span_while is_bare_char _) as [a b] eqn:E.
    pose proof (span_while_all _ _ _ _ E) as Ha.
    apply span_while_cons_nonempty in E as (a' & ->).
    - apply step_good_intro; easy.
    - unfold is_bare_start in Es. unfold is_bare_char. apply andb_prop in Es as [Es1 Es2]. rewrite Es2, andb_true_r.
      rewrite negb_true_iff in Es1 |- *. repeat (apply orb_false_elim in Es1 as [Es1 ?]).
      repeat (apply orb_false_intro; [|assumption]). assumption. }
  apply step_good_intro; easy.
Qed.

(** ** Whole token streams *)

From Verif Require Import TokSpec.

Lemma tokens_from_tiles fuel st ts : tokens_from fuel st = Some ts -> ts_hd st = None \/ hd_ok (ts_hd st) ->
  texts ts = ts_rem st /\ tiles (ts_pos st) ts (ts_pos st + blen (ts_rem st)).
Proof.
  intros H Hok. assert (hd_ok (ts_hd st)) as Hok' by (destruct Hok as [->|]; [exact I|assumption]).
  clear Hok. revert st ts H Hok'.
  induction fuel as [|f IH]; intros st ts H Hok; [discriminate|]. cbn [tokens_from] in H.
  destruct (next_token st) as [t st'] eqn:E.
  pose proof (next_token_good st Hok) as (Hs & Hh & He & _). rewrite E in *. cbn [fst snd] in *.
  apply next_token_step in E as (H1 & H2 & H3).
  destruct (is_eof_kind (tk_kind t)) eqn:Ek.
  - injection H as <-. assert (tk_kind t = Eof) as Hk by (destruct (tk_kind t); try discriminate; reflexivity).
    destruct (He Hk) as [_ Hr]. rewrite Hr. cbn. split; [reflexivity|lia].
  - destruct (tokens_from f st') as [ts'|] eqn:Et; [|discriminate]. cbn in H. injection H as <-.
    destruct (IH _ _ Et Hh) as [I1 I2]. unfold texts in *. cbn. rewrite I1. split; [now rewrite H1|].
    rewrite H2. cbn. repeat split; try lia. rewrite H1, blen_app. rewrite H3 in I2.
    replace (ts_pos st + (blen (tk_text t) + blen (ts_rem st'))) with (ts_pos st + blen (tk_text t) + blen (ts_rem st')) by lia.
    exact I2.
Qed.

Lemma tiles_slice pre ts src rest : src = pre ++ texts ts ++ rest ->
  tiles (blen pre) ts (blen pre + blen (texts ts)) ->
  Forall (fun t => slice src (sp_start (tk_span t)) (sp_end (tk_span t)) = Some (tk_text t)) ts.
Proof.
  revert pre. induction ts as [|t ts IH]; intros pre Hsrc Ht; constructor.
  - cbn in Ht. destruct Ht as (-> & -> & _). rewrite Hsrc. unfold texts. cbn. rewrite <- !app_assoc. apply slice_app.
  - cbn in Ht. destruct Ht as (H1 & H2 & H3). apply (IH (pre ++ tk_text t)).
    + rewrite Hsrc. unfold texts. cbn. now rewrite <- !app_assoc.
    + rewrite blen_app. rewrite H2 in H3. unfold texts in H3. cbn in H3. rewrite blen_app in H3.
      unfold texts. rewrite <- Nat.add_assoc. exact H3.
Qed.

Lemma tok_shape_nil k : tok_shape k [] -> k <> Eof -> k = TError.
Proof.
  intros Hs Hk. destruct k; cbn in Hs; try discriminate; try reflexivity; try contradiction;
    try (now destruct Hs as [Hs _]); try (destruct Hs as (x & Hs & _); discriminate);
    try (destruct Hs as (x & Hs); discriminate);
    try (destruct Hs as (x & y & Hs & _); discriminate).
  - destruct Hs as (x & y & Hs); discriminate.
  - destruct Hs as (i & d & Hs & Hd & _). symmetry in Hs. apply app_eq_nil in Hs as [_ Hs]. contradiction.
  - destruct Hs as [Hs|Hs]; discriminate.
Qed.

Definition measure (st : tstate) : nat :=
  2 * length (ts_rem st) + match ts_hd st with Some _ => 1 | None => 0 end.

Lemma next_token_measure st t st' : hd_ok (ts_hd st) -> next_token st = (t, st') -> tk_kind t <> Eof ->
  measure st' < measure st.
Proof.
  intros Hok H Hk. pose proof (next_token_good st Hok) as (Hs & Hh & _ & He). rewrite H in *. cbn [fst snd] in *.
  pose proof (next_token_step _ _ _ H) as (H1 & H2 & H3).
  assert (tk_text t <> [] \/ tk_text t = []) as [Ht|Ht] by (destruct (tk_text t); [now right|now left]).
  - unfold measure. rewrite H1, app_length. destruct (tk_text t); [contradiction|]. cbn.
    destruct (ts_hd st), (ts_hd st'); lia.
  - rewrite Ht in H1. cbn in H1. unfold measure. rewrite H1.
    assert (tk_kind t = TError) as HE by (rewrite Ht in Hs; now apply tok_shape_nil).
    destruct (He HE Ht) as (Hr & Hn & Hn'). rewrite Hn'. destruct (ts_hd st); [lia|contradiction].
Qed.

Lemma tokens_from_total fuel st : hd_ok (ts_hd st) -> measure st < fuel -> exists ts, tokens_from fuel st = Some ts.
Proof.
  revert st. induction fuel as [|f IH]; intros st Hok Hm; [lia|]. cbn [tokens_from].
  destruct (next_token st) as [t st'] eqn:E.
  pose proof (next_token_good st Hok) as (Hs & Hh & He & _). rewrite E in *. cbn [fst snd] in *.
  destruct (is_eof_kind (tk_kind t)) eqn:Ek; [eauto|].
  assert (tk_kind t <> Eof) as Hk by (intros Hk; rewrite Hk in Ek; discriminate).
  pose proof (next_token_measure _ _ _ Hok E Hk) as Hlt.
  destruct (IH st' Hh ltac:(lia)) as (ts & ->). cbn. eauto.
Qed.

Lemma tokens_from_fuel f1 f2 st ts : tokens_from f1 st = Some ts -> f1 <= f2 -> tokens_from f2 st = Some ts.
Proof.
  revert f2 st ts. induction f1 as [|f1 IH]; intros f2 st ts H Hle; [discriminate|].
  destruct f2 as [|f2]; [lia|]. cbn [tokens_from] in *. destruct (next_token st) as [t st'].
  destruct (is_eof_kind (tk_kind t)); [exact H|].
  destruct (tokens_from f1 st') as [ts'|] eqn:E; [|discriminate]. cbn in H. injection H as <-.
  rewrite (IH f2 st' ts' E) by lia. reflexivity.
Qed.

Lemma tokens_total src : exists ts, tokens src = Some ts.
Proof. apply tokens_from_total; [exact I|]. cbn. lia. Qed.

Lemma next_token_eof st : hd_ok (ts_hd st) -> tk_kind (fst (next_token st)) = Eof -> snd (next_token st) = st.
Proof.
  intros Hok H. pose proof (next_token_good st Hok) as (_ & _ & He & _). destruct (He H) as [H1 H2].
  destruct st as [rem pos hd]. cbn in *. subst. cbn. f_equal. lia.
Qed.

Lemma tokens_from_last_empty fuel st ts : hd_ok (ts_hd st) -> tokens_from fuel st = Some ts ->
  forall pre t post, ts = pre ++ t :: post -> tk_text t = [] ->
    tk_kind t = TError /\ post = [] /\ sp_start (tk_span t) = ts_pos st + blen (ts_rem st).
Proof.
  intros Hok H pre. revert fuel st ts Hok H. induction pre as [|p pre IH]; intros fuel st ts Hok H t post -> Ht;
  (destruct fuel as [|f]; [discriminate|]); cbn [tokens_from] in H;
  destruct (next_token st) as [t0 st'] eqn:E; destruct (is_eof_kind (tk_kind t0)) eqn:Ek;
  try discriminate; destruct (tokens_from f st') as [ts'|] eqn:Et; try discriminate; cbn in H.
  - injection H as -> ->.
    assert (tk_kind t <> Eof) as Hk by (intros Hk; rewrite Hk in Ek; discriminate).
    pose proof (next_token_good st Hok) as (Hs & Hh & _ & He). rewrite E in *. cbn [fst snd] in *.
    pose proof (next_token_step _ _ _ E) as (H1 & H2 & H3).
    assert (tk_kind t = TError) as HE by (rewrite Ht in Hs; now apply tok_shape_nil).
    destruct (He HE Ht) as (Hr & Hn & Hn'). split; [exact HE|].
    rewrite Hr, H2. cbn. split; [|lia].
    rewrite Ht in H1. cbn in H1. destruct st' as [rem' pos' hd']. cbn [ts_rem ts_pos ts_hd] in *.
    rewrite Hr in H1. subst rem' hd'.
    destruct f; cbn in Et; [discriminate|]. now injection Et as <-.
  - injection H as -> ->.
    pose proof (next_token_good st Hok) as (Hs & Hh & _ & He). rewrite E in *. cbn [fst snd] in *.
    pose proof (next_token_step _ _ _ E) as (H1 & H2 & H3).
    destruct (IH f st' _ Hh Et t post eq_refl Ht) as (G1 & G2 & G3). split; [exact G1|]. split; [exact G2|].
    rewrite G3, H3, H1, blen_app. lia.
Qed.

Lemma length_le_texts ts : Forall (fun t => tk_text t <> []) ts -> length ts <= length (texts ts).
Proof.
  induction 1 as [|t ts Ht _ IH]; cbn; [lia|]. unfold texts in *. cbn. rewrite app_length.
  destruct (tk_text t); [contradiction|]. cbn. lia.
Qed.

Lemma tokens_count fuel st ts : hd_ok (ts_hd st) -> tokens_from fuel st = Some ts -> length ts <= length (ts_rem st) + 1.
Proof.
  intros Hok H. pose proof (tokens_from_tiles _ _ _ H (or_intror Hok)) as [Ht _].
  pose proof (tokens_from_last_empty _ _ _ Hok H) as Hl.
  destruct ts as [|t0 ts0] eqn:Ets using rev_ind; [cbn; lia|]. clear IHts0.
  assert (Forall (fun t => tk_text t <> []) ts0) as Hf.
  { apply Forall_forall. intros t Hin Hnil. apply in_split in Hin as (l1 & l2 & ->).
    destruct (Hl l1 t (l2 ++ [t0])) as (_ & Hp & _); [now rewrite <- app_assoc|exact Hnil|].
    destruct l2; discriminate. }
  apply length_le_texts in Hf. rewrite app_length. cbn.
  rewrite <- Ht. unfold texts in *. rewrite map_app, concat_app, app_length. lia.
Qed.

Lemma tokenize_lossless src : exists ts,
  tokens src = Some ts /\ texts ts = src /\ tiles 0 ts (blen src) /\
  Forall (fun t => slice src (sp_start (tk_span t)) (sp_end (tk_span t)) = Some (tk_text t)) ts.
Proof.
  destruct (tokens_total src) as (ts & H). exists ts. split; [exact H|].
  destruct (tokens_from_tiles _ _ _ H (or_introl eq_refl)) as [H1 H2]. cbn in H1, H2.
  split; [exact H1|]. split; [exact H2|].
  apply (tiles_slice [] ts src []); [rewrite app_nil_r; now symmetry|]. rewrite H1. exact H2.
Qed.

Lemma tokens_any_fuel fuel src ts : tokens_from fuel (tok_new src) = Some ts -> tokens src = Some ts.
Proof.
  intros H. destruct (tokens_total src) as (ts' & H').
  pose proof (tokens_from_fuel _ (fuel + S (S (2 * length src))) _ _ H ltac:(lia)) as A.
  pose proof (tokens_from_fuel _ (fuel + S (S (2 * length src))) _ _ H' ltac:(lia)) as B.
  congruence.
Qed.

Lemma after_calls_ok n st : hd_ok (ts_hd st) -> hd_ok (ts_hd (after_calls n st)).
Proof.
  revert st. induction n as [|n IH]; intros st H; [exact H|]. cbn. apply IH.
  apply (next_token_good st H).
Qed.

Lemma eof_stable src n : tk_kind (fst (next_token (after_calls n (tok_new src)))) = Eof ->
  forall m, n <= m -> after_calls m (tok_new src) = after_calls n (tok_new src).
Proof.
  intros H m Hm. assert (hd_ok (ts_hd (after_calls n (tok_new src)))) as Hok by (apply after_calls_ok; exact I).
  pose proof (next_token_eof _ Hok H) as Hs.
  replace m with (n + (m - n)) by lia. generalize (m - n) as k. clear Hm m.
  assert (forall a b st, after_calls (a + b) st = after_calls b (after_calls a st)) as Hadd.
  { induction a as [|a IH]; intros b st; [reflexivity|]. cbn. apply IH. }
  intros k. rewrite Hadd. clear Hadd. generalize dependent (after_calls n (tok_new src)). intros st _ _ Hs.
  induction k as [|k IH]; [reflexivity|]. cbn. now rewrite Hs.
Qed.

Lemma tokens_progress src : exists ts, tokens src = Some ts /\ length ts <= length src + 1 /\
  forall pre t post, ts = pre ++ t :: post -> tk_kind t <> Eof /\ (tk_text t = [] ->
     tk_kind t = TError /\ post = [] /\ sp_start (tk_span t) = blen src).
Proof.
  destruct (tokens_total src) as (ts & H). exists ts. split; [exact H|].
  split; [now apply (tokens_count _ (tok_new src) _ I H)|]. intros pre t post ->. split.
  - clear -H. unfold tokens in H. revert H. generalize (S (S (2 * length src))), (tok_new src).
    induction pre as [|p pre IH]; intros n st H; (destruct n as [|n]; [discriminate|]); cbn [tokens_from] in H;
    destruct (next_token st) as [t0 st'] eqn:E; destruct (is_eof_kind (tk_kind t0)) eqn:Ek; try discriminate;
    destruct (tokens_from n st') as [ts'|] eqn:Et; try discriminate; cbn in H; injection H as -> ->.
    + intros Hk. rewrite Hk in Ek. discriminate.
    + now apply IH in Et.
  - intros Ht. destruct (tokens_from_last_empty _ (tok_new src) _ I H pre t post eq_refl Ht) as (A & B & C). cbn in C. auto.
Qed.
