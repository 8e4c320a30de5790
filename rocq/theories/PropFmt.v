(** Properties of written scalars: C10-C14, C39. *)
From Coq Require Import String.
From Verif Require Import Base BaseProofs TokModel TokProofs LexModel LexSpec EscapeProofs LexProofs
  ParseModel TreeModel FmtModel FmtSpec LexRunProofs ScalarProofs.

(** ** C10: escaping is inverted by reading *)

(** What [escape_quoted] writes stands for the string it was given, by the escape table of the language. *)
Theorem C10_escape_means s : decodes (escape_quoted s) s.
Proof. exact (escape_decodes s). Qed.
Print Assumptions C10_escape_means.

(** All readers of quoted text give the string back. *)
Theorem C10_readers s :
  process_escapes (escape_quoted s) = inl s /\ unescape_quoted (escape_quoted s) = s /\
  unescape_scalar (escape_quoted s) = s /\ unescape_serde (quoted_text s) = s.
Proof.
  pose proof (escape_decodes s) as H. splits.
  - now apply process_escapes_decodes.
  - now apply unescape_quoted_ok.
  - now apply unescape_scalar_ok.
  - now apply unescape_serde_ok.
Qed.
Print Assumptions C10_readers.

(** Wherever the written token stands, the tokenizer ends it at the right quote and the lexer decodes it. *)
Theorem C10_lexed s rest : reads (quoted_text s) rest s Quoted.
Proof. exact (reads_quoted_text s rest). Qed.
Print Assumptions C10_lexed.

Example C10_example :
  let s := lit "say ""hi"" \" ++ [cLF; cTAB; 0%N; 127%N; 233%N; 128512%N] in
  quoted_text s = lit """say \""hi\"" \\\n\t\u{0000}\u{007f}" ++ [233%N; 128512%N; cDQ] /\
  lexemes (quoted_text s) = Ok [LxScalar (mkspan 0 (blen (quoted_text s))) s Quoted].
Proof. vm_compute. auto. Qed.

(** ** C11: bare strings *)

(** [can_be_bare] accepts strings with [>], which are not one token: [a>b] reads as an attribute. *)
Theorem C11_gt_refuted : exists s, can_be_bare s = true /\
  lexemes (scalar_text default_opts false s ++ [cLF])
  = Ok [LxAttrKey (mkspan 0 2) (mkspan 0 1) (lit "a"); LxScalar (mkspan 2 3) (lit "b") Bare; LxNewline (mkspan 3 4)].
Proof. exists (lit "a>b"). vm_compute. auto. Qed.
Print Assumptions C11_gt_refuted.

(** That is the only way to fail: an accepted string is one bare token exactly if it has no [>] in it.
    (A lone [r] directly before a quote would start a raw string.) *)
Theorem C11_bare_partial s rest pos :
  can_be_bare s = true -> bare_ends rest -> (s = [cr] -> forall x, rest <> cDQ :: x) ->
  (next_token (mkts (s ++ rest) pos None)
   = (mktok BareScalar (mkspan pos (pos + blen s)) s, mkts rest (pos + blen s) None)
   <-> ~ In cGT s).
Proof. exact (bare_iff s rest pos). Qed.
Print Assumptions C11_bare_partial.

Theorem C11_lexed_partial s rest :
  can_be_bare s = true -> ~ In cGT s -> scalar_ends rest -> (s = [cr] -> forall x, rest <> cDQ :: x) ->
  reads s rest s Bare.
Proof. intros H Hg. apply reads_bare. now apply can_be_bare_text. Qed.
Print Assumptions C11_lexed_partial.

Example C11_example : can_be_bare (lit "/usr/bin:<x>r#""" ) = false /\ can_be_bare (lit "/usr/bin:<x") = true
  /\ can_be_bare (lit "r") = true /\ scalar_ends (lit ", x") /\
  next_token (mkts (lit "/usr/bin:<x, x") 7 None)
  = (mktok BareScalar (mkspan 7 18) (lit "/usr/bin:<x"), mkts (lit ", x") 18 None).
Proof. splits; try reflexivity. split; [left; cbn; tauto|]. intros r. discriminate. Qed.

(** ** C12: raw strings *)

(** The writer uses the raw style only for strings without quote-hash; all of them are read back. *)
Theorem C12_written s rest : ~ occurs [cDQ; cHASH] s -> reads (raw_text s) rest s Raw.
Proof. exact (reads_raw_one s rest). Qed.
Print Assumptions C12_written.

(** Whatever [write_string] writes that is neither bare, quoted nor a heredoc is read back as a raw string. *)
Theorem C12_chosen o q s rest : scalar_text o q s <> s -> scalar_text o q s <> quoted_text s -> scalar_text o q s <> heredoc_text s ->
  reads (scalar_text o q s) rest s Raw.
Proof.
  intros H1 H2 H3. unfold scalar_text in *. destruct (negb q && can_be_bare s); [congruence|].
  destruct (o_heredoc o <=? count_newlines s); [congruence|].
  destruct (_ && _) eqn:E; [|congruence]. apply andb_prop in E as [_ E]. apply negb_true_iff in E.
  apply reads_raw_one. intros Ho. apply contains_sub_iff in Ho. congruence.
Qed.
Print Assumptions C12_chosen.

(** [write_raw_string] itself is right up to 255 hashes, and picks the least number of hashes that works. *)
Theorem C12_many s :
  (~ occurs (cDQ :: repeat cHASH 255) s -> forall rest, reads (raw_text s) rest s Raw) /\
  exists h, raw_text s = cr :: repeat cHASH h ++ cDQ :: s ++ cDQ :: repeat cHASH h /\
    forall m, m < h -> occurs (cDQ :: repeat cHASH m) s.
Proof.
  split; [intros H rest; now apply reads_raw_text|]. exists (raw_hashes (S (length s)) 0 s). split; [reflexivity|].
  destruct (raw_hashes_spec (S (length s)) 0 s) as (_ & _ & H); [lia|]. intros m Hm. apply H. lia.
Qed.
Print Assumptions C12_many.

Example C12_example :
  raw_text (lit "a\b""c\d\""e") = lit "r#""a\b""c\d\""e""#" /\
  scalar_text default_opts false (lit "a\b""c\d\""e") = lit "r#""a\b""c\d\""e""#" /\
  ~ occurs [cDQ; cHASH] (lit "a\b""c\d\""e") /\
  lexemes (lit "r#""a\b""c\d\""e""#") = Ok [LxScalar (mkspan 0 15) (lit "a\b""c\d\""e") Raw].
Proof. splits; try reflexivity. intros H. apply contains_sub_iff in H. discriminate. Qed.

(** ** C13: heredocs *)

(** A heredoc always ends its last line, so a string that does not gains a line feed. *)
Theorem C13_eol_refuted : exists s,
  scalar_text default_opts false s = heredoc_text s /\
  lexemes (heredoc_text s ++ [cLF])
  = Ok [LxScalar (mkspan 0 17) (s ++ [cLF]) Heredoc; LxNewline (mkspan 17 18)].
Proof. exists (lit "a" ++ [cLF] ++ lit "b" ++ [cLF] ++ lit "c"). vm_compute. auto. Qed.
Print Assumptions C13_eol_refuted.

(** The closing delimiter is only recognised before a line end: directly before a closing bracket or a comma
    the text is not a heredoc at all. *)
Theorem C13_context_refuted : exists s, scalar_text default_opts false s = heredoc_text s /\
  forall c, In c [cRP; cRB; cCOMMA] -> exists sp,
    lexemes (heredoc_text s ++ [c]) = Ok [LxError sp MsgInHeredoc].
Proof.
  exists (lit "a" ++ [cLF] ++ lit "b" ++ [cLF]). split; [reflexivity|]. intros c Hc.
  cbn in Hc. repeat (destruct Hc as [<-|Hc]; [eexists; vm_compute; reflexivity|]). contradiction.
Qed.
Print Assumptions C13_context_refuted.

(** A string that contains all six delimiters, one of them ([TEXT]) alone on a line, is cut off there. *)
Theorem C13_delimiter_refuted : exists s v, scalar_text default_opts false s = heredoc_text s /\
  ends_with_char cLF s = true /\
  (exists sp l, lexemes (heredoc_text s ++ [cLF]) = Ok (LxScalar sp v Heredoc :: l)) /\ v <> s.
Proof.
  exists (lit "END HEREDOC DOC STR CONTENT" ++ [cLF] ++ lit "TEXT" ++ [cLF]), (lit "END HEREDOC DOC STR CONTENT" ++ [cLF]).
  splits; try reflexivity; [|discriminate]. do 2 eexists. vm_compute. reflexivity.
Qed.
Print Assumptions C13_delimiter_refuted.

(** Before a line end, a heredoc reads back as the string with its last line ended, as long as one of the
    delimiters does not occur in the string. *)
Theorem C13_line_partial s rest : line_ends rest -> (exists d, In d delimiters /\ ~ occurs d s) ->
  reads (heredoc_text s) rest (if ends_with_char cLF s then s else s ++ [cLF]) Heredoc.
Proof.
  intros Hr Hd. replace (if ends_with_char cLF s then s else s ++ [cLF]) with (with_eol s)
    by (unfold with_eol; destruct (ends_with_char cLF s); [apply app_nil_r|reflexivity]).
  apply reads_heredoc_text; [assumption|]. apply fresh_no_line; [apply pick_delim_in|now apply pick_delim_fresh].
Qed.
Print Assumptions C13_line_partial.

Theorem C13_exact_partial a rest : line_ends rest -> (exists d, In d delimiters /\ ~ occurs d (a ++ [cLF])) ->
  reads (heredoc_text (a ++ [cLF])) rest (a ++ [cLF]) Heredoc.
Proof.
  intros Hr Hd. pose proof (C13_line_partial (a ++ [cLF]) rest Hr Hd) as H.
  replace (ends_with_char cLF (a ++ [cLF])) with true in H; [exact H|]. symmetry. apply ends_with_char_iff. eauto.
Qed.
Print Assumptions C13_exact_partial.

Example C13_example :
  let s := lit "  TEXT" ++ [cCR; cLF] ++ lit " END x" ++ [cLF; cLF] in
  heredoc_text s = lit "<<HEREDOC" ++ [cLF] ++ s ++ lit "HEREDOC" /\
  (exists d, In d delimiters /\ ~ occurs d s) /\ line_ends (cLF :: lit "k v") /\
  lexemes (heredoc_text s) = Ok [LxScalar (mkspan 0 33) s Heredoc].
Proof.
  cbv zeta. splits; try reflexivity.
  - exists (lit "HEREDOC"). split; [vm_compute; auto|]. intros H. apply contains_sub_iff in H. discriminate.
  - right. left. eauto.
Qed.

(** ** C14: whatever style the writer picks *)

Definition newlines (s : str) : nat := count_occ N.eq_dec s cLF.

Lemma count_newlines_occ s : count_newlines s = newlines s.
Proof.
  unfold count_newlines, newlines. induction s as [|c s IH]; [reflexivity|]. cbn [filter count_occ].
  destruct (N.eqb_spec cLF c) as [<-|Hc]; destruct (N.eq_dec _ _); cbn [length]; congruence.
Qed.

Theorem C14_refuted : exists s1 s2, forall s, In s [s1; s2] -> forall sp k l,
  lexemes (scalar_text default_opts false s ++ [cLF]) <> Ok (LxScalar sp s k :: l).
Proof.
  exists (lit "a>b"), (lit "a" ++ [cLF] ++ lit "b" ++ [cLF] ++ lit "c"). intros s [<-|[<-|[]]] sp k l; vm_compute; discriminate.
Qed.
Print Assumptions C14_refuted.

(** At the end of a line, everything reads back except bare strings with [>] and heredocs that do not end
    their last line or contain all delimiters. *)
Theorem C14_line_partial o q s rest : line_ends rest ->
  (q = false -> can_be_bare s = true -> ~ In cGT s) ->
  (o_heredoc o <= newlines s -> (exists a, s = a ++ [cLF]) /\ exists d, In d delimiters /\ ~ occurs d s) ->
  exists k, reads (scalar_text o q s) rest s k.
Proof.
  intros Hr Hb Hh. unfold scalar_text. destruct (negb q && can_be_bare s) eqn:E.
  - apply andb_prop in E as [E1 E2]. apply negb_true_iff in E1. exists Bare. apply reads_bare.
    + apply can_be_bare_text; auto.
    + destruct Hr as [->|[(r & ->)|(r & ->)]]; (split; [cbn; auto|discriminate]).
    + intros _ x ->. destruct Hr as [H|[(r & H)|(r & H)]]; discriminate.
  - rewrite count_newlines_occ. destruct (Nat.leb_spec (o_heredoc o) (newlines s)) as [Hl|Hl].
    + destruct (Hh Hl) as [(a & ->) Hd]. exists Heredoc. now apply C13_exact_partial.
    + destruct ((3 <? count_escapes s) && negb (contains_sub [cDQ; cHASH] s)) eqn:E2; [|exists Quoted; apply reads_quoted_text].
      exists Raw. apply reads_raw_one. intros Ho. apply contains_sub_iff in Ho. rewrite Ho in E2.
      now rewrite andb_false_r in E2.
Qed.
Print Assumptions C14_line_partial.

(** In any place where a scalar can end, strings with fewer line feeds than the heredoc threshold read back. *)
Theorem C14_short_partial o q s rest : scalar_ends rest -> (forall x, rest <> cDQ :: x) ->
  newlines s < o_heredoc o -> ~ In cGT s -> exists k, reads (scalar_text o q s) rest s k.
Proof.
  intros Hr Hq Hn Hg. unfold scalar_text. destruct (negb q && can_be_bare s) eqn:E.
  - apply andb_prop in E as [_ E2]. exists Bare. apply reads_bare; [now apply can_be_bare_text|assumption|auto].
  - rewrite count_newlines_occ. replace (o_heredoc o <=? newlines s) with false by (symmetry; apply Nat.leb_gt; lia).
    destruct ((3 <? count_escapes s) && negb (contains_sub [cDQ; cHASH] s)) eqn:E2; [|exists Quoted; apply reads_quoted_text].
    exists Raw. apply reads_raw_one. intros Ho. apply contains_sub_iff in Ho. rewrite Ho in E2.
    now rewrite andb_false_r in E2.
Qed.
Print Assumptions C14_short_partial.

(** Keys written by [field_key] read back (keys with [>] aside, see C11; that a bare key with dots is then
    taken for a path is C15's business). *)
Theorem C14_key_partial k w first root multi inln commas brace r :
  ~ In cGT k -> w_stack w = CStruct first root multi inln commas brace :: r ->
  exists (a t : str) (kd : skind), w_out (field_key k w) = (w_out w ++ a ++ t ++ [cSP])%list /\
    (forall rest, reads t (cSP :: rest) k kd).
Proof.
  intros Hg Hw.
  assert (T : exists kd, forall rest, reads (key_text k) (cSP :: rest) k kd).
  { unfold key_text. destruct (can_be_bare k) eqn:E.
    - exists Bare. intros rest. apply C11_lexed_partial; auto; [|discriminate].
      split; [cbn; auto|discriminate].
    - exists Quoted. intros rest. apply reads_quoted_text. }
  destruct T as (kd & T). unfold field_key, field_key_raw. rewrite Hw.
  set (inline := inln && negb multi || should_inline w).
  assert (G : forall w1 : writer, w_out (put (key_text k ++ [cSP])%list
      match w_stack w1 with
      | CStruct _ a b c d e :: r' => set_stack (CStruct false a b c d e :: r') w1
      | _ => w1
      end) = (w_out w1 ++ key_text k ++ [cSP])%list).
  { intros w1. destruct (w_stack w1) as [|[]]; reflexivity. }
  rewrite G.
  destruct first; cbn [negb].
  - destruct (negb root && negb inline); [|exists [], (key_text k), kd; auto].
    exists (cLF :: indent_text w), (key_text k), kd. cbn [w_out newline_indent put].
    unfold newline_indent, put. cbn [w_out]. rewrite <- app_assoc. auto.
  - destruct (inline && negb root).
    + exists [cCOMMA; cSP], (key_text k), kd. cbn [w_out set_stack put]. rewrite <- app_assoc. auto.
    + destruct root.
      * exists (cLF :: cLF :: indent_text (put [cLF] w)), (key_text k), kd.
        unfold newline_indent. cbn [w_out put]. rewrite <- !app_assoc. auto.
      * exists (cLF :: indent_text w), (key_text k), kd. unfold newline_indent. cbn [w_out put]. rewrite <- !app_assoc. auto.
Qed.
Print Assumptions C14_key_partial.

Example C14_example :
  map (scalar_text default_opts false)
    [lit "80"; lit ""; lit "a b"; lit "C:\a\b\c\ d"; lit "x" ++ [cLF]; lit "x" ++ [cLF; cLF]]
  = [lit "80"; lit """"""; lit """a b"""; lit "r""C:\a\b\c\ d"""; lit """x\n"""; lit "<<TEXT" ++ [cLF] ++ lit "x" ++ [cLF; cLF] ++ lit "TEXT"]
  /\ scalar_ends (lit ")") /\ newlines (lit "x" ++ [cLF]) < o_heredoc default_opts.
Proof. splits; [reflexivity| |cbn; lia]. split; [cbn; tauto|discriminate]. Qed.

(** ** C39: the unescapers *)

(** The CST accessor knows no unicode escapes. *)
Theorem C39_cst_refuted : exists t v, decodes t v /\ unescape_cst (cDQ :: t ++ [cDQ]) <> v.
Proof.
  exists (lit "\u0041"), (lit "A"). split; [|discriminate]. apply process_escapes_decodes. reflexivity.
Qed.
Print Assumptions C39_cst_refuted.

(** On every text that the lexer accepts, lexer, event parser, formatter and serde give what the text stands
    for; the CST accessor gives it exactly if no unicode escape is used. *)
Theorem C39_agree_partial t v : process_escapes t = inl v ->
  decodes t v /\ unescape_quoted t = v /\ unescape_scalar t = v /\ unescape_serde (cDQ :: t ++ [cDQ]) = v /\
  (unescape_cst (cDQ :: t ++ [cDQ]) = v <-> ~ uses_u t).
Proof.
  intros H. apply process_escapes_decodes in H. split; [assumption|]. split; [now apply unescape_quoted_ok|].
  split; [now apply unescape_scalar_ok|]. split; [now apply unescape_serde_ok|]. now apply cst_agrees.
Qed.
Print Assumptions C39_agree_partial.

Example C39_example : process_escapes (lit "a\\u\n\""\u{1F600}\u00e9") = inl (lit "a\u" ++ [cLF; cDQ; 128512%N; 233%N])
  /\ ~ uses_u (lit "a\\u\n") /\ unescape_cst (lit """a\\u\n""") = lit "a\u" ++ [cLF].
Proof.
  splits; try reflexivity. intros H.
  repeat (match goal with H : uses_u _ |- _ => inversion H; subst; clear H end); congruence.
Qed.
