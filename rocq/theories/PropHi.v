(** Properties C32, C47 and C48: highlighting in the terminal and in the editor. *)
From Coq Require Import String.
From Verif Require Import Base BaseProofs TokModel CstModel CstSpec CstProofs CstFmtModel LspModel LspSpec HiModel HiSpec HiProofs.
Local Open Scope nat_scope.

(** ** C32: highlighting only adds colour codes

    The leaves of the tree are the tokens of the source (C20); the output is their texts in order, each as it is or whole
    between a colour that fits its kind and the end of colours. No slice is out of range. *)
Theorem C32_painted : forall src, exists tree errors out,
  cst_parse src = Ok (tree, errors) /\ highlight_styx src = Ok out /\ text_of (leaves tree) = src /\ painted (leaves tree) out.
Proof. exact highlight_paints. Qed.
Print Assumptions C32_painted.

(** A source without escape characters is the output without the escape sequences. *)
Theorem C32_strip : forall src, ~ In 27%N src -> exists out,
  highlight_styx src = Ok out /\ strip_escapes false out = src.
Proof.
  intros src N. destruct (C32_painted src) as (tree & errors & out & _ & H & T & P). exists out. split; [exact H|].
  rewrite <- T in N |- *. exact (painted_strip _ _ P N).
Qed.
Print Assumptions C32_strip.

Definition hi_sample : str := lit "// c
key " ++ 233%N :: lit "(a @t{k ""v""})
".
Example C32_example : ~ In 27%N hi_sample /\ exists out, highlight_styx hi_sample = Ok out /\
  out = esc "[38;5;243m" ++ lit "// c" ++ end_colour ++ [10%N] ++
    esc "[38;5;75m" ++ lit "key" ++ end_colour ++ lit " " ++ esc "[38;5;214m" ++ [233%N] ++ end_colour ++ lit "(" ++
    esc "[38;5;214m" ++ lit "a" ++ end_colour ++ lit " " ++ esc "[38;5;80m" ++ lit "@t" ++ end_colour ++ lit "{" ++
    esc "[38;5;214m" ++ lit "k" ++ end_colour ++ lit " " ++ esc "[38;5;214m" ++ lit """v""" ++ end_colour ++ lit "})
".
Proof. split; [vm_compute; intuition discriminate|]. eexists. split; vm_compute; reflexivity. Qed.

(** ** C47: semantic tokens are tokens of the source

    What the editor decodes is, in the order of the source and none twice, tokens of the source at their line and column,
    with their length in bytes and a type that fits their kind. *)
Theorem C47_reported : forall src, exists tree errors toks,
  cst_parse src = Ok (tree, errors) /\ compute_semantic_tokens tree = Ok toks /\ text_of (leaves tree) = src /\
  reported [] (leaves tree) (decode_tokens toks).
Proof. exact semantic_tokens_reported. Qed.
Print Assumptions C47_reported.

Definition decoded (src : str) : list raw_token :=
  match cst_parse src with
  | Ok (tree, _) => match compute_semantic_tokens tree with Ok toks => decode_tokens toks | _ => [] end
  | _ => []
  end.
Example C47_example : decoded hi_sample =
  [mkraw 0 0 4 0 0; mkraw 1 0 3 6 0; mkraw 1 4 2 1 0; mkraw 1 6 1 1 0; mkraw 1 8 2 4 0; mkraw 1 11 1 6 0; mkraw 1 13 3 1 0].
Proof. vm_compute. reflexivity. Qed.

(** ** C48: the terminal and the editor highlight alike

    False: attribute keys are coloured in the editor only, unit keys (also units in sequences) in the terminal only, and the
    keys of a tagged object in a sequence are properties in the editor and strings in the terminal. *)
Definition highlighted (src : str) : str := match highlight_styx src with Ok o => o | _ => [] end.
Example C48_refuted_outputs :
  (decoded (lit "a k>v") = [mkraw 0 0 1 6 0; mkraw 0 2 1 6 0; mkraw 0 3 1 7 0; mkraw 0 4 1 1 0] /\
   highlighted (lit "a k>v") = esc "[38;5;75m" ++ lit "a" ++ end_colour ++ lit " k" ++ esc "[38;5;203m" ++ lit ">" ++ end_colour ++
     esc "[38;5;214m" ++ lit "v" ++ end_colour) /\
  (decoded (lit "@ 1") = [mkraw 0 2 1 1 0] /\
   highlighted (lit "@ 1") = esc "[38;5;80m" ++ lit "@" ++ end_colour ++ lit " " ++ esc "[38;5;214m" ++ lit "1" ++ end_colour) /\
  (decoded (lit "x (@t{a 1})") = [mkraw 0 0 1 6 0; mkraw 0 3 2 4 0; mkraw 0 6 1 6 0; mkraw 0 8 1 1 0] /\
   highlighted (lit "x (@t{a 1})") = esc "[38;5;75m" ++ lit "x" ++ end_colour ++ lit " (" ++ esc "[38;5;80m" ++ lit "@t" ++
     end_colour ++ lit "{" ++ esc "[38;5;214m" ++ lit "a" ++ end_colour ++ lit " " ++ esc "[38;5;214m" ++ lit "1" ++ end_colour ++ lit "})").
Proof. vm_compute. repeat split; reflexivity. Qed.

(** In agreement there are two escape characters for each token, without heredocs. *)
Lemma agree_escapes : forall a ls o rs, agree a ls o rs -> ~ In 27%N (text_of ls) -> ~ In (LTok HeredocContent) (map fst ls) ->
  count_occ N.eq_dec o 27%N = 2 * List.length rs.
Proof.
  assert (Z : forall s, ~ In 27%N s -> count_occ N.eq_dec s 27%N = 0) by (intros s; apply count_occ_not_In).
  induction 1 as [a|a k t ls o rs G IH|a k t c r ls o rs _ _ C G IH|a t ls o rs G IH]; intros N K; [reflexivity| | |];
    unfold text_of in *; cbn [map fst snd concat In] in *; rewrite in_app_iff in N; rewrite ?count_occ_app, ?(Z t) by tauto.
  - apply IH; tauto.
  - cbn [List.length]. unfold char, str in *. rewrite IH by tauto.
    assert (E : count_occ N.eq_dec c 27%N = 1).
    { unfold colour_of in C. destruct (r_type r) as [|[|[|[|[|[|[|[|]]]]]]]]; try discriminate C;
        destruct (r_mods r) as [|[|]]; try discriminate C; injection C as <-; vm_compute; reflexivity. }
    rewrite E. change (count_occ N.eq_dec end_colour 27%N) with 1. lia.
  - exfalso. apply K. now left.
Qed.
Theorem C48_refuted : exists src tree out toks,
  cst_parse src = Ok (tree, []) /\ highlight_styx src = Ok out /\ compute_semantic_tokens tree = Ok toks /\
  ~ agree [] (leaves tree) out (decode_tokens toks).
Proof.
  exists (lit "@ 1"). do 3 eexists. repeat (split; [vm_compute; reflexivity|]).
  intros H. apply agree_escapes in H; [vm_compute in H; discriminate H|vm_compute; intuition discriminate..].
Qed.
Print Assumptions C48_refuted.

(** The rest: in trees without attributes, unit keys and tagged objects inside sequences, with or without errors. *)
Theorem C48_partial : forall src tree errors, cst_parse src = Ok (tree, errors) -> alike false tree = true ->
  exists out toks, highlight_styx src = Ok out /\ compute_semantic_tokens tree = Ok toks /\
    agree [] (leaves tree) out (decode_tokens toks).
Proof. exact alike_agree. Qed.
Print Assumptions C48_partial.

Definition alike_sample : str := lit "// c
key (a @t(x {y 1}) @u) }
/// d
o @v{k <<E
 text
 E
}".
Example C48_example : exists tree errors, cst_parse alike_sample = Ok (tree, errors) /\ alike false tree = true /\
  List.length errors = 1 /\ List.length (decoded alike_sample) = 14.
Proof. do 2 eexists. split; [vm_compute; reflexivity|]. vm_compute. repeat split. Qed.

(** ** C49: a semantic token lies on one line

    Clients need not support tokens of several lines. False: heredoc starts contain the end of their line, and quoted and
    raw scalars may contain several lines; the length counts the characters of the next lines. *)
Definition two_lines : str := lit "a ""x
y"" 
b <<E
E
".
Theorem C49_refuted : exists src tree a t b r, cst_parse src = Ok (tree, []) /\ src = a ++ t ++ b /\
  In r (decoded src) /\ place_of a (mkpos (r_line r) (r_start r)) /\ r_len r = blen t /\ In cLF t.
Proof.
  exists two_lines. eexists. exists (lit "a "), (lit """x
y"""), (lit " 
b <<E
E
"), (mkraw 0 2 5 1 0). split; [vm_compute; reflexivity|]. split; [reflexivity|]. split; [vm_compute; auto|].
  split; [|vm_compute; auto]. split; [reflexivity|]. exists (lit "a "). split; [|reflexivity].
  split; [vm_compute; intuition discriminate|now left].
Qed.
Print Assumptions C49_refuted.
Example C49_outputs : decoded two_lines = [mkraw 0 0 1 6 0; mkraw 0 2 5 1 0; mkraw 2 0 1 6 0; mkraw 2 2 4 7 0; mkraw 3 0 1 7 0].
Proof. vm_compute. reflexivity. Qed.

(** All the others that can be reported: comments, bare scalars, tags, units, [>] and heredoc ends. *)
Theorem C49_partial : forall src tree errors k t ty mods,
  cst_parse src = Ok (tree, errors) -> In (k, t) (leaves tree) -> fits k ty mods ->
  k <> LTok QuotedScalar -> k <> LTok RawScalar -> k <> LTok HeredocStart -> ~ In cLF t.
Proof.
  intros src tree errors k t ty mods R I F Q W H. apply (leaves_one_line src tree errors k t R I);
    destruct k as [[]|]; cbn in F |- *; try contradiction; congruence.
Qed.
Print Assumptions C49_partial.
Example C49_example : exists tree, cst_parse hi_sample = Ok (tree, []) /\ In (LTok LineComment, lit "// c") (leaves tree) /\
  fits (LTok LineComment) 0 0.
Proof. eexists. split; [vm_compute; reflexivity|]. split; [vm_compute; auto|cbn; auto]. Qed.
