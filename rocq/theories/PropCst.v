(** Properties C19 and C20: the lossless syntax tree. *)
From Coq Require Import String.
From Verif Require Import Base BaseProofs TokModel TokSpec TokProofs CstModel CstSpec CstProofs.
Local Open Scope nat_scope.

(** ** C19: the CST is lossless *)
Theorem C19_lossless : forall src, exists tree errors, cst_parse src = Ok (tree, errors) /\ cst_text tree = src.
Proof.
  intros src. destruct (cst_parse_covers src) as (ts & tree & errors & _ & R & _ & T). exists tree, errors. split; assumption.
Qed.
Print Assumptions C19_lossless.

(** ** C20: CST parsing terminates and consumes every token once

    [Ok] says that the recursion ends; the leaves of the tree are the tokens of the source, in order and none twice. *)
Theorem C20_once : forall src, exists ts tree errors,
  tokens src = Some ts /\ cst_parse src = Ok (tree, errors) /\
  covers ts (filter (fun l => match fst l with LTok Eof => false | _ => true end) (leaves tree)).
Proof.
  intros src. destruct (cst_parse_covers src) as (ts & tree & errors & T & R & C & _). exists ts, tree, errors.
  splits; assumption.
Qed.
Print Assumptions C20_once.

(** The tree of a document with nesting, a chain of tags, attributes, comments and a heredoc. *)
Definition sample : str := lit "/// doc
a @x/@y(1 @) // c
b>c d>{e f, g}
h <<E
 text
 E
".
Example C19_example : exists tree, cst_parse sample = Ok (tree, []) /\ cst_text tree = sample /\
  List.length (leaves tree) = 36 /\
  filter (fun l => match fst l with LTok Tag | LSlash => true | _ => false end) (leaves tree)
  = [(LTok Tag, lit "@x"); (LSlash, lit "/"); (LTok Tag, lit "@y")].
Proof. eexists. split; [vm_compute; reflexivity|]. vm_compute. repeat split. Qed.

(** Recovery from errors: closing brackets without opening ones, a stray comma, an attribute without a
    value and a heredoc without an end. *)
Definition broken : str := lit ") a {b } } c (,d> )
<<E
never closed".
Example C20_example : exists tree errors, cst_parse broken = Ok (tree, errors) /\ cst_text tree = broken /\
  List.length errors = 6 /\
  covers (match tokens broken with Some ts => ts | None => [] end)
    (filter (fun l => match fst l with LTok Eof => false | _ => true end) (leaves tree)).
Proof.
  destruct (C20_once broken) as (ts & tree & errors & T & R & C).
  destruct (C19_lossless broken) as (tree' & errors' & R' & T'). rewrite R in R'. injection R' as <- <-.
  exists tree, errors. rewrite T. splits; try assumption. vm_compute in R. injection R as <- <-. reflexivity.
Qed.
