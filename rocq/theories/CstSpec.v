(** Specification vocabulary for syntax trees: what a tree's leaves say about the source. *)
From Verif Require Import TokModel CstModel.

Definition leaf_of : Type := lkind * str.

(** The leaves of a tree from left to right, and its text. *)
Fixpoint leaves (n : cst) : list leaf_of :=
  match n with
  | Leaf k t => [(k, t)]
  | Node _ cs => flat_map leaves cs
  end.
Definition text_of (ls : list leaf_of) : str := concat (map snd ls).
Definition cst_text (n : cst) : str := text_of (leaves n).

(** The leaves that stand for one tag token: [@a], or [@a], [/], [@b], … *)
Inductive tag_parts : list leaf_of -> Prop :=
| tp_last : forall t, tag_parts [(LTok Tag, cAT :: t)]
| tp_more : forall t l, tag_parts l -> tag_parts ((LTok Tag, cAT :: t) :: (LSlash, [cSLASH]) :: l).
(** Every token once, in order; a tag token in its parts; [Eof] may be left out. *)
Inductive covers : list token -> list leaf_of -> Prop :=
| cov_nil : covers [] []
| cov_token : forall t ts ls, tk_kind t <> Tag -> covers ts ls -> covers (t :: ts) ((LTok (tk_kind t), tk_text t) :: ls)
| cov_tag : forall t ts p ls, tk_kind t = Tag -> tag_parts p -> text_of p = tk_text t -> covers ts ls ->
    covers (t :: ts) (p ++ ls)
| cov_eof : forall t ts ls, tk_kind t = Eof -> covers ts ls -> covers (t :: ts) ls.
