(** Specification vocabulary for formatting twice: the sources on which the second time changes nothing. *)
From Verif Require Import TokModel CstModel CstFmtSpec.

Definition leaf_of (k : tkind) (n : cst) : bool := match n with Leaf (LTok k') _ => tkind_eqb k k' | _ => false end.
Definition is_leafb (n : cst) : bool := match n with Leaf _ _ => true | Node _ _ => false end.

(** Behind a doc comment, up to blanks and line ends, stand no comma and no line comment.
    [d]: a doc comment was the last thing. *)
Fixpoint docs_belong (d : bool) (cs : list cst) : bool :=
  match cs with
  | [] => true
  | Leaf (LTok DocComment) _ :: r => docs_belong true r
  | Leaf (LTok (LineComment | Comma)) _ :: r => negb d && docs_belong false r
  | Leaf _ _ :: r => docs_belong d r
  | Node _ _ :: r => docs_belong false r
  end.

(** Trees of sources that come to rest after formatting once:
    - there are no heredocs;
    - every entry has a key and at most one value (so no entry is empty, none consists of attributes alone);
    - doc comments are as above, and none stands in a sequence;
    - an object with neither entries nor comments contains no line end;
    - an object with a comment contains a line end (as every such object of a parsed source does). *)
Definition tidy_node (k : nkind) (cs : list cst) : bool :=
  match k with
  | HEREDOC => false
  | ENTRY =>
      match filter (fun c => negb (is_leafb c)) cs with
      | [Node KEY _] | [Node KEY _; Node VALUE _] => true
      | _ => false
      end
  | OBJECT =>
      docs_belong false cs &&
      (existsb (of_kind ENTRY) cs || existsb comment_leaf cs || negb (existsb (leaf_of Newline) cs)) &&
      (negb (existsb comment_leaf cs) || existsb (leaf_of Newline) cs)
  | DOCUMENT => docs_belong false cs
  | SEQUENCE => negb (existsb (leaf_of DocComment) cs)
  | _ => true
  end.
Fixpoint tidy (n : cst) : bool :=
  match n with
  | Leaf _ _ => true
  | Node k cs => forallb tidy cs && tidy_node k cs
  end.
