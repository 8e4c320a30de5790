(** Specification vocabulary for the source formatter: what it must keep, and the sources it keeps. *)
From Verif Require Import TokModel CstModel CstSpec.

(** The tokens that carry meaning: all but whitespace, newlines and commas. *)
Definition significant (t : token) : bool :=
  match tk_kind t with Whitespace | Newline | Comma | Eof => false | _ => true end.
Definition kind_and_text (t : token) : tkind * str := (tk_kind t, tk_text t).
Definition meaning (ts : list token) : list (tkind * str) := map kind_and_text (filter significant ts).

(** Trees in which the formatter has nothing to drop and nothing to tear apart:
    - no entry consists of attributes, and none has more than one value;
    - no sequence consists of a single element that ends with a heredoc. *)
Definition of_kind (k : nkind) (n : cst) : bool :=
  match n, k with
  | Node ENTRY _, ENTRY | Node VALUE _, VALUE | Node ATTRIBUTES _, ATTRIBUTES => true
  | _, _ => false
  end.
Definition comment_leaf (n : cst) : bool := match n with Leaf (LTok (LineComment | DocComment)) _ => true | _ => false end.
Definition ends_heredoc (n : cst) : bool :=
  match rev (leaves n) with (LTok HeredocEnd, _) :: _ => true | _ => false end.
Definition plain_node (k : nkind) (cs : list cst) : bool :=
  match k with
  | ENTRY => negb (existsb (of_kind ATTRIBUTES) cs) && (length (filter (of_kind VALUE) cs) <=? 1)
  | SEQUENCE =>
      existsb comment_leaf cs ||
      match filter (of_kind ENTRY) cs with [e] => negb (ends_heredoc e) | _ => true end
  | _ => true
  end.
Fixpoint plain (n : cst) : bool :=
  match n with
  | Leaf _ _ => true
  | Node k cs => forallb plain cs && plain_node k cs
  end.

(** Trees whose formatted text reads back: the condition on sequences, and no heredoc glued to a single tag
    (a chain of tags [@a/@b] may have one). [chain]: the node stands behind the slash of a chain. *)
Definition heredoc_node (n : cst) : bool := match n with Node HEREDOC _ => true | _ => false end.
Definition slash_leaf (n : cst) : bool := match n with Leaf LSlash _ => true | _ => false end.
Fixpoint roomy_in (chain : bool) (n : cst) : bool :=
  match n with
  | Leaf _ _ => true
  | Node k cs =>
      match k with
      | SEQUENCE => plain_node SEQUENCE cs
      | TAG_PAYLOAD => chain || negb (existsb heredoc_node cs)
      | _ => true
      end &&
      forallb (roomy_in (match k with TAG => chain | TAG_PAYLOAD => existsb slash_leaf cs | _ => false end)) cs
  end.
Definition roomy : cst -> bool := roomy_in false.
