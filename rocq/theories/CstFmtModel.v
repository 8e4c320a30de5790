(** Model of crates/styx-format/src/cst_format.rs and of the parts of crates/styx-cst/src/ast.rs it uses.

    Simplifications: the field [after_newline], which nothing reads, is left out; the casts of nodes to their
    typed wrappers are the kinds of the nodes; the loops over the children of objects and of sequences are one
    function, which skips braces and parentheses in both (neither has the other's brackets among its children); of the options only [indent] is used by this formatter. *)
From Coq Require Import String.
From Verif Require Import TokModel CstModel.

(** ast.rs 20: the text of a node *)
Fixpoint node_text (n : cst) : str :=
  match n with
  | Leaf _ t => t
  | Node _ cs => flat_map node_text cs
  end.

Definition nkind_eqb (a b : nkind) : bool :=
  match a, b with
  | DOCUMENT, DOCUMENT | ENTRY, ENTRY | OBJECT, OBJECT | SEQUENCE, SEQUENCE | SCALAR, SCALAR | UNIT, UNIT
  | TAG, TAG | TAG_PAYLOAD, TAG_PAYLOAD | KEY, KEY | VALUE, VALUE | HEREDOC, HEREDOC
  | ATTRIBUTES, ATTRIBUTES | ATTRIBUTE, ATTRIBUTE => true
  | _, _ => false
  end.
Definition is_node (k : nkind) (n : cst) : bool := match n with Node k' _ => nkind_eqb k k' | Leaf _ _ => false end.
Definition is_leaf (k : tkind) (n : cst) : bool := match n with Leaf (LTok k') _ => tkind_eqb k k' | _ => false end.
Definition is_comment (n : cst) : bool := is_leaf LineComment n || is_leaf DocComment n.
Definition children (n : cst) : list cst := match n with Node _ cs => cs | Leaf _ _ => [] end.

(** ast.rs 230-256, Object::separator: not [Separator::Comma] *)
Definition has_line_separator (cs : list cst) : bool := existsb (is_leaf Newline) cs.

(** cst_format.rs 641-667 *)
Fixpoint contains_block (n : cst) : bool :=
  match n with
  | Leaf _ _ => false
  | Node k cs =>
    nkind_eqb k OBJECT && (has_line_separator cs || existsb (is_leaf DocComment) cs) || existsb contains_block cs
  end.
(** cst_format.rs 605-612, with [Entry::value] (ast.rs 121-123) *)
Definition is_block_entry (e : cst) : bool :=
  match find (is_node VALUE) (children e) with Some v => contains_block v | None => false end.
(** cst_format.rs 616-637: the first payload decides. *)
Fixpoint first_payload (cs : list cst) : option cst :=
  match cs with
  | Node TAG tcs :: r =>
    match find (is_node TAG_PAYLOAD) tcs with Some p => Some p | None => first_payload r end
  | _ :: r => first_payload r
  | [] => None
  end.
Definition is_tag_with_block_payload (e : cst) : bool :=
  match find (is_node KEY) (children e) with
  | Some k => match first_payload (children k) with Some p => contains_block p | None => false end
  | None => false
  end.
(** cst_format.rs 670-689 *)
Definition is_schema_declaration (e : cst) : bool :=
  match find (is_node KEY) (children e) with
  | Some k =>
    existsb (fun n => is_node TAG n &&
      existsb (fun l => match l with Leaf (LTok Tag) t => str_eqb t (lit "@schema") | _ => false end) (children n))
      (children k)
  | None => false
  end.
(** ast.rs 131-144, Entry::doc_comments: is there one? [before] are the preceding siblings, nearest first. *)
Fixpoint has_docs (before : list cst) : bool :=
  match before with
  | Leaf (LTok DocComment) _ :: _ => true
  | Leaf (LTok (Whitespace | Newline)) _ :: r => has_docs r
  | _ => false
  end.

(** cst_format.rs 34-42, CstFormatter *)
Record fstate := mkf { f_out : str; f_level : nat; f_start : bool }.

Section Format.
Variable indent : str.

Definition f_new : fstate := mkf [] 0 true.
(** cst_format.rs 55-61 *)
Definition f_finish (st : fstate) : str :=
  let out := f_out st in
  match out with
  | [] => []
  | _ => if (last out 0 =? cLF)%N then out else out ++ [cLF]
  end.
(** cst_format.rs 63-85 *)
Definition f_write (s : str) (st : fstate) : fstate :=
  match s with
  | [] => st
  | _ => mkf (f_out st ++ (if f_start st then List.concat (repeat indent (f_level st)) else []) ++ s) (f_level st) false
  end.
Definition f_newline (st : fstate) : fstate := mkf (f_out st ++ [cLF]) (f_level st) true.
Definition f_indent (st : fstate) : fstate := mkf (f_out st) (S (f_level st)) (f_start st).
Definition f_dedent (st : fstate) : fstate := mkf (f_out st) (pred (f_level st)) (f_start st).

(** The loops of the formatter, with the formatting of one node as parameter. *)
Section Loops.
Variable fmt : cst -> fstate -> fstate.

(** [for child in node.children() { self.format_node(&child) }] *)
Fixpoint each_node (cs : list cst) (st : fstate) : fstate :=
  match cs with
  | [] => st
  | c :: r => each_node r (match c with Node _ _ => fmt c st | Leaf _ _ => st end)
  end.
(** The first child of a kind. *)
Fixpoint first_node (k : nkind) (cs : list cst) (st : fstate) : fstate :=
  match cs with
  | [] => st
  | c :: r => if is_node k c then fmt c st else first_node k r st
  end.
(** The children of a kind, with a separator between them. *)
Fixpoint nodes_between (k : nkind) (sep : str) (cs : list cst) (st : fstate) : fstate :=
  match cs with
  | [] => st
  | c :: r =>
    if is_node k c then
      let st1 := fmt c st in
      nodes_between k sep r (if existsb (is_node k) r then f_write sep st1 else st1)
    else nodes_between k sep r st
  end.
(** cst_format.rs 308-343 and 416-459: the lines of an object or sequence. *)
Definition separate (wrote : bool) (newlines : nat) (st : fstate) : fstate :=
  if wrote then let st1 := f_newline st in if 2 <=? newlines then f_newline st1 else st1 else st.
Fixpoint lines (wrote : bool) (newlines : nat) (cs : list cst) (st : fstate) : fstate :=
  match cs with
  | [] => st
  | c :: r =>
    match c with
    | Leaf (LTok Newline) _ => lines wrote (S newlines) r st
    | Leaf (LTok (LineComment | DocComment)) t => lines true 0 r (f_write t (separate wrote newlines st))
    | Leaf (LTok (Whitespace | LBrace | RBrace | LParen | RParen)) _ => lines wrote newlines r st
    | Node ENTRY _ => lines true 0 r (fmt c (separate wrote newlines st))
    | _ => lines wrote 0 r st
    end
  end.
(** cst_format.rs 134-249: the lines of a document. [before] are the earlier children, nearest first;
    [prev] is the last entry, with its number (from 1) and whether it has doc comments. *)
Definition needs_blank (newlines : nat) (prev : option (cst * nat * bool)) : bool :=
  (2 <=? newlines) ||
  match prev with
  | Some (e, i, docs) => (i =? 1) && is_schema_declaration e || docs || is_block_entry e
  | None => false
  end.
Fixpoint doc_lines (before : list cst) (wrote : bool) (newlines : nat) (prev : option (cst * nat * bool)) (just_doc : bool)
    (cs : list cst) (st : fstate) : fstate :=
  match cs with
  | [] => st
  | c :: r =>
    match c with
    | Leaf (LTok Newline) _ => doc_lines (c :: before) wrote (S newlines) prev just_doc r st
    | Leaf (LTok LineComment) t =>
        doc_lines (c :: before) true 0 prev false r (f_write t (separate wrote newlines st))
    | Leaf (LTok DocComment) t =>
        let st1 := if wrote then
                     let st0 := f_newline st in
                     if negb just_doc && needs_blank newlines prev then f_newline st0 else st0
                   else st in
        doc_lines (c :: before) true 0 prev true r (f_write t st1)
    | Node ENTRY _ =>
        let st1 := if wrote then
                     let st0 := f_newline st in
                     if negb just_doc && (needs_blank newlines prev || is_block_entry c) then f_newline st0 else st0
                   else st in
        let i := match prev with Some (_, i, _) => S i | None => 1 end in
        doc_lines (c :: before) true 0 (Some (c, i, has_docs before)) false r (fmt c st1)
    | _ => doc_lines (c :: before) wrote newlines prev just_doc r st
    end
  end.
(** cst_format.rs 430-440: an element of a sequence is its key. *)
Definition key_nodes (key : cst) (st : fstate) : fstate :=
  match key with Node _ kcs => each_node kcs st | Leaf _ _ => st end.
End Loops.
Definition seq_element (fmt : cst -> fstate -> fstate) (e : cst) (st : fstate) : fstate :=
  match e with Node _ ecs => first_node (key_nodes fmt) KEY ecs st | Leaf _ _ => st end.

(** cst_format.rs 497-505 and 515-524: the scalar tokens among the children *)
Fixpoint scalar_leaves (cs : list cst) (st : fstate) : fstate :=
  match cs with
  | [] => st
  | Leaf (LTok (BareScalar | QuotedScalar | RawScalar)) t :: r => scalar_leaves r (f_write t st)
  | _ :: r => scalar_leaves r st
  end.

(** cst_format.rs 87-602 *)
Fixpoint format_node (n : cst) (st : fstate) {struct n} : fstate :=
  match n with
  | Leaf _ _ => st
  | Node k cs =>
    match k with
    | DOCUMENT => doc_lines format_node [] false 0 None false cs st
    | ENTRY => (* 251-266 *)
        let st1 := first_node format_node KEY cs st in
        first_node format_node VALUE cs (if existsb (is_node VALUE) cs then f_write (lit " ") st1 else st1)
    | OBJECT => (* 268-363 *)
        let st1 := f_write (lit "{") st in
        let has_comments := existsb is_comment cs in
        let empty := negb (existsb (is_node ENTRY) cs) in
        if empty && negb has_comments then f_write (lit "}") st1
        else if has_line_separator cs || has_comments || existsb (fun e => is_node ENTRY e && contains_block e) cs || empty then
          f_write (lit "}") (f_dedent (f_newline (lines format_node false 0 cs (f_indent (f_newline st1)))))
        else f_write (lit "}") (nodes_between format_node ENTRY (lit ", ") cs st1)
    | SEQUENCE => (* 365-490 *)
        let st1 := f_write (lit "(") st in
        let has_comments := existsb is_comment cs in
        let entries := filter (is_node ENTRY) cs in
        let empty := negb (existsb (is_node ENTRY) cs) in
        if empty && negb has_comments then f_write (lit ")") st1
        else
          let single := negb has_comments && (List.length entries =? 1) in
          let collapse := single && negb (existsb contains_block entries) in
          let single_tag := single && existsb is_tag_with_block_payload entries in
          let multiline := negb collapse && negb single_tag && (has_line_separator cs || has_comments || empty) in
          if single_tag then f_write (lit ")") (first_node (seq_element format_node) ENTRY cs st1)
          else if multiline then
            f_write (lit ")") (f_dedent (f_newline (lines (seq_element format_node) false 0 cs (f_indent (f_newline st1)))))
          else f_write (lit ")") (nodes_between (seq_element format_node) ENTRY (lit " ") cs st1)
    | KEY => scalar_leaves cs (each_node format_node cs st) (* 492-507 *)
    | VALUE => each_node format_node cs st (* 509-513 *)
    | SCALAR => scalar_leaves cs st (* 515-524 *)
    | TAG => (* 527-543 *)
        (fix go cs st :=
          match cs with
          | Leaf (LTok Tag) t :: r => go r (f_write t st)
          | c :: r => go r (match c with Node TAG_PAYLOAD _ => format_node c st | _ => st end)
          | [] => st
          end) cs st
    | TAG_PAYLOAD => (* 545-565 *)
        (fix go cs st :=
          match cs with
          | Leaf LSlash _ :: r => go r (f_write (lit "/") st)
          | c :: r => go r (match c with Node _ _ => format_node c st | _ => st end)
          | [] => st
          end) cs st
    | UNIT => f_write (lit "@") st
    | HEREDOC => f_write (node_text n) st (* 567-570 *)
    | ATTRIBUTES => nodes_between format_node ATTRIBUTE (lit " ") cs st (* 572-584 *)
    | ATTRIBUTE => (* 586-601 *)
        (fix go cs st :=
          match cs with
          | Leaf (LTok BareScalar) t :: r => go r (f_write t st)
          | Leaf (LTok Gt) _ :: r => go r (f_write (lit ">") st)
          | c :: r => go r (match c with Node _ _ => format_node c st | _ => st end)
          | [] => st
          end) cs st
    end
  end.

(** cst_format.rs 15-32 *)
Definition format_cst (n : cst) : str := f_finish (format_node n f_new).
Definition format_source (src : str) : res str :=
  do (tree, errors) <- cst_parse src;
  Ok (match errors with [] => format_cst tree | _ => src end).
End Format.
