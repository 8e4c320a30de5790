(** Model of crates/styx-cst/src/validation.rs and the parts of ast.rs it uses.

    Simplifications: a diagnostic is its kind with the data of its message (the severity is always "warning");
    the byte range of a node is computed from the texts before it, as in HiModel.v. *)
From Verif Require Import Base TokModel CstModel CstFmtModel HiModel FmtModel.
Local Open Scope nat_scope.

Inductive warning := WMixed (from to : nat) | WDuplicate (from to : nat) (key : str).

(** ast.rs 356-371, Scalar::text_content: the first token of a scalar kind *)
Definition scalar_token_text (k : lkind) (t : str) : option str :=
  match k with
  | LTok BareScalar | LTok RawScalar => Some t
  | LTok QuotedScalar => Some (unescape_cst t)
  | _ => None
  end.
Fixpoint scalar_content (cs : list cst) : str :=
  match cs with
  | [] => []
  | Leaf k t :: r => match scalar_token_text k t with Some s => s | None => scalar_content r end
  | Node _ _ :: r => scalar_content r
  end.
(** ast.rs 151-174, Key::text_content *)
Fixpoint key_content (cs : list cst) : str :=
  match cs with
  | [] => []
  | Leaf k t :: r => match scalar_token_text k t with Some s => s | None => key_content r end
  | Node SCALAR inner :: _ => scalar_content inner
  | Node _ _ :: r => key_content r
  end.

(** ast.rs 117-119, Entry::key, with its position *)
Fixpoint entry_key (cs : list cst) (p : nat) : option (cst * nat) :=
  match cs with
  | [] => None
  | c :: r => if is_node KEY c then Some (c, p) else entry_key r (p + blen (node_text c))
  end.

(** validation.rs 110-131, validate_entries_for_duplicates; 107-109 and 240-242 of ast.rs, [entries] *)
Fixpoint duplicates (seen : list str) (cs : list cst) (p : nat) : list warning :=
  match cs with
  | [] => []
  | c :: r =>
    let p' := p + blen (node_text c) in
    match c with
    | Node ENTRY es =>
      match entry_key es p with
      | Some (key, q) =>
        let k := key_content (children key) in
        if (match k with [] => true | _ => false end) then duplicates seen r p'
        else if existsb (str_eqb k) seen then WDuplicate q (q + blen (node_text key)) k :: duplicates seen r p'
        else duplicates (k :: seen) r p'
      | None => duplicates seen r p'
      end
    | _ => duplicates seen r p'
    end
  end.

(** ast.rs 245-270, Object::separator = Mixed *)
Definition is_mixed (cs : list cst) : bool := existsb (is_leaf Comma) cs && existsb (is_leaf Newline) cs.

(** validation.rs 77-95, validate_node; 97-108, validate_object; 64-69, validate *)
Fixpoint validate_node (n : cst) (p : nat) {struct n} : list warning :=
  match n with
  | Leaf _ _ => []
  | Node k cs =>
    (match k with
     | DOCUMENT => duplicates [] cs p
     | OBJECT => (if is_mixed cs then [WMixed p (p + blen (node_text n))] else []) ++ duplicates [] cs p
     | _ => []
     end) ++ each_at validate_node cs p
  end.
Definition validate (root : cst) : list warning := validate_node root 0.
