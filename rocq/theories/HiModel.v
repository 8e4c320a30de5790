(** Model of crates/styx-lsp/src/semantic_tokens.rs 7-26, 88-607 and of [highlight_styx] in crates/styx-cli/src/main.rs 1009-1073.

    Simplifications: the walks return the list that the code appends to; a token's modifiers are a flag, "documentation"
    being the only one set; the byte range of a leaf is computed from the texts before it. *)
From Coq Require Import String.
From Verif Require Import Base TokModel CstModel CstFmtModel LspModel.

(** semantic_tokens.rs 9-26; [Number], [Keyword] and [EnumMember] are never used *)
Inductive ttype := TyComment | TyString | TyNumber | TyKeyword | TyType | TyEnumMember | TyProperty | TyOperator.
Definition ttype_num (t : ttype) : nat :=
  match t with
  | TyComment => 0 | TyString => 1 | TyNumber => 2 | TyKeyword => 3 | TyType => 4 | TyEnumMember => 5
  | TyProperty => 6 | TyOperator => 7
  end.
(** semantic_tokens.rs 99-109, HighlightSpan *)
Record hspan := mkh { h_start : nat; h_end : nat; h_type : ttype; h_doc : bool }.

(** A loop over children with their positions. *)
Section EachAt.
Variable A : Type.
Variable f : cst -> nat -> list A.
Fixpoint each_at (cs : list cst) (p : nat) : list A :=
  match cs with
  | [] => []
  | c :: r => f c p ++ each_at r (p + blen (node_text c))
  end.
End EachAt.
Arguments each_at {A}.

(** semantic_tokens.rs 328-343, add_span_from_syntax *)
Definition add_span (ty : ttype) (doc : bool) (t : str) (p : nat) : list hspan := [mkh p (p + blen t) ty doc].
(** semantic_tokens.rs 559-564 *)
Definition is_scalar_token (k : lkind) : bool := match k with LTok (BareScalar | QuotedScalar | RawScalar) => true | _ => false end.
Definition is_tag_token (k : lkind) : bool := match k with LTok Tag => true | _ => false end.
Definition is_tag_or_at (k : lkind) : bool := match k with LTok (Tag | At) => true | _ => false end.
(** The tokens of some kinds among the children of a node: the inner loops. *)
Definition token_spans (p : lkind -> bool) (ty : ttype) : list cst -> nat -> list hspan :=
  each_at (fun c q => match c with Leaf k t => if p k then add_span ty false t q else [] | Node _ _ => [] end).
Definition comment_span (k : lkind) (t : str) (p : nat) : list hspan :=
  match k with
  | LTok LineComment => add_span TyComment false t p
  | LTok DocComment => add_span TyComment true t p
  | _ => []
  end.

(** semantic_tokens.rs 249-286, collect_key_spans *)
Definition collect_key_spans : list cst -> nat -> list hspan :=
  each_at (fun c q =>
    match c with
    | Node SCALAR cs => token_spans is_scalar_token TyProperty cs q
    | Node TAG cs => token_spans is_tag_token TyProperty cs q
    | Node UNIT cs => token_spans is_tag_or_at TyType cs q
    | _ => []
    end).
(** semantic_tokens.rs 149-246, walk_node_for_spans, with 289-325, collect_key_spans_as_values, in the [KEY] case *)
Fixpoint walk_spans (n : cst) (in_seq : bool) (p : nat) {struct n} : list hspan :=
  match n with
  | Leaf _ _ => []
  | Node k cs =>
    match k with
    | KEY =>
        if in_seq then
          each_at (fun c q =>
            match c with
            | Node SCALAR ds => token_spans is_scalar_token TyString ds q
            | Node TAG _ | Node SEQUENCE _ => walk_spans c true q
            | Node UNIT ds => token_spans is_tag_or_at TyType ds q
            | Node OBJECT _ => walk_spans c false q
            | _ => []
            end) cs p
        else collect_key_spans cs p
    | TAG =>
        each_at (fun c q =>
          match c with
          | Leaf k t => if is_tag_token k then add_span TyType false t q else []
          | Node TAG_PAYLOAD _ => walk_spans c in_seq q
          | _ => []
          end) cs p
    | SEQUENCE =>
        each_at (fun c q => match c with Node _ _ => walk_spans c true q | Leaf _ _ => [] end) cs p
    | UNIT => token_spans is_tag_or_at TyType cs p
    | SCALAR => token_spans is_scalar_token TyString cs p
    | HEREDOC =>
        each_at (fun c q =>
          match c with
          | Leaf (LTok (HeredocStart | HeredocEnd)) t => add_span TyOperator false t q
          | Leaf (LTok HeredocContent) t => add_span TyString false t q
          | _ => []
          end) cs p
    | ATTRIBUTE =>
        each_at (fun c q =>
          match c with
          | Leaf (LTok Gt) t => add_span TyOperator false t q
          | Node KEY ds => collect_key_spans ds q
          | Node _ _ => walk_spans c in_seq q
          | Leaf _ _ => []
          end) cs p
    | _ =>
        each_at (fun c q =>
          match c with
          | Leaf k t => comment_span k t q
          | Node _ _ => walk_spans c in_seq q
          end) cs p
    end
  end.

(** [sort_by_key(|s| s.start)]: stable; insertion sort stands for the library's. *)
Fixpoint insert_span (x : hspan) (l : list hspan) : list hspan :=
  match l with
  | [] => [x]
  | y :: r => if h_start x <=? h_start y then x :: l else y :: insert_span x r
  end.
Fixpoint sort_spans (l : list hspan) : list hspan :=
  match l with [] => [] | x :: r => insert_span x (sort_spans r) end.
(** semantic_tokens.rs 139-146 *)
Definition compute_highlight_spans (tree : cst) : list hspan := sort_spans (walk_spans tree false 0).

(** main.rs 1009-1038, ansi and ansi_color_for_token *)
Definition cESC : char := 27%N.
Definition code (s : string) : str := cESC :: lit s.
Definition ansi_reset : str := code "[0m".
Definition ansi_color (ty : ttype) (doc : bool) : str :=
  if doc then code "[38;5;71m"
  else match ty with
       | TyComment => code "[38;5;243m" | TyString => code "[38;5;214m" | TyNumber => code "[38;5;141m"
       | TyKeyword => code "[38;5;203m" | TyType | TyEnumMember => code "[38;5;80m" | TyProperty => code "[38;5;75m"
       | TyOperator => code "[38;5;203m"
       end.
(** main.rs 1041-1073. Without spans the loop copies the source, as the early return does. *)
Fixpoint paint (source : str) (last_end : nat) (spans : list hspan) : res str :=
  match spans with
  | [] => if last_end <? blen source then of_opt (slice source last_end (blen source)) else Ok []
  | s :: r =>
    do before <- (if last_end <? h_start s then of_opt (slice source last_end (h_start s)) else Ok []);
    do text <- of_opt (slice source (h_start s) (h_end s));
    do rest <- paint source (h_end s) r;
    Ok (before ++ ansi_color (h_type s) (h_doc s) ++ text ++ ansi_reset ++ rest)
  end.
Definition highlight_styx (source : str) : res str :=
  do (tree, _) <- cst_parse source;
  let spans := compute_highlight_spans tree in
  match spans with
  | [] => Ok source
  | _ => paint source 0 spans
  end.

(** ** The tokens of the language server *)

(** semantic_tokens.rs 470-503, collect_key_tokens *)
Definition collect_key_tokens : list cst -> nat -> list hspan :=
  each_at (fun c q =>
    match c with
    | Leaf k t => if is_scalar_token k then add_span TyProperty false t q else []
    | Node SCALAR cs => token_spans is_scalar_token TyProperty cs q
    | Node TAG cs => token_spans is_tag_token TyProperty cs q
    | _ => []
    end).
(** semantic_tokens.rs 346-466, walk_node, with 507-556, collect_key_tokens_as_values, in the [KEY] case *)
Fixpoint walk_tokens (n : cst) (in_seq : bool) (p : nat) {struct n} : list hspan :=
  match n with
  | Leaf _ _ => []
  | Node k cs =>
    match k with
    | KEY =>
        if in_seq then
          each_at (fun c q =>
            match c with
            | Leaf k t => if is_scalar_token k then add_span TyString false t q else []
            | Node SCALAR ds => token_spans is_scalar_token TyString ds q
            | Node TAG ds =>
                each_at (fun d q' =>
                  match d with
                  | Leaf k t => if is_tag_token k then add_span TyType false t q' else []
                  | Node TAG_PAYLOAD _ => walk_tokens d false q'
                  | _ => []
                  end) ds q
            | Node SEQUENCE _ => walk_tokens c true q
            | Node OBJECT _ => walk_tokens c false q
            | _ => []
            end) cs p
        else collect_key_tokens cs p
    | TAG =>
        each_at (fun c q =>
          match c with
          | Leaf k t => if is_tag_token k then add_span TyType false t q else []
          | Node TAG_PAYLOAD _ => walk_tokens c in_seq q
          | _ => []
          end) cs p
    | SEQUENCE =>
        each_at (fun c q => match c with Node _ _ => walk_tokens c true q | Leaf _ _ => [] end) cs p
    | UNIT => token_spans is_tag_or_at TyType cs p
    | SCALAR => token_spans is_scalar_token TyString cs p
    | HEREDOC =>
        each_at (fun c q =>
          match c with
          | Leaf (LTok (HeredocStart | HeredocEnd)) t => add_span TyOperator false t q
          | _ => []
          end) cs p
    | ATTRIBUTE =>
        each_at (fun c q =>
          match c with
          | Leaf (LTok Gt) t => add_span TyOperator false t q
          | Leaf k t => if is_scalar_token k then add_span TyProperty false t q else []
          | Node _ _ => walk_tokens c in_seq q
          end) cs p
    | _ =>
        each_at (fun c q =>
          match c with
          | Leaf k t => comment_span k t q
          | Node _ _ => walk_tokens c in_seq q
          end) cs p
    end
  end.
(** semantic_tokens.rs 119-136, with add_token_from_syntax (567-586) *)
Definition raw_of (content : str) (s : hspan) : raw_token :=
  raw_token_at content (h_start s) (h_end s) (ttype_num (h_type s)) (if h_doc s then 1 else 0).
Definition compute_semantic_tokens (tree : cst) : res (list semantic_token) :=
  finish_tokens (map (raw_of (node_text tree)) (walk_tokens tree false 0)).
