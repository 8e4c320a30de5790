(** Model of crates/styx-cst/src/parser.rs and syntax_kind.rs.

    Simplifications, valid for the whole file:
    - rowan's [GreenNodeBuilder] is an ordinary tree; each parse function returns the list of children it
      adds to the open node, the errors it reports and the tokens that are left.
    - The token iterator (82-101) is a list that ends with the [Eof] token.
    - Messages are data, and error offsets unbounded numbers (the code has [u32]). *)
From Verif Require Export TokModel.

(** syntax_kind.rs 17-104: leaves carry the kind of their token ([SLASH] is the only leaf without one),
    nodes one of these. *)
Inductive nkind :=
| DOCUMENT | ENTRY | OBJECT | SEQUENCE | SCALAR | UNIT | TAG | TAG_PAYLOAD | KEY | VALUE | HEREDOC
| ATTRIBUTES | ATTRIBUTE.
Inductive lkind := LTok (k : tkind) | LSlash.
Inductive cst :=
| Leaf (k : lkind) (text : str)
| Node (k : nkind) (children : list cst).

(** parser.rs 49-65, ParseError *)
Inductive cst_msg :=
| TooManyAtoms | ExpectedGt | SpaceAfterGt | UnexpectedToken (k : tkind) | UnclosedObject | UnclosedSequence
| UnterminatedHeredoc.
Definition cst_error : Type := nat * cst_msg.
Definition parsed : Type := list cst * list cst_error * list token.

Definition tkind_eqb (a b : tkind) : bool :=
  match a, b with
  | LBrace, LBrace | RBrace, RBrace | LParen, LParen | RParen, RParen | Comma, Comma | Gt, Gt | At, At
  | Tag, Tag | BareScalar, BareScalar | QuotedScalar, QuotedScalar | RawScalar, RawScalar
  | HeredocStart, HeredocStart | HeredocContent, HeredocContent | HeredocEnd, HeredocEnd
  | LineComment, LineComment | DocComment, DocComment | Whitespace, Whitespace | Newline, Newline
  | Eof, Eof | TError, TError => true
  | _, _ => false
  end.

(** parser.rs 126-128, 136-138, 141-146 *)
Definition peek_kind (ts : list token) : tkind := match ts with t :: _ => tk_kind t | [] => Eof end.
Definition current_pos (ts : list token) : nat := match ts with t :: _ => sp_start (tk_span t) | [] => 0 end.
Definition leaf (t : token) : cst := Leaf (LTok (tk_kind t)) (tk_text t).
Definition bump (ts : list token) : list cst * list token :=
  match ts with t :: r => ([leaf t], r) | [] => ([], []) end.

(** The loops [while matches!(self.peek(), ..) { self.bump() }]. *)
Fixpoint skip (p : tkind -> bool) (ts : list token) : list cst * list token :=
  match ts with
  | t :: r => if p (tk_kind t) then let (c, r') := skip p r in (leaf t :: c, r') else ([], ts)
  | [] => ([], [])
  end.
(** parser.rs 149-163 *)
Definition is_trivia_kind (k : tkind) : bool := match k with Whitespace | Newline | LineComment => true | _ => false end.
Definition is_blank_kind (k : tkind) : bool := tkind_eqb k Whitespace.
(** parser.rs 225-231: a doc comment, then blanks, line ends and further doc comments. *)
Definition is_doc_run_kind (k : tkind) : bool := match k with Whitespace | Newline | DocComment => true | _ => false end.
Definition skip_docs (ts : list token) : list cst * list token :=
  if tkind_eqb (peek_kind ts) DocComment then skip is_doc_run_kind ts else ([], ts).

(** parser.rs 171-178 *)
Definition at_entry_end (closing : option tkind) (ts : list token) : bool :=
  match peek_kind ts with
  | Eof | Newline | LineComment | Comma => true
  | k => match closing with Some c => tkind_eqb k c | None => false end
  end.
(** parser.rs 181-193 *)
Definition at_atom_start (ts : list token) : bool :=
  match peek_kind ts with
  | LBrace | LParen | At | Tag | BareScalar | QuotedScalar | RawScalar | HeredocStart => true
  | _ => false
  end.
(** parser.rs 196-217. The code slices the source at the end of the token; that this is the text of the
    following tokens is theorem [rest_is_source]. *)
Fixpoint gt_ahead (s : str) : bool :=
  match s with
  | c :: r => if is_blank c then gt_ahead r else (c =? cGT)%N
  | [] => false
  end.
Definition at_attribute (ts : list token) : bool :=
  match ts with
  | t :: r => tkind_eqb (tk_kind t) BareScalar && gt_ahead (concat (map tk_text r))
  | [] => false
  end.

(** [str::split("/@")] *)
Fixpoint split_tag (s : str) : str * list str :=
  match s with
  | [] => ([], [])
  | c :: r =>
    match r with
    | [] => ([c], [])
    | d :: r' =>
      if (c =? cSLASH)%N && (d =? cAT)%N then let (h, t) := split_tag r' in ([], h :: t)
      else let (h, t) := split_tag r in (c :: h, t)
    end
  end.
(** parser.rs 471-475 *)
Definition tag_text (seg : str) : str :=
  match seg with c :: _ => if (c =? cAT)%N then seg else cAT :: seg | [] => [cAT] end.
(** parser.rs 469-502, parse_tag_segments, with the children [payload] of the innermost tag. *)
Fixpoint tag_node (seg : str) (more : list str) (payload : list cst) : cst :=
  Node TAG (Leaf (LTok Tag) (tag_text seg) ::
    match more with
    | [] => payload
    | s :: m => [Node TAG_PAYLOAD [Leaf LSlash [cSLASH]; tag_node s m payload]]
    end).
(** parser.rs 483-494 *)
Definition payload_follows (tag_end : nat) (ts : list token) : bool :=
  match ts with
  | t :: _ =>
    (sp_start (tk_span t) =? tag_end) &&
    match tk_kind t with
    | LBrace | LParen | QuotedScalar | RawScalar | HeredocStart | At | Tag => true
    | _ => false
    end
  | [] => false
  end.

(** parser.rs 505-526 *)
Definition parse_heredoc (ts : list token) : parsed :=
  let (c1, ts1) := bump ts in
  let (c2, ts2) := if tkind_eqb (peek_kind ts1) HeredocContent then bump ts1 else ([], ts1) in
  if tkind_eqb (peek_kind ts2) HeredocEnd then
    let (c3, ts3) := bump ts2 in ([Node HEREDOC (c1 ++ c2 ++ c3)], [], ts3)
  else ([Node HEREDOC (c1 ++ c2)], [(current_pos ts2, UnterminatedHeredoc)], ts2).

Definition closes (closing : option tkind) (ts : list token) : bool :=
  match closing with Some c => tkind_eqb (peek_kind ts) c | None => false end.

Fixpoint parse_entries (fuel : nat) (closing : option tkind) (ts : list token) : res parsed :=
  match fuel with
  | O => OutOfFuel
  | S f =>
    (* 220-251 *)
    let (c1, ts1) := skip is_trivia_kind ts in
    let (c2, ts2) := skip_docs ts1 in
    if tkind_eqb (peek_kind ts2) Eof || closes closing ts2 then Ok (c1 ++ c2, [], ts2)
    else
      do (c3, e3, ts3) <- parse_entry f closing ts2;
      let (c4, ts4) := skip is_blank_kind ts3 in
      let (c5, ts5) := match peek_kind ts4 with Comma | Newline => bump ts4 | _ => ([], ts4) end in
      do (c6, e6, ts6) <- parse_entries f closing ts5;
      Ok (c1 ++ c2 ++ c3 ++ c4 ++ c5 ++ c6, e3 ++ e6, ts6)
  end
with parse_entry (fuel : nat) (closing : option tkind) (ts : list token) : res parsed :=
  match fuel with
  | O => OutOfFuel
  | S f =>
    (* 258-305 *)
    if at_attribute ts then
      do (c, e, ts1) <- parse_attributes f closing ts;
      Ok ([Node ENTRY [Node ATTRIBUTES c]], e, ts1)
    else
      do (ck, ek, ts1) <-
        (if at_entry_end closing ts then Ok ([], [], ts)
         else do (c, e, ts1) <- parse_atom f ts; Ok ([Node KEY c], e, ts1));
      let (cw, ts2) := skip is_blank_kind ts1 in
      do (cv, ev, ts3) <- parse_values f closing 0 ts2;
      Ok ([Node ENTRY (ck ++ cw ++ cv)], ek ++ ev, ts3)
  end
with parse_values (fuel : nat) (closing : option tkind) (count : nat) (ts : list token) : res parsed :=
  match fuel with
  | O => OutOfFuel
  | S f =>
    (* the loop 277-301 *)
    if at_entry_end closing ts then Ok ([], [], ts)
    else
      do (c, e, ts1) <-
        (if at_attribute ts then
           do (c, e, ts1) <- parse_attributes f closing ts; Ok ([Node VALUE [Node ATTRIBUTES c]], e, ts1)
         else
           let e0 := if match closing with Some RBrace => true | _ => false end && (0 <? count) && at_atom_start ts
                     then [(current_pos ts, TooManyAtoms)] else [] in
           do (c, e, ts1) <- parse_atom f ts; Ok ([Node VALUE c], e0 ++ e, ts1));
      let (cw, ts2) := skip is_blank_kind ts1 in
      do (cv, ev, ts3) <- parse_values f closing (S count) ts2;
      Ok (c ++ cw ++ cv, e ++ ev, ts3)
  end
with parse_attributes (fuel : nat) (closing : option tkind) (ts : list token) : res parsed :=
  match fuel with
  | O => OutOfFuel
  | S f =>
    (* the children of the ATTRIBUTES node, 308-322 *)
    if at_attribute ts then
      do (c1, e1, ts1) <- parse_attribute f ts;
      let (cw, ts2) := skip is_blank_kind ts1 in
      if at_entry_end closing ts2 then Ok (c1 ++ cw, e1, ts2)
      else
        do (c2, e2, ts3) <- parse_attributes f closing ts2;
        Ok (c1 ++ cw ++ c2, e1 ++ e2, ts3)
    else Ok ([], [], ts)
  end
with parse_attribute (fuel : nat) (ts : list token) : res parsed :=
  match fuel with
  | O => OutOfFuel
  | S f =>
    (* 327-358 *)
    let (c1, ts1) := bump ts in
    let (c2, ts2) := if tkind_eqb (peek_kind ts1) Gt then bump ts1 else ([], ts1) in
    let e2 := if tkind_eqb (peek_kind ts1) Gt then [] else [(current_pos ts1, ExpectedGt)] in
    let space := match peek_kind ts2 with Whitespace | Newline => true | _ => false end in
    let e3 := if space then [(current_pos ts2, SpaceAfterGt)] else [] in
    let (c3, ts3) := if space then skip is_blank_kind ts2 else ([], ts2) in
    do (c4, e4, ts4) <- parse_atom f ts3;
    Ok ([Node ATTRIBUTE (c1 ++ c2 ++ c3 ++ c4)], e2 ++ e3 ++ e4, ts4)
  end
with parse_atom (fuel : nat) (ts : list token) : res parsed :=
  match fuel with
  | O => OutOfFuel
  | S f =>
    (* 361-385 *)
    match peek_kind ts with
    | LBrace =>
        (* parse_object, 388-408 *)
        let (c1, ts1) := bump ts in
        do (c2, e2, ts2) <- parse_entries f (Some RBrace) ts1;
        let (c3, ts3) := skip is_trivia_kind ts2 in
        if tkind_eqb (peek_kind ts3) RBrace then
          let (c4, ts4) := bump ts3 in Ok ([Node OBJECT (c1 ++ c2 ++ c3 ++ c4)], e2, ts4)
        else Ok ([Node OBJECT (c1 ++ c2 ++ c3)], e2 ++ [(current_pos ts3, UnclosedObject)], ts3)
    | LParen =>
        (* parse_sequence, 411-448 *)
        let (c1, ts1) := bump ts in
        do (c2, e2, ts2) <- parse_elements f ts1;
        let (c3, ts3) := if tkind_eqb (peek_kind ts2) RParen then bump ts2 else ([], ts2) in
        Ok ([Node SEQUENCE (c1 ++ c2 ++ c3)], e2, ts3)
    | At => let (c, ts1) := bump ts in Ok ([Node UNIT c], [], ts1) (* parse_unit, 451-455 *)
    | Tag =>
        (* parse_tag, 458-467 *)
        match ts with
        | t :: ts1 =>
          let (s, m) := split_tag (tk_text t) in
          if payload_follows (sp_end (tk_span t)) ts1 then
            do (c, e, ts2) <- parse_atom f ts1;
            Ok ([tag_node s m [Node TAG_PAYLOAD c]], e, ts2)
          else Ok ([tag_node s m []], [], ts1)
        | [] => Ok ([], [], [])
        end
    | BareScalar | QuotedScalar | RawScalar => let (c, ts1) := bump ts in Ok ([Node SCALAR c], [], ts1)
    | HeredocStart => Ok (parse_heredoc ts)
    | k => let (c, ts1) := bump ts in Ok (c, [(current_pos ts, UnexpectedToken k)], ts1)
    end
  end
with parse_elements (fuel : nat) (ts : list token) : res parsed :=
  match fuel with
  | O => OutOfFuel
  | S f =>
    (* the loop 418-440 *)
    let (c1, ts1) := skip is_trivia_kind ts in
    match peek_kind ts1 with
    | Eof => Ok (c1, [(current_pos ts1, UnclosedSequence)], ts1)
    | RParen => Ok (c1, [], ts1)
    | _ =>
      do (c2, e2, ts2) <- parse_atom f ts1;
      let (c3, ts3) := skip is_blank_kind ts2 in
      do (c4, e4, ts4) <- parse_elements f ts3;
      Ok (c1 ++ [Node ENTRY [Node KEY c2]] ++ c3 ++ c4, e2 ++ e4, ts4)
    end
  end.

(** The token iterator (82-101). *)
Definition token_stream (src : str) : option (list token) :=
  option_map (fun ts => ts ++ [mktok Eof (mkspan (blen src) (blen src)) []]) (tokens src).

(** parser.rs 68-71 and 114-123: the tree and its errors. *)
Definition cst_parse (src : str) : res (cst * list cst_error) :=
  do ts <- of_opt (token_stream src);
  do (c, e, _) <- parse_entries (8 * length ts + 8) None ts;
  Ok (Node DOCUMENT c, e).
