(** Model of crates/styx-parse/src/parser/mod.rs (events from lexemes).

    Simplifications, valid for all definitions of this file:
    - The lexer is run ahead of the parser: [LexemeSource] holds the list of the lexemes still to
      come instead of the lexer itself, and answers [Eof] when the list is empty. The parser never
      influences the lexer, so the lexemes are the same; only a lexer panic is moved to the start.
    - Functions pushing to [event_queue] return the list of pushed events.
    - [Cow] is a string, [HashMap] an association list, spans are unbounded. *)
From Verif Require Export LexModel.

(** ** Events, events.rs *)

(** events.rs 111-157, ParseErrorKind (variants never produced by the parser are left out) *)
Inductive errkind :=
| EUnexpectedToken | EUnclosedObject | EUnclosedSequence | EInvalidEscape (s : str)
| EExpectedValue | EDuplicateKey (orig : span) | EInvalidTagName | EInvalidKey
| EDanglingDoc | ETooManyAtoms | EReopened (p : list str) | ENestTerminal (p : list str)
| ECommaInSequence | EMissingWs | ETrailing.

(** events.rs 17-93, EventKind *)
Inductive ekind :=
| EvDocStart | EvDocEnd | EvObjStart | EvObjEnd | EvSeqStart | EvSeqEnd
| EvEntryStart | EvEntryEnd
| EvKey (tag : option str) (payload : option str) (k : skind)
| EvScalar (v : str) (k : skind)
| EvUnit
| EvTagStart (name : str)
| EvTagEnd
| EvComment (text : str)
| EvDoc (lines : list str)
| EvError (e : errkind).

Record event := mkev { ev_span : span; ev_kind : ekind }.

(** ** Lexeme source, parser/mod.rs 14-41 *)
Record lsrc := mksrc { src_rest : list lexeme; src_pending : option lexeme }.

(** parser/mod.rs 31-35 *)
Definition src_next (s : lsrc) : lexeme * lsrc :=
  match src_pending s with
  | Some l => (l, mksrc (src_rest s) None)
  | None => match src_rest s with
            | l :: r => (l, mksrc r None)
            | [] => (LxEof, s)
            end
  end.

(** parser/mod.rs 37-40: the assertion is the panic *)
Definition src_stash (l : lexeme) (s : lsrc) : res lsrc :=
  match src_pending s with
  | Some _ => Panic
  | None => Ok (mksrc (src_rest s) (Some l))
  end.

(** ** Atoms, parser/mod.rs 1525-1583. The span is a field of every constructor. Object entries are
    (key, value, doc comment, too-many-atoms span), attributes (key, key span, value). *)
Inductive atom :=
| AScalar (sp : span) (v : str) (k : skind)
| AUnit (sp : span)
| ATag (sp : span) (name : str) (payload : option atom) (invalid : bool) (esp : option span)
| AObject (sp : span) (entries : list (atom * atom * option (span * list str) * option span))
          (dups : list (span * span)) (dangling : list span) (unclosed : bool)
| ASeq (sp : span) (elems : list atom) (unclosed : bool) (commas : list span)
| AAttrs (sp : span) (attrs : list (str * span * atom))
| AInvEsc (sp : span) (raw : str)
| AError (sp : span) (m : msg).

Definition oentry := (atom * atom * option (span * list str) * option span)%type.

Definition a_span (a : atom) : span :=
  match a with
  | AScalar sp _ _ | AUnit sp | ATag sp _ _ _ _ | AObject sp _ _ _ _ | ASeq sp _ _ _
  | AAttrs sp _ | AInvEsc sp _ | AError sp _ => sp
  end.

(** ** Keys, parser/mod.rs 1588-1628 *)
Inductive keyval :=
| KScalar (s : str)
| KUnit
| KTagged (name : str) (payload : option keyval).

Fixpoint keyval_eqb (a b : keyval) : bool :=
  match a, b with
  | KScalar x, KScalar y => str_eqb x y
  | KUnit, KUnit => true
  | KTagged n p, KTagged m q =>
    str_eqb n m && match p, q with
                   | None, None => true
                   | Some x, Some y => keyval_eqb x y
                   | _, _ => false
                   end
  | _, _ => false
  end.

(** parser/mod.rs 1599-1618, KeyValue::from_atom *)
Fixpoint key_of_atom (a : atom) : keyval :=
  match a with
  | AScalar _ v _ => KScalar v
  | AUnit _ => KUnit
  | ATag _ name p _ _ => KTagged name (option_map key_of_atom p)
  | AObject _ _ _ _ _ => KScalar [cLB; cRB]
  | ASeq _ _ _ _ => KScalar [cLP; cRP]
  | AAttrs _ _ => KScalar [cLB; cRB]
  | AInvEsc _ raw => KScalar raw
  | AError _ _ => KScalar [60; 101; 114; 114; 111; 114; 62]%N (* <error> *)
  end.

(** parser/mod.rs 1620-1627, to_key_string *)
Definition key_string (k : keyval) : str :=
  match k with
  | KScalar s => s
  | KUnit => [cAT]
  | KTagged name _ => cAT :: name
  end.

(** [HashMap<KeyValue, Span>] *)
Definition seen_map := list (keyval * span).
Fixpoint seen_get (k : keyval) (m : seen_map) : option span :=
  match m with
  | [] => None
  | (k', s) :: r => if keyval_eqb k' k then Some s else seen_get k r
  end.
Definition seen_insert (k : keyval) (s : span) (m : seen_map) : seen_map := (k, s) :: m.

(** ** Path tracking, parser/mod.rs 1634-1797 *)
Inductive pvkind := PVObject | PVTerminal.

Record pseg := mkseg { sg_key : str; sg_span : span; sg_kind : pvkind; sg_closed : list (str * span) }.

Inductive patherr :=
| PEDuplicate (orig : span) | PEReopened (p : list str) | PENest (p : list str).

(** 1687-1692: length of the common prefix of the current path and the new one *)
Fixpoint common_len (segs : list pseg) (path : list str) : nat :=
  match segs, path with
  | s :: sr, k :: pr => if str_eqb (sg_key s) k then S (common_len sr pr) else 0
  | _, _ => 0
  end.

(** 1708-1717: pop segments beyond the common prefix, recording each in its parent. Popping from
    the deepest keeps only the effect on the segments that stay; a popped segment is dropped together
    with what was just recorded in it, so only the last kept segment changes. *)
Definition add_closed (child : pseg) (s : pseg) : pseg :=
  mkseg (sg_key s) (sg_span s) (sg_kind s) ((sg_key child, sg_span child) :: sg_closed s).

Fixpoint truncate_segs (n : nat) (segs : list pseg) : list pseg :=
  match n, segs with
  | O, _ => []
  | S m, [] => []
  | S O, s :: child :: _ => [add_closed child s]
  | S m, s :: r => s :: truncate_segs m r
  end.

Definition is_terminal (k : pvkind) : bool := match k with PVTerminal => true | PVObject => false end.

Fixpoint closed_has (k : str) (m : list (str * span)) : bool :=
  match m with [] => false | (k', _) :: r => str_eqb k' k || closed_has k r end.

(** 1720-1786: push the new segments one by one. [segs] is the current stack (outermost first);
    the index [i] of the code always equals [length segs], so its branches 1735-1743 and the inner
    test 1746-1754 cannot be taken. On an error the segments pushed so far stay. *)
Fixpoint push_segs (segs : list pseg) (path : list str) (sp : span) (vk : pvkind)
  : list pseg * option patherr :=
  match path with
  | [] => (segs, None)
  | k :: pr =>
    let kind := match pr with [] => vk | _ => PVObject end in
    let seg := mkseg k sp kind [] in
    match rev segs with
    | [] => push_segs [seg] pr sp vk
    | parent :: _ =>
      if is_terminal (sg_kind parent) then (segs, Some (PENest (map sg_key segs)))
      else if closed_has k (sg_closed parent) then
        (segs, Some (PEReopened (map sg_key segs ++ [k])))
      else push_segs (segs ++ [seg]) pr sp vk
    end
  end.

(** 1789-1791: set the kind of the last segment *)
Fixpoint set_last_kind (segs : list pseg) (vk : pvkind) : list pseg :=
  match segs with
  | [] => []
  | [s] => [mkseg (sg_key s) (sg_span s) vk (sg_closed s)]
  | s :: r => s :: set_last_kind r vk
  end.

(** 1676-1796, check_and_update *)
Definition check_and_update (segs : list pseg) (path : list str) (sp : span) (vk : pvkind)
  : list pseg * option patherr :=
  match path with
  | [] => (segs, None)
  | _ =>
    let cl := common_len segs path in
    match rev segs with
    | lastseg :: _ =>
      if (cl =? length path) && (cl =? length segs) then (segs, Some (PEDuplicate (sg_span lastseg)))
      else
        match push_segs (truncate_segs cl segs) (skipn cl path) sp vk with
        | (s, Some e) => (s, Some e)
        | (s, None) => (set_last_kind s vk, None)
        end
    | [] =>
      match push_segs [] path sp vk with
      | (s, Some e) => (s, Some e)
      | (s, None) => (set_last_kind s vk, None)
      end
    end
  end.

(** ** Escapes in the parser *)

(** parser/mod.rs 1864-1931, unescape_quoted; [Some hex] is the loop 1886-1892 *)
Definition push_code (hex : str) (r : str) : str :=
  match parse_hex hex with
  | Some code => match char_from code with Some ch => ch :: r | None => r end
  | None => r
  end.

Fixpoint unescape_evt (br : option str) (s : str) : str :=
  match br with
  | Some hex =>
    match s with
    | [] => push_code hex []
    | c :: r => if (c =? cRB)%N then push_code hex (unescape_evt None r)
                else unescape_evt (Some (hex ++ [c])) r
    end
  | None =>
    match s with
    | [] => []
    | c :: r =>
      if negb (c =? cBSL)%N then c :: unescape_evt None r
      else
        match r with
        | [] => [cBSL]
        | d :: r1 =>
          if (d =? cn)%N then cLF :: unescape_evt None r1
          else if (d =? cr)%N then cCR :: unescape_evt None r1
          else if (d =? ct)%N then cTAB :: unescape_evt None r1
          else if (d =? cBSL)%N then cBSL :: unescape_evt None r1
          else if (d =? cDQ)%N then cDQ :: unescape_evt None r1
          else if (d =? cu)%N then
            match r1 with
            | [] => []
            | h1 :: r2 =>
              if (h1 =? cLB)%N then unescape_evt (Some []) r2
              else if is_hex h1 then
                match r2 with
                | h2 :: r3 =>
                  if is_hex h2 then
                    match r3 with
                    | h3 :: r4 =>
                      if is_hex h3 then
                        match r4 with
                        | h4 :: r5 =>
                          if is_hex h4 then push_code [h1; h2; h3; h4] (unescape_evt None r5)
                          else unescape_evt None r4
                        | [] => unescape_evt None r4
                        end
                      else unescape_evt None r3
                    | [] => unescape_evt None r3
                    end
                  else unescape_evt None r2
                | [] => unescape_evt None r2
                end
              else unescape_evt None r1
            end
          else cBSL :: d :: unescape_evt None r1
        end
    end
  end.

Definition unescape_quoted (s : str) : str :=
  if contains_char cBSL s then unescape_evt None s else s.

(** parser/mod.rs 1933-1994, validate_escapes. [i] is the byte index of [s]. In mode [Some
    (start, from, valid)] the loop 1948-1956 is running for an escape starting at byte [start];
    [from] is the text from there on, so [take_bytes] of it is the slice 1959. *)
Definition emit_esc (i : nat) (seq : str) (r : res (list (nat * str))) : res (list (nat * str)) :=
  do l <- r; Ok ((i, seq) :: l).

Fixpoint validate_from (br : option (nat * str * bool)) (i : nat) (s : str) : res (list (nat * str)) :=
  match br with
  | Some (start, from, valid) =>
    match s with
    | [] =>
      do seq <- of_opt (take_bytes (Nat.min (i - start) 12) from);
      Ok [(start, seq)]
    | c :: r =>
      if (c =? cRB)%N then
        if valid then validate_from None (S i) r
        else
          do seq <- of_opt (take_bytes (Nat.min (S i - start) 12) from);
          emit_esc start seq (validate_from None (S i) r)
      else validate_from (Some (start, from, valid && is_hex c)) (i + clen c) r
    end
  | None =>
    match s with
    | [] => Ok []
    | c :: r =>
      if negb (c =? cBSL)%N then validate_from None (i + clen c) r
      else
        match r with
        | [] => Ok [(i, [cBSL])]
        | d :: r1 =>
          if ((d =? cn) || (d =? cr) || (d =? ct) || (d =? cBSL) || (d =? cDQ))%N then
            validate_from None (i + 2) r1
          else if (d =? cu)%N then
            match r1 with
            | [] => Ok [(i, [cBSL; cu])]
            | h1 :: r2 =>
              if (h1 =? cLB)%N then validate_from (Some (i, s, true)) (i + 3) r2
              else if is_hex h1 then
                match r2 with
                | h2 :: r3 =>
                  if is_hex h2 then
                    match r3 with
                    | h3 :: r4 =>
                      if is_hex h3 then validate_from None (i + 5) r4
                      else emit_esc i [c; d; h1; h2] (validate_from None (i + 4) r3)
                    | [] => emit_esc i [c; d; h1; h2] (validate_from None (i + 4) r3)
                    end
                  else emit_esc i [c; d; h1] (validate_from None (i + 3) r2)
                | [] => emit_esc i [c; d; h1] (validate_from None (i + 3) r2)
                end
              else emit_esc i [cBSL; cu] (validate_from None (i + 2) r1)
            end
          else emit_esc i [cBSL; d] (validate_from None (i + 1 + clen d) r1)
        end
    end
  end.

Definition validate_escapes (s : str) : res (list (nat * str)) := validate_from None 0 s.

(** [message.contains(..)] on the message strings *)
Definition msg_has_escape (m : msg) : bool :=
  match m with MsgUniEscape | MsgBadEscape => true | _ => false end.
Definition msg_is_tag (m : msg) : bool := match m with MsgInvalidTag => true | _ => false end.
Definition msg_is_value (m : msg) : bool := match m with MsgExpectedValue => true | _ => false end.

(** ** Tag chains *)

(** [name.split("/@")] *)
Fixpoint split_sub2 (a b : char) (s : str) : list str :=
  match s with
  | [] => [[]]
  | c :: r =>
    match r with
    | d :: r2 => if ((c =? a) && (d =? b))%N then [] :: split_sub2 a b r2
                 else match split_sub2 a b r with p :: ps => (c :: p) :: ps | [] => [[c]] end
    | [] => [[c]]
    end
  end.

(** parser/mod.rs 1804-1815 *)
Fixpoint chain_spans (start : nat) (segs : list str) : list (str * span) :=
  match segs with
  | [] => []
  | s :: r => let e := start + 1 + blen s in (s, mkspan start e) :: chain_spans (e + 1) r
  end.
Definition split_chain (name : str) (start : nat) : list (str * span) :=
  chain_spans start (split_sub2 cSLASH cAT name).

(** parser/mod.rs 1855-1862 *)
Definition is_valid_tag_name (s : str) : bool :=
  match s with
  | c :: r => is_tag_start c && forallb is_tag_char r
  | [] => false
  end.

(** parser/mod.rs 1817-1842. The code indexes [segments[0]]; an empty list is the panic. *)
Fixpoint build_chain (segs : list (str * span)) (payload : option atom) : res atom :=
  match segs with
  | [] => Panic
  | (name, tsp) :: r =>
    do p <- match r with [] => Ok payload | _ => do a <- build_chain r payload; Ok (Some a) end;
    let e := match p with Some a => sp_end (a_span a) | None => sp_end tsp end in
    let invalid := negb (is_valid_tag_name name) in
    Ok (ATag (mkspan (sp_start tsp) e) name p invalid (if invalid then Some tsp else None))
  end.

(** parser/mod.rs 1844-1853 *)
Definition can_be_payload (l : lexeme) : bool :=
  match l with
  | LxScalar _ _ _ | LxUnit _ | LxTag _ _ _ | LxObjStart _ | LxSeqStart _ => true
  | _ => false
  end.

(** 259-262 and others: strip the doc comment prefix *)
Definition doc_line (text : str) : str :=
  match strip_prefix [cSLASH; cSLASH; cSLASH; cSP] text with
  | Some l => l
  | None => match strip_prefix [cSLASH; cSLASH; cSLASH] text with Some l => l | None => text end
  end.

Definition ends_with_char (c : char) (s : str) : bool :=
  match rev s with d :: _ => (d =? c)%N | [] => false end.
Definition starts_with_char (c : char) (s : str) : bool :=
  match s with d :: _ => (d =? c)%N | [] => false end.

(** ** Parsing atoms, parser/mod.rs 605-1003 *)

Section Atoms.
Variable input : str.

Definition fst_span (l : list (span * str)) (d : span) : span := match l with x :: _ => fst x | [] => d end.

(** 857-876: the doc comment of an entry from the pending lines *)
Definition take_docs (pend : list (span * str)) : option (span * list str) :=
  match pend, rev pend with
  | (s1, _) :: _, (s2, _) :: _ =>
    Some (mkspan (sp_start s1) (sp_end s2), map (fun x => doc_line (snd x)) pend)
  | _, _ => None
  end.

(** 880-911: the entry made from the atoms of one line; the updated seen keys and duplicates *)
Definition add_entry (atoms : list atom) (doc : option (span * list str))
  (entries : list oentry) (seen : seen_map) (dups : list (span * span))
  : list oentry * seen_map * list (span * span) :=
  match atoms with
  | [] => (entries, seen, dups)
  | key :: rest =>
    let kv := key_of_atom key in
    let '(seen', dups') :=
      match seen_get kv seen with
      | Some o => (seen, dups ++ [(o, a_span key)])
      | None => (seen_insert kv (a_span key) seen, dups)
      end in
    let '(value, tm) :=
      match rest with
      | [] => (AUnit (a_span key), None)
      | v :: [] => (v, None)
      | v :: x :: _ => (v, Some (a_span x))
      end in
    (entries ++ [(key, value, doc, tm)], seen', dups')
  end.

(** parse_atom 674-817, collect_entry_atoms 606-671 (its loop is [collect_loop]),
    parse_object_atom 820-917, parse_sequence_atom 920-958, parse_attributes 961-996.
    The result contains the events pushed meanwhile (trailing comments, missing whitespace). *)
Fixpoint parse_atom (fuel : nat) (l : lexeme) (s : lsrc) : res (atom * list event * lsrc) :=
  match fuel with
  | O => OutOfFuel
  | S f =>
    match l with
    | LxScalar sp v k => Ok (AScalar sp v k, [], s)
    | LxUnit sp =>
      let (nx, s1) := src_next s in
      match nx with
      | LxScalar ssp v Bare =>
        if sp_start ssp =? sp_end sp then
          Ok (ATag (mkspan (sp_start sp) (sp_end ssp)) [] (Some (AScalar ssp v Bare)) true (Some ssp), [], s1)
        else do s2 <- src_stash nx s1; Ok (AUnit sp, [], s2)
      | _ => do s2 <- src_stash nx s1; Ok (AUnit sp, [], s2)
      end
    | LxTag sp name has_payload =>
      let chain := split_chain name (sp_start sp) in
      let chained := 1 <? length chain in
      let (nx, s1) := src_next s in
      if negb has_payload && negb chained then
        match nx with
        | LxScalar ssp v Bare =>
          if (sp_start ssp =? sp_end sp) && starts_with_char cDOT v then
            Ok (ATag (mkspan (sp_start sp) (sp_end ssp)) name None true
                     (Some (mkspan (sp_start sp + 1) (sp_end ssp))), [], s1)
          else do s2 <- src_stash nx s1; do a <- build_chain chain None; Ok (a, [], s2)
        | _ => do s2 <- src_stash nx s1; do a <- build_chain chain None; Ok (a, [], s2)
        end
      else if chained then
        if (sp_start (lx_span nx) =? sp_end sp) && can_be_payload nx then
          do (p, ev, s2) <- parse_atom f nx s1;
          do a <- build_chain chain (Some p); Ok (a, ev, s2)
        else do s2 <- src_stash nx s1; do a <- build_chain chain None; Ok (a, [], s2)
      else
        do (p, ev, s2) <- parse_atom f nx s1;
        do a <- build_chain chain (Some p); Ok (a, ev, s2)
    | LxObjStart sp => obj_loop f sp [] [] [] [] s
    | LxSeqStart sp => seq_loop f sp [] [] s
    | LxAttrKey _ ksp key =>
      let (nx, s1) := src_next s in
      do (v, ev, s2) <- parse_atom f nx s1;
      do (a, ev2, s3) <- attr_loop f ksp [(key, ksp, v)] s2;
      Ok (a, ev ++ ev2, s3)
    | LxError sp m =>
      if msg_has_escape m then
        do raw <- of_opt (slice input (sp_start sp) (sp_end sp));
        do inner <- (if starts_with_char cDQ raw && ends_with_char cDQ raw
                     then of_opt (slice raw 1 (blen raw - 1)) else Ok raw);
        Ok (AInvEsc sp inner, [], s)
      else Ok (AError sp m, [], s)
    | LxObjEnd sp | LxSeqEnd sp | LxComma sp | LxNewline sp | LxComment sp _ | LxDoc sp _ =>
      Ok (AError sp MsgUnexpected, [], s)
    | LxEof => Ok (AError (mkspan (blen input) (blen input)) MsgUnexpectedEof, [], s)
    end
  end

with collect_loop (fuel : nat) (first_end : nat) (first_bare : bool) (acc : list atom) (s : lsrc)
  : res (list atom * list event * lsrc) :=
  match fuel with
  | O => OutOfFuel
  | S f =>
    let (l, s1) := src_next s in
    match l with
    | LxEof | LxNewline _ | LxComma _ | LxObjEnd _ | LxSeqEnd _ =>
      do s2 <- src_stash l s1; Ok (acc, [], s2)
    | LxComment sp text => Ok (acc, [mkev sp (EvComment text)], s1)
    | LxDoc sp text => Ok (acc, [mkev sp (EvDoc [doc_line text])], s1)
    | LxObjStart sp | LxSeqStart sp =>
      let ev0 := if (length acc =? 1) && first_bare && (first_end =? sp_start sp)
                 then [mkev sp (EvError EMissingWs)] else [] in
      do (a, ev, s2) <- parse_atom f l s1;
      do (r, ev2, s3) <- collect_loop f first_end first_bare (acc ++ [a]) s2;
      Ok (r, ev0 ++ ev ++ ev2, s3)
    | _ =>
      do (a, ev, s2) <- parse_atom f l s1;
      do (r, ev2, s3) <- collect_loop f first_end first_bare (acc ++ [a]) s2;
      Ok (r, ev ++ ev2, s3)
    end
  end

with obj_loop (fuel : nat) (start : span) (entries : list oentry) (seen : seen_map)
  (dups : list (span * span)) (pend : list (span * str)) (s : lsrc)
  : res (atom * list event * lsrc) :=
  match fuel with
  | O => OutOfFuel
  | S f =>
    let (l, s1) := src_next s in
    match l with
    | LxEof =>
      Ok (AObject (mkspan (sp_start start) (sp_end start)) entries dups (map fst pend) true, [], s1)
    | LxObjEnd sp =>
      Ok (AObject (mkspan (sp_start start) (sp_end sp)) entries dups (map fst pend) false, [], s1)
    | LxNewline _ | LxComma _ | LxComment _ _ => obj_loop f start entries seen dups pend s1
    | LxDoc sp text => obj_loop f start entries seen dups (pend ++ [(sp, text)]) s1
    | _ =>
      let doc := take_docs pend in
      do (a, ev, s2) <- parse_atom f l s1;
      do (atoms, ev2, s3) <-
        collect_loop f (sp_end (a_span a)) (match a with AScalar _ _ Bare => true | _ => false end) [a] s2;
      let '(entries', seen', dups') := add_entry atoms doc entries seen dups in
      do (r, ev3, s4) <- obj_loop f start entries' seen' dups' [] s3;
      Ok (r, ev ++ ev2 ++ ev3, s4)
    end
  end

with seq_loop (fuel : nat) (start : span) (elems : list atom) (commas : list span) (s : lsrc)
  : res (atom * list event * lsrc) :=
  match fuel with
  | O => OutOfFuel
  | S f =>
    let (l, s1) := src_next s in
    match l with
    | LxEof => Ok (ASeq (mkspan (sp_start start) (sp_end start)) elems true commas, [], s1)
    | LxSeqEnd sp => Ok (ASeq (mkspan (sp_start start) (sp_end sp)) elems false commas, [], s1)
    | LxNewline _ | LxComment _ _ | LxDoc _ _ => seq_loop f start elems commas s1
    | LxComma sp => seq_loop f start elems (commas ++ [sp]) s1
    | _ =>
      do (a, ev, s2) <- parse_atom f l s1;
      do (r, ev2, s3) <- seq_loop f start (elems ++ [a]) commas s2;
      Ok (r, ev ++ ev2, s3)
    end
  end

with attr_loop (fuel : nat) (first : span) (attrs : list (str * span * atom)) (s : lsrc)
  : res (atom * list event * lsrc) :=
  match fuel with
  | O => OutOfFuel
  | S f =>
    let (l, s1) := src_next s in
    match l with
    | LxAttrKey _ ksp key =>
      let (nx, s2) := src_next s1 in
      do (v, ev, s3) <- parse_atom f nx s2;
      do (a, ev2, s4) <- attr_loop f first (attrs ++ [(key, ksp, v)]) s3;
      Ok (a, ev ++ ev2, s4)
    | _ =>
      do s2 <- src_stash l s1;
      let e := match rev attrs with (_, _, v) :: _ => sp_end (a_span v) | [] => sp_end first end in
      Ok (AAttrs (mkspan (sp_start first) e) attrs, [], s2)
    end
  end.

(** 606-617 and the loop: collect_entry_atoms *)
Definition collect_entry (fuel : nat) (l : lexeme) (s : lsrc) : res (list atom * list event * lsrc) :=
  do (a, ev, s1) <- parse_atom fuel l s;
  do (atoms, ev2, s2) <-
    collect_loop fuel (sp_end (a_span a)) (match a with AScalar _ _ Bare => true | _ => false end) [a] s1;
  Ok (atoms, ev ++ ev2, s2).

End Atoms.

(** ** Emitting events *)

Definition mkerr (sp : span) (e : errkind) : event := mkev sp (EvError e).

(** 1507-1519, emit_escape_errors; [base] is the offset of the text *)
Definition escape_errors (base : nat) (text : str) : res (list event) :=
  do l <- validate_escapes text;
  Ok (map (fun x => mkerr (mkspan (base + fst x) (base + fst x + blen (snd x))) (EInvalidEscape (snd x))) l).

(** 1149-1275, emit_atom_as_key *)
Definition emit_key (a : atom) : res (list event) :=
  match a with
  | AScalar sp v k => Ok [mkev sp (EvKey None (Some v) k)]
  | AUnit sp => Ok [mkev sp (EvKey None None Bare)]
  | ATag sp name payload invalid esp =>
    let e0 := if invalid then [mkerr (match esp with Some x => x | None => sp end) EInvalidTagName] else [] in
    match payload with
    | None => Ok (e0 ++ [mkev sp (EvKey (Some name) None Bare)])
    | Some inner =>
      match inner with
      | AScalar isp v k =>
        do e1 <- (match k with Quoted => escape_errors (sp_start isp) v | _ => Ok [] end);
        Ok (e0 ++ e1 ++ [mkev sp (EvKey (Some name) (Some v) k)])
      | AUnit _ => Ok (e0 ++ [mkev sp (EvKey (Some name) None Bare)])
      | _ => Ok (e0 ++ [mkerr (a_span inner) EInvalidKey])
      end
    end
  | AInvEsc sp raw =>
    do e1 <- escape_errors (sp_start sp + 1) raw;
    Ok (e1 ++ [mkev sp (EvKey None (Some (unescape_quoted raw)) Quoted)])
  | AError sp m => Ok [mkerr sp (if msg_is_tag m then EInvalidTagName else EInvalidKey)]
  | AObject sp _ _ _ _ | ASeq sp _ _ _ | AAttrs sp _ => Ok [mkerr sp EInvalidKey]
  end.

(** 1278-1504, emit_atom_as_value *)
Fixpoint emit_value (a : atom) : res (list event) :=
  match a with
  | AScalar sp v k => Ok [mkev sp (EvScalar v k)]
  | AUnit sp => Ok [mkev sp EvUnit]
  | ATag sp name payload invalid esp =>
    let e0 := if invalid then [mkerr (match esp with Some x => x | None => sp end) EInvalidTagName] else [] in
    do e1 <- match payload with Some p => emit_value p | None => Ok [] end;
    Ok (e0 ++ mkev sp (EvTagStart name) :: e1 ++ [mkev sp EvTagEnd])
  | AObject sp entries dups dangling unclosed =>
    let e0 := (if unclosed then [mkerr sp EUnclosedObject] else [])
              ++ map (fun d => mkerr (snd d) (EDuplicateKey (fst d))) dups
              ++ map (fun d => mkerr d EDanglingDoc) dangling in
    do e1 <-
      (fix go (es : list oentry) : res (list event) :=
         match es with
         | [] => Ok []
         | (key, value, doc, tm) :: r =>
           do ek <- emit_key key;
           do evv <- emit_value value;
           do er <- go r;
           Ok ((match doc with Some (dsp, lines) => [mkev dsp (EvDoc lines)] | None => [] end)
               ++ mkev (a_span key) EvEntryStart :: ek ++ evv
               ++ (match tm with
                   | Some x => [mkerr x ETooManyAtoms; mkev x EvEntryEnd]
                   | None => [mkev (a_span value) EvEntryEnd]
                   end) ++ er)
         end) entries;
    Ok (mkev sp EvObjStart :: e0 ++ e1 ++ [mkev sp EvObjEnd])
  | ASeq sp elems unclosed commas =>
    let e0 := (if unclosed then [mkerr sp EUnclosedSequence] else [])
              ++ map (fun d => mkerr d ECommaInSequence) commas in
    do e1 <-
      (fix go (es : list atom) : res (list event) :=
         match es with
         | [] => Ok []
         | x :: r => do ex <- emit_value x; do er <- go r; Ok (ex ++ er)
         end) elems;
    Ok (mkev sp EvSeqStart :: e0 ++ e1 ++ [mkev sp EvSeqEnd])
  | AAttrs sp attrs =>
    do e1 <-
      (fix go (es : list (str * span * atom)) : res (list event) :=
         match es with
         | [] => Ok []
         | (key, ksp, v) :: r =>
           do evv <- emit_value v; do er <- go r;
           Ok (mkev ksp EvEntryStart :: mkev ksp (EvKey None (Some key) Bare) :: evv
               ++ mkev (a_span v) EvEntryEnd :: er)
         end) attrs;
    Ok (mkev sp EvObjStart :: e1 ++ [mkev sp EvObjEnd])
  | AInvEsc sp raw =>
    do e1 <- escape_errors (sp_start sp + 1) raw;
    Ok (e1 ++ [mkev sp (EvScalar (unescape_quoted raw) Quoted)])
  | AError sp m =>
    Ok [mkerr sp (if msg_is_tag m then EInvalidTagName
                  else if msg_is_value m then EExpectedValue else EUnexpectedToken)]
  end.

(** ** Entries *)

Definition last_span (atoms : list atom) (d : span) : span :=
  match rev atoms with a :: _ => a_span a | [] => d end.

(** 580-595 and 1094-1110: the value of an entry and the too-many-atoms error *)
Definition emit_entry_value (usp : span) (rest : list atom) : res (list event) :=
  match rest with
  | [] => Ok [mkev usp EvUnit]
  | v :: more =>
    do ev <- emit_value v;
    Ok (ev ++ match more with x :: _ => [mkerr (a_span x) ETooManyAtoms] | [] => [] end)
  end.

(** 572-603, emit_simple_entry *)
Definition emit_simple_entry (key : atom) (rest : list atom) : res (list event) :=
  do ek <- emit_key key;
  do ev <- emit_entry_value (a_span key) rest;
  Ok (mkev (a_span key) EvEntryStart :: ek ++ ev
      ++ [mkev (last_span rest (a_span key)) EvEntryEnd]).

(** 477-488 / 1045-1054: the kind of value an entry gives to its path *)
Definition value_kind (rest : list atom) : pvkind :=
  match rest with
  | AObject _ _ _ _ _ :: _ | AAttrs _ _ :: _ => PVObject
  | _ => PVTerminal
  end.

(** 1126-1138, emit_path_error *)
Definition path_error (e : patherr) (sp : span) : event :=
  mkerr sp (match e with
            | PEDuplicate o => EDuplicateKey o
            | PEReopened p => EReopened p
            | PENest p => ENestTerminal p
            end).

(** 1063-1089: open the nested structure of a dotted path *)
Fixpoint open_segments (off : nat) (segs : list str) : list event :=
  match segs with
  | [] => []
  | s :: r =>
    let sp := mkspan off (off + blen s) in
    mkev sp EvEntryStart :: mkev sp (EvKey None (Some s) Bare)
      :: (match r with [] => [] | _ => [mkev sp EvObjStart] end)
      ++ open_segments (off + blen s + 1) r
  end.

(** 1112-1123: close it *)
Fixpoint close_segments (sp : span) (segs : list str) : list event :=
  match segs with
  | [] => []
  | _ :: r => close_segments sp r ++ (match r with [] => [] | _ => [mkev sp EvObjEnd] end)
              ++ [mkev sp EvEntryEnd]
  end.

Definition is_nil {A} (l : list A) : bool := match l with [] => true | _ => false end.

(** 1005-1124, emit_dotted_path_entry. [path] is [Some] path state at the document root.
    The insertion into [seen_keys] (1040-1041) is not modelled: the root never reads that map. *)
Definition emit_dotted (text : str) (sp : span) (rest : list atom) (path : option (list pseg))
  : res (list event * option (list pseg)) :=
  let segs := split_on cDOT text in
  if existsb is_nil segs then
    Ok ([mkerr sp EInvalidKey; mkev sp EvEntryStart; mkev sp EvEntryEnd], path)
  else
    let '(path', perr) :=
      match path with
      | Some ps => let '(ps', e) := check_and_update ps segs sp (value_kind rest) in
                   (Some ps', match e with Some x => [path_error x sp] | None => [] end)
      | None => (None, [])
      end in
    do ev <- emit_entry_value sp rest;
    Ok (perr ++ open_segments (sp_start sp) segs ++ ev ++ close_segments sp segs, path').

Definition is_dotted (a : atom) : option str :=
  match a with
  | AScalar _ v Bare => if contains_char cDOT v then Some v else None
  | _ => None
  end.

(** [text.find('\n')], byte index *)
Fixpoint find_lf (s : str) : option nat :=
  match s with
  | [] => None
  | c :: r => if (c =? cLF)%N then Some 0 else option_map (fun n => clen c + n) (find_lf r)
  end.

(** 1141-1146, heredoc_start_span *)
Definition heredoc_start_span (input : str) (sp : span) : res span :=
  do text <- of_opt (slice input (sp_start sp) (sp_end sp));
  let e := match find_lf text with Some i => i + 1 | None => blen text end in
  Ok (mkspan (sp_start sp) (sp_start sp + e)).

(** 456-515, emit_entry_at_root *)
Definition emit_at_root (input : str) (key : atom) (rest : list atom) (path : list pseg)
  : res (list event * list pseg) :=
  do e0 <- match key with
           | AScalar sp _ Heredoc => do x <- heredoc_start_span input sp; Ok [mkerr x EInvalidKey]
           | _ => Ok []
           end;
  match is_dotted key with
  | Some v =>
    do (ev, p) <- emit_dotted v (a_span key) rest (Some path);
    Ok (e0 ++ ev, match p with Some x => x | None => path end)
  | None =>
    let '(path', e) := check_and_update path [key_string (key_of_atom key)] (a_span key) (value_kind rest) in
    do ev <- emit_simple_entry key rest;
    Ok (e0 ++ (match e with Some x => [path_error x (a_span key)] | None => [] end) ++ ev, path')
  end.

(** 518-569, emit_entry_in_object *)
Definition emit_in_object (key : atom) (rest : list atom) (seen : seen_map)
  : res (list event * seen_map) :=
  let e0 := match key with AScalar sp _ Heredoc => [mkerr sp EInvalidKey] | _ => [] end in
  match is_dotted key with
  | Some v => do (ev, _) <- emit_dotted v (a_span key) rest None; Ok (e0 ++ ev, seen)
  | None =>
    let kv := key_of_atom key in
    let '(seen', e1) :=
      match seen_get kv seen with
      | Some o => (seen, [mkerr (a_span key) (EDuplicateKey o)])
      | None => (seen_insert kv (a_span key) seen, [])
      end in
    do ev <- emit_simple_entry key rest;
    Ok (e0 ++ e1 ++ ev, seen')
  end.

(** ** The state machine, parser/mod.rs 44-82 *)
Inductive pstate :=
| PBeforeDoc
| PBeforeExpr
| PRoot (pend : option span) (path : list pseg) (emitted : bool)
| PInObj (start : span) (seen : seen_map) (pend : option span) (parent : pstate)
| PAfterDoc
| PAfterExpr.

Record parser := mkp { p_input : str; p_src : lsrc; p_state : pstate; p_queue : list event }.

(** 86-107, Parser::new and new_expr *)
Definition parser_new (input : str) (ls : list lexeme) : parser :=
  mkp input (mksrc ls None) PBeforeDoc [].
Definition parser_new_expr (input : str) (ls : list lexeme) : parser :=
  mkp input (mksrc ls None) PBeforeExpr [].

Definition src_size (s : lsrc) : nat :=
  length (src_rest s) + match src_pending s with Some LxEof | None => 0 | Some _ => 1 end.
Definition parse_fuel (s : lsrc) : nat := 4 + 4 * src_size s.

(** [event_queue.pop_front()] after pushing [ev] *)
Definition pop_queue (input : str) (s : lsrc) (st : pstate) (q : list event) : option event * parser :=
  match q with
  | e :: r => (Some e, mkp input s st r)
  | [] => (None, mkp input s st [])
  end.

Definition empty_span (n : nat) : span := mkspan n n.
Definition doc_end (input : str) : event := mkev (empty_span (blen input)) EvDocEnd.
Definition dangling (pend : option span) : list event :=
  match pend with Some sp => [mkerr sp EDanglingDoc] | None => [] end.

(** 161-181, advance_expression *)
Fixpoint advance_expr (fuel : nat) (input : str) (s : lsrc) (q : list event) : res (option event * parser) :=
  match fuel with
  | O => OutOfFuel
  | S f =>
    let (l, s1) := src_next s in
    match l with
    | LxNewline _ | LxComment _ _ => advance_expr f input s1 q
    | LxEof => Ok (None, mkp input s1 PAfterExpr q)
    | _ =>
      do (a, ev, s2) <- parse_atom input (parse_fuel s1) l s1;
      do ev2 <- emit_value a;
      Ok (pop_queue input s2 PAfterExpr (q ++ ev ++ ev2))
    end
  end.

(** 196-202: run to the end, keeping the end of the last lexeme *)
Fixpoint drain_end (fuel : nat) (e : nat) (s : lsrc) : res (nat * lsrc) :=
  match fuel with
  | O => OutOfFuel
  | S f =>
    let (l, s1) := src_next s in
    match l with
    | LxEof => Ok (e, s1)
    | _ => drain_end f (sp_end (lx_span l)) s1
    end
  end.

(** 184-211, check_trailing_content *)
Fixpoint check_trailing (fuel : nat) (input : str) (s : lsrc) (q : list event) : res (option event * parser) :=
  match fuel with
  | O => OutOfFuel
  | S f =>
    let (l, s1) := src_next s in
    match l with
    | LxNewline _ | LxComment _ _ => check_trailing f input s1 q
    | LxEof => Ok (None, mkp input s1 PAfterDoc q)
    | _ =>
      do (e, s2) <- drain_end (2 + src_size s1) (sp_end (lx_span l)) s1;
      Ok (Some (mkerr (mkspan (sp_start (lx_span l)) e) ETrailing), mkp input s2 PAfterDoc q)
    end
  end.

(** 214-321, advance_document_root; [pend path emitted] are the fields of [PRoot] *)
Fixpoint advance_root (fuel : nat) (input : str) (s : lsrc) (pend : option span) (path : list pseg)
  (emitted : bool) (q : list event) : res (option event * parser) :=
  match fuel with
  | O => OutOfFuel
  | S f =>
    let (l, s1) := src_next s in
    let open_ev := if emitted then [] else [mkev (empty_span 0) EvObjStart] in
    match l with
    | LxEof =>
      Ok (pop_queue input s1 PAfterDoc
            (q ++ dangling pend ++ (if emitted then [mkev (empty_span 0) EvObjEnd] else []) ++ [doc_end input]))
    | LxNewline _ | LxComma _ => advance_root f input s1 pend path emitted q
    | LxComment sp text => Ok (Some (mkev sp (EvComment text)), mkp input s1 (PRoot pend path emitted) q)
    | LxDoc sp text =>
      Ok (pop_queue input s1 (PRoot (Some sp) path true) (q ++ open_ev ++ [mkev sp (EvDoc [doc_line text])]))
    | LxObjStart sp =>
      Ok (Some (mkev sp EvObjStart), mkp input s1 (PInObj sp [] None PAfterDoc) q)
    | _ =>
      do (atoms, ev, s2) <- collect_entry input (parse_fuel s1) l s1;
      match atoms with
      | [] => Ok (pop_queue input s2 (PRoot None path true) (q ++ open_ev ++ ev))
      | key :: rest =>
        do (ev2, path') <- emit_at_root input key rest path;
        Ok (pop_queue input s2 (PRoot None path' true) (q ++ open_ev ++ ev ++ ev2))
      end
    end
  end.

Definition is_after_doc (p : pstate) : bool := match p with PAfterDoc => true | _ => false end.

(** 324-442, advance_in_object; pop_state (445-453) restores the parent *)
Fixpoint advance_obj (fuel : nat) (input : str) (s : lsrc) (start : span) (seen : seen_map)
  (pend : option span) (parent : pstate) (q : list event) : res (option event * parser) :=
  match fuel with
  | O => OutOfFuel
  | S f =>
    let (l, s1) := src_next s in
    let dend := if is_after_doc parent then [doc_end input] else [] in
    match l with
    | LxEof =>
      Ok (pop_queue input s1 parent
            (q ++ dangling pend ++ [mkerr start EUnclosedObject; mkev start EvObjEnd] ++ dend))
    | LxObjEnd sp =>
      Ok (Some (mkev sp EvObjEnd), mkp input s1 parent (q ++ dangling pend ++ dend))
    | LxNewline _ | LxComma _ => advance_obj f input s1 start seen pend parent q
    | LxComment sp text => Ok (Some (mkev sp (EvComment text)), mkp input s1 (PInObj start seen pend parent) q)
    | LxDoc sp text =>
      Ok (Some (mkev sp (EvDoc [doc_line text])), mkp input s1 (PInObj start seen (Some sp) parent) q)
    | _ =>
      do (atoms, ev, s2) <- collect_entry input (parse_fuel s1) l s1;
      match atoms with
      | [] => Ok (pop_queue input s2 (PInObj start seen None parent) (q ++ ev))
      | key :: rest =>
        do (ev2, seen') <- emit_in_object key rest seen;
        Ok (pop_queue input s2 (PInObj start seen' None parent) (q ++ ev ++ ev2))
      end
    end
  end.

(** 138-158, advance *)
Definition advance (p : parser) : res (option event * parser) :=
  let s := p_src p in
  let input := p_input p in
  let q := p_queue p in
  let f := 2 + src_size s in
  match p_state p with
  | PBeforeDoc => Ok (Some (mkev (empty_span 0) EvDocStart), mkp input s (PRoot None [] false) q)
  | PBeforeExpr => advance_expr f input s q
  | PAfterExpr => Ok (None, p)
  | PAfterDoc => check_trailing f input s q
  | PRoot pend path emitted => advance_root f input s pend path emitted q
  | PInObj start seen pend parent => advance_obj f input s start seen pend parent q
  end.

(** 111-127, next_event *)
Definition next_event (p : parser) : res (option event * parser) :=
  match p_queue p with
  | e :: r => Ok (Some e, mkp (p_input p) (p_src p) (p_state p) r)
  | [] => advance p
  end.

(** 130-136, parse_to_vec *)
Fixpoint events_from (fuel : nat) (p : parser) : res (list event) :=
  match fuel with
  | O => OutOfFuel
  | S f =>
    do (o, p') <- next_event p;
    match o with
    | None => Ok []
    | Some e => do r <- events_from f p'; Ok (e :: r)
    end
  end.
