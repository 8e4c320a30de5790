(** Model of the parser of the Python implementation: /repo/implementations/styx-py/styx/parser.py at the pinned commit.

    Simplifications. Spans and messages are left out: an error is [VErr]. [VCrash] is an error of the lexer that is no ParseError
    (PyModel.v). Every function takes [fuel]; [VFuel] says that it was used up. The limit on the depth of recursion is left out. Dictionaries
    and sets are lists. *)
From Verif Require Import Base PyModel.

(** types.py: values without spans *)
Inductive pyval := PV (tag : option str) (payload : pypay)
with pypay := PPNone | PPScalar (k : pykind) (text : str) | PPSeq (l : list pyval) | PPObj (l : list (pyval * pyval)).
Definition pyentry : Type := pyval * pyval.
Definition pv_payload (v : pyval) : pypay := match v with PV _ p => p end.
Definition is_obj (v : pyval) : bool := match pv_payload v with PPObj _ => true | _ => false end.
Definition py_unit : pyval := PV None PPNone.
Definition bare_key (t : str) : pyval := PV None (PPScalar KScalar t).

Inductive pout (A : Type) : Type := VOk (a : A) | VErr | VCrash | VFuel.
Arguments VOk {A} a. Arguments VErr {A}. Arguments VCrash {A}. Arguments VFuel {A}.

(** parser.py 84-88 *)
Record pst := mkpst { st_cur : pytok; st_peeked : option pytok; st_rest : str }.
Definition pm (A : Type) : Type := pst -> pout (A * pst).
Definition ret {A} (a : A) : pm A := fun st => VOk (a, st).
Definition fail {A} : pm A := fun _ => VErr.
Definition pbind {A B} (m : pm A) (f : A -> pm B) : pm B :=
  fun st => match m st with VOk (a, st') => f a st' | VErr => VErr | VCrash => VCrash | VFuel => VFuel end.
Notation "'let!' x := m 'in' k" := (pbind m (fun x => k)) (at level 200, x pattern, m at level 100, k at level 200, right associativity).

Definition kind_eqb (a b : pykind) : bool :=
  match a, b with
  | KScalar, KScalar | KQuoted, KQuoted | KRaw, KRaw | KHeredoc, KHeredoc | KLBrace, KLBrace | KRBrace, KRBrace | KLParen, KLParen
  | KRParen, KRParen | KComma, KComma | KAt, KAt | KTag, KTag | KGt, KGt | KEof, KEof => true
  | _, _ => false
  end.
(** parser.py 106-108, _check *)
Definition check (ks : list pykind) : pm bool := fun st => VOk (existsb (kind_eqb (pt_kind (st_cur st))) ks, st).
Definition current : pm pytok := fun st => VOk (st_cur st, st).

(** ** Paths *)
(** [".".join] and [.split(".")] *)
Fixpoint join_dots (l : list str) : str :=
  match l with [] => [] | [a] => a | a :: r => a ++ cDOT :: join_dots r end.
Fixpoint split_dots (cur s : str) : list str :=
  match s with
  | [] => [cur]
  | c :: r => if (c =? cDOT)%N then cur :: split_dots [] r else split_dots (cur ++ [c]) r
  end.
Definition mem (s : str) (l : list str) : bool := existsb (str_eqb s) l.
(** parser.py 26-29; the kind is [true] for OBJECT, [false] for TERMINAL *)
Record pathst := mkpath { ps_current : list str; ps_closed : list str; ps_assigned : list (str * bool) }.
Definition path_new : pathst := mkpath [] [] [].
Definition assigned (s : str) (l : list (str * bool)) : option bool := option_map snd (find (fun e => str_eqb s (fst e)) l).
(** the prefixes of a path with [a], [a+1], ... segments, shorter than [b] *)
Definition prefixes (path : list str) (a b : nat) : list str := map (fun i => join_dots (firstn i path)) (seq a (b - a)).
Fixpoint common (a b : list str) : nat :=
  match a, b with x :: a', y :: b' => if str_eqb x y then S (common a' b') else 0 | _, _ => 0 end.
(** parser.py 31-76, check_and_update; [None] is the ParseError *)
Definition check_and_update (path : list str) (obj : bool) (ps : pathst) : option pathst :=
  let full := join_dots path in
  match assigned full (ps_assigned ps) with
  | Some _ => None
  | None =>
    if existsb (fun p => mem p (ps_closed ps) || match assigned p (ps_assigned ps) with Some false => true | _ => false end)
               (prefixes path 1 (length path)) then None
    else
      let k := common path (ps_current ps) in
      let closed := prefixes (ps_current ps) (S k) (S (length (ps_current ps))) ++ ps_closed ps in
      let inter := filter (fun p => match assigned p (ps_assigned ps) with None => true | _ => false end) (prefixes path 1 (length path)) in
      Some (mkpath path closed ((full, obj) :: map (fun p => (p, true)) inter ++ ps_assigned ps))
  end.

(** parser.py 275-281, _get_key_text *)
Definition key_text (key : pyval) : option str :=
  match key with
  | PV _ (PPScalar _ t) => Some t
  | PV (Some n) PPNone => Some (cAT :: n)
  | _ => None
  end.
(** parser.py 283-291, _validate_key *)
Definition valid_key (key : pyval) : bool :=
  match pv_payload key with PPSeq _ => false | PPScalar KHeredoc _ => false | _ => true end.
(** parser.py 335-353 and 386-400: nested objects *)
Fixpoint nest (segs : list str) (v : pyval) : pyval :=
  match segs with [] => v | s :: r => PV None (PPObj [(bare_key s, nest r v)]) end.
(** parser.py 192-201 and 248-256: the text of a key that is a path *)
Definition path_key (key : pyval) : option str :=
  match pv_payload key with PPScalar KScalar t => if existsb (N.eqb cDOT) t then Some t else None | _ => None end.

Section parser.
Variable isupper : char -> bool.
Variable int16 : str -> option Z.
Variable total : str.

Definition fetch (s : str) : pout (pytok * str) :=
  match next_token isupper int16 total s with POk x => VOk x | PError _ _ => VErr | PCrash => VCrash end.
(** parser.py 90-98, _advance *)
Definition advance : pm pytok := fun st =>
  match st_peeked st with
  | Some t => VOk (st_cur st, mkpst t None (st_rest st))
  | None => match fetch (st_rest st) with
            | VOk (t, r) => VOk (st_cur st, mkpst t None r)
            | VErr => VErr | VCrash => VCrash | VFuel => VFuel
            end
  end.
(** parser.py 100-104, _peek *)
Definition look : pm pytok := fun st =>
  match st_peeked st with
  | Some t => VOk (t, st)
  | None => match fetch (st_rest st) with
            | VOk (t, r) => VOk (t, mkpst (st_cur st) (Some t) r)
            | VErr => VErr | VCrash => VCrash | VFuel => VFuel
            end
  end.
(** parser.py 110-117, _expect *)
Definition expect (k : pykind) : pm pytok :=
  let! b := check [k] in if b then advance else fail.
(** parser.py 552-569, _parse_scalar *)
Definition parse_scalar : pm pyval :=
  let! t := current in
  match pt_kind t with
  | KScalar | KQuoted | KRaw | KHeredoc => let! _ := advance in ret (PV None (PPScalar (pt_kind t) (pt_text t)))
  | _ => fail
  end.

(** the loops 125-126, 139-140, 172-173, 228-229 *)
Fixpoint skip_commas (fuel : nat) : pm unit :=
  match fuel with
  | O => fun _ => VFuel
  | S f => let! b := check [KComma] in if b then let! _ := advance in skip_commas f else ret tt
  end.
(** parser.py 147-148 *)
Fixpoint skip_all (fuel : nat) : pm unit :=
  match fuel with
  | O => fun _ => VFuel
  | S f => let! b := check [KEof] in if b then ret tt else let! _ := advance in skip_all f
  end.

(** parser.py 449-502, _parse_value *)
Fixpoint parse_value (fuel : nat) : pm pyval :=
  match fuel with
  | O => fun _ => VFuel
  | S f =>
    let! t := current in
    match pt_kind t with
    | KAt =>
      let! _ := advance in
      let! n := current in
      let! b := check [KEof; KRBrace; KRParen; KComma; KLBrace; KLParen] in
      if negb (pt_ws n) && negb b then fail else ret py_unit
    | KTag => parse_tag_value f
    | KLBrace => let! l := parse_object f in ret (PV None (PPObj l))
    | KLParen => let! l := parse_sequence f in ret (PV None (PPSeq l))
    | KScalar =>
      let! t := advance in
      let! n := current in
      if kind_eqb (pt_kind n) KGt && negb (pt_ws n) then
        let! m := look in
        if negb (pt_nl m) && negb (kind_eqb (pt_kind m) KEof) then
          (* 504-517, _parse_attributes_starting_with *)
          let! _ := expect KGt in
          let! v := parse_attribute_value f in
          let! l := parse_attributes f [(bare_key (pt_text t), v)] in
          ret (PV None (PPObj l))
        else ret (bare_key (pt_text t))
      else ret (bare_key (pt_text t))
    | _ => parse_scalar
    end
  end
(** parser.py 418-447, _parse_tag_value *)
with parse_tag_value (fuel : nat) : pm pyval :=
  match fuel with
  | O => fun _ => VFuel
  | S f =>
    let! t := advance in
    let tag := Some (pt_text t) in
    let! n := current in
    if negb (pt_ws n) then
      match pt_kind n with
      | KLBrace => let! l := parse_object f in ret (PV tag (PPObj l))
      | KLParen => let! l := parse_sequence f in ret (PV tag (PPSeq l))
      | KQuoted | KRaw | KHeredoc => let! v := parse_scalar in ret (PV tag (pv_payload v))
      | KAt => let! _ := advance in ret (PV tag PPNone)
      | KEof | KRBrace | KRParen | KComma => ret (PV tag PPNone)
      | _ => fail
      end
    else ret (PV tag PPNone)
  end
(** parser.py 402-416, _parse_attribute_value *)
with parse_attribute_value (fuel : nat) : pm pyval :=
  match fuel with
  | O => fun _ => VFuel
  | S f =>
    let! t := current in
    match pt_kind t with
    | KLBrace => let! l := parse_object f in ret (PV None (PPObj l))
    | KLParen => let! l := parse_sequence f in ret (PV None (PPSeq l))
    | KTag => parse_tag_value f
    | KAt => let! _ := advance in ret py_unit
    | _ => parse_scalar
    end
  end
(** parser.py 521-543, the loop over further attributes *)
with parse_attributes (fuel : nat) (acc : list pyentry) : pm (list pyentry) :=
  match fuel with
  | O => fun _ => VFuel
  | S f =>
    let! t := current in
    if kind_eqb (pt_kind t) KScalar && negb (pt_nl t) then
      let! n := look in
      if negb (kind_eqb (pt_kind n) KGt) || pt_ws n then ret acc
      else
        let! _ := advance in
        let! _ := advance in
        let! v := parse_attribute_value f in
        parse_attributes f (acc ++ [(bare_key (pt_text t), v)])
    else ret acc
  end
(** parser.py 571-591, _parse_object *)
with parse_object (fuel : nat) : pm (list pyentry) :=
  match fuel with
  | O => fun _ => VFuel
  | S f =>
    let! _ := expect KLBrace in
    let! l := parse_entries f [] [] in
    let! b := check [KEof] in
    if b then fail else let! _ := expect KRBrace in ret l
  end
(** parser.py 578-585, the loop over the entries *)
with parse_entries (fuel : nat) (seen : list str) (acc : list pyentry) : pm (list pyentry) :=
  match fuel with
  | O => fun _ => VFuel
  | S f =>
    let! b := check [KRBrace; KEof] in
    if b then ret acc
    else
      let! (e, seen') := parse_entry_dup f seen in
      let! b := check [KComma] in
      let acc' := match e with Some e => acc ++ [e] | None => acc end in
      if b then let! _ := advance in parse_entries f seen' acc' else parse_entries f seen' acc'
  end
(** parser.py 226-273, _parse_entry_with_dup_check, with 358-400, _expand_dotted_path *)
with parse_entry_dup (fuel : nat) (seen : list str) : pm (option pyentry * list str) :=
  match fuel with
  | O => fun _ => VFuel
  | S f =>
    let! _ := skip_commas f in
    let! b := check [KGt] in
    if b then fail else
    let! b := check [KEof; KRBrace] in
    if b then ret (None, seen) else
    let! key := parse_value f in
    if is_obj key then
      let! n := current in
      let! b := check [KEof; KRBrace; KComma] in
      if negb (pt_nl n) && negb b then let! _ := parse_value f in ret (Some (py_unit, key), seen) else ret (Some (py_unit, key), seen)
    else
    match path_key key with
    | Some text =>
      match split_dots [] text with
      | s0 :: segs =>
        if existsb (str_eqb []) (s0 :: segs) then fail
        else if mem s0 seen then fail
        else let! v := parse_value f in ret (Some (bare_key s0, nest segs v), s0 :: seen)
      | [] => fail
      end
    | None =>
      if match key_text key with Some t => mem t seen | None => false end then fail else
      let seen' := match key_text key with Some t => t :: seen | None => seen end in
      if negb (valid_key key) then fail else
      let! n := current in
      let! b := check [KEof; KRBrace] in
      if pt_nl n || b then ret (Some (key, py_unit), seen')
      else let! v := parse_value f in ret (Some (key, v), seen')
    end
  end
(** parser.py 593-612, _parse_sequence *)
with parse_sequence (fuel : nat) : pm (list pyval) :=
  match fuel with
  | O => fun _ => VFuel
  | S f =>
    let! _ := expect KLParen in
    let! l := parse_items f [] in
    let! b := check [KEof] in
    if b then fail else let! _ := expect KRParen in ret l
  end
(** parser.py 599-606, the loop over the items *)
with parse_items (fuel : nat) (acc : list pyval) : pm (list pyval) :=
  match fuel with
  | O => fun _ => VFuel
  | S f =>
    let! b := check [KRParen; KEof] in
    if b then ret acc
    else
      let! b := check [KComma] in
      if b then fail else let! v := parse_value f in parse_items f (acc ++ [v])
  end.

Definition lift {A} (o : option A) : pm A := match o with Some a => ret a | None => fail end.

(** parser.py 170-224, _parse_entry_with_path_check, with 300-356, _expand_dotted_path_with_state *)
Definition parse_entry_path (fuel : nat) (ps : pathst) : pm (option pyentry * pathst) :=
  let! _ := skip_commas fuel in
  let! b := check [KGt] in
  if b then fail else
  let! b := check [KEof; KRBrace] in
  if b then ret (None, ps) else
  let! key := parse_value fuel in
  if is_obj key then
    let! n := current in
    let! b := check [KEof; KRBrace; KComma] in
    if negb (pt_nl n) && negb b then let! _ := parse_value fuel in ret (Some (py_unit, key), ps) else ret (Some (py_unit, key), ps)
  else
  match path_key key with
  | Some text =>
    match split_dots [] text with
    | s0 :: segs =>
      if existsb (str_eqb []) (s0 :: segs) then fail
      else
        let! v := parse_value fuel in
        let! ps' := lift (check_and_update (s0 :: segs) (is_obj v) ps) in
        ret (Some (bare_key s0, nest segs v), ps')
    | [] => fail
    end
  | None =>
    if negb (valid_key key) then fail else
    let! n := current in
    let! b := check [KEof; KRBrace] in
    if pt_nl n || b then
      let! ps' := match key_text key with Some t => lift (check_and_update [t] false ps) | None => ret ps end in
      ret (Some (key, py_unit), ps')
    else
      let! v := parse_value fuel in
      let! ps' := match key_text key with Some t => lift (check_and_update [t] (is_obj v) ps) | None => ret ps end in
      ret (Some (key, v), ps')
  end.

(** parser.py 160-163, the loop over the entries of the document *)
Fixpoint parse_root (fuel : nat) (ps : pathst) (acc : list pyentry) : pm (list pyentry) :=
  match fuel with
  | O => fun _ => VFuel
  | S f =>
    let! b := check [KEof] in
    if b then ret acc
    else
      let! (e, ps') := parse_entry_path f ps in
      parse_root f ps' (match e with Some e => acc ++ [e] | None => acc end)
  end.
(** parser.py 119-168, parse *)
Definition parse_doc (fuel : nat) : pm (list pyentry) :=
  let! _ := skip_commas fuel in
  let! b := check [KLBrace] in
  if b then
    let! l := parse_object fuel in
    let! _ := skip_commas fuel in
    let! b := check [KEof] in
    if b then ret [(py_unit, PV None (PPObj l))] else let! _ := skip_all fuel in fail
  else parse_root fuel path_new [].
End parser.

(** parser.py 615-617, parse, with 84-88, __init__ *)
Definition py_parse (isupper : char -> bool) (int16 : str -> option Z) (fuel : nat) (src : str) : pout (list pyentry) :=
  match fetch isupper int16 src src with
  | VOk (t, r) =>
    match parse_doc isupper int16 src fuel (mkpst t None r) with VOk (l, _) => VOk l | VErr => VErr | VCrash => VCrash | VFuel => VFuel end
  | VErr => VErr | VCrash => VCrash | VFuel => VFuel
  end.
