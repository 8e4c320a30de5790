(** Model of crates/styx-tree/src/value.rs (values, objects, path lookup), builder.rs and lib.rs (parse). *)
From Verif Require Export ParseModel.

(** value.rs 16-98: Value, Tag, Payload, Scalar, Sequence, Object, Entry.
    [payload: None] is the constructor [PNone]; a tag is its name with its span. *)
Inductive value := Val (tag : option (str * option span)) (p : payload) (sp : option span)
with payload :=
| PNone
| PScalar (text : str) (k : skind) (sp : option span)
| PSeq (items : list value) (sp : option span)
| PObj (entries : list entry) (sp : option span)
with entry := Ent (key val : value) (doc : option str).

Definition v_tag (v : value) := let 'Val t _ _ := v in t.
Definition v_payload (v : value) := let 'Val _ p _ := v in p.
Definition v_span (v : value) := let 'Val _ _ s := v in s.
Definition e_key (e : entry) := let 'Ent k _ _ := e in k.
Definition e_val (e : entry) := let 'Ent _ v _ := e in v.
Definition e_doc (e : entry) := let 'Ent _ _ d := e in d.

(** value.rs 102-108, unit *)
Definition unit_value : value := Val None PNone None.
(** value.rs 111-121, scalar *)
Definition scalar_value (t : str) : value := Val None (PScalar t Bare None) None.

(** value.rs 186-188, is_unit *)
Definition is_unit (v : value) : bool := match v with Val None PNone _ => true | _ => false end.

(** value.rs 201-209, as_str *)
Definition as_str (v : value) : option str := match v with Val None (PScalar t _ _) _ => Some t | _ => None end.

Definition key_is (k : str) (e : entry) : bool := match as_str (e_key e) with Some s => str_eqb s k | None => false end.

(** [iter().find(p).map(value)] *)
Fixpoint find_val (p : entry -> bool) (es : list entry) : option value :=
  match es with [] => None | e :: r => if p e then Some (e_val e) else find_val p r end.

(** [iter_mut().find(p).map(value)]: the value found and how to write a new one into its place *)
Fixpoint find_mut (p : entry -> bool) (es : list entry) : option (value * (value -> list entry)) :=
  match es with
  | [] => None
  | e :: r =>
    if p e then Some (e_val e, fun x => Ent (e_key e) x (e_doc e) :: r)
    else match find_mut p r with Some (v, put) => Some (v, fun x => e :: put x) | None => None end
  end.

(** value.rs 330-335 and 346-351, Object::get, get_unit *)
Definition obj_get (k : str) (es : list entry) : option value := find_val (key_is k) es.
Definition obj_get_unit (es : list entry) : option value := find_val (fun e => is_unit (e_key e)) es.

(** value.rs 367-374, contains_key, contains_unit_key *)
Definition contains_key (k : str) (es : list entry) : bool := existsb (key_is k) es.
Definition contains_unit_key (es : list entry) : bool := existsb (fun e => is_unit (e_key e)) es.

(** value.rs 387-404, insert; 407-417, insert_unit *)
Definition insert (k : str) (v : value) (es : list entry) : list entry :=
  match find_mut (key_is k) es with
  | Some (_, put) => put v
  | None => es ++ [Ent (scalar_value k) v None]
  end.
Definition insert_unit (v : value) (es : list entry) : list entry :=
  match find_mut (fun e => is_unit (e_key e)) es with
  | Some (_, put) => put v
  | None => es ++ [Ent unit_value v None]
  end.

(** value.rs 422-429, Sequence::get_mut *)
Fixpoint nth_mut (n : nat) (l : list value) : option (value * (value -> list value)) :=
  match l, n with
  | [], _ => None
  | v :: r, O => Some (v, fun x => x :: r)
  | v :: r, S m => match nth_mut m r with Some (w, put) => Some (w, fun x => v :: put x) | None => None end
  end.

(** [path.find(c)] and the slices before and after it *)
Fixpoint cut_at (c : char) (s : str) : option (str * str) :=
  match s with
  | [] => None
  | x :: r => if (x =? c)%N then Some ([], r)
              else match cut_at c r with Some (a, b) => Some (x :: a, b) | None => None end
  end.

Definition cLSQ : char := 91%N.
Definition cRSQ : char := 93%N.

(** value.rs 456-480 and lib.rs 63-84, split_path. All slices are at positions of ASCII characters. *)
Definition split_plain (path : str) : str * str :=
  match cut_at cDOT path, cut_at cLSQ path with
  | Some (a, b), Some (a', b') => if length a' <? length a then (a', cLSQ :: b') else (a, b)
  | Some (a, b), None => (a, b)
  | None, Some (a', b') => (a', cLSQ :: b')
  | None, None => (path, [])
  end.
Definition split_path (path : str) : str * str :=
  match path with
  | c :: _ =>
    if (c =? cLSQ)%N then
      match cut_at cRSQ path with
      | Some (a, b) => (a ++ [cRSQ], match b with d :: r => if (d =? cDOT)%N then r else b | [] => b end)
      | None => split_plain path
      end
    else split_plain path
  | [] => split_plain path
  end.

(** [str::parse::<usize>] on a 64 bit machine: optional [+], at least one digit, no overflow *)
Fixpoint dec_value (acc : N) (s : str) : option N :=
  match s with
  | [] => Some acc
  | c :: r =>
    if is_digit c then
      let v := (acc * 10 + (c - 48))%N in if (v <? 18446744073709551616)%N then dec_value v r else None
    else None
  end.
Definition parse_usize (s : str) : option nat :=
  match s with
  | [] => None
  | c :: r => option_map N.to_nat (if (c =? 43)%N then (match r with [] => None | _ => dec_value 0 r end) else dec_value 0 s)
  end.

(** The index in [[n]]; value.rs 278-279, 311-312: [segment] starts with [[] and ends with []].
    [segment] "[" does both tests' first half only. *)
Definition seg_index (segment : str) : option nat :=
  match segment with
  | c :: r =>
    match rev r with
    | d :: m => if (c =? cLSQ)%N && (d =? cRSQ)%N then parse_usize (rev m) else None
    | [] => None
    end
  | [] => None
  end.

(** value.rs 256-289, Value::get. [fuel]: the path gets shorter with every step. *)
Fixpoint get_fuel (fuel : nat) (v : value) (path : str) : option value :=
  match path with
  | [] => Some v
  | _ =>
    match fuel with
    | O => None
    | S f =>
      let (segment, rest) := split_path path in
      match v_payload v with
      | PObj es _ =>
        match obj_get segment es with
        | Some w => match rest with [] => Some w | _ => get_fuel f w rest end
        | None => None
        end
      | PSeq items _ =>
        match seg_index segment with
        | Some i =>
          match nth_error items i with
          | Some w => match rest with [] => Some w | _ => get_fuel f w rest end
          | None => None
          end
        | None => None
        end
      | _ => None
      end
    end
  end.
Definition value_get (v : value) (path : str) : option value := get_fuel (length path) v path.

(** value.rs 292-323, get_mut: the value found and how to write a new one into its place. *)
Fixpoint get_mut_fuel (fuel : nat) (v : value) (path : str) : option (value * (value -> value)) :=
  match path with
  | [] => Some (v, fun x => x)
  | _ =>
    match fuel with
    | O => None
    | S f =>
      let (segment, rest) := split_path path in
      let 'Val t p sp := v in
      match p with
      | PObj es osp =>
        match find_mut (key_is segment) es with
        | Some (w, put) =>
          let here x := Val t (PObj (put x) osp) sp in
          match rest with
          | [] => Some (w, here)
          | _ => match get_mut_fuel f w rest with Some (u, put') => Some (u, fun x => here (put' x)) | None => None end
          end
        | None => None
        end
      | PSeq items ssp =>
        match seg_index segment with
        | Some i =>
          match nth_mut i items with
          | Some (w, put) =>
            let here x := Val t (PSeq (put x) ssp) sp in
            match rest with
            | [] => Some (w, here)
            | _ => match get_mut_fuel f w rest with Some (u, put') => Some (u, fun x => here (put' x)) | None => None end
            end
          | None => None
          end
        | None => None
        end
      | _ => None
      end
    end
  end.
Definition value_get_mut (v : value) (path : str) := get_mut_fuel (length path) v path.

(** lib.rs 49-61, Document::get; [es] are the entries of the root object *)
Definition doc_get (es : list entry) (path : str) : option value :=
  match path with
  | [] => None
  | _ =>
    let (segment, rest) := split_path path in
    match obj_get segment es with
    | Some w => match rest with [] => Some w | _ => value_get w rest end
    | None => None
    end
  end.

(** ** The builder *)

(** builder.rs 57-75, BuilderFrame *)
Inductive frame :=
| FObj (entries : list entry) (sp : span) (pend : option str)
| FSeq (items : list value) (sp : span)
| FTag (name : str) (sp : span)
| FEntry (key : option value) (doc : option str).

(** builder.rs 50-55, TreeBuilder; the top of the stack comes first *)
Record bstate := mkb { b_stack : list frame; b_root : list entry; b_doc : option str; b_errs : list (errkind * span) }.

(** builder.rs 79-86, new *)
Definition builder_new : bstate := mkb [] [] None [].

(** Adding a complete entry to the parent frame; builder.rs 133-150, 377-394, 426-441, 479-494 *)
Definition add_entry (e : entry) (stack : list frame) (root : list entry) : list frame * list entry :=
  match stack with
  | FObj es sp pd :: r => (FObj (es ++ [e]) sp pd :: r, root)
  | _ => (stack, root ++ [e])
  end.

(** builder.rs 109-196, push_value. The events Scalar, Unit and TagEnd first test for an entry frame with a
    key (369-404, 419-447, 471-501); they do the same as 128-160 here. *)
Fixpoint push_value (stack : list frame) (root : list entry) (pdoc : option str) (v : value)
  : list frame * list entry * option str :=
  match stack with
  | FTag n sp :: r => push_value r root pdoc (Val (Some (n, Some sp)) (v_payload v) (v_span v))
  | FEntry (Some k) doc :: r =>
    let (r', root') := add_entry (Ent k v doc) r root in (FEntry None None :: r', root', pdoc)
  | FObj es sp pd :: r => (FObj (es ++ [Ent unit_value v pd]) sp None :: r, root, pdoc)
  | FSeq items sp :: r => (FSeq (items ++ [v]) sp :: r, root, pdoc)
  | FEntry None doc :: r => (FEntry (Some v) doc :: r, root, pdoc)
  | [] => ([], root ++ [Ent unit_value v pdoc], None)
  end.

(** builder.rs 546-556, append_doc_comment *)
Definition append_doc (t : option str) (line : str) : option str :=
  match t with Some x => Some (x ++ cLF :: line) | None => Some line end.

(** builder.rs 309-322, 327-339: an entry that ends with a key and without a value *)
Definition end_key (key : value) (doc : option str) (es : list entry) : list entry :=
  match rev es with
  | Ent k v None :: r => if is_unit k then rev r ++ [Ent key v doc] else es ++ [Ent key unit_value doc]
  | _ => es ++ [Ent key unit_value doc]
  end.

Definition pushed (b : bstate) (v : value) : bstate :=
  let '(s, r, d) := push_value (b_stack b) (b_root b) (b_doc b) v in mkb s r d (b_errs b).

(** builder.rs 207-534, event *)
Definition build_event (b : bstate) (e : event) : bstate :=
  let sp := ev_span e in
  let '(mkb stack root pdoc errs) := b in
  match ev_kind e with
  | EvDocStart | EvDocEnd | EvComment _ => b
  | EvObjStart => mkb (FObj [] sp None :: stack) root pdoc errs
  | EvObjEnd =>
    match stack with
    | FObj es ssp _ :: r =>
      match r with
      | [] => mkb [] es pdoc errs
      | _ => let s := Some (mkspan (sp_start ssp) (sp_end sp)) in pushed (mkb r root pdoc errs) (Val None (PObj es s) s)
      end
    | _ :: r => mkb r root pdoc errs
    | [] => b
    end
  | EvSeqStart => mkb (FSeq [] sp :: stack) root pdoc errs
  | EvSeqEnd =>
    match stack with
    | FSeq items ssp :: r =>
      let s := Some (mkspan (sp_start ssp) (sp_end sp)) in pushed (mkb r root pdoc errs) (Val None (PSeq items s) s)
    | _ :: r => mkb r root pdoc errs
    | [] => b
    end
  | EvEntryStart =>
    match stack with
    | FObj es osp pd :: r => mkb (FEntry None pd :: FObj es osp None :: r) root pdoc errs
    | _ => mkb (FEntry None pdoc :: stack) root None errs
    end
  | EvEntryEnd =>
    match stack with
    | FEntry (Some k) doc :: r =>
      match r with
      | FObj es osp pd :: r' => mkb (FObj (end_key k doc es) osp pd :: r') root pdoc errs
      | _ => mkb r (end_key k doc root) pdoc errs
      end
    | _ :: r => mkb r root pdoc errs
    | [] => b
    end
  | EvKey tag pl k =>
    match stack with
    | FEntry _ doc :: r =>
      let key := Val (option_map (fun n => (n, Some sp)) tag)
                     (match pl with Some t => PScalar t k (Some sp) | None => PNone end) (Some sp) in
      mkb (FEntry (Some key) doc :: r) root pdoc errs
    | _ => b
    end
  | EvScalar t k => pushed b (Val None (PScalar t k (Some sp)) (Some sp))
  | EvUnit => pushed b (Val None PNone (Some sp))
  | EvTagStart n => mkb (FTag n sp :: stack) root pdoc errs
  | EvTagEnd =>
    match stack with
    | FTag n tsp :: r => pushed (mkb r root pdoc errs) (Val (Some (n, Some tsp)) PNone (Some tsp))
    | _ => b
    end
  | EvDoc lines =>
    let c := join [cLF] lines in
    match stack with
    | FObj es osp pd :: r => mkb (FObj es osp (append_doc pd c) :: r) root pdoc errs
    | _ => mkb stack root (append_doc pdoc c) errs
    end
  | EvError k => mkb stack root pdoc (errs ++ [(k, sp)])
  end.

Inductive build_error := BUnclosed | BParse (k : errkind) (sp : span).

(** builder.rs 89-106, finish *)
Definition build_finish (b : bstate) : value + build_error :=
  match b_errs b with
  | (k, sp) :: _ => inr (BParse k sp)
  | [] => match b_stack b with
          | [] => inl (Val None (PObj (b_root b) None) None)
          | _ => inr BUnclosed
          end
  end.

Definition build (evs : list event) : value + build_error := build_finish (fold_left build_event evs builder_new).
