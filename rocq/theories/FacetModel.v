(** Model of the adapter between the event parser and facet's deserializer:
    /repo/crates/facet-styx/src/parser.rs at the pinned commit.

    Simplifications. The events that [styx_parse::Parser] will return are given as a list (they are what
    [ParseSpec.parses] describes); an event with an error becomes [Err] as in 65-77. Text of errors is left
    out. [ReflectSpan::new(start, end - start)] (154-156) is kept as the span. [FieldLocationHint] and
    [ContainerKind] carry one value each here and are left out. The type of floating point numbers and
    [parse::<f64>] are parameters. [tag_has_payload_stack] is kept with its top first. *)
From Coq Require Import String.
From Verif Require Import Base TokModel LexModel ParseModel SchemaModel SerdeModel.

Section Facet.
Context {F : Type}.
Variable parse_f64 : str -> option F.

(** facet_format's [ScalarValue], as far as this file makes them. *)
Inductive fscalar := SStr (t : str) | SBool (b : bool) | SI64 (z : Z) | SU64 (z : Z) | SF64 (f : F) | SChar (c : char) | SUnit.

(** facet_format's [ParseEventKind]; a [FieldKey] is its tag, its name and its doc lines (335-354). *)
Inductive fkind :=
| FStructStart | FStructEnd | FSeqStart | FSeqEnd
| FKey (tag name : option str) (doc : list str)
| FScalar (v : fscalar)
| FTag (name : option str).

Record fevent := mkfe { fe_span : span; fe_kind : fkind }.

(** facet_format's [ScalarTypeHint]; [HOther] is every hint this file does not know (249-252). *)
Inductive hint :=
| HString | HBool | HI8 | HI16 | HI32 | HI64 | HI128 | HIsize | HU8 | HU16 | HU32 | HU64 | HU128 | HUsize
| HF32 | HF64 | HChar | HBytes | HOther.

(** 92-115, StyxParser without [saved_state]; [c_rest] is what [inner] will return. *)
Record core := mkc {
  c_rest : list event; c_queue : list fevent; c_span : option span; c_done : bool; c_doc : list str;
  c_root : bool; c_depth : nat; c_tags : list bool; c_hint : option hint }.

(** 119-132, new *)
Definition facet_new (evs : list event) : core := mkc evs [] None false [] true 0 [] None.
(** 138-151, new_expr *)
Definition facet_new_expr (evs : list event) : core := mkc evs [] None false [] false 0 [] None.

Definition set_rest r (c : core) := mkc r (c_queue c) (c_span c) (c_done c) (c_doc c) (c_root c) (c_depth c) (c_tags c) (c_hint c).
Definition set_queue q (c : core) := mkc (c_rest c) q (c_span c) (c_done c) (c_doc c) (c_root c) (c_depth c) (c_tags c) (c_hint c).
Definition set_span sp (c : core) := mkc (c_rest c) (c_queue c) (Some sp) (c_done c) (c_doc c) (c_root c) (c_depth c) (c_tags c) (c_hint c).
Definition set_done (c : core) := mkc (c_rest c) (c_queue c) (c_span c) true (c_doc c) (c_root c) (c_depth c) (c_tags c) (c_hint c).
Definition set_doc d (c : core) := mkc (c_rest c) (c_queue c) (c_span c) (c_done c) d (c_root c) (c_depth c) (c_tags c) (c_hint c).
Definition set_root b (c : core) := mkc (c_rest c) (c_queue c) (c_span c) (c_done c) (c_doc c) b (c_depth c) (c_tags c) (c_hint c).
Definition set_depth n (c : core) := mkc (c_rest c) (c_queue c) (c_span c) (c_done c) (c_doc c) (c_root c) n (c_tags c) (c_hint c).
Definition set_tags l (c : core) := mkc (c_rest c) (c_queue c) (c_span c) (c_done c) (c_doc c) (c_root c) (c_depth c) l (c_hint c).
Definition set_hint h (c : core) := mkc (c_rest c) (c_queue c) (c_span c) (c_done c) (c_doc c) (c_root c) (c_depth c) (c_tags c) h.

(** 159-162, span_text; slicing can panic *)
Definition span_text (src : str) (sp : span) : res str := of_opt (slice src (sp_start sp) (sp_end sp)).

(** 165-174, event_span and event *)
Definition event_of (c : core) (k : fkind) : fevent :=
  mkfe (match c_span c with Some sp => sp | None => mkspan 0 0 end) k.

(** 177-181 *)
Definition mark_payload (c : core) : core :=
  set_tags (match c_tags c with _ :: r => true :: r | [] => [] end) c.

(** 188-254, parse_scalar, for the hint that was there *)
Definition parse_scalar (h : option hint) (t : str) : fscalar :=
  match h with
  | Some HBool => if str_eqb t (lit "true") then SBool true else if str_eqb t (lit "false") then SBool false else SStr t
  | Some (HI8 | HI16 | HI32 | HI64 | HI128 | HIsize) => match parse_i64 t with Some z => SI64 z | None => SStr t end
  | Some (HU8 | HU16 | HU32 | HU64 | HU128 | HUsize) => match parse_u64 t with Some z => SU64 z | None => SStr t end
  | Some (HF32 | HF64) => match parse_f64 t with Some f => SF64 f | None => SStr t end
  | Some HChar => match t with [x] => SChar x | _ => SStr t end
  | Some (HString | HBytes | HOther) | None => SStr t
  end.

(** 70-74: the place of the error, if the event is one *)
Definition inner_error (e : event) : option span := match ev_kind e with EvError _ => Some (ev_span e) | _ => None end.

(** 451-528, skip_schema_value, on the events left: what is left, and the place of an error. *)
Fixpoint skip_schema (depth : Z) (evs : list event) : list event * option span :=
  match evs with
  | [] => ([], None)
  | e :: r =>
    match ev_kind e with
    | EvError _ => (r, Some (ev_span e))
    | EvObjStart | EvSeqStart => skip_schema (depth + 1) r
    | EvObjEnd | EvSeqEnd => if (depth - 1 <=? 0)%Z then (r, None) else skip_schema (depth - 1) r
    | EvScalar _ _ | EvUnit => if (depth =? 0)%Z then (r, None) else skip_schema depth r
    | EvEntryEnd => if (depth =? 0)%Z then (r, None) else skip_schema depth r
    | _ => skip_schema depth r
    end
  end.

(** [self.depth -= 1] on a [usize] panics at zero (in a debug build). *)
Definition dec_depth (c : core) : res core :=
  match c_depth c with O => Panic | S n => Ok (set_depth n c) end.

(** [Result<Option<ParseEvent>, ParseError>] *)
Inductive answer := AEvent (e : fevent) | ANone | AErr (sp : span).

(** 259-448, convert_event; [ANone] is [Ok(None)], the event is skipped *)
Definition convert_event (src : str) (ev : event) (c : core) : res (core * answer) :=
  let sp := ev_span ev in
  match ev_kind ev with
  (** 262-278 *)
  | EvDocStart | EvDocEnd => Ok (c, ANone)
  (** 280-287 *)
  | EvObjStart =>
    let c := mark_payload (set_depth (S (c_depth c)) (set_span sp c)) in Ok (c, AEvent (event_of c FStructStart))
  (** 289-296 *)
  | EvObjEnd =>
    do c <- dec_depth (set_span sp c);
    let c := if c_depth c =? 0 then set_root false c else c in Ok (c, AEvent (event_of c FStructEnd))
  (** 298-305 *)
  | EvSeqStart =>
    let c := mark_payload (set_depth (S (c_depth c)) (set_span sp c)) in Ok (c, AEvent (event_of c FSeqStart))
  (** 307-311 *)
  | EvSeqEnd => do c <- dec_depth (set_span sp c); Ok (c, AEvent (event_of c FSeqEnd))
  (** 313-316 *)
  | EvEntryStart | EvEntryEnd => Ok (c, ANone)
  (** 318-358 *)
  | EvKey tag payload _ =>
    let c := set_span sp c in
    if c_root c && (c_depth c =? 1) && (match tag with Some t => str_eqb t (lit "schema") | None => false end)
    then match skip_schema 0 (c_rest c) with
         | (r, None) => Ok (set_doc [] (set_rest r c), ANone)
         | (r, Some e) => Ok (set_rest r c, AErr e)
         end
    else let doc := c_doc c in let c := set_doc [] c in Ok (c, AEvent (event_of c (FKey tag payload doc)))
  (** 360-381; the kind found from the text is not used *)
  | EvScalar v _ =>
    let c := set_span sp c in
    do _ <- span_text src sp;
    let s := parse_scalar (c_hint c) v in
    let c := mark_payload (set_hint None c) in Ok (c, AEvent (event_of c (FScalar s)))
  (** 383-402 *)
  | EvUnit =>
    let c := mark_payload (set_span sp c) in
    do t <- span_text src sp;
    if str_eqb t [cAT] && (match c_tags c with [] => true | _ => false end)
    then Ok (set_queue (c_queue c ++ [event_of c (FScalar SUnit)]) c, AEvent (event_of c (FTag None)))
    else Ok (c, AEvent (event_of c (FScalar SUnit)))
  (** 404-413 *)
  | EvTagStart name =>
    let c := mark_payload (set_span sp c) in
    let tag := match name with [] => None | _ => Some name end in
    let c := set_tags (false :: c_tags c) c in Ok (c, AEvent (event_of c (FTag tag)))
  (** 415-426 *)
  | EvTagEnd =>
    match c_tags c with
    | had :: r => let c := set_tags r c in Ok (c, if had then ANone else AEvent (event_of c (FScalar SUnit)))
    | [] => Ok (c, ANone)
    end
  (** 428-431 *)
  | EvComment _ => Ok (c, ANone)
  (** 433-441 *)
  | EvDoc lines => Ok (set_doc (c_doc c ++ lines) (set_span sp c), ANone)
  (** 443-446, unreachable! *)
  | EvError _ => Panic
  end.

(** 546-561, the loop of next_event *)
Fixpoint next_loop (fuel : nat) (src : str) (c : core) : res (core * answer) :=
  match fuel with
  | O => OutOfFuel
  | S f =>
    match c_rest c with
    | [] => Ok (set_done c, ANone)
    | e :: r =>
      let c := set_rest r c in
      match inner_error e with
      | Some sp => Ok (c, AErr sp)
      | None =>
        do (c, a) <- convert_event src e c;
        match a with ANone => next_loop f src c | _ => Ok (c, a) end
      end
    end
  end.

(** 532-562, next_event; here [ANone] is the end *)
Definition next_event (src : str) (c : core) : res (core * answer) :=
  match c_queue c with
  | e :: q => Ok (set_queue q c, AEvent e)
  | [] => if c_done c then Ok (c, ANone) else next_loop (S (length (c_rest c))) src c
  end.

(** 564-572, peek_event *)
Definition peek_event (src : str) (c : core) : res (core * answer) :=
  match c_queue c with
  | e :: _ => Ok (c, AEvent e)
  | [] =>
    do (c, a) <- next_event src c;
    match a with
    | AEvent e => let c := set_queue (e :: c_queue c) c in Ok (c, AEvent e)
    | ANone => Ok (c, match c_queue c with e :: _ => AEvent e | [] => ANone end)
    | AErr sp => Ok (c, AErr sp)
    end
  end.

(** 574-612, skip_value *)
Fixpoint skip_loop (fuel : nat) (src : str) (depth : Z) (c : core) : res (core * option span) :=
  match fuel with
  | O => OutOfFuel
  | S f =>
    do (c, a) <- next_event src c;
    match a with
    | AErr sp => Ok (c, Some sp)
    | ANone => Ok (c, None)
    | AEvent e =>
      match fe_kind e with
      | FStructStart | FSeqStart => skip_loop f src (depth + 1) c
      | FStructEnd | FSeqEnd => if (depth =? 0)%Z then Ok (c, None) else if (depth - 1 =? 0)%Z then Ok (c, None) else skip_loop f src (depth - 1) c
      | FScalar _ => if (depth =? 0)%Z then Ok (c, None) else skip_loop f src depth c
      | FTag _ | FKey _ _ _ => skip_loop f src depth c
      end
    end
  end.
Definition skip_value (src : str) (c : core) : res (core * option span) :=
  skip_loop (1 + length (c_queue c) + 2 * length (c_rest c)) src 0 c.

(** ** The parser with its saved state *)
Record facet := mkfacet { f_core : core; f_saved : option core }.

(** 614-620; the clone's [saved_state] is [None] *)
Definition save (p : facet) : facet := mkfacet (f_core p) (Some (f_core p)).
(** 622-626 *)
Definition restore (p : facet) : facet := match f_saved p with Some c => mkfacet c None | None => p end.
(** 641-643 *)
Definition hint_scalar_type (h : hint) (p : facet) : facet := mkfacet (set_hint (Some h) (f_core p)) (f_saved p).

End Facet.
Arguments SStr {F}. Arguments SBool {F}. Arguments SI64 {F}. Arguments SU64 {F}. Arguments SChar {F}. Arguments SUnit {F}.
Arguments FStructStart {F}. Arguments FStructEnd {F}. Arguments FSeqStart {F}. Arguments FSeqEnd {F}. Arguments FKey {F}. Arguments FTag {F}.
Arguments fscalar : clear implicits. Arguments fkind : clear implicits. Arguments fevent : clear implicits. Arguments core : clear implicits. Arguments answer : clear implicits. Arguments facet : clear implicits.
