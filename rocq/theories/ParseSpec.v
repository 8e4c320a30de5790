(** Specification vocabulary for event streams. Nothing here mentions the parser's helpers. *)
From Verif Require Import Base TokModel LexModel LexSpec ParseModel.

(** ** Nesting *)

Inductive frame := FObj | FSeq | FEntry | FTag.

(** A consumer with a stack: opening events push, closing events must find their frame on top. *)
Fixpoint nest (st : list frame) (evs : list event) : option (list frame) :=
  match evs with
  | [] => Some st
  | e :: r =>
    match ev_kind e, st with
    | EvObjStart, _ => nest (FObj :: st) r
    | EvSeqStart, _ => nest (FSeq :: st) r
    | EvEntryStart, _ => nest (FEntry :: st) r
    | EvTagStart _, _ => nest (FTag :: st) r
    | EvObjEnd, FObj :: st' => nest st' r
    | EvSeqEnd, FSeq :: st' => nest st' r
    | EvEntryEnd, FEntry :: st' => nest st' r
    | EvTagEnd, FTag :: st' => nest st' r
    | EvObjEnd, _ | EvSeqEnd, _ | EvEntryEnd, _ | EvTagEnd, _ => None
    | _, _ => nest st r
    end
  end.

Definition balanced (evs : list event) : Prop := nest [] evs = Some [].

(** ** Spans *)

Definition span_in (n : nat) (sp : span) : Prop := sp_start sp <= sp_end sp /\ sp_end sp <= n.
Definition spans_in (n : nat) (evs : list event) : Prop := Forall (fun e => span_in n (ev_span e)) evs.

(** ** Duplicate keys *)

(** [(k, o)] is the first pair with key [k]. *)
Definition first_at {K} (ks : list (K * span)) (k : K) (o : span) : Prop :=
  exists a b, ks = a ++ (k, o) :: b /\ forall o', ~ In (k, o') a.

(** [ds] lists the keys that occurred before, each with the place of the first occurrence. *)
Fixpoint dups_spec {K} (prev ks : list (K * span)) (ds : list (span * span)) : Prop :=
  match ks with
  | [] => ds = []
  | (k, s) :: r =>
    (exists o ds', first_at prev k o /\ ds = (o, s) :: ds' /\ dups_spec (prev ++ [(k, s)]) r ds') \/
    ((forall o, ~ In (k, o) prev) /\ dups_spec (prev ++ [(k, s)]) r ds)
  end.

(** ** Text *)

(** A backslash followed by [u] somewhere. *)
Definition has_bsl_u (s : str) : Prop := exists a b, s = a ++ cBSL :: cu :: b.

(** The escapes of a lexeme are beyond doubt: neither a text that the lexer refuses nor the decoded text of a
    quoted scalar has a backslash followed by [u] in it. *)
Definition clear_escape (src : str) (l : lexeme) : Prop :=
  match l with
  | LxError sp _ => forall t, slice src (sp_start sp) (sp_end sp) = Some t -> ~ has_bsl_u t
  | LxScalar _ v Quoted => ~ has_bsl_u v
  | _ => True
  end.

Definition clear_escapes (src : str) : Prop := forall ls, lexemes src = Ok ls -> Forall (clear_escape src) ls.

(** ** Running the parser *)

(** All events of a source: the lexer and then [next_event] until it answers [None]. *)
Definition parses (src : str) (evs : list event) : Prop :=
  exists ls fuel, lexemes src = Ok ls /\ events_from fuel (parser_new src ls) = Ok evs.

(** Calling [next_event] again and again: the events returned and the parser afterwards. *)
Inductive calls : parser -> list event -> parser -> Prop :=
| calls_nil p : calls p [] p
| calls_cons p e p1 l p2 : next_event p = Ok (Some e, p1) -> calls p1 l p2 -> calls p (e :: l) p2.

(** The next [m] calls all return [None]. *)
Fixpoint silent (m : nat) (p : parser) : Prop :=
  match m with
  | O => True
  | S k => exists p', next_event p = Ok (None, p') /\ silent k p'
  end.

(** ** Document frame *)

Definition doc_event (e : event) : Prop := ev_kind e = EvDocStart \/ ev_kind e = EvDocEnd.
Definition trailing_event (e : event) : Prop := ev_kind e = EvError ETrailing.

(** An object opened directly inside another one, not as the value of an entry. *)
Definition object_in_object (evs : list event) : Prop :=
  exists a sp b, evs = a ++ mkev sp EvObjStart :: b /\ nest [] a = Some [FObj].

(** ** Duplicate keys, observed in the events *)

(** What a key event says: tag and text. *)
Definition ekey := (option str * option str)%type.
(** The key of an entry, if a key event was seen, with the kind of its text. *)
Definition okey := option (ekey * skind).

(** An observer's stack. [DObj]: an object, whether written with braces, the keys of its entries so far,
    the duplicates reported so far (first occurrence, repetition). [DEntry]: an entry, its place, its key,
    and whether it turned out to be the head of a dotted path. *)
Inductive dframe :=
| DObj (braced : bool) (keys : list (okey * span)) (dups : list (span * span))
| DEntry (sp : span) (key : okey) (path : bool)
| DOther.

Definition report := (list (okey * span) * list (span * span))%type.

(** The source has an opening brace where the span starts. *)
Definition at_brace (src : str) (sp : span) : bool :=
  (sp_start sp <? sp_end sp) &&
  match slice src (sp_start sp) (sp_start sp + 1) with Some [c] => (c =? cLB)%N | _ => false end.

Definition same_span (a b : span) : bool := (sp_start a =? sp_start b) && (sp_end a =? sp_end b).

(** One event. An object without braces at the place of its entry belongs to a dotted path ([a.b 1] opens
    an object at the place of [a]); such an entry is not counted. When an object with braces ends, its
    keys and the reported duplicates are handed out. *)
Definition dstep (src : str) (st : list dframe) (e : event) : list dframe * list report :=
  let sp := ev_span e in
  match ev_kind e, st with
  | EvObjStart, DEntry esp k p :: r =>
    if negb (at_brace src sp) && same_span sp esp then (DObj false [] [] :: DEntry esp k true :: r, [])
    else (DObj (at_brace src sp) [] [] :: st, [])
  | EvObjStart, _ => (DObj (at_brace src sp) [] [] :: st, [])
  | EvSeqStart, _ | EvTagStart _, _ => (DOther :: st, [])
  | EvEntryStart, _ => (DEntry sp None false :: st, [])
  | EvKey t p k, DEntry esp _ b :: r => (DEntry esp (Some ((t, p), k)) b :: r, [])
  | EvError (EDuplicateKey o), DObj b ks ds :: r => (DObj b ks (ds ++ [(o, sp)]) :: r, [])
  | EvEntryEnd, DEntry esp k path :: DObj b ks ds :: r => (DObj b (if path then ks else ks ++ [(k, esp)]) ds :: r, [])
  | EvObjEnd, DObj b ks ds :: r => (r, if b then [(ks, ds)] else [])
  | EvSeqEnd, DOther :: r | EvTagEnd, DOther :: r => (r, [])
  | _, _ => (st, [])
  end.

Fixpoint drun (src : str) (st : list dframe) (evs : list event) : list dframe * list report :=
  match evs with
  | [] => (st, [])
  | e :: r => let (st1, r1) := dstep src st e in let (st2, r2) := drun src st1 r in (st2, r1 ++ r2)
  end.

(** The objects written with braces, in the order of their ends. *)
Definition brace_objects (src : str) (evs : list event) : list report := snd (drun src [] evs).

(** A key that is text, [@], or a tag with text; quoted text must have a decoding. *)
Definition plain_key (src : str) (k : ekey * skind) (sp : span) : Prop :=
  match k with
  | ((None, Some v), Quoted) => exists a, slice src (sp_start sp) (sp_end sp) = Some (cDQ :: a ++ [cDQ]) /\ decodes a v
  | ((Some _, None), _) => False
  | _ => True
  end.

(** If all keys are plain, the reported duplicates are the repeated keys, each with its first occurrence. *)
Definition report_ok (src : str) (r : report) : Prop :=
  forall ks, fst r = map (fun x => (Some (fst x), snd x)) ks -> Forall (fun x => plain_key src (fst x) (snd x)) ks ->
  dups_spec [] (map (fun x : ekey * skind * span => (fst (fst x), snd x)) ks) (snd r).
