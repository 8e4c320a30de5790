(** Model of the C bindings: /repo/crates/styx-ffi/src/lib.rs at the pinned commit.

    Simplifications. A pointer is an [option]; [None] is the null pointer. Pointers into a document are what they point to: the documents
    are never changed. Freeing (126-141) and wrong use of pointers are left out. Texts that are no UTF-8 (78-86, 176, 308, 350) are left out.
    Of errors only their presence is kept. *)
From Verif Require Import Base TokModel LexModel ParseModel TreeModel.

Definition cNUL : char := 0%N.
(** [CStr::from_ptr]: what stands in front of the first NUL *)
Fixpoint c_text (mem : str) : str :=
  match mem with
  | [] => []
  | c :: r => if N.eqb c cNUL then [] else c :: c_text r
  end.
(** [CString::new(..).map(into_raw).unwrap_or(null_mut())]: a text with a NUL gives the null pointer *)
Definition c_string (s : str) : option str := if existsb (N.eqb cNUL) s then None else Some s.

(** 69-107, styx_parse, with lib.rs 37-48 of styx-tree; [Ok None] is an error *)
Definition styx_parse (fuel : nat) (source : option str) : res (option (list entry)) :=
  match source with
  | None => Ok None
  | Some mem =>
    let src := c_text mem in
    do ls <- lexemes src;
    do evs <- events_from fuel (parser_new src ls);
    match build evs with
    | inl v => match v_payload v with PObj es _ => Ok (Some es) | _ => Ok None end
    | inr _ => Ok None
    end
  end.
(** 153-159, styx_document_root *)
Definition document_root (doc : option (list entry)) : option (list entry) := doc.
(** 168-184, styx_document_get *)
Definition document_get (doc : option (list entry)) (path : option str) : option value :=
  match doc, path with Some es, Some mem => doc_get es (c_text mem) | _, _ => None end.

(** 46-55, StyxPayloadKind *)
Inductive kind := KNone | KScalar | KSequence | KObject.
(** 195-206, styx_value_payload_kind *)
Definition value_payload_kind (v : option value) : kind :=
  match v with
  | None => KNone
  | Some w => match v_payload w with PNone => KNone | PScalar _ _ _ => KScalar | PSeq _ _ => KSequence | PObj _ _ => KObject end
  end.
(** 213-219, styx_value_is_unit *)
Definition value_is_unit (v : option value) : bool := match v with None => false | Some w => is_unit w end.
(** 227-238, styx_value_tag *)
Definition value_tag (v : option value) : option str :=
  match v with Some (Val (Some (n, _)) _ _) => c_string n | _ => None end.
(** 246-257, styx_value_scalar; value.rs 209-214, scalar_text *)
Definition value_scalar (v : option value) : option str :=
  match v with Some (Val _ (PScalar t _ _) _) => c_string t | _ => None end.
(** 265-274, styx_value_as_object *)
Definition value_as_object (v : option value) : option (list entry) := match v with Some (Val _ (PObj es _) _) => Some es | _ => None end.
(** 282-291, styx_value_as_sequence *)
Definition value_as_sequence (v : option value) : option (list value) := match v with Some (Val _ (PSeq l _) _) => Some l | _ => None end.
(** 300-316, styx_value_get *)
Definition styx_value_get (v : option value) (path : option str) : option value :=
  match v, path with Some w, Some mem => value_get w (c_text mem) | _, _ => None end.

(** 327-333, styx_object_len *)
Definition object_len (o : option (list entry)) : nat := match o with None => 0 | Some es => length es end.
(** 342-358, styx_object_get *)
Definition object_get (o : option (list entry)) (key : option str) : option value :=
  match o, key with Some es, Some mem => obj_get (c_text mem) es | _, _ => None end.
(** 367-379, styx_object_key_at *)
Definition object_key_at (o : option (list entry)) (i : nat) : option value := match o with None => None | Some es => option_map e_key (nth_error es i) end.
(** 388-400, styx_object_value_at *)
Definition object_value_at (o : option (list entry)) (i : nat) : option value := match o with None => None | Some es => option_map e_val (nth_error es i) end.
(** 411-417, styx_sequence_len *)
Definition sequence_len (s : option (list value)) : nat := match s with None => 0 | Some l => length l end.
(** 426-438, styx_sequence_get *)
Definition sequence_get (s : option (list value)) (i : nat) : option value := match s with None => None | Some l => nth_error l i end.
