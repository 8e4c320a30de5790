(** Model of the JavaScript bindings: /repo/crates/styx-wasm/src/lib.rs at the pinned commit.

    Simplifications. The conversion of results to JavaScript values (13-17) and the texts of messages (178-213) are left out. Floats are
    a type with the parameters [parse_f64] ([str::parse::<f64>]), [finite] ([f64::is_finite]) and [show_f64] ([Number::to_string]).
    [debug] is [format!("{:?}")] of a key. Reading and writing JSON text is serde_json's business: JSON values are given. *)
From Coq Require Import String.
From Verif Require Import Base TokModel LexModel ParseModel TreeModel FmtModel SchemaModel SerdeModel.

(** [serde_json::Value]. Numbers are integers (below 2^64 and not below -2^63) or floats. Maps keep the order of insertion (Cargo.toml 20, preserve_order). *)
Inductive json (F : Type) :=
| JNull
| JBool (b : bool)
| JInt (z : Z)
| JFloat (f : F)
| JString (s : str)
| JArray (l : list (json F))
| JObject (m : list (str * json F)).
Arguments JNull {F}. Arguments JBool {F}. Arguments JInt {F}. Arguments JFloat {F}. Arguments JString {F}. Arguments JArray {F}. Arguments JObject {F}.

(** ** Checking (41-70, 215-231) *)

Definition error_of (e : event) : list (errkind * span) := match ev_kind e with EvError k => [(k, ev_span e)] | _ => [] end.
(** 44-66, parse: the diagnostics. [success] says that there are none. *)
Fixpoint diagnostics_from (fuel : nat) (p : parser) : res (list (errkind * span)) :=
  match fuel with
  | O => OutOfFuel
  | S f =>
    do (o, p') <- next_event p;
    match o with
    | None => Ok []
    | Some e => do r <- diagnostics_from f p'; Ok (error_of e ++ r)
    end
  end.
Definition success (d : list (errkind * span)) : bool := match d with [] => true | _ => false end.
(** 217-231, validate: stops at the first error. *)
Fixpoint validate_from (fuel : nat) (p : parser) : res bool :=
  match fuel with
  | O => OutOfFuel
  | S f =>
    do (o, p') <- next_event p;
    match o with
    | None => Ok true
    | Some e => match ev_kind e with EvError _ => Ok false | _ => validate_from f p' end
    end
  end.
Definition wasm_parse (fuel : nat) (src : str) : res (list (errkind * span)) := do ls <- lexemes src; diagnostics_from fuel (parser_new src ls).
Definition wasm_validate (fuel : nat) (src : str) : res bool := do ls <- lexemes src; validate_from fuel (parser_new src ls).

Section Json.
Variable F : Type.
Variable parse_f64 : str -> option F.
Variable finite : F -> bool.
Variable show_f64 : F -> str.
Variable debug : value -> str.
Notation json := (json F).

(** ** To JSON (100-176) *)

(** [json!(f)]: serde_json has no number for what is not finite. *)
Definition json_float (f : F) : json := if finite f then JFloat f else JNull.
(** 119-139, the scalar case of payload_to_json *)
Definition scalar_json (t : str) : json :=
  match parse_i64 t with
  | Some n => JInt n
  | None =>
    match parse_f64 t with
    | Some f => json_float f
    | None =>
      if str_eqb t (lit "true") then JBool true
      else if str_eqb t (lit "false") then JBool false
      else if str_eqb t (lit "null") then JNull
      else JString t
    end
  end.
(** [Map::insert]: the place of a key that is there already stays. *)
Fixpoint map_insert (k : str) (x : json) (m : list (str * json)) : list (str * json) :=
  match m with
  | [] => [(k, x)]
  | (k', y) :: r => if str_eqb k' k then (k', x) :: r else (k', y) :: map_insert k x r
  end.
(** 156-166, the text of a key *)
Definition key_json (key : value) : str :=
  if is_unit key then lit "@"
  else match as_str key with
  | Some s => s
  | None => match v_tag key with Some (n, _) => cAT :: n | None => debug key end
  end.
(** 100-116, value_to_json; 119-145, payload_to_json; 148-151, sequence_to_json; 154-176, object_to_json *)
Fixpoint value_to_json (v : value) : json :=
  match v with
  | Val None PNone _ => JNull
  | Val None p _ => payload_to_json p
  | Val (Some (t, _)) PNone _ => JObject [(lit "$tag", JString t)]
  | Val (Some (t, _)) p _ => JObject [(lit "$tag", JString t); (lit "$value", payload_to_json p)]
  end
with payload_to_json (p : payload) : json :=
  match p with
  | PNone => JNull
  | PScalar t _ _ => scalar_json t
  | PSeq items _ => JArray (map value_to_json items)
  | PObj es _ => JObject ((fix entries (es : list entry) (m : list (str * json)) : list (str * json) :=
      match es with [] => m | Ent k v _ :: r => entries r (map_insert (key_json k) (value_to_json v) m) end) es [])
  end.

(** ** From JSON (233-363) *)

(** 348-363, needs_quoting *)
Definition needs_quoting (s : str) : bool :=
  match s with
  | [] => true
  | _ => existsb (fun c => (c =? cSP) || (c =? cTAB) || (c =? cLF) || (c =? cCR) || (c =? cDQ) || (c =? cLB) || (c =? cRB)
                        || (c =? cLP) || (c =? cRP) || (c =? cCOMMA) || (c =? cAT) || (c =? cGT) || (c =? cSLASH))%N s
         || starts_with [cSLASH; cSLASH] s
  end.
Definition json_text (s : str) : value := Val None (PScalar s (if needs_quoting s then Quoted else Bare) None) None.
Definition bare_text (s : str) : value := Val None (PScalar s Bare None) None.
(** 309-310: [obj.get("$tag")], if it is a string *)
Fixpoint tag_of (m : list (str * json)) : option str :=
  match m with
  | [] => None
  | (k, x) :: r => if str_eqb k (lit "$tag") then match x with JString n => Some n | _ => None end else tag_of r
  end.
(** 260-345, json_to_value *)
Fixpoint json_to_value (j : json) : value :=
  match j with
  | JNull => Val None PNone None
  | JBool b => bare_text (if b then lit "true" else lit "false")
  | JInt z => bare_text (show_z z)
  | JFloat f => bare_text (show_f64 f)
  | JString s => json_text s
  | JArray l => Val None (PSeq (map json_to_value l) None) None
  | JObject m =>
    match tag_of m with
    | Some n =>
      Val (Some (n, None))
        ((fix value_of (m : list (str * json)) : payload :=
            match m with
            | [] => PNone
            | (k, x) :: r => if str_eqb k (lit "$value") then v_payload (json_to_value x) else value_of r
            end) m) None
    | None => Val None (PObj (map (fun kx => Ent (json_text (fst kx)) (json_to_value (snd kx)) None) m) None) None
    end
  end.
(** 237-257, from_json *)
Definition from_json (j : json) : res str := format_value (json_to_value j) default_opts.
End Json.
