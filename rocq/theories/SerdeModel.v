(** Model of crates/serde_styx/src/{ser,de,lib}.rs.

    Types that derive serde's traits are deeply embedded: [ty] is the type, [val] the value as serde's data model
    shows it to the serializer. Simplifications:
    - newtype structs are transparent in [val] (ser.rs 165-171 and de.rs 384-390 pass through them);
      [TTuple] stands for tuples, arrays and tuple structs, [TUnit] for [()] and unit structs, [TMap] for maps
      that keep the order of insertion; [TRef n] names a struct or enum, so that types may be recursive;
    - floats and [deserialize_any] (self-describing types, untagged and flattened ones) are left out;
    - an error is [None] or [DErr], without its message;
    - the deserializer pulls tokens lazily and skips blanks, newlines and line comments (de.rs 31-66); as the
      tokenizer knows nothing of the deserializer, its state is the list of the tokens to come, without those,
      and the end of the list is the [Eof] token that the tokenizer then returns for ever. *)
From Coq Require Import String.
From Verif Require Export FmtModel SchemaModel CliModel.
Local Open Scope nat_scope.

(** ** Types and values *)

Inductive ty :=
| TBool | TInt (bits : N) | TUint (bits : N) | TI128 | TU128 | TChar | TString | TBytes | TUnit
| TOption (t : ty) | TNewtype (t : ty) | TSeq (t : ty) | TTuple (l : list ty) | TMap (k v : ty)
| TStruct (l : list (str * ty)) | TEnum (l : list (str * variant)) | TRef (n : nat)
with variant := VUnit | VNew (t : ty) | VTuple (l : list ty) | VStruct (l : list (str * ty)).

Inductive val :=
| DBool (b : bool) | DInt (z : Z) | DChar (c : char) | DStr (s : str) | DBytes (l : list N) | DUnit
| DNone | DSome (v : val) | DSeq (l : list val) | DMap (l : list (val * val)) | DStruct (l : list (str * val))
| DUnitV (n : str) | DNewV (n : str) (v : val) | DTupleV (n : str) (l : list val)
| DStructV (n : str) (l : list (str * val)).

(** ** Serializer *)

(** [to_string] of an integer; 39 digits are enough for 128 bits. *)
Definition show_n (n : N) : str := dec_digits 39 n [].
Definition show_z (z : Z) : str := match z with Zneg p => 45%N :: show_n (Npos p) | _ => show_n (Z.to_N z) end.
Definition show_bool (b : bool) : str := if b then lit "true" else lit "false".

(** writer.rs 450-481: the value goes out after [before_value] as it is; the flag for quoting stays. *)
Definition write_plain (s : str) (w : writer) : writer := put s (before_value w).

(** writer.rs 504-517, write_bytes *)
Definition hex_byte (b : N) : str := [hex_of (b / 16); hex_of (b mod 16)].
Definition bytes_text (l : list N) : str := cDQ :: flat_map hex_byte l ++ [cDQ].

(** ser.rs 368-548, KeySerializer; integers of 128 bits are an error there, [DInt] does not tell *)
Fixpoint ser_key (v : val) : option str :=
  match v with
  | DBool b => Some (show_bool b)
  | DInt z => Some (show_z z)
  | DChar c => Some [c]
  | DStr s => Some s
  | DSome v => ser_key v
  | DUnitV n => Some n
  | _ => None
  end.

(** ser.rs 40-366: the state is the writer and [at_root]. The compact serializer (555-877) does the same with
    [at_root] always false. A key is written to a struct context, [field_key] has no error there (the same for
    the ends). *)
Definition sstate : Type := (writer * bool)%type.
Definition unrooted (f : writer -> writer) (s : sstate) : option sstate := Some (f (fst s), false).

Fixpoint ser (v : val) (s : sstate) : option sstate :=
  let items := fix items (l : list val) (s : sstate) : option sstate :=
    match l with [] => Some s | v :: r => match ser v s with Some s1 => items r s1 | None => None end end in
  let fields := fix fields (l : list (str * val)) (s : sstate) : option sstate :=
    match l with
    | [] => Some s
    | (k, v) :: r => match ser v (field_key k (fst s), snd s) with Some s1 => fields r s1 | None => None end
    end in
  let pairs := fix pairs (l : list (val * val)) (s : sstate) : option sstate :=
    match l with
    | [] => Some s
    | (k, v) :: r =>
      match ser_key k with
      | Some t => match ser v (field_key t (fst s), snd s) with Some s1 => pairs r s1 | None => None end
      | None => None
      end
    end in
  let ending f (o : option sstate) := match o with Some (w, b) => Some (f w, b) | None => None end in
  match v with
  | DBool b => unrooted (write_plain (show_bool b)) s
  | DInt z => unrooted (write_plain (show_z z)) s
  | DChar c => unrooted (write_string [c]) s
  | DStr t => unrooted (write_string t) s
  | DBytes l => unrooted (write_plain (bytes_text l)) s
  | DUnit | DNone => unrooted write_null s
  | DSome v => ser v s
  | DSeq l => ending end_seq (items l (begin_seq (fst s), false))
  | DMap l => ending end_struct (pairs l (begin_struct (snd s) false (fst s), false))
  | DStruct l => ending end_struct (fields l (begin_struct (snd s) false (fst s), false))
  | DUnitV n => unrooted (write_tag n) s
  | DNewV n v => ser v (put [cSP] (write_tag n (fst s)), false)
  | DTupleV n l => ending end_seq (items l (begin_seq (write_tag n (fst s)), false))
  | DStructV n l => ending end_struct (fields l (begin_struct false false (write_tag n (fst s)), false))
  end.

(** lib.rs 130-137, to_string_with_options; [to_string] (97-102) uses the default options *)
Definition to_string_with (o : opts) (v : val) : option str :=
  match ser v (new_writer o, true) with Some (w, _) => Some (w_out w) | None => None end.
Definition to_string (v : val) : option str := to_string_with default_opts v.

(** lib.rs 119-127, to_string_compact *)
Definition inline_opts : opts := mkopts (lit "    ") 80 30 2 StInline.
Definition to_string_compact (v : val) : option str :=
  match ser v (new_writer inline_opts, false) with Some (w, _) => Some (w_out w) | None => None end.

(** ** Deserializer *)

Inductive dres (A : Type) := DOk (a : A) | DErr | DPanic | DFuel.
Arguments DOk {A}. Arguments DErr {A}. Arguments DPanic {A}. Arguments DFuel {A}.
Definition dbind {A B} (a : dres A) (f : A -> dres B) : dres B :=
  match a with DOk x => f x | DErr => DErr | DPanic => DPanic | DFuel => DFuel end.
Definition of_some {A} (o : option A) : dres A := match o with Some a => DOk a | None => DErr end.

(** de.rs 31-66: what is passed over *)
Definition counts (t : token) : bool := match tk_kind t with Whitespace | LineComment | Newline => false | _ => true end.

Definition toks := list token.
Definition eof_token : token := mktok Eof (mkspan 0 0) [].
Definition next_tok (ts : toks) : token * toks := match ts with [] => (eof_token, []) | t :: r => (t, r) end.
Definition peek_kind (ts : toks) : tkind := tk_kind (fst (next_tok ts)).

(** de.rs 70-76 *)
Definition skip_comma (ts : toks) : toks :=
  match ts with t :: r => match tk_kind t with Comma => r | _ => ts end | [] => ts end.

(** [parse::<u64>] *)
Definition parse_u64 (s : str) : option Z :=
  let digits r := match r with
                  | [] => None
                  | _ => match dec_all 0 r with
                         | Some n => if (n <? 2 ^ 64)%N then Some (Z.of_N n) else None
                         | None => None
                         end
                  end in
  match s with c :: r => if (c =? 43)%N then digits r else digits s | [] => None end.

(** serde's visitors of the integer types check the range. *)
Definition in_int (b : N) (z : Z) : bool := ((- 2 ^ (Z.of_N b - 1) <=? z) && (z <? 2 ^ (Z.of_N b - 1)))%Z.
Definition in_uint (b : N) (z : Z) : bool := ((0 <=? z) && (z <? 2 ^ Z.of_N b))%Z.

(** [str::find] and [str::rfind] for a character; quotes are one byte wide, so that characters are counted *)
Fixpoint index_of (c : char) (s : str) : option nat :=
  match s with [] => None | d :: r => if (d =? c)%N then Some 0 else option_map S (index_of c r) end.
Fixpoint last_index (c : char) (s : str) : option nat :=
  match s with
  | [] => None
  | d :: r => match last_index c r with
              | Some i => Some (S i)
              | None => if (d =? c)%N then Some 0 else None
              end
  end.

(** de.rs 307-312: from the first quote to the last *)
Definition raw_inside (text : str) : dres str :=
  let start := match index_of cDQ text with Some i => S i | None => 0 end in
  let stop := match last_index cDQ text with Some i => i | None => length text end in
  if start <=? stop then DOk (firstn (stop - start) (skipn start text)) else DPanic.

(** de.rs 300-315, deserialize_str *)
Definition str_of (t : token) : dres str :=
  match tk_kind t with
  | QuotedScalar => DOk (unescape_serde (tk_text t))
  | RawScalar => raw_inside (tk_text t)
  | _ => DOk (tk_text t)
  end.

(** de.rs 286-298, deserialize_char *)
Definition char_of (t : token) : option char :=
  peek (match tk_kind t with QuotedScalar => unescape_serde (tk_text t) | _ => tk_text t end).

(** [u8::from_str_radix] on two characters: a plus sign may stand in front. *)
Definition hex_digit (c : char) : option N :=
  if is_digit c then Some (c - 48)%N
  else if ((97 <=? c) && (c <=? 102))%N then Some (c - 87)%N
  else if ((65 <=? c) && (c <=? 70))%N then Some (c - 55)%N
  else None.
Definition byte_of (a b : char) : option N :=
  if (a =? 43)%N then hex_digit b
  else match hex_digit a, hex_digit b with Some x, Some y => Some (16 * x + y)%N | _, _ => None end.
Fixpoint bytes_of (s : str) : option (list N) :=
  match s with
  | a :: b :: r => match byte_of a b, bytes_of r with Some x, Some l => Some (x :: l) | _, _ => None end
  | _ => Some []
  end.
(** de.rs 321-338, deserialize_bytes; a text of one quote alone would make the slice panic *)
Definition de_bytes (t : token) : dres (list N) :=
  match tk_kind t with
  | QuotedScalar =>
    if 2 <=? length (tk_text t) then of_some (bytes_of (removelast (skipn 1 (tk_text t)))) else DPanic
  | _ => of_some (bytes_of (tk_text t))
  end.

(** de.rs 491-542, skip_value *)
Fixpoint skip_to (o c : token -> bool) (depth : nat) (ts : toks) : toks :=
  match depth with
  | O => ts
  | S d =>
    match ts with
    | [] => []
    | t :: r => if o t then skip_to o c (S depth) r else if c t then skip_to o c d r else skip_to o c depth r
    end
  end.
Definition is_kind (k : tkind) (t : token) : bool :=
  match k, tk_kind t with
  | LBrace, LBrace | RBrace, RBrace | LParen, LParen | RParen, RParen | At, At | Comma, Comma
  | BareScalar, BareScalar | QuotedScalar, QuotedScalar | DocComment, DocComment => true
  | _, _ => false
  end.
Definition ends_payload (t : token) : bool := is_kind RBrace t || is_kind RParen t || is_kind Comma t.
Fixpoint skip_value (ts : toks) : toks :=
  match ts with
  | [] => []
  | t :: r =>
    if is_kind LBrace t then skip_to (is_kind LBrace) (is_kind RBrace) 1 r
    else if is_kind LParen t then skip_to (is_kind LParen) (is_kind RParen) 1 r
    else if is_kind At t then
      match r with
      | n :: r1 =>
        if is_kind BareScalar n then
          match r1 with
          | p :: _ => if ends_payload p then r1 else skip_value r1
          | [] => r1
          end
        else r
      | [] => r
      end
    else r
  end.

(** de.rs 582-611, next_key_seed up to the seed: [None] is the end, [Some ts] the place of the key *)
Fixpoint next_key (ts : toks) : dres (toks * bool) :=
  match ts with
  | [] => DOk ([], false)
  | t :: r =>
    if is_kind Comma t then
      (* 586, skip_comma takes one comma; the rest is the match on the token behind *)
      match r with
      | [] => DOk ([], false)
      | u :: r1 =>
        if is_kind RBrace u then DOk (r1, false)
        else if is_kind BareScalar u || is_kind QuotedScalar u then DOk (r, true)
        else if is_kind DocComment u then next_key r1
        else DErr
      end
    else if is_kind RBrace t then DOk (r, false)
    else if is_kind BareScalar t || is_kind QuotedScalar t then DOk (ts, true)
    else if is_kind DocComment t then next_key r
    else DErr
  end.

(** de.rs 471-481, deserialize_identifier *)
Definition ident_of (t : token) : dres str :=
  match tk_kind t with
  | BareScalar => DOk (tk_text t)
  | QuotedScalar => DOk (unescape_serde (tk_text t))
  | _ => DErr
  end.

(** Equality of map keys, on the shapes that are keys *)
Fixpoint key_eqb (a b : val) : bool :=
  match a, b with
  | DBool x, DBool y => Bool.eqb x y
  | DInt x, DInt y => (x =? y)%Z
  | DChar x, DChar y => (x =? y)%N
  | DStr x, DStr y => str_eqb x y
  | DUnitV x, DUnitV y => str_eqb x y
  | DSome x, DSome y => key_eqb x y
  | _, _ => false
  end.
(** [insert] of a map: a value for a key already there replaces the old one *)
Fixpoint map_insert (k v : val) (l : list (val * val)) : list (val * val) :=
  match l with
  | [] => [(k, v)]
  | (k', v') :: r => if key_eqb k k' then (k', v) :: r else (k', v') :: map_insert k v r
  end.

Fixpoint lookup {A} (n : str) (l : list (str * A)) : option A :=
  match l with [] => None | (m, a) :: r => if str_eqb n m then Some a else lookup n r end.

(** serde_derive: the fields read so far, in the order of the source; missing options are [None]. *)
Fixpoint collect (fs : list (str * ty)) (acc : list (str * val)) : option (list (str * val)) :=
  match fs with
  | [] => Some []
  | (n, t) :: r =>
    match (match lookup n acc with
           | Some v => Some v
           | None => match t with TOption _ => Some DNone | _ => None end
           end), collect r acc with
    | Some v, Some l => Some ((n, v) :: l)
    | _, _ => None
    end
  end.

Section De.
Variable env : nat -> ty.

(** de.rs 222-488 and the accesses 547-672. [de_items] is [Vec]'s loop over [next_element_seed] (554-571),
    [de_tuple] that of a tuple, which asks for as many elements as the tuple has and never for the end;
    [de_pairs] a map's loop, [de_fields] that of a derived struct (unknown fields are skipped, a repeated one is an
    error). *)
Fixpoint de (fuel : nat) (t : ty) (ts : toks) : dres (val * toks) :=
  match fuel with
  | O => DFuel
  | S f =>
    let (tk, r) := next_tok ts in
    match t with
    | TBool =>                                                        (* 222-229 *)
      if str_eqb (tk_text tk) (lit "true") then DOk (DBool true, r)
      else if str_eqb (tk_text tk) (lit "false") then DOk (DBool false, r) else DErr
    | TInt b =>                                                       (* 231-250 *)
      match parse_i64 (tk_text tk) with
      | Some z => if in_int b z then DOk (DInt z, r) else DErr
      | None => DErr
      end
    | TUint b =>                                                      (* 252-271 *)
      match parse_u64 (tk_text tk) with
      | Some z => if in_uint b z then DOk (DInt z, r) else DErr
      | None => DErr
      end
    | TI128 | TU128 => DErr                                           (* serde's default methods *)
    | TChar => dbind (of_some (char_of tk)) (fun c => DOk (DChar c, r))
    | TString => dbind (str_of tk) (fun s => DOk (DStr s, r))
    | TBytes => dbind (de_bytes tk) (fun l => DOk (DBytes l, r))
    | TUnit => if is_kind At tk then DOk (DUnit, r) else DErr         (* 367-382 *)
    | TOption t' =>                                                   (* 344-365 *)
      let some ts := dbind (de f t' ts) (fun '(v, ts') => DOk (DSome v, ts')) in
      if is_kind At tk then
        match r with
        | n :: r1 =>
          if is_kind BareScalar n && (sp_start (tk_span n) =? sp_end (tk_span tk)) then
            some (tk :: r1)  (* 356: the name that was peeked is overwritten *)
          else DOk (DNone, r)
        | [] => DOk (DNone, r)
        end
      else some ts
    | TNewtype t' => de f t' ts                                       (* 384-390 *)
    | TSeq t' =>                                                      (* 392-398 *)
      if is_kind LParen tk then dbind (de_items f t' r) (fun '(l, ts') => DOk (DSeq l, ts')) else DErr
    | TTuple l =>                                                     (* 400-411 *)
      if is_kind LParen tk then dbind (de_tuple f l r) (fun '(l, ts') => DOk (DSeq l, ts')) else DErr
    | TMap kt vt =>                                                   (* 413-420 *)
      dbind (de_pairs f kt vt [] (if is_kind LBrace tk then r else ts)) (fun '(l, ts') => DOk (DMap l, ts'))
    | TStruct fs =>                                                   (* 422-441 *)
      dbind (de_fields f fs [] (if is_kind LBrace tk then r else ts)) (fun '(l, ts') => DOk (DStruct l, ts'))
    | TEnum vs =>                                                     (* 443-469 *)
      if is_kind At tk then
        let (n, r1) := next_tok r in
        if is_kind BareScalar n then de_variant f vs (tk_text n) r1 else DErr
      else if is_kind BareScalar tk then de_variant f vs (tk_text tk) r
      else DErr
    | TRef n => de f (env n) ts
    end
  end
with de_items (fuel : nat) (t : ty) (ts : toks) : dres (list val * toks) :=
  match fuel with
  | O => DFuel
  | S f =>
    match skip_comma ts with
    | [] => DErr
    | tk :: r =>
      if is_kind RParen tk then DOk ([], r)
      else dbind (de f t (tk :: r)) (fun '(v, ts1) =>
           dbind (de_items f t ts1) (fun '(l, ts2) => DOk (v :: l, ts2)))
    end
  end
with de_tuple (fuel : nat) (l : list ty) (ts : toks) : dres (list val * toks) :=
  match fuel with
  | O => DFuel
  | S f =>
    match l with
    | [] => DOk ([], ts)
    | t :: l' =>
      match skip_comma ts with
      | [] => DErr
      | tk :: r =>
        if is_kind RParen tk then DErr
        else dbind (de f t (tk :: r)) (fun '(v, ts1) =>
             dbind (de_tuple f l' ts1) (fun '(vs, ts2) => DOk (v :: vs, ts2)))
      end
    end
  end
with de_pairs (fuel : nat) (kt vt : ty) (acc : list (val * val)) (ts : toks) : dres (list (val * val) * toks) :=
  match fuel with
  | O => DFuel
  | S f =>
    dbind (next_key ts) (fun '(ts1, more) =>
    if (more : bool) then
      dbind (de f kt ts1) (fun '(k, ts2) =>
      dbind (de f vt ts2) (fun '(v, ts3) => de_pairs f kt vt (map_insert k v acc) ts3))
    else DOk (acc, ts1))
  end
with de_fields (fuel : nat) (fs : list (str * ty)) (acc : list (str * val)) (ts : toks) : dres (list (str * val) * toks) :=
  match fuel with
  | O => DFuel
  | S f =>
    dbind (next_key ts) (fun '(ts1, more) =>
    if (more : bool) then
      let (tk, ts2) := next_tok ts1 in
      dbind (ident_of tk) (fun n =>
      match lookup n fs with
      | Some t =>
        match lookup n acc with
        | Some _ => DErr
        | None => dbind (de f t ts2) (fun '(v, ts3) => de_fields f fs ((n, v) :: acc) ts3)
        end
      | None => de_fields f fs acc (skip_value ts2)
      end)
    else dbind (of_some (collect fs acc)) (fun l => DOk (l, ts1)))
  end
with de_variant (fuel : nat) (vs : list (str * variant)) (n : str) (ts : toks) : dres (val * toks) :=
  match fuel with
  | O => DFuel
  | S f =>
    match lookup n vs with
    | None => DErr
    | Some VUnit => DOk (DUnitV n, ts)                                (* 648-650 *)
    | Some (VNew t) => dbind (de f t ts) (fun '(v, ts') => DOk (DNewV n v, ts'))
    | Some (VTuple l) =>
      let (tk, r) := next_tok ts in
      if is_kind LParen tk then dbind (de_tuple f l r) (fun '(l, ts') => DOk (DTupleV n l, ts')) else DErr
    | Some (VStruct fs) =>
      let (tk, r) := next_tok ts in
      dbind (de_fields f fs [] (if is_kind LBrace tk then r else ts)) (fun '(l, ts') => DOk (DStructV n l, ts'))
    end
  end.

(** lib.rs 70-76, from_str; what follows the value is not looked at *)
Definition from_str (fuel : nat) (t : ty) (s : str) : dres val :=
  match tokens s with
  | Some ts => dbind (de fuel t (filter counts ts)) (fun '(v, _) => DOk v)
  | None => DFuel
  end.
End De.
