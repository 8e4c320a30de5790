(** Model of the embedding and extraction of schemas
    (/repo/crates/styx-embed/src/lib.rs, /repo/crates/styx-embed-macros/src/lib.rs).

    Bytes are numbers, byte strings are lists of them.  The hash (BLAKE3), the compressor and
    the decompressor (lz4_flex) are parameters: every theorem is for all of them.  UTF-8 is
    modelled in full. *)
From Coq Require Import String.
From Verif Require Import Base.
Local Open Scope nat_scope.

Definition bytes := list N.

(** ** UTF-8 ([str::as_bytes], [String::from_utf8] of the standard library) *)

(** The bytes of a character. *)
Definition utf8_char (c : char) : bytes :=
  (if c <? 128 then [c]
   else if c <? 2048 then [192 + c / 64; 128 + c mod 64]
   else if c <? 65536 then [224 + c / 4096; 128 + (c / 64) mod 64; 128 + c mod 64]
   else [240 + c / 262144; 128 + (c / 4096) mod 64; 128 + (c / 64) mod 64; 128 + c mod 64])%N.

(** [str::as_bytes]. *)
Definition utf8 (s : str) : bytes := flat_map utf8_char s.

(** The character a lead byte and the bytes after it spell. *)
Definition utf8_head (b : bytes) : option char :=
  (match b with
   | b0 :: r =>
       if b0 <? 128 then Some b0
       else if b0 <? 224 then
         match r with b1 :: _ => Some ((b0 - 192) * 64 + (b1 - 128)) | _ => None end
       else if b0 <? 240 then
         match r with
         | b1 :: b2 :: _ => Some ((b0 - 224) * 4096 + (b1 - 128) * 64 + (b2 - 128))
         | _ => None
         end
       else
         match r with
         | b1 :: b2 :: b3 :: _ =>
             Some ((b0 - 240) * 262144 + (b1 - 128) * 4096 + (b2 - 128) * 64 + (b3 - 128))
         | _ => None
         end
   | [] => None
   end)%N.

(** [String::from_utf8]: [None] when the bytes are not well-formed.  Well-formed means that the
    character just read is a Unicode scalar value and is spelled by exactly these bytes. *)
Fixpoint from_utf8_fuel (fuel : nat) (b : bytes) : option str :=
  match b with
  | [] => Some []
  | _ =>
      match fuel with
      | O => None
      | S f =>
          match utf8_head b with
          | Some c =>
              if valid_char c then
                match strip_prefix (utf8_char c) b with
                | Some r => option_map (cons c) (from_utf8_fuel f r)
                | None => None
                end
              else None
          | None => None
          end
      end
  end.
Definition from_utf8 (b : bytes) : option str := from_utf8_fuel (List.length b) b.

(** ** Numbers and slices *)

(** [n as u32] followed by [to_le_bytes]. *)
Definition le32 (n : N) : bytes :=
  [n mod 256; (n / 256) mod 256; (n / 65536) mod 256; (n / 16777216) mod 256]%N.

(** [u32::from_le_bytes] and [u16::from_le_bytes]. *)
Definition from_le32 (a b c d : N) : N := (a + 256 * b + 65536 * c + 16777216 * d)%N.
Definition from_le16 (a b : N) : N := (a + 256 * b)%N.

(** [data[i]] and [&data[a..b]]; both panic out of range. *)
Definition at_index (data : bytes) (i : nat) : res N := of_opt (nth_error data i).
Definition sub_bytes (data : bytes) (a b : nat) : res bytes :=
  if (a <=? b) && (b <=? List.length data) then Ok (firstn (b - a) (skipn a data)) else Panic.

(** ** Constants (lib.rs 83-89) *)
Definition magic_v2 : bytes := (lit "STYX_SCHEMA_V2" ++ [0; 0])%N.
Definition magic_v1 : bytes := (lit "STYX_SCHEMAS_V1" ++ [0])%N.

(** [ExtractError] (lib.rs 92-104). *)
Inductive extract_err := NotFound | Truncated | DecompressFailed | HashMismatch | InvalidUtf8.

(** [find_magic_from] (lib.rs 296-304): the first window equal to the magic bytes. *)
Fixpoint find_window (magic data : bytes) (at_ : nat) : option nat :=
  if starts_with magic data then Some at_
  else match data with [] => None | _ :: r => find_window magic r (S at_) end.
Definition find_magic_from (data : bytes) (start : nat) (magic : bytes) : option nat :=
  if List.length data <=? start then None
  else find_window magic (skipn start data) start.

Section WithCodec.
Variable hash : bytes -> bytes.
Variable compress : bytes -> bytes.
Variable decompress : bytes -> option bytes.

(** [compress_schema] (lib.rs 121-133), [build_embedded_blob] (lib.rs 136-138); the macro crate
    has the same function (styx-embed-macros/src/lib.rs 91-103). *)
Definition build_embedded_blob (schema : str) : bytes :=
  let decompressed := utf8 schema in
  let compressed := compress decompressed in
  magic_v2 ++ le32 (N.of_nat (List.length decompressed))
           ++ le32 (N.of_nat (List.length compressed))
           ++ hash decompressed ++ compressed.

(** One record: lengths, hash and compressed text, from [pos] on; on success the schema and the
    position after the record.  The code spells this out twice, in [try_extract_v2_at]
    (lib.rs 190-230) and in the loop of [try_extract_v1_at] (lib.rs 247-289). *)
Definition read_record (data : bytes) (pos : nat) : res (str * nat + extract_err) :=
  if List.length data <? pos + 40 then Ok (inr Truncated) else
  do d0 <- at_index data pos;
  do d1 <- at_index data (pos + 1);
  do d2 <- at_index data (pos + 2);
  do d3 <- at_index data (pos + 3);
  let decompressed_len := from_le32 d0 d1 d2 d3 in
  let pos := pos + 4 in
  do c0 <- at_index data pos;
  do c1 <- at_index data (pos + 1);
  do c2 <- at_index data (pos + 2);
  do c3 <- at_index data (pos + 3);
  let compressed_len := from_le32 c0 c1 c2 c3 in
  let pos := pos + 4 in
  do expected_hash <- sub_bytes data pos (pos + 32);
  let pos := pos + 32 in
  if (N.of_nat (List.length data) <? N.of_nat pos + compressed_len)%N then Ok (inr Truncated) else
  let fin := pos + N.to_nat compressed_len in
  do compressed <- sub_bytes data pos fin;
  match decompress compressed with
  | None => Ok (inr DecompressFailed)
  | Some decompressed =>
      if negb (N.of_nat (List.length decompressed) =? decompressed_len)%N
      then Ok (inr DecompressFailed)
      else if negb (str_eqb (hash decompressed) expected_hash) then Ok (inr HashMismatch)
      else match from_utf8 decompressed with
           | Some s => Ok (inl (s, fin))
           | None => Ok (inr InvalidUtf8)
           end
  end.

(** [try_extract_v2_at] (lib.rs 187-231). *)
Definition try_extract_v2_at (data : bytes) (magic_pos : nat) : res (str + extract_err) :=
  do r <- read_record data (magic_pos + List.length magic_v2);
  match r with
  | inl (s, _) => Ok (inl s)
  | inr e => Ok (inr e)
  end.

(** [try_extract_v1_at] (lib.rs 234-293); the loop over the records first. *)
Fixpoint read_records (count : nat) (data : bytes) (pos : nat)
  : res (list str + extract_err) :=
  match count with
  | O => Ok (inl [])
  | S n =>
      do r <- read_record data pos;
      match r with
      | inr e => Ok (inr e)
      | inl (s, pos') =>
          do l <- read_records n data pos';
          match l with
          | inr e => Ok (inr e)
          | inl ss => Ok (inl (s :: ss))
          end
      end
  end.
Definition try_extract_v1_at (data : bytes) (magic_pos : nat) : res (list str + extract_err) :=
  let pos := magic_pos + List.length magic_v1 in
  if List.length data <? pos + 2 then Ok (inr Truncated) else
  do b0 <- at_index data pos;
  do b1 <- at_index data (pos + 1);
  read_records (N.to_nat (from_le16 b0 b1)) data (pos + 2).

(** The two loops of [extract_schemas] (lib.rs 150-163 and 166-177): what is found from
    [search_start] on. *)
Fixpoint scan {A} (magic : bytes) (try : nat -> res (A + extract_err)) (data : bytes)
         (fuel : nat) (search_start : nat) : res (list A) :=
  match fuel with
  | O => OutOfFuel
  | S f =>
      match find_magic_from data search_start magic with
      | None => Ok []
      | Some magic_pos =>
          do r <- try magic_pos;
          match r with
          | inl a => do l <- scan magic try data f (magic_pos + List.length magic);
                     Ok (a :: l)
          | inr _ => scan magic try data f (magic_pos + 1)
          end
      end
  end.

(** [extract_schemas] (lib.rs 146-184). *)
Definition extract_schemas (data : bytes) : res (list str + extract_err) :=
  let fuel := S (List.length data) in
  do v2 <- scan magic_v2 (try_extract_v2_at data) data fuel 0;
  do v1 <- scan magic_v1 (try_extract_v1_at data) data fuel 0;
  let schemas := v2 ++ List.concat v1 in
  match schemas with
  | [] => Ok (inr NotFound)
  | _ => Ok (inl schemas)
  end.

(** [find_elf_section] (lib.rs 351-365), [find_pe_section] (lib.rs 416-429) and the inner loop of
    [find_macho_section_in_binary] (lib.rs 396-410): of the section headers, each with the
    outcome of the name test and the recorded offset and size, the first named one that lies in
    the data.  [usize] is 64 bits and the addition wraps, as in a release build (a debug build
    panics instead).  The object-file parser (goblin) that delivers the headers is not modelled. *)
Definition add_usize (a b : N) : N := ((a + b) mod 18446744073709551616)%N.
Fixpoint find_section (headers : list (bool * N * N)) (data : bytes) : res (option bytes) :=
  match headers with
  | [] => Ok None
  | (named, start, size) :: r =>
      if named && (add_usize start size <=? N.of_nat (List.length data))%N then
        if (start <=? add_usize start size)%N
        then do s <- sub_bytes data (N.to_nat start) (N.to_nat (add_usize start size)); Ok (Some s)
        else Panic
      else find_section r data
  end.

(** [extract_schemas_from_object] (lib.rs 323-336), given the headers, or [None] when the data is
    not an object file. *)
Definition extract_schemas_from_object (headers : option (list (bool * N * N))) (data : bytes)
  : res (list str + extract_err) :=
  match headers with
  | None => extract_schemas data
  | Some hs =>
      do s <- find_section hs data;
      match s with
      | Some section => extract_schemas section
      | None => extract_schemas data
      end
  end.

End WithCodec.
