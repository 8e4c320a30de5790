(** What an embedded blob is, independently of the code that writes or looks for it. *)
From Coq Require Import Sorted.
From Verif Require Import Base EmbedModel.

(** The number that bytes spell, least significant byte first. *)
Fixpoint le_value (b : bytes) : N :=
  match b with [] => 0 | x :: r => (x + 256 * le_value r)%N end.

Section WithCodec.
Variable hash : bytes -> bytes.
Variable decompress : bytes -> option bytes.

(** [e] is an intact record of the schema [s]: its length fields give the lengths of the
    compressed and of the original text, its hash is the hash of the original text, and the
    compressed text decompresses to it. *)
Inductive record_of (s : str) : bytes -> Prop :=
| record_intro : forall dl cl h z,
    List.length dl = 4 -> List.length cl = 4 -> List.length h = 32 ->
    le_value cl = N.of_nat (List.length z) ->
    decompress z = Some (utf8 s) ->
    le_value dl = N.of_nat (List.length (utf8 s)) ->
    hash (utf8 s) = h ->
    Forall (fun c => valid_char c = true) s ->
    record_of s (dl ++ cl ++ h ++ z).

(** An intact blob of the current format: the magic bytes and one record. *)
Definition blob_v2 (s : str) (b : bytes) : Prop :=
  exists e, b = magic_v2 ++ e /\ record_of s e.

(** An intact blob of the old format: the magic bytes, the number of records, the records. *)
Definition blob_v1 (ss : list str) (b : bytes) : Prop :=
  exists n es, b = magic_v1 ++ n ++ concat es /\ List.length n = 2 /\
    le_value n = N.of_nat (List.length ss) /\ Forall2 record_of ss es.

(** A part of the data that satisfies [P], at offset [p]. *)
Definition part_at (P : bytes -> Prop) (data : bytes) (p : nat) : Prop :=
  exists a b c, data = a ++ b ++ c /\ List.length a = p /\ P b.

(** [l] lists, in order of position, everything that [P] finds in the data. *)
Definition lists_all {A} (P : A -> bytes -> Prop) (data : bytes) (l : list (nat * A)) : Prop :=
  StronglySorted lt (map fst l) /\
  forall p x, In (p, x) l <-> part_at (P x) data p.

End WithCodec.
