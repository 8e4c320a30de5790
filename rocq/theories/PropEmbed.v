(** Properties C23 and C24: embedded schemas.  All theorems hold for every hash function,
    compressor and decompressor. *)
From Coq Require Import String.
From Verif Require Import Base BaseProofs EmbedModel EmbedSpec EmbedProofs.
Local Open Scope nat_scope.

(** ** C23: every embedded schema is found *)

(** Any surrounding bytes, any offset.  Partial: both recorded lengths must fit 32 bits, see
    [C23_long_refuted]. *)
Theorem C23_found_partial : forall hash compress decompress s before after,
  (forall b, List.length (hash b) = 32) ->
  (forall b, decompress (compress b) = Some b) ->
  Forall (fun c => valid_char c = true) s ->
  (N.of_nat (blen s) < 2 ^ 32)%N ->
  (N.of_nat (List.length (compress (utf8 s))) < 2 ^ 32)%N ->
  exists ss,
    extract_schemas hash decompress (before ++ build_embedded_blob hash compress s ++ after)
      = Ok (inl ss) /\ In s ss.
Proof.
  intros hash compress decompress s before after Hh Hd Hv Hs Hc.
  apply extract_nonempty. exists (List.length before), before, (build_embedded_blob hash compress s), after.
  splits; auto. apply build_is_blob; auto.
Qed.
Print Assumptions C23_found_partial.

(** The result is complete and exact: every intact blob of the current format, in order of
    position, then the schemas of every intact blob of the old format; nothing twice, nothing
    else; "not found" exactly when that is nothing at all. *)
Theorem C23_complete : forall hash decompress data, exists l2 l1,
  lists_all (blob_v2 hash decompress) data l2 /\
  lists_all (blob_v1 hash decompress) data l1 /\
  extract_schemas hash decompress data =
    Ok (match map snd l2 ++ List.concat (map snd l1) with
        | [] => inr NotFound
        | ss => inl ss
        end).
Proof. exact extract_schemas_spec. Qed.
Print Assumptions C23_complete.

(** The format cannot hold a text of 4 GiB or more: the length is cut to 32 bits, so no data
    whatsoever makes extraction return it. *)
Theorem C23_long_refuted : exists s,
  Forall (fun c => valid_char c = true) s /\
  forall hash decompress data ss, Forall (fun x => x < 256)%N data ->
    extract_schemas hash decompress data = Ok (inl ss) -> ~ In s ss.
Proof.
  exists (repeat 97%N (N.to_nat (2 ^ 32))). split.
  - apply Forall_forall. intros c Hc. apply repeat_spec in Hc. subst. reflexivity.
  - intros hash decompress data ss Hd He Hin.
    pose proof (result_short hash decompress data ss _ Hd He Hin) as H.
    assert (E : forall n, blen (repeat 97%N n) = n).
    { induction n as [|n IH]; [auto|]. cbn [repeat blen]. rewrite IH. auto. }
    rewrite E, N2Nat.id in H. revert H. apply N.le_ngt. apply N.le_refl.
Qed.
Print Assumptions C23_long_refuted.

(** A small codec to run the functions with: one length byte too many in front, and a checksum
    as hash. *)
Definition toy_hash (b : bytes) : bytes := repeat (fold_right N.add 7%N b mod 256)%N 32.
Definition toy_compress (b : bytes) : bytes := 42%N :: b.
Definition toy_decompress (b : bytes) : option bytes :=
  match b with 42%N :: r => Some r | _ => None end.

Example C23_example :
  let s1 := lit "a 1" ++ [233; 8364; 128512]%N in
  let s2 := lit "b 2" in
  let data := lit "STYX_SCHEMA_V" ++ build_embedded_blob toy_hash toy_compress s1
              ++ magic_v2 ++ [1; 2; 3]%N
              ++ build_embedded_blob toy_hash toy_compress s2 ++ lit "STYX" in
  extract_schemas toy_hash toy_decompress data = Ok (inl [s1; s2]).
Proof. vm_compute. reflexivity. Qed.

Example C23_v1_example :
  let rec s := skipn 16 (build_embedded_blob toy_hash toy_compress s) in
  let s1 := lit "a 1" in
  let s2 := lit "b 2" in
  let data := lit "xy" ++ magic_v1 ++ [2; 0]%N ++ rec s1 ++ rec s2 ++ lit "z" in
  extract_schemas toy_hash toy_decompress data = Ok (inl [s1; s2]).
Proof. vm_compute. reflexivity. Qed.

(** ** C24: only authentic schemas are extracted *)

(** Extraction returns for every data: no index or slice is out of range. *)
Theorem C24_total : forall hash decompress data, exists r,
  extract_schemas hash decompress data = Ok r.
Proof.
  intros hash decompress data.
  destruct (extract_schemas_spec hash decompress data) as (l2 & l1 & _ & _ & E). eauto.
Qed.
Print Assumptions C24_total.

(** A schema is returned exactly when it is in the data as (a record of) an intact blob. *)
Theorem C24_authentic : forall hash decompress data ss s,
  extract_schemas hash decompress data = Ok (inl ss) ->
  In s ss <->
    (exists p, part_at (blob_v2 hash decompress s) data p) \/
    (exists p ts, part_at (blob_v1 hash decompress ts) data p /\ In s ts).
Proof. exact result_in. Qed.
Print Assumptions C24_authentic.

(** A flipped byte in the text: nothing is returned. *)
Example C24_example :
  let good := build_embedded_blob toy_hash toy_compress (lit "a 1") in
  let bad := firstn 57 good ++ [98]%N ++ skipn 58 good in
  extract_schemas toy_hash toy_decompress (good ++ bad) = Ok (inl [lit "a 1"]) /\
  extract_schemas toy_hash toy_decompress bad = Ok (inr NotFound) /\
  bad <> good.
Proof. cbv zeta. splits; [vm_compute; reflexivity|vm_compute; reflexivity|vm_compute; discriminate]. Qed.

(** Extraction through the section table of an object file: it returns, and what it returns is
    authentic, if no recorded section range wraps around 64 bits.  Partial for that reason. *)
Theorem C24_object_partial : forall hash decompress headers data,
  (forall hs, headers = Some hs ->
     Forall (fun h => (snd (fst h) + snd h < 2 ^ 64)%N) hs) ->
  (exists r, extract_schemas_from_object hash decompress headers data = Ok r) /\
  forall ss s, extract_schemas_from_object hash decompress headers data = Ok (inl ss) -> In s ss ->
    (exists p, part_at (blob_v2 hash decompress s) data p) \/
    (exists p ts, part_at (blob_v1 hash decompress ts) data p /\ In s ts).
Proof.
  intros hash decompress headers data Hh. unfold extract_schemas_from_object.
  destruct headers as [hs|].
  2:{ split; [apply C24_total|]. intros ss s H Hin. eapply C24_authentic; eauto. }
  destruct (find_section_ok hash decompress hs data (Hh hs eq_refl)) as (o & Eo & Ho). rewrite Eo. cbn [bind].
  destruct o as [sec|].
  2:{ split; [apply C24_total|]. intros ss s H Hin. eapply C24_authentic; eauto. }
  split; [apply C24_total|]. intros ss s H Hin.
  destruct (Ho sec eq_refl) as (a & c & ->).
  apply (C24_authentic _ _ _ _ s H) in Hin as [Hp|(p & ts & Hp & Hs)].
  - left. apply (part_wider). auto.
  - right. destruct (part_wider (blob_v1 hash decompress ts) a sec c) as [q Hq]; eauto.
Qed.
Print Assumptions C24_object_partial.

(** A section header whose offset and size wrap around passes the range test and then panics. *)
Theorem C24_section_refuted : exists headers data, forall hash decompress,
  extract_schemas_from_object hash decompress headers data = Panic.
Proof.
  exists (Some [(true, 18446744073709551615, 2)%N]), (lit "ELF"). intros. vm_compute. reflexivity.
Qed.
Print Assumptions C24_section_refuted.

Example C24_object_example :
  let blob := build_embedded_blob toy_hash toy_compress (lit "a 1") in
  let data := lit "headers" ++ blob ++ lit "rest" in
  extract_schemas_from_object toy_hash toy_decompress
    (Some [(false, 0, 3)%N; (true, 7, N.of_nat (List.length blob))%N]) data
  = Ok (inl [lit "a 1"]).
Proof. vm_compute. reflexivity. Qed.
