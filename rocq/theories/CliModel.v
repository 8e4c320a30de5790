(** Model of the version arithmetic, the JSON export and the schema comparison of the command line tool
    (/repo/crates/styx-cli/src/main.rs 1358-1400, 1650-1681, 1804-1984). *)
From Coq Require Import String.
From Verif Require Import TreeModel.
Local Open Scope nat_scope.

(** ** Schema comparison (1804-1984) *)

(** The messages of a [SchemaChanges] (1804-1808), as data.  The maps of the code are hash maps, so the
    order of the messages is unspecified; the model uses the order of the entries. *)
Inductive change :=
| RemovedType (name : option str)
| AddedType (name : option str)
| ChangedTag (name : option str) (old new : option str)
| RemovedField (field : str) (name : option str)
| AddedOptional (field : str) (name : option str)
| AddedRequired (field : str) (name : option str)
| RemovedVariant (variant : str) (name : option str)
| AddedVariant (variant : str) (name : option str).

Record changes := mkchanges { breaking : list change; additive : list change; patch : list change }.
Definition no_changes : changes := mkchanges [] [] [].
Definition join_changes (a b : changes) : changes :=
  mkchanges (breaking a ++ breaking b) (additive a ++ additive b) (patch a ++ patch b).

(** A hash map as the list of its insertions, the newest first; [keys] without repetitions. *)
Section Map.
Variable K : Type.
Variable keqb : K -> K -> bool.
Variable V : Type.
Fixpoint map_get (k : K) (m : list (K * V)) : option V :=
  match m with
  | [] => None
  | (k', v) :: r => if keqb k k' then Some v else map_get k r
  end.
Definition map_has (k : K) (m : list (K * V)) : bool :=
  match map_get k m with Some _ => true | None => false end.
Fixpoint map_keys (m : list (K * V)) : list K :=
  match m with
  | [] => []
  | (k, _) :: r => if map_has k r then map_keys r else k :: map_keys r
  end.
End Map.
Arguments map_get {K} keqb {V} k m.
Arguments map_has {K} keqb {V} k m.
Arguments map_keys {K} keqb {V} m.

Definition name_eqb (a b : option str) : bool :=
  match a, b with
  | Some x, Some y => str_eqb x y
  | None, None => true
  | _, _ => false
  end.

(** [extract_schema_map] (1840-1861). *)
Definition schema_entries (o : payload) : list (option str * value) :=
  match o with
  | PObj es _ =>
      rev (map (fun e => (if is_unit (e_key e) then None else as_str (e_key e), e_val e)) es)
  | _ => []
  end.
Definition extract_schema_map (v : value) : list (option str * value) :=
  match v_payload v with
  | PObj es _ =>
      fold_left (fun m e => if key_is (lit "schema") e then schema_entries (v_payload (e_val e)) ++ m else m) es []
  | _ => []
  end.

(** [extract_object_fields] (1923-1935), [extract_enum_variants] (1971-1983), [is_optional_field] (1937-1943). *)
Definition named_entries (v : value) : list (str * value) :=
  match v_payload v with
  | PObj es _ => flat_map (fun e => match as_str (e_key e) with Some n => [(n, e_val e)] | None => [] end) es
  | _ => []
  end.
Definition extract_object_fields (v : value) : list (str * value) := rev (named_entries v).
Definition extract_enum_variants (v : value) : list str := map fst (named_entries v).
Definition tag_name (v : value) : option str := option_map fst (v_tag v).
Definition is_optional_field (v : value) : bool :=
  match tag_name v with
  | Some t => str_eqb t (lit "optional") || str_eqb t (lit "default")
  | None => false
  end.

(** [compare_object_fields] (1890-1921). *)
Definition compare_object_fields (name : option str) (baseline local : value) : changes :=
  let b := extract_object_fields baseline in
  let l := extract_object_fields local in
  let removed := filter (fun f => negb (map_has str_eqb f l)) (map_keys str_eqb b) in
  let added := filter (fun f => negb (map_has str_eqb f b)) (map_keys str_eqb l) in
  let opt f := match map_get str_eqb f l with Some t => is_optional_field t | None => false end in
  mkchanges (map (fun f => RemovedField f name) removed ++
             map (fun f => AddedRequired f name) (filter (fun f => negb (opt f)) added))
            (map (fun f => AddedOptional f name) (filter opt added)) [].

(** [compare_enum_variants] (1945-1969). *)
Definition str_in (x : str) (l : list str) : bool := existsb (str_eqb x) l.
Definition compare_enum_variants (name : option str) (baseline local : value) : changes :=
  let b := extract_enum_variants baseline in
  let l := extract_enum_variants local in
  mkchanges (map (fun v => RemovedVariant v name) (filter (fun v => negb (str_in v l)) b))
            (map (fun v => AddedVariant v name) (filter (fun v => negb (str_in v b)) l)) [].

(** [compare_type_definitions] (1863-1888). *)
Definition compare_type_definitions (name : option str) (baseline local : value) : changes :=
  let bt := tag_name baseline in
  let lt := tag_name local in
  if negb (name_eqb bt lt) then mkchanges [ChangedTag name bt lt] [] []
  else
    join_changes
      (if name_eqb bt (Some (lit "object")) then compare_object_fields name baseline local else no_changes)
      (if name_eqb bt (Some (lit "enum")) then compare_enum_variants name baseline local else no_changes).

(** [compare_schemas] (1810-1838). *)
Definition compare_schemas (baseline local : value) : changes :=
  let b := extract_schema_map baseline in
  let l := extract_schema_map local in
  let removed := filter (fun n => negb (map_has name_eqb n l)) (map_keys name_eqb b) in
  let added := filter (fun n => negb (map_has name_eqb n b)) (map_keys name_eqb l) in
  join_changes (mkchanges (map RemovedType removed) (map AddedType added) [])
    (fold_right (fun n acc =>
       match map_get name_eqb n b, map_get name_eqb n l with
       | Some x, Some y => join_changes (compare_type_definitions n x y) acc
       | _, _ => acc
       end) no_changes (map_keys name_eqb b)).

(** ** Versions (1650-1681) *)

(** [str::parse::<u64>]. *)
Definition parse_u64 (s : str) : option N :=
  match s with
  | [] => None
  | c :: r => if (c =? 43)%N then (match r with [] => None | _ => dec_value 0 r end) else dec_value 0 s
  end.

(** [format!("{n}")] for a [u64], which has at most twenty digits. *)
Fixpoint dec_digits (fuel : nat) (n : N) (acc : str) : str :=
  match fuel with
  | O => acc
  | S f => if (n <? 10)%N then ((48 + n) :: acc)%N else dec_digits f (n / 10)%N (((48 + n mod 10) :: acc)%N)
  end.
Definition show_u64 (n : N) : str := dec_digits 20 n [].

(** [s.split('.')]. *)
Fixpoint split_dots (s cur : str) : list str :=
  match s with
  | [] => [rev cur]
  | c :: r => if (c =? cDOT)%N then rev cur :: split_dots r [] else split_dots r (c :: cur)
  end.

(** [x + 1] on [u64] in a release build (a debug build panics on overflow). *)
Definition succ_u64 (n : N) : N := ((n + 1) mod 18446744073709551616)%N.

Definition calculate_next_version (current : str) (c : changes) : option str :=
  match split_dots current [] with
  | [x; y; z] =>
      match parse_u64 x, parse_u64 y, parse_u64 z with
      | Some major, Some minor, Some pat =>
          let '(a, b, d) :=
            match breaking c with
            | _ :: _ => if (major =? 0)%N then (0, succ_u64 minor, 0)%N else (succ_u64 major, 0, 0)%N
            | [] =>
                match additive c with
                | _ :: _ => (major, succ_u64 minor, 0)%N
                | [] => (major, minor, succ_u64 pat)
                end
            end in
          Some (show_u64 a ++ [cDOT] ++ show_u64 b ++ [cDOT] ++ show_u64 d)
      | _, _, _ => None
      end
  | _ => None
  end.

(** ** JSON export (1358-1400) *)

(** [serde_json::Value] as far as it is produced. *)
Inductive json :=
| JNull
| JStr (s : str)
| JArr (l : list json)
| JObj (m : list (str * json)).

(** Order of strings: bytes of UTF-8, which is the order of the code points. *)
Fixpoint str_ltb (a b : str) : bool :=
  match a, b with
  | _, [] => false
  | [], _ :: _ => true
  | x :: a', y :: b' => if (x <? y)%N then true else if (x =? y)%N then str_ltb a' b' else false
  end.

Section Json.
(** [serde_json::Map] keeps the entries sorted, or in insertion order with the feature
    [preserve_order] (which the workspace build turns on through styx-wasm). *)
Variable preserve_order : bool.
(** [format!("{:?}")] of a key. *)
Variable debug : value -> str.

Fixpoint json_insert (k : str) (v : json) (m : list (str * json)) : list (str * json) :=
  match m with
  | [] => [(k, v)]
  | (k', v') :: r =>
      if str_eqb k k' then (k, v) :: r
      else if negb preserve_order && str_ltb k k' then (k, v) :: m
      else (k', v') :: json_insert k v r
  end.

Definition json_key (key : value) : str :=
  if is_unit key then [cAT] else match as_str key with Some s => s | None => debug key end.

(** [value_to_json] (1358-1375), [payload_to_json] (1377-1400). *)
Fixpoint value_to_json (v : value) : json :=
  match v with
  | Val (Some (name, _)) p _ =>
      let m := json_insert (lit "$tag") (JStr name) [] in
      JObj (match p with
            | PNone => m
            | _ => json_insert (lit "$payload") (payload_to_json p) m
            end)
  | Val None p _ => payload_to_json p
  end
with payload_to_json (p : payload) : json :=
  match p with
  | PNone => JNull
  | PScalar t _ _ => JStr t
  | PSeq items _ => JArr (map value_to_json items)
  | PObj es _ => JObj (fold_left (fun m e => match e with Ent k v _ => json_insert (json_key k) (value_to_json v) m end) es [])
  end.
End Json.
