(** Specification vocabulary for C26 and C51: which values belong to a type, and which of them are read back. *)
From Coq Require Import String.
From Verif Require Import Base TokModel TreeModel FmtModel WriteSpec SerdeModel.
Local Open Scope nat_scope.

Definition int_range (b : N) (z : Z) : Prop := (- 2 ^ (Z.of_N b - 1) <= z < 2 ^ (Z.of_N b - 1))%Z.
Definition uint_range (b : N) (z : Z) : Prop := (0 <= z < 2 ^ Z.of_N b)%Z.
Definition machine (b : N) : Prop := In b [8; 16; 32; 64]%N.

(** ** Typing *)
Section Typing.
Variable env : nat -> ty.

Inductive has_type : ty -> val -> Prop :=
| ht_bool b : has_type TBool (DBool b)
| ht_int b z : machine b -> int_range b z -> has_type (TInt b) (DInt z)
| ht_uint b z : machine b -> uint_range b z -> has_type (TUint b) (DInt z)
| ht_i128 z : int_range 128 z -> has_type TI128 (DInt z)
| ht_u128 z : uint_range 128 z -> has_type TU128 (DInt z)
| ht_char c : valid_char c = true -> has_type TChar (DChar c)
| ht_str s : has_type TString (DStr s)
| ht_bytes l : Forall (fun b => (b < 256)%N) l -> has_type TBytes (DBytes l)
| ht_unit : has_type TUnit DUnit
| ht_none t : has_type (TOption t) DNone
| ht_some t v : has_type t v -> has_type (TOption t) (DSome v)
| ht_newtype t v : has_type t v -> has_type (TNewtype t) v
| ht_seq t l : have_type t l -> has_type (TSeq t) (DSeq l)
| ht_tuple ts l : have_types ts l -> has_type (TTuple ts) (DSeq l)
| ht_map kt vt l : pairs_type kt vt l -> NoDup (map fst l) -> has_type (TMap kt vt) (DMap l)
| ht_struct fs l : fields_type fs l -> NoDup (map fst fs) -> has_type (TStruct fs) (DStruct l)
| ht_unit_variant vs n : In (n, VUnit) vs -> NoDup (map fst vs) -> has_type (TEnum vs) (DUnitV n)
| ht_new_variant vs n t v : In (n, VNew t) vs -> NoDup (map fst vs) -> has_type t v -> has_type (TEnum vs) (DNewV n v)
| ht_tuple_variant vs n ts l : In (n, VTuple ts) vs -> NoDup (map fst vs) -> have_types ts l -> has_type (TEnum vs) (DTupleV n l)
| ht_struct_variant vs n fs l : In (n, VStruct fs) vs -> NoDup (map fst vs) -> fields_type fs l -> NoDup (map fst fs) ->
    has_type (TEnum vs) (DStructV n l)
| ht_ref n v : has_type (env n) v -> has_type (TRef n) v
with have_type : ty -> list val -> Prop :=
| hs_nil t : have_type t []
| hs_cons t v l : has_type t v -> have_type t l -> have_type t (v :: l)
with have_types : list ty -> list val -> Prop :=
| hts_nil : have_types [] []
| hts_cons t v ts l : has_type t v -> have_types ts l -> have_types (t :: ts) (v :: l)
with pairs_type : ty -> ty -> list (val * val) -> Prop :=
| pt_nil kt vt : pairs_type kt vt []
| pt_cons kt vt k v l : has_type kt k -> has_type vt v -> pairs_type kt vt l -> pairs_type kt vt ((k, v) :: l)
with fields_type : list (str * ty) -> list (str * val) -> Prop :=
| ft_nil : fields_type [] []
| ft_cons n t v fs l : has_type t v -> fields_type fs l -> fields_type ((n, t) :: fs) ((n, v) :: l).

(** ** Keys *)

(** [key_for t k s]: [k] is a key of type [t], its text is [s]. Names of variants must be bare words. *)
Inductive key_for : ty -> val -> str -> Prop :=
| kf_bool b : key_for TBool (DBool b) (if b then lit "true" else lit "false")
| kf_int b z s : machine b -> int_range b z -> s = show_z z -> key_for (TInt b) (DInt z) s
| kf_uint b z s : machine b -> uint_range b z -> s = show_z z -> key_for (TUint b) (DInt z) s
| kf_char c : valid_char c = true -> key_for TChar (DChar c) [c]
| kf_str s : key_for TString (DStr s) s
| kf_variant vs n : In (n, VUnit) vs -> NoDup (map fst vs) -> can_be_bare n = true -> key_for (TEnum vs) (DUnitV n) n
| kf_some t k s : key_for t k s -> key_for (TOption t) (DSome k) s
| kf_newtype t k s : key_for t k s -> key_for (TNewtype t) k s
| kf_ref n k s : key_for (env n) k s -> key_for (TRef n) k s.

(** ** What can be read *)

(** Values whose text is [@]. *)
Fixpoint writes_unit (v : val) : bool := match v with DUnit | DNone => true | DSome v => writes_unit v | _ => false end.

(** [evolves t v u]: what was written as [v] may be read as a value of type [t], which then is [u]. The types of
    writer and reader may differ: the reader may know fewer fields, optional fields may be missing, a field may have
    become optional, integers may have another size. *)
Inductive evolves : ty -> val -> val -> Prop :=
| ev_bool b : evolves TBool (DBool b) (DBool b)
| ev_int b z : machine b -> int_range b z -> evolves (TInt b) (DInt z) (DInt z)
| ev_uint b z : machine b -> uint_range b z -> evolves (TUint b) (DInt z) (DInt z)
| ev_char c : evolves TChar (DChar c) (DChar c)
| ev_str s : evolves TString (DStr s) (DStr s)
| ev_bytes l : Forall (fun b => (b < 256)%N) l -> evolves TBytes (DBytes l) (DBytes l)
| ev_unit v : writes_unit v = true -> evolves TUnit v DUnit
| ev_none t v : writes_unit v = true -> evolves (TOption t) v DNone
| ev_some t v u : writes_unit v = false -> evolves t v u -> evolves (TOption t) v (DSome u)
| ev_strip t v u : writes_unit v = false -> evolves t v u -> evolves t (DSome v) u
| ev_newtype t v u : evolves t v u -> evolves (TNewtype t) v u
| ev_seq t l m : evolve_all t l m -> evolves (TSeq t) (DSeq l) (DSeq m)
| ev_map kt vt l m : evolve_pairs kt vt l m -> NoDup (map fst l) -> evolves (TMap kt vt) (DMap l) (DMap m)
| ev_struct fs l acc u : evolve_fields fs l acc -> NoDup (map fst l) -> NoDup (map fst fs) ->
    Forall2 (fun f x => fst x = fst f /\ (In x acc \/ ~ In (fst f) (map fst acc) /\ (exists t, snd f = TOption t) /\ snd x = DNone)) fs u ->
    evolves (TStruct fs) (DStruct l) (DStruct u)
| ev_ref n v u : evolves (env n) v u -> evolves (TRef n) v u
with evolve_all : ty -> list val -> list val -> Prop :=
| ea_nil t : evolve_all t [] []
| ea_cons t v u l m : evolves t v u -> evolve_all t l m -> evolve_all t (v :: l) (u :: m)
with evolve_pairs : ty -> ty -> list (val * val) -> list (val * val) -> Prop :=
| ep_nil kt vt : evolve_pairs kt vt [] []
| ep_cons kt vt k s v u l m : key_for kt k s -> evolves vt v u -> evolve_pairs kt vt l m -> evolve_pairs kt vt ((k, v) :: l) ((k, u) :: m)
(** The known fields among those written, read; the others are passed over. *)
with evolve_fields : list (str * ty) -> list (str * val) -> list (str * val) -> Prop :=
| ef_nil fs : evolve_fields fs [] []
| ef_known fs n t v u l acc : In (n, t) fs -> evolves t v u -> evolve_fields fs l acc -> evolve_fields fs ((n, v) :: l) ((n, u) :: acc)
| ef_unknown fs n v l acc : ~ In n (map fst fs) -> evolve_fields fs l acc -> evolve_fields fs ((n, v) :: l) acc.

Inductive evolve_tuple : list ty -> list val -> list val -> Prop :=
| et_nil : evolve_tuple [] [] []
| et_cons t v u ts l m : evolves t v u -> evolve_tuple ts l m -> evolve_tuple (t :: ts) (v :: l) (u :: m).

(** At the root, where no comma ends a value, an unknown field written as [@] must be the last: [skip_value] takes
    the next key for the name of a tag. *)
Fixpoint unwrap (v : val) : val := match v with DSome v => unwrap v | _ => v end.
Inductive struct_of : ty -> list (str * ty) -> Prop :=
| so_struct fs : struct_of (TStruct fs) fs
| so_option t fs : struct_of t fs -> struct_of (TOption t) fs
| so_newtype t fs : struct_of t fs -> struct_of (TNewtype t) fs
| so_ref n fs : struct_of (env n) fs -> struct_of (TRef n) fs.
Definition root_safe (t : ty) (v : val) : Prop := forall fs l, struct_of t fs -> unwrap v = DStruct l ->
  forall a n x b, l = a ++ (n, x) :: b -> ~ In n (map fst fs) -> writes_unit x = true -> b = [].

(** ** The round trip *)

(** [fits t v]: values of [t] without tuples, enums other than as keys of maps, integers of 128 bits, and [Some] of
    something written as [@]. *)
Inductive fits : ty -> val -> Prop :=
| fit_bool b : fits TBool (DBool b)
| fit_int b z : machine b -> int_range b z -> fits (TInt b) (DInt z)
| fit_uint b z : machine b -> uint_range b z -> fits (TUint b) (DInt z)
| fit_char c : valid_char c = true -> fits TChar (DChar c)
| fit_str s : fits TString (DStr s)
| fit_bytes l : Forall (fun b => (b < 256)%N) l -> fits TBytes (DBytes l)
| fit_unit : fits TUnit DUnit
| fit_none t : fits (TOption t) DNone
| fit_some t v : writes_unit v = false -> fits t v -> fits (TOption t) (DSome v)
| fit_newtype t v : fits t v -> fits (TNewtype t) v
| fit_seq t l : fit_all t l -> fits (TSeq t) (DSeq l)
| fit_map kt vt l : fit_pairs kt vt l -> NoDup (map fst l) -> fits (TMap kt vt) (DMap l)
| fit_struct fs l : fit_fields fs l -> NoDup (map fst fs) -> fits (TStruct fs) (DStruct l)
| fit_ref n v : fits (env n) v -> fits (TRef n) v
with fit_all : ty -> list val -> Prop :=
| fia_nil t : fit_all t []
| fia_cons t v l : fits t v -> fit_all t l -> fit_all t (v :: l)
with fit_pairs : ty -> ty -> list (val * val) -> Prop :=
| fip_nil kt vt : fit_pairs kt vt []
| fip_cons kt vt k s v l : key_for kt k s -> fits vt v -> fit_pairs kt vt l -> fit_pairs kt vt ((k, v) :: l)
with fit_fields : list (str * ty) -> list (str * val) -> Prop :=
| fif_nil : fit_fields [] []
| fif_cons n t v fs l : fits t v -> fit_fields fs l -> fit_fields ((n, t) :: fs) ((n, v) :: l).
End Typing.

Scheme evolves_mind := Induction for evolves Sort Prop
  with evolve_all_mind := Induction for evolve_all Sort Prop
  with evolve_pairs_mind := Induction for evolve_pairs Sort Prop
  with evolve_fields_mind := Induction for evolve_fields Sort Prop.
Combined Scheme evolves_ind4 from evolves_mind, evolve_all_mind, evolve_pairs_mind, evolve_fields_mind.
Scheme fits_mind := Induction for fits Sort Prop
  with fit_all_mind := Induction for fit_all Sort Prop
  with fit_pairs_mind := Induction for fit_pairs Sort Prop
  with fit_fields_mind := Induction for fit_fields Sort Prop.
Combined Scheme fits_ind4 from fits_mind, fit_all_mind, fit_pairs_mind, fit_fields_mind.

(** ** Texts *)

(** [plain h v]: nothing in [v] is written with a tag or as a heredoc (strings of [h] line feeds or more are), and no
    bare word has a [>] in it. *)
Inductive plain (h : nat) : val -> Prop :=
| pl_bool b : plain h (DBool b)
| pl_int z : (Z.abs z < 10 ^ 39)%Z -> plain h (DInt z)
| pl_char c : line_feeds [c] < h -> plain h (DChar c)
| pl_str s : line_feeds s < h -> no_gt_word s \/ s = [cGT] -> plain h (DStr s)
| pl_bytes l : Forall (fun b => (b < 256)%N) l -> plain h (DBytes l)
| pl_unit : plain h DUnit
| pl_none : plain h DNone
| pl_some v : plain h v -> plain h (DSome v)
| pl_seq l : plain_all h l -> plain h (DSeq l)
| pl_map l : plain_pairs h l -> plain h (DMap l)
| pl_struct l : plain_fields h l -> plain h (DStruct l)
with plain_all (h : nat) : list val -> Prop :=
| pa_nil : plain_all h []
| pa_cons v l : plain h v -> plain_all h l -> plain_all h (v :: l)
with plain_pairs (h : nat) : list (val * val) -> Prop :=
| pp_nil : plain_pairs h []
| pp_cons k s v l : ser_key k = Some s -> no_gt_word s -> plain h v -> plain_pairs h l -> plain_pairs h ((k, v) :: l)
with plain_fields (h : nat) : list (str * val) -> Prop :=
| pf_nil : plain_fields h []
| pf_cons n v l : no_gt_word n -> plain h v -> plain_fields h l -> plain_fields h ((n, v) :: l).
Scheme plain_mind := Induction for plain Sort Prop
  with plain_all_mind := Induction for plain_all Sort Prop
  with plain_pairs_mind := Induction for plain_pairs Sort Prop
  with plain_fields_mind := Induction for plain_fields Sort Prop.
Combined Scheme plain_ind4 from plain_mind, plain_all_mind, plain_pairs_mind, plain_fields_mind.
