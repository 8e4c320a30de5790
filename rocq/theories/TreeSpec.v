(** Specification vocabulary for trees: ordered maps (C16), steps into a tree (C17), documents and their
    events (C18). *)
From Verif Require Import Base TokModel LexModel ParseModel ParseSpec TreeModel.

(** ** C16: an object as a list of keys and values *)

(** The text keys of an object in order, [None] for every other key. *)
Definition text_keys (es : list entry) : list (option str) := map (fun e => as_str (e_key e)) es.

(** [v] is the value of the first entry whose key is the text [k]. *)
Definition maps_to (es : list entry) (k : str) (v : value) : Prop :=
  exists a e b, es = a ++ e :: b /\ as_str (e_key e) = Some k /\ e_val e = v /\ ~ In (Some k) (text_keys a).

(** ** C17: steps *)

Inductive step := SKey (k : str) | SIdx (n : nat).

(** The value one step below [v]. *)
Inductive child : value -> step -> value -> Prop :=
| child_key t es osp sp k w : maps_to es k w -> child (Val t (PObj es osp) sp) (SKey k) w
| child_idx t items ssp sp n w : nth_error items n = Some w -> child (Val t (PSeq items ssp) sp) (SIdx n) w.

Inductive reaches : value -> list step -> value -> Prop :=
| reach_here v : reaches v [] v
| reach_step v s w l u : child v s w -> reaches w l u -> reaches v (s :: l) u.

(** Decimal digits of a number *)
Fixpoint digits_fuel (fuel : nat) (n : N) (acc : str) : str :=
  match fuel with
  | O => acc
  | S f => let acc' := (48 + n mod 10)%N :: acc in if (n <? 10)%N then acc' else digits_fuel f (n / 10)%N acc'
  end.
Definition decimal (n : nat) : str := digits_fuel (S n) (N.of_nat n) [].

(** Path syntax: [key], [.key] after another step, [[n]]. *)
Fixpoint path_text (first : bool) (l : list step) : str :=
  match l with
  | [] => []
  | SKey k :: r => (if first then [] else [cDOT]) ++ k ++ path_text false r
  | SIdx n :: r => cLSQ :: decimal n ++ cRSQ :: path_text false r
  end.

Definition step_ok (s : step) : Prop :=
  match s with
  | SKey k => k <> [] /\ ~ In cDOT k /\ ~ In cLSQ k
  | SIdx n => (N.of_nat n < 18446744073709551616)%N
  end.

(** No object in the value has a text key starting with a bracket. *)
Inductive no_bracket_keys : value -> Prop :=
| nbk t p sp : (forall es osp, p = PObj es osp -> Forall (fun e => (forall k, as_str (e_key e) <> Some (cLSQ :: k)) /\ no_bracket_keys (e_val e)) es) ->
    (forall items ssp, p = PSeq items ssp -> Forall no_bracket_keys items) ->
    no_bracket_keys (Val t p sp).

(** Two step lists that part at some point. *)
Definition diverge (a b : list step) : Prop := exists c s t a' b', a = c ++ s :: a' /\ b = c ++ t :: b' /\ s <> t.

(** ** C18: documents *)

(** A document as written: tags may be stacked, every value has the places of its first and last mark. *)
Inductive dval :=
| DScalar (sp : span) (t : str) (k : skind)
| DUnit (sp : span)
| DSeq (s1 : span) (items : list dval) (s2 : span)
| DObj (s1 : span) (entries : list dentry) (s2 : span)
| DTag (s1 : span) (name : str) (payload : option dval) (s2 : span)
with dentry := DEnt (docs : list (span * list str)) (s1 : span) (ksp : span) (tag pl : option str) (k : skind) (v : dval) (s2 : span).

Fixpoint val_events (d : dval) : list event :=
  match d with
  | DScalar sp t k => [mkev sp (EvScalar t k)]
  | DUnit sp => [mkev sp EvUnit]
  | DSeq s1 items s2 => mkev s1 EvSeqStart :: flat_map val_events items ++ [mkev s2 EvSeqEnd]
  | DObj s1 es s2 => mkev s1 EvObjStart :: flat_map ent_events es ++ [mkev s2 EvObjEnd]
  | DTag s1 n p s2 => mkev s1 (EvTagStart n) :: match p with Some w => val_events w | None => [] end ++ [mkev s2 EvTagEnd]
  end
with ent_events (e : dentry) : list event :=
  match e with
  | DEnt docs s1 ksp tag pl k v s2 =>
    map (fun d => mkev (fst d) (EvDoc (snd d))) docs ++ mkev s1 EvEntryStart :: mkev ksp (EvKey tag pl k) :: val_events v ++ [mkev s2 EvEntryEnd]
  end.

(** The events of a document: with or without a root object. *)
Inductive doc_events : list dentry -> list event -> Prop :=
| de_empty a b : doc_events [] [mkev a EvDocStart; mkev b EvDocEnd]
| de_root a s1 es s2 b : doc_events es (mkev a EvDocStart :: val_events (DObj s1 es s2) ++ [mkev b EvDocEnd]).

Definition not_comment (e : event) : bool := match ev_kind e with EvComment _ => false | _ => true end.

(** The tree of a document. A value has room for one tag only: of stacked tags the outermost is kept. *)
Definition cover (a b : span) : span := mkspan (sp_start a) (sp_end b).

Fixpoint to_value (d : dval) : value :=
  match d with
  | DScalar sp t k => Val None (PScalar t k (Some sp)) (Some sp)
  | DUnit sp => Val None PNone (Some sp)
  | DSeq s1 items s2 => Val None (PSeq (map to_value items) (Some (cover s1 s2))) (Some (cover s1 s2))
  | DObj s1 es s2 => Val None (PObj (map to_entry es) (Some (cover s1 s2))) (Some (cover s1 s2))
  | DTag s1 n None s2 => Val (Some (n, Some s1)) PNone (Some s1)
  | DTag s1 n (Some w) s2 => let 'Val _ p sp := to_value w in Val (Some (n, Some s1)) p sp
  end
with to_entry (e : dentry) : entry :=
  match e with
  | DEnt docs s1 ksp tag pl k v s2 =>
    Ent (Val (option_map (fun n => (n, Some ksp)) tag) (match pl with Some t => PScalar t k (Some ksp) | None => PNone end) (Some ksp))
        (to_value v)
        (match docs with [] => None | _ => Some (join [cLF] (map (fun d => join [cLF] (snd d)) docs)) end)
  end.

(** lib.rs 17-24, parse *)
Definition tree (src : str) (t : value + build_error) : Prop := exists evs, parses src evs /\ build evs = t.

(** Equality of trees up to places and scalar styles. *)
Fixpoint erase (v : value) : value :=
  match v with
  | Val t p _ => Val (option_map (fun x => (fst x, None)) t) (erase_payload p) None
  end
with erase_payload (p : payload) : payload :=
  match p with
  | PNone => PNone
  | PScalar t _ _ => PScalar t Bare None
  | PSeq items _ => PSeq (map erase items) None
  | PObj es _ => PObj (map erase_entry es) None
  end
with erase_entry (e : entry) : entry :=
  match e with Ent k v d => Ent (erase k) (erase v) d end.

(** ** Histories of inserts *)

Definition mem_key (k : str) (seen : list (option str)) : bool :=
  existsb (fun o => match o with Some s => str_eqb s k | None => false end) seen.

(** The keys that are new, in the order of their first appearance. *)
Fixpoint fresh (seen : list (option str)) (ks : list str) : list str :=
  match ks with
  | [] => []
  | k :: r => if mem_key k seen then fresh seen r else k :: fresh (seen ++ [Some k]) r
  end.

(** [v] is what the history [h] assigned to [k] last. *)
Definition last_assigned (h : list (str * value)) (k : str) (v : value) : Prop :=
  exists a b, h = a ++ (k, v) :: b /\ forall v', ~ In (k, v') b.

Definition inserts (h : list (str * value)) (es : list entry) : list entry :=
  fold_left (fun es x => insert (fst x) (snd x) es) h es.
