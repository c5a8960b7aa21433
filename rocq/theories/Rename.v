(** Vocabulary: programs over containers in which every element value [v] is replaced by [f v]. *)
From Verif Require Import Base Mem Allocators Env Vector Array HeapPure Heap Mixed.

Section rename.
  Context (f : value -> value).

  (** Memory: only bytes of elements change. *)
  Definition rcell (c : cell) : cell :=
    match c with
    | Frag v i => Frag (f v) i
    | Obj v i => Obj (f v) i
    | _ => c
    end.
  Definition rworld (w : world) : world := World (Store (rcell <$> mem (st w)) (mtab (st w))) (orc w) (tick w).

  (** Programs. *)
  Definition rref (r : ref) : ref := match r with RVal x => RVal (f x) | _ => r end.
  Definition rrange (g : range) : range := match g with GVals l => GVals (map f l) | _ => g end.
  Definition rvop (o : vop) : vop :=
    match o with
    | VNewFill c n r h => VNewFill c n (rref r) h
    | VNewList c l h => VNewList c (map f l) h
    | VNewRange c g h => VNewRange c (rrange g) h
    | VSet c i r => VSet c i (rref r)
    | VPush c r => VPush c (rref r)
    | VPushRange c g => VPushRange c (rrange g)
    | _ => o
    end.
  Definition raop (o : aop) : aop :=
    match o with
    | ANewFill c n r h => ANewFill c n (rref r) h
    | ANewList c l h => ANewList c (map f l) h
    | ANewRange c g h => ANewRange c (rrange g) h
    | ASet c i r => ASet c i (rref r)
    | AFrom c g => AFrom c (rrange g)
    | _ => o
    end.
  Definition rhop (o : hop) : hop :=
    match o with
    | HNewList c l q h => HNewList c (map f l) q h
    | HInsert c r => HInsert c (rref r)
    | HFind c r => HFind c (rref r)
    | _ => o
    end.
  Definition rcop (o : cop) : cop :=
    match o with OVec o => OVec (rvop o) | OArr o => OArr (raop o) | OHeap o => OHeap (rhop o) end.

  (** Observations.  Nothing is said about the value of an element that was never set. *)
  Definition robs (ob : cobs) : cobs := match ob with CVal x => CVal (f <$> x) | _ => ob end.
  Definition renamed (ob ob' : cobs) : Prop :=
    match ob with
    | CVal None => exists x, ob' = CVal x
    | _ => ob' = robs ob
    end.
  Definition rres (r : res (list cobs)) : res (list cobs) :=
    match r with
    | Ok os w evs => Ok (map robs os) (rworld w) evs
    | Err u evs => Err u evs
    end.

  (** Element types, comparators and operator== that treat [f x] as the others treat [x]. *)
  Definition relt (T T' : elt) : Prop := e_triv T' = e_triv T /\ forall v, e_left T' (f v) = f (e_left T v).
  Definition rcomp (comp comp' : nat -> value -> value -> bool) : Prop := forall q x y, comp' q (f x) (f y) = comp q x y.
  Definition reqv (eqv eqv' : value -> value -> bool) : Prop := forall x y, eqv' (f x) (f y) = eqv x y.
  Definition rctype (t t' : ctype) : Prop :=
    match t, t' with
    | TVec sz, TVec sz' => sz' = sz
    | TArr sz, TArr sz' => sz' = sz
    | THeap sz T comp eqv, THeap sz' T' comp' eqv' => sz' = sz /\ T' = T /\ relt T T /\ rcomp comp comp' /\ reqv eqv eqv'
    | _, _ => False
    end.

  (** [m'] does with the values [f v] what [m] does with the values [v].  If [f] maps two values to
      one, [m'] may do more: bytes of different elements may then form an element. *)
  Definition natural (m m' : M (list cobs)) : Prop := forall w,
    (forall os w' evs, m w = Ok os w' evs ->
      exists os', m' (rworld w) = Ok os' (rworld w') evs /\ Forall2 renamed os os') /\
    (Inj (=) (=) f -> m' (rworld w) = rres (m w)).
End rename.

(** Two programs that differ in nothing but the values of elements. *)
Definition like_ref (r r' : ref) : Prop :=
  match r, r' with RVal _, RVal _ => True | _, _ => r = r' end.
Definition like_range (g g' : range) : Prop :=
  match g, g' with GVals l, GVals l' => length l = length l' | _, _ => g = g' end.
Definition like_vop (o o' : vop) : Prop :=
  match o, o' with
  | VNewFill c n r h, VNewFill c' n' r' h' => c = c' /\ n = n' /\ like_ref r r' /\ h = h'
  | VNewList c l h, VNewList c' l' h' => c = c' /\ length l = length l' /\ h = h'
  | VNewRange c g h, VNewRange c' g' h' => c = c' /\ like_range g g' /\ h = h'
  | VSet c i r, VSet c' i' r' => c = c' /\ i = i' /\ like_ref r r'
  | VPush c r, VPush c' r' => c = c' /\ like_ref r r'
  | VPushRange c g, VPushRange c' g' => c = c' /\ like_range g g'
  | _, _ => o = o'
  end.
Definition like_aop (o o' : aop) : Prop :=
  match o, o' with
  | ANewFill c n r h, ANewFill c' n' r' h' => c = c' /\ n = n' /\ like_ref r r' /\ h = h'
  | ANewList c l h, ANewList c' l' h' => c = c' /\ length l = length l' /\ h = h'
  | ANewRange c g h, ANewRange c' g' h' => c = c' /\ like_range g g' /\ h = h'
  | ASet c i r, ASet c' i' r' => c = c' /\ i = i' /\ like_ref r r'
  | AFrom c g, AFrom c' g' => c = c' /\ like_range g g'
  | _, _ => o = o'
  end.

(** The same answers, except for values of elements. *)
Definition like_obs (ob ob' : cobs) : Prop :=
  match ob, ob' with CVal _, CVal _ => True | _, _ => ob = ob' end.

(** The same memory is accessible, the same blocks exist, the same addresses come next. *)
Definition like_world (w w' : world) : Prop :=
  (forall i, is_Some (mem (st w) !! i) <-> is_Some (mem (st w') !! i)) /\
  mtab (st w) = mtab (st w') /\ orc w = orc w' /\ tick w = tick w'.

(** No elements in memory. *)
Definition no_elements (w : world) : Prop :=
  forall i c, mem (st w) !! i = Some c -> match c with Frag _ _ | Obj _ _ => False | _ => True end.

Definition trace {X} (r : res X) : list event := match r with Ok _ _ e | Err _ e => e end.

(** Two runs go the same way unless an event classified as [bad] occurs; if it occurs in one of them
    it occurs in both. *)
Definition like_course (bad : event -> bool) (r r' : res (list cobs)) : Prop :=
  existsb bad (trace r) = existsb bad (trace r') /\
  (existsb bad (trace r) = false ->
   exists os w os' w' e, r = Ok os w e /\ r' = Ok os' w' e /\ Forall2 like_obs os os' /\ like_world w w').
