(** Vocabulary: compositions that differ in the nesting of fallback or segragator only. *)
From Verif Require Import Base Mem AlignedMalloc Allocators Tree Client Env Vector Array Heap Mixed Builder.

(** fallback<a1, fallback<a2, ... fallback<an, e>>> for a [p] that is itself such a chain:
    nested to the right. *)
Fixpoint fb_graft (p f : aexp) : aexp :=
  match p with
  | EFallback a b => EFallback a (fb_graft b f)
  | _ => EFallback p f
  end.

(** All occurrences of fallback in a type nested to the right: the order of the members is
    kept, the brackets are forgotten. *)
Fixpoint unbracket (e : aexp) : aexp :=
  match e with
  | EFallback p f => fb_graft (unbracket p) (unbracket f)
  | EFreelist Min Max e => EFreelist Min Max (unbracket e)
  | ECascading e => ECascading (unbracket e)
  | ESegragator T p f => ESegragator T (unbracket p) (unbracket f)
  | EOverflow e => EOverflow (unbracket e)
  | EShared e => EShared (unbracket e)
  | EThreaded e => EThreaded (unbracket e)
  | EReference e => EReference (unbracket e)
  | EGlobal e => EGlobal (unbracket e)
  | EChecked e => EChecked (unbracket e)
  | ENull | EMalloc | ELinear _ | EStack _ => e
  end.

(** What the programmer writes without the builder: fallback<a1, fallback<a2, ... an>>. *)
Fixpoint fb_chain (a : aexp) (l : list aexp) : aexp :=
  match l with
  | [] => a
  | a' :: l => EFallback a (fb_chain a' l)
  end.

(** segragator<t1, a0, segragator<t2, a1, ... an>>. *)
Fixpoint seg_chain (a : aexp) (l : list (N * aexp)) : aexp :=
  match l with
  | [] => a
  | (t, a') :: l => ESegragator t a (seg_chain a' l)
  end.

(** The types that the builders compute (Builder.v). *)
Fixpoint fb_type (t : ftree aexp) : aexp :=
  match t with FLeaf a => a | FNode l r => EFallback (fb_type l) (fb_type r) end.
Fixpoint seg_type (t : stree aexp) : aexp :=
  match t with SLeaf a => a | SNode th l r => ESegragator th (seg_type l) (seg_type r) end.

(** The type has construct and destroy members: there is an overflow in it, and every
    fallback and segragator around it can tell which member owns an object. *)
Fixpoint ecd (e : aexp) : bool :=
  match e with
  | ENull | EMalloc | ELinear _ | EStack _ => false
  | EOverflow _ => true
  | EFallback p f | ESegragator _ p f => eowns p && (ecd p || ecd f)
  | EFreelist _ _ e | ECascading e | EShared e | EThreaded e | EReference e | EGlobal e | EChecked e => ecd e
  end.

(** Objects can be constructed through all members, or through none has construct. *)
Definition uniform (l : list aexp) : bool := forallb eowns l || forallb (fun e => negb (ecd e)) l.

(** No program can tell the two types apart, whether it uses the allocator directly or through
    containers, correctly or not: from the same initial world, all answers (including addresses), all
    events, undefined behaviour if any, and the final world are the same. *)
Definition indistinguishable (pl : platform) (e e' : aexp) : Prop :=
  (forall b ops w,
    session (den pl e) b (eready_now pl e) ops w = session (den pl e') b (eready_now pl e') ops w) /\
  (forall b ty k ops w,
    csession (den pl e) b (xstep (den pl e) b ty k) (xkill (den pl e) b) k ops w =
    csession (den pl e') b (xstep (den pl e') b ty k) (xkill (den pl e') b) k ops w).
