(** Compositions whose parts share an allocator.

    A [reference], a copy of a [shared] handle, a [stack_allocator] or a [global] inside a composition
    refers to an allocator object that other parts of the same composition may refer to as well, for
    instance segragator<64, freelist<0, 64, reference<A>>, reference<A>> s(a, a).  [den] (Tree.v) gives
    every such handle an allocator of its own; here all handles refer to one object, the *upstream*
    allocator. *)
From Verif Require Import Base Mem Bits AlignedMalloc Allocators Tree.

Section part.
  Context (U : alloc).

  (** A part of a composition: like [alloc], but every member may use the upstream allocator, whose
      object is at address [ub] and has the fields [snd s]. *)
  Record part := Part {
    p_st : Type;
    p_size : N;
    p_init : N -> M p_st;
    p_dtor : N -> N -> p_st * a_st U -> M (a_st U);
    p_alloc : N -> N -> p_st * a_st U -> N -> M (N * (p_st * a_st U));
    p_free : N -> N -> p_st * a_st U -> N -> N -> M (p_st * a_st U);
    p_owns : option (N -> N -> p_st * a_st U -> N -> bool);
    p_max : option (N -> N -> p_st * a_st U -> M N);
    p_cd : option (cd -> N -> N -> p_st * a_st U -> N -> M unit -> M (p_st * a_st U))
  }.

  (** A handle (reference.h:62-117; also stack_allocator.h:38-113, global.h, and shared.h as long as
      another handle exists): every member is forwarded to the upstream object. *)
  Definition handle : part := {|
    p_st := unit;
    p_size := 0;
    p_init := fun _ => ret tt;
    p_dtor := fun _ _ s => ret (snd s);
    p_alloc := fun ub _ s n => ' (p, u) <- a_alloc U ub (snd s) n ;; ret (p, (tt, u));
    p_free := fun ub _ s p n => u <- a_free U ub (snd s) p n ;; ret (tt, u);
    p_owns := option_map (fun o ub _ s p => o ub (snd s) p) (a_owns U);
    p_max := option_map (fun o ub _ s => o ub (snd s)) (a_max U);
    p_cd := option_map (fun o c ub _ s p act => u <- o c ub (snd s) p act ;; ret (tt, u)) (a_cd U) |}.

  (** An allocator that does not use the upstream allocator. *)
  Definition own (A : alloc) : part := {|
    p_st := a_st A;
    p_size := a_size A;
    p_init := a_init A;
    p_dtor := fun _ b s => a_dtor A b (fst s) ;;; ret (snd s);
    p_alloc := fun _ b s n => ' (p, l) <- a_alloc A b (fst s) n ;; ret (p, (l, snd s));
    p_free := fun _ b s p n => l <- a_free A b (fst s) p n ;; ret (l, snd s);
    p_owns := option_map (fun o _ b s p => o b (fst s) p) (a_owns A);
    p_max := option_map (fun o _ b s => o b (fst s)) (a_max A);
    p_cd := option_map (fun o c _ b s p act => l <- o c b (fst s) p act ;; ret (l, snd s)) (a_cd A) |}.

  (** A part as the inner allocator of a template.  Construction and destruction are done by the
      templates below and are not part of it. *)
  Definition inner (P : part) (ub : N) : alloc := {|
    a_st := p_st P * a_st U;
    a_size := p_size P;
    a_init := fun _ => ubm UBNull;
    a_dtor := fun _ _ => ret tt;
    a_alloc := p_alloc P ub;
    a_free := p_free P ub;
    a_owns := option_map (fun o => o ub) (p_owns P);
    a_max := option_map (fun o => o ub) (p_max P);
    a_cd := option_map (fun o c => o c ub) (p_cd P) |}.

  (** * freelist *)
  Section freelist.
    Context (Min Max : N) (P : part).

    Definition fl_in (ub : N) (s : p_st P * N * a_st U) : fl (inner P ub) :=
      Fl (A := inner P ub) (fst (fst s), snd s) (snd (fst s)).
    Definition fl_out {ub} (s : fl (inner P ub)) : p_st P * N * a_st U :=
      (fst (f_in s), f_head s, snd (f_in s)).

    (** freelist.h:70-73, then the destructor of m_Alloc *)
    Definition pfl_dtor (ub b : N) (s : p_st P * N * a_st U) : M (a_st U) :=
      (fun w => (s' <- fl_release Max (inner P ub) (S (size (mem (st w)))) b (fst (fst s), snd s) (snd (fst s)) ;;
                 p_dtor P ub b s') w).

    (** The members are those of Allocators.v. *)
    Definition pfreelist : part := {|
      p_st := p_st P * N;
      p_size := p_size P;
      p_init := fun b => l <- p_init P b ;; ret (l, 0);
      p_dtor := pfl_dtor;
      p_alloc := fun ub b s n => ' (p, s) <- fl_alloc Min Max (inner P ub) b (fl_in ub s) n ;; ret (p, fl_out s);
      p_free := fun ub b s p n => s <- fl_free Min Max (inner P ub) b (fl_in ub s) p n ;; ret (fl_out s);
      p_owns := option_map (fun o ub b s p => o ub b (fst (fst s), snd s) p) (p_owns P);
      p_max := option_map (fun o ub b s => o ub b (fst (fst s), snd s)) (p_max P);
      p_cd := option_map (fun o c ub b s p act =>
                s' <- o c ub b (fst (fst s), snd s) p act ;; ret (fst s', snd (fst s), snd s')) (p_cd P) |}.
  End freelist.

  (** * overflow *)
  Section overflow.
    Context (P : part).

    Definition ov_into (ub : N) (s : p_st P * (Z * Z) * a_st U) : ov (inner P ub) :=
      Ov (A := inner P ub) (fst (fst s), snd s) (fst (snd (fst s))) (snd (snd (fst s))).
    Definition ov_out {ub} (s : ov (inner P ub)) : p_st P * (Z * Z) * a_st U :=
      (fst (o_in s), (o_allocs s, o_cons s), snd (o_in s)).

    (** overflow.h:59-78, then the destructor of m_Alloc *)
    Definition pov_dtor (ub b : N) (s : p_st P * (Z * Z) * a_st U) : M (a_st U) :=
      (if (fst (snd (fst s)) =? 0)%Z then ret tt else emit (EvLeak (fst (snd (fst s))))) ;;;
      (if (snd (snd (fst s)) =? 0)%Z then ret tt else emit (EvLogic (snd (snd (fst s))))) ;;;
      p_dtor P ub b (fst (fst s), snd s).

    (** The members are those of Allocators.v. *)
    Definition poverflow : part := {|
      p_st := p_st P * (Z * Z);
      p_size := p_size P;
      p_init := fun b => l <- p_init P b ;; ret (l, (0, 0)%Z);
      p_dtor := pov_dtor;
      p_alloc := fun ub b s n => ' (p, s) <- ov_alloc (inner P ub) b (ov_into ub s) n ;; ret (p, ov_out s);
      p_free := fun ub b s p n => s <- ov_free (inner P ub) b (ov_into ub s) p n ;; ret (ov_out s);
      p_owns := option_map (fun o ub b s p => o ub b (fst (fst s), snd s) p) (p_owns P);
      p_max := option_map (fun o ub b s => o ub b (fst (fst s), snd s)) (p_max P);
      p_cd := Some (fun c ub b s p act => s <- ov_cd (inner P ub) c b (ov_into ub s) p act ;; ret (ov_out s)) |}.
  End overflow.

  (** * fallback and segragator *)
  Section pair.
    Context (P F : part).
    Local Notation stt := (p_st P * p_st F * a_st U)%type.

    (** What m_Primary and m_Fallback work on: their own fields and the one upstream object. *)
    Definition prim (s : stt) : p_st P * a_st U := (fst (fst s), snd s).
    Definition fall (s : stt) : p_st F * a_st U := (snd (fst s), snd s).
    Definition prim_set (s : stt) (x : p_st P * a_st U) : stt := (fst x, snd (fst s), snd x).
    Definition fall_set (s : stt) (x : p_st F * a_st U) : stt := (fst (fst s), fst x, snd x).

    Definition ppair_init (b : N) : M (p_st P * p_st F) :=
      lp <- p_init P b ;; lf <- p_init F (b + p_size P) ;; ret (lp, lf).
    (** m_Fallback first *)
    Definition ppair_dtor (ub b : N) (s : stt) : M (a_st U) :=
      u <- p_dtor F ub (b + p_size P) (fall s) ;; p_dtor P ub b (fst (fst s), u).

    (** fallback.h:193-202, segragator.h:187-196 *)
    Definition ppair_owns : option (N -> N -> stt -> N -> bool) :=
      omap2 (fun oP oF ub b s p => oP ub b (prim s) p || oF ub (b + p_size P) (fall s) p) (p_owns P) (p_owns F).

    (** fallback.h:185-191, segragator.h:179-185 *)
    Definition ppair_max : option (N -> N -> stt -> M N) :=
      omap2 (fun mP mF ub b s => x <- mP ub b (prim s) ;; y <- mF ub (b + p_size P) (fall s) ;; ret (N.max x y))
        (p_max P) (p_max F).

    (** fallback.h:123-181, segragator.h:117-175 *)
    Definition ppair_cd : option (cd -> N -> N -> stt -> N -> M unit -> M stt) :=
      match p_owns P with
      | None => None
      | Some oP =>
        let direct s (act : M unit) := act ;;; ret s in
        match p_cd P, p_cd F with
        | None, None => None
        | Some cP, None => Some (fun c ub b s p act =>
            if oP ub b (prim s) p then x <- cP c ub b (prim s) p act ;; ret (prim_set s x) else direct s act)
        | None, Some cF => Some (fun c ub b s p act =>
            if oP ub b (prim s) p then direct s act
            else x <- cF c ub (b + p_size P) (fall s) p act ;; ret (fall_set s x))
        | Some cP, Some cF => Some (fun c ub b s p act =>
            if oP ub b (prim s) p then x <- cP c ub b (prim s) p act ;; ret (prim_set s x)
            else x <- cF c ub (b + p_size P) (fall s) p act ;; ret (fall_set s x))
        end
      end.

    (** fallback.h:100-107 *)
    Definition pfb_alloc (ub b : N) (s : stt) (n : N) : M (N * stt) :=
      ' (p, x) <- p_alloc P ub b (prim s) n ;;
      let s := prim_set s x in
      if p =? 0 then ' (p, x) <- p_alloc F ub (b + p_size P) (fall s) n ;; ret (p, fall_set s x)
      else ret (p, s).

    (** fallback.h:109-119 *)
    Definition pfb_free (ub b : N) (s : stt) (p n : N) : M stt :=
      if match p_owns P with Some o => o ub b (prim s) p | None => false end
      then x <- p_free P ub b (prim s) p n ;; ret (prim_set s x)
      else x <- p_free F ub (b + p_size P) (fall s) p n ;; ret (fall_set s x).

    Definition pfallback : part := {|
      p_st := p_st P * p_st F;
      p_size := p_size P + p_size F;
      p_init := ppair_init; p_dtor := ppair_dtor;
      p_alloc := pfb_alloc; p_free := pfb_free;
      p_owns := ppair_owns; p_max := ppair_max; p_cd := ppair_cd |}.

    Context (Threshold : N).

    (** segragator.h:97-104 *)
    Definition pseg_alloc (ub b : N) (s : stt) (n : N) : M (N * stt) :=
      if n <=? Threshold then ' (p, x) <- p_alloc P ub b (prim s) n ;; ret (p, prim_set s x)
      else ' (p, x) <- p_alloc F ub (b + p_size P) (fall s) n ;; ret (p, fall_set s x).

    (** segragator.h:106-113 *)
    Definition pseg_free (ub b : N) (s : stt) (p n : N) : M stt :=
      if n <=? Threshold then x <- p_free P ub b (prim s) p n ;; ret (prim_set s x)
      else x <- p_free F ub (b + p_size P) (fall s) p n ;; ret (fall_set s x).

    Definition psegragator : part := {|
      p_st := p_st P * p_st F;
      p_size := p_size P + p_size F;
      p_init := ppair_init; p_dtor := ppair_dtor;
      p_alloc := pseg_alloc; p_free := pseg_free;
      p_owns := ppair_owns; p_max := ppair_max; p_cd := ppair_cd |}.
  End pair.

  (** threaded.h:61-113 with a single thread; Locks.v has the mutex. *)
  Definition pthreaded (P : part) : part := P.

  (** The upstream object and the composition that refers to it: [U u; P p(u);].  The upstream
      object is constructed first and destroyed last. *)
  Definition upstream (P : part) : alloc := {|
    a_st := p_st P * a_st U;
    a_size := a_size U + p_size P;
    a_init := fun b => u <- a_init U b ;; l <- p_init P (b + a_size U) ;; ret (l, u);
    a_dtor := fun b s => u <- p_dtor P b (b + a_size U) s ;; a_dtor U b u;
    a_alloc := fun b => p_alloc P b (b + a_size U);
    a_free := fun b => p_free P b (b + a_size U);
    a_owns := option_map (fun o b => o b (b + a_size U)) (p_owns P);
    a_max := option_map (fun o b => o b (b + a_size U)) (p_max P);
    a_cd := option_map (fun o c b => o c b (b + a_size U)) (p_cd P) |}.
End part.

(** * Types *)

(** A composition with handles to one upstream allocator. *)
Inductive pexp :=
| PHandle                                    (** reference<u>, shared<u>, ... *)
| POwn (e : aexp)                            (** a composition without such handles *)
| PFreelist (Min Max : N) (p : pexp)
| PFallback (p f : pexp)
| PSegragator (Threshold : N) (p f : pexp)
| POverflow (p : pexp)
| PThreaded (p : pexp).

(** An upstream allocator may itself be such a composition. *)
Inductive sexp :=
| XExp (e : aexp)
| XLet (u : sexp) (p : pexp).

Fixpoint pden (pl : platform) (U : alloc) (p : pexp) : part U :=
  match p with
  | PHandle => handle U
  | POwn e => own U (den pl e)
  | PFreelist Min Max p => pfreelist U Min Max (pden pl U p)
  | PFallback p f => pfallback U (pden pl U p) (pden pl U f)
  | PSegragator T p f => psegragator U (pden pl U p) (pden pl U f) T
  | POverflow p => poverflow U (pden pl U p)
  | PThreaded p => pthreaded U (pden pl U p)
  end.

Fixpoint sden (pl : platform) (s : sexp) : alloc :=
  match s with
  | XExp e => den pl e
  | XLet u p => upstream (sden pl u) (pden pl (sden pl u) p)
  end.

(** The part has a handle. *)
Fixpoint puses (p : pexp) : bool :=
  match p with
  | PHandle => true
  | POwn _ => false
  | PFreelist _ _ p | POverflow p | PThreaded p => puses p
  | PFallback p f | PSegragator _ p f => puses p || puses f
  end.

(** Members: [ow] and [mx] tell whether the upstream type has owns and max_size. *)
Fixpoint powns (ow : bool) (p : pexp) : bool :=
  match p with
  | PHandle => ow
  | POwn e => eowns e
  | PFreelist _ _ p | POverflow p | PThreaded p => powns ow p
  | PFallback p f | PSegragator _ p f => powns ow p && powns ow f
  end.
Fixpoint sowns (s : sexp) : bool :=
  match s with XExp e => eowns e | XLet u p => powns (sowns u) p end.

(** The type is accepted by the compiler, as in Tree.v. *)
Fixpoint pwf (ow : bool) (p : pexp) : bool :=
  match p with
  | PHandle => true
  | POwn e => wf e
  | PFreelist Min Max p => (8 <=? Max) && (Max <? W) && pwf ow p
  | PFallback p f => pwf ow p && pwf ow f && powns ow p
  | PSegragator _ p f => pwf ow p && pwf ow f
  | POverflow p | PThreaded p => pwf ow p
  end.
Fixpoint swf (s : sexp) : bool :=
  match s with XExp e => wf e | XLet u p => swf u && pwf (sowns u) p end.

(** The first part of a fallback has no handle; C87 tells why. *)
Fixpoint pclean (p : pexp) : bool :=
  match p with
  | PHandle | POwn _ => true
  | PFreelist _ _ p | POverflow p | PThreaded p => pclean p
  | PFallback p f => pclean p && pclean f && negb (puses p)
  | PSegragator _ p f => pclean p && pclean f
  end.
Fixpoint sclean (s : sexp) : bool :=
  match s with XExp _ => true | XLet u p => sclean u && pclean p end.

Fixpoint psize (p : pexp) : N :=
  match p with
  | PHandle => 0
  | POwn e => esize e
  | PFreelist _ _ p | POverflow p | PThreaded p => psize p
  | PFallback p f | PSegragator _ p f => psize p + psize f
  end.
Fixpoint ssize (s : sexp) : N :=
  match s with XExp e => esize e | XLet u p => ssize u + psize p end.

Fixpoint pboxed (p : pexp) : bool :=
  match p with
  | PHandle => false
  | POwn e => eboxed e
  | PFreelist _ _ p | POverflow p | PThreaded p => pboxed p
  | PFallback p f | PSegragator _ p f => pboxed p || pboxed f
  end.
Fixpoint sboxed (s : sexp) : bool :=
  match s with XExp e => eboxed e | XLet u p => sboxed u || pboxed p end.

(** Requests that no layer maps to a wrapped-around size, as in Tree.v; [ureq] for those of the
    upstream type. *)
Fixpoint preq (pl : platform) (ureq : N -> bool) (p : pexp) (n : N) : bool :=
  match p with
  | PHandle => ureq n
  | POwn e => ereq pl e n
  | PFreelist Min Max p => negb ((Min <? n) && (n <=? Max)) || preq pl ureq p Max
  | PFallback p f => (0 <? n) && preq pl ureq p n && preq pl ureq f n
  | PSegragator T p f => if n <=? T then preq pl ureq p n else preq pl ureq f n
  | POverflow p => (n + 128 <? W) && preq pl ureq p (n + 128)
  | PThreaded p => preq pl ureq p n
  end.
Fixpoint sreq (pl : platform) (s : sexp) : N -> bool :=
  match s with XExp e => ereq pl e | XLet u p => preq pl (sreq pl u) p end.

(** max_size may be called in this state. *)
Fixpoint pready_now (pl : platform) (U : alloc) (urdy : N -> a_st U -> bool) (p : pexp) :
    N -> N -> p_st U (pden pl U p) * a_st U -> bool :=
  match p with
  | PHandle => fun ub _ s => urdy ub (snd s)
  | POwn e => fun _ b s => eready_now pl e b (fst s)
  | PFreelist _ _ p => fun ub b s => pready_now pl U urdy p ub b (fst (fst s), snd s)
  | POverflow p => fun ub b s => pready_now pl U urdy p ub b (fst (fst s), snd s)
  | PThreaded p => pready_now pl U urdy p
  | PFallback p f | PSegragator _ p f => fun ub b s =>
    pready_now pl U urdy p ub b (fst (fst s), snd s) && pready_now pl U urdy f ub (b + psize p) (snd (fst s), snd s)
  end.
Fixpoint sready_now (pl : platform) (s : sexp) : N -> a_st (sden pl s) -> bool :=
  match s with
  | XExp e => eready_now pl e
  | XLet u p => fun b x => pready_now pl (sden pl u) (sready_now pl u) p b (b + ssize u) x
  end.
