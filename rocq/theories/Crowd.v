(** Other threads.

    [crowd A plan] is an allocator of type A, such as threaded<...>, that other threads use as
    well: whenever the program under consideration calls a member, the others get a chance to run
    before and after the call.  A turn of theirs is any sequence of calls of allocate and
    deallocate (which are atomic, C35) and of accesses to bytes of their own blocks; [plan] is what
    they do in their successive turns.  The threads keep their blocks in variables; which thread
    performs which step does not matter, and blocks may be passed on.

    When the allocator is about to be destroyed the others run to their end and give back what they
    still have.

    This is a device of the verification, not part of the library.  That the accesses of the
    containers to their own elements between two calls are not interrupted is a simplification;
    what they access is separate from what the others access. *)
From Verif Require Import Base Mem Allocators Client.

(** A step of one of the other threads; [x] is the variable with the block. *)
Inductive deed :=
| DAlloc (x : nat) (n : N)         (** x = allocate(n), unless x is in use *)
| DFree (x : nat)                  (** deallocate(x, n) *)
| DWrite (x : nat) (off v : N)     (** x[off] = v *)
| DRead (x : nat) (off : N).       (** x[off]; the program stops if this is not what was written last *)

Section crowd.
  Context (A : alloc) (plan : list (list deed)).

  (** The allocator; what the other threads have, with the bytes they have written; their turns. *)
  Record crowd_st := Crowd { cw_in : a_st A; cw_has : gmap nat ablk; cw_plan : list (list deed) }.

  Definition deed_do (b : N) (o : deed) (q : a_st A * gmap nat ablk) : M (a_st A * gmap nat ablk) :=
    let '(s, m) := q in
    match o with
    | DAlloc x n =>
      match m !! x with
      | Some _ => ret q
      | None => ' (p, s') <- a_alloc A b s n ;; ret (s', if p =? 0 then m else <[x := (p, repeat None (N.to_nat n))]> m)
      end
    | DFree x =>
      match m !! x with
      | Some (p, vs) => s' <- a_free A b s p (N.of_nat (length vs)) ;; ret (s', delete x m)
      | None => ret q
      end
    | DWrite x off v =>
      match m !! x with
      | Some (p, vs) =>
        if off <? N.of_nat (length vs) then wr (p + off) (Byte v) ;;; ret (s, <[x := (p, <[N.to_nat off := Some v]> vs)]> m)
        else ret q
      | None => ret q
      end
    | DRead x off =>
      match m !! x with
      | Some (p, vs) =>
        match vs !! N.to_nat off with
        | Some e =>
          c <- rd (p + off) ;;
          match e with
          | Some v => if bool_decide (c = Byte v) then ret q else ubm UBUninit
          | None => ret q
          end
        | None => ret q
        end
      | None => ret q
      end
    end.

  Fixpoint deeds_do (b : N) (l : list deed) (q : a_st A * gmap nat ablk) : M (a_st A * gmap nat ablk) :=
    match l with
    | [] => ret q
    | o :: l => q <- deed_do b o q ;; deeds_do b l q
    end.

  Definition turn (b : N) (s : crowd_st) : M crowd_st :=
    match cw_plan s with
    | [] => ret s
    | l :: rest => ' (s', m) <- deeds_do b l (cw_in s, cw_has s) ;; ret (Crowd s' m rest)
    end.

  Definition crowd : alloc := {|
    a_st := crowd_st;
    a_size := a_size A;
    a_init := fun b => s <- a_init A b ;; ret (Crowd s ∅ plan);
    a_dtor := fun b s =>
      ' (s', m) <- deeds_do b (concat (cw_plan s)) (cw_in s, cw_has s) ;;
      ' (s', _) <- deeds_do b (map DFree (elements (dom m))) (s', m) ;;
      a_dtor A b s';
    a_alloc := fun b s n =>
      s <- turn b s ;;
      ' (p, s') <- a_alloc A b (cw_in s) n ;;
      s <- turn b (Crowd s' (cw_has s) (cw_plan s)) ;; ret (p, s);
    a_free := fun b s p n =>
      s <- turn b s ;;
      s' <- a_free A b (cw_in s) p n ;;
      turn b (Crowd s' (cw_has s) (cw_plan s));
    a_owns := option_map (fun o b s q => o b (cw_in s) q) (a_owns A);
    a_max := option_map (fun mx b s => mx b (cw_in s)) (a_max A);
    a_cd := Some (fun c b s q act =>
      s <- turn b s ;;
      s' <- traits_cd A b c (cw_in s) q act ;; ret (Crowd s' (cw_has s) (cw_plan s))) |}.
End crowd.
Arguments Crowd {A}.
Arguments cw_in {A}.
Arguments cw_has {A}.
Arguments cw_plan {A}.

(** The sizes the other threads ask for are all right. *)
Definition deeds_ask (req : N -> bool) (l : list deed) : Prop :=
  Forall (fun o => match o with DAlloc _ n => req n = true /\ n < W | _ => True end) l.
