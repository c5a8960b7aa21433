(** A specification device, not part of the library: an allocator that watches how it is used. *)
From Verif Require Import Base Mem Allocators.

Definition beq (x y : N * N) : bool := (fst x =? fst y) && (snd x =? snd y).

(** Remove one occurrence. *)
Fixpoint take_out (x : N * N) (l : list (N * N)) : option (list (N * N)) :=
  match l with
  | [] => None
  | y :: l => if beq x y then Some l else option_map (cons y) (take_out x l)
  end.

(** Forwards everything to [A] and keeps the list of outstanding blocks.  Giving back a
    pointer and size that is not outstanding, or dying while blocks are outstanding, is an
    error.  So if no execution of F<checked<A>> goes wrong, then F gives every block that it
    obtains from an A back to that same A, exactly once, with the size it asked for, before
    that A is destroyed. *)
Definition checked (A : alloc) : alloc := {|
  a_st := a_st A * list (N * N);
  a_size := a_size A;
  a_init := fun b => s <- a_init A b ;; ret (s, []);
  a_dtor := fun b s =>
    match snd s with
    | [] => a_dtor A b (fst s)
    | _ => ubm UBFree
    end;
  a_alloc := fun b s n =>
    ' (p, s') <- a_alloc A b (fst s) n ;;
    ret (p, (s', if p =? 0 then snd s else (p, n) :: snd s));
  a_free := fun b s p n =>
    match take_out (p, n) (snd s) with
    | Some l => s' <- a_free A b (fst s) p n ;; ret (s', l)
    | None => ubm UBFree
    end;
  a_owns := option_map (fun o b s q => o b (fst s) q) (a_owns A);
  a_max := option_map (fun mx b s => mx b (fst s)) (a_max A);
  a_cd := option_map (fun o c b s q act =>
            s' <- o c b (fst s) q act ;; ret (s', snd s)) (a_cd A) |}.
