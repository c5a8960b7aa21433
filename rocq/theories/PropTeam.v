(** Property theorems C80: atomic_shared<threaded<A>> among threads. *)
From Verif Require Import Base Mem AlignedMalloc Allocators Tree Client Env AllocSpec Team TeamFacts.

Local Open Scope N_scope.

(** * C80 *)

(** Any number of threads and handles, any interleaving [sch] of their steps, any composition [e] of
    allocators: no undefined behaviour (no access to a block that was deleted, no overlapping calls of
    the wrapped allocator, no mutex destroyed while locked), memory of others untouched, every thread
    has its memory for itself and reads what was written last, and nothing is left once the last
    handle is gone. *)
Theorem C80_team_safe :
  forall pl e sch w,
  pl <> PPosix -> wf (EShared (EThreaded e)) = true -> N.of_nat (length sch) < W ->
  Forall (fun n => ereq pl e n = true /\ n < W) (trequests sch) ->
  match trun pl (den pl (EThreaded e)) sch team0 w with
  | Ok q w' evs =>
    forallb benign evs = true /\
    (forall i c, mem (st w) !! i = Some c -> mem (st w') !! i = Some c) /\
    holds_blocks (mem (st w)) (mem (st w')) (t_has q) /\
    (quiet q -> st w' = st w)
  | Err u evs => u = UBNull /\ starved evs = true
  end.
Proof. exact team_tree_safe. Qed.
Print Assumptions C80_team_safe.

(** When no call is under way, the count of a block is the number of handles that refer to it,
    blocks exist exactly if there is such a handle, and all mutexes are free. *)
Theorem C80_at_rest :
  forall pl e sch w,
  pl <> PPosix -> wf (EShared (EThreaded e)) = true -> N.of_nat (length sch) < W ->
  Forall (fun n => ereq pl e n = true /\ n < W) (trequests sch) ->
  forall q w' evs, trun pl (den pl (EThreaded e)) sch team0 w = Ok q w' evs -> at_rest q ->
  (forall g k, t_bk q !! g = Some k ->
     tb_cnt k = N.of_nat (refers g q) /\ (0 < refers g q)%nat /\ tb_lock k = None /\ tb_busy k = false) /\
  (forall h t g, t_hs q !! h = Some (t, Some g) -> is_Some (t_bk q !! g)).
Proof. exact team_rest. Qed.
Print Assumptions C80_at_rest.

(** A thread waits only for a mutex whose owner will unlock it after at most three steps none of which
    can wait (or because the program drops the last handle before it has returned all memory). *)
Theorem C80_bounded_wait :
  forall pl e sch w,
  pl <> PPosix -> wf (EShared (EThreaded e)) = true -> N.of_nat (length sch) < W ->
  Forall (fun n => ereq pl e n = true /\ n < W) (trequests sch) ->
  forall q w' evs, trun pl (den pl (EThreaded e)) sch team0 w = Ok q w' evs ->
  forall t w1, waits pl (den pl (EThreaded e)) t q w1 -> waits_lock pl (den pl (EThreaded e)) t q \/ waits_memory t q.
Proof. exact team_waits. Qed.
Print Assumptions C80_bounded_wait.

(** There is no deadlock. *)
Theorem C80_no_deadlock :
  forall pl e sch w,
  pl <> PPosix -> wf (EShared (EThreaded e)) = true -> N.of_nat (length sch) < W ->
  Forall (fun n => ereq pl e n = true /\ n < W) (trequests sch) ->
  forall q w' evs, trun pl (den pl (EThreaded e)) sch team0 w = Ok q w' evs ->
  forall w1, (exists t, todo t q <> []) ->
  (exists t, todo t q <> [] /\ ~ waits pl (den pl (EThreaded e)) t q w1) \/
  exists t, waits pl (den pl (EThreaded e)) t q w1 /\ waits_memory t q.
Proof. exact team_progress. Qed.
Print Assumptions C80_no_deadlock.

(** Three threads, two groups; thread 1 waits for thread 0. *)
Example C80_example_waiting :
  team_view (team_setup ++ team_race) =
  Some ([(0, (0, Some 0)); (1, (1, Some 0)); (3, (2, Some 1)); (2, (2, Some 0))],
        [(0, 3%N, Some 0); (1, 1%N, None)], [(11, (1, None)); (10, (0, None))], [(0, 2); (1, 4); (2, 0)], 2, [])%nat /\
  wf (EShared (EThreaded (ELinear 64))) = true /\
  forallb (fun n => ereq PMalloc (ELinear 64) n && (n <? W)) (trequests (team_setup ++ team_race ++ team_use ++ team_end)) = true.
Proof. by vm_compute. Qed.

(** Both have memory; that of thread 0 was handed to thread 2, which has read the 7. *)
Example C80_example_memory :
  team_view (team_setup ++ team_race ++ team_use) =
  Some ([(0, (0, Some 0)); (1, (1, Some 0)); (3, (2, Some 1)); (2, (2, Some 0))],
        [(0, 3%N, None); (1, 1%N, None)],
        [(11, (1, Some (0, (65552%N, repeat None 16))));
         (10, (2, Some (0, (65536%N, [None; None; None; Some 7%N; None; None; None; None]))))],
        [(0, 0); (1, 0); (2, 0)], 2, [])%nat.
Proof. by vm_compute. Qed.

(** Everything is gone in the end. *)
Example C80_example_end :
  team_view (team_setup ++ team_race ++ team_use ++ team_end) =
  Some ([], [], [(11, (1, None)); (10, (2, None))], [(0, 0); (1, 0); (2, 0)], 0, [])%nat.
Proof. by vm_compute. Qed.
