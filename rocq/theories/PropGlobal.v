(** Property theorems C74: set_allocator and get_allocator of global. *)
From Verif Require Import Base Mem Bits AlignedMalloc Allocators Tree Transfer Client AllocSpec AllocProofs Slots Global GlobalSet TransferFacts GlobalSetFacts.

(** * C74 *)

(** Any number of instances, and objects whose state is moved in and out of the static allocator:
    the blocks that an object has handed out are from then on those of s_Alloc, the object can be
    used further, what s_Alloc held before is given back, and in the end all memory is as before. *)
Theorem C74_set_allocator :
  forall bad pl e bs b ops w, pl <> PPosix -> wf e = true -> movable e = true ->
  (eboxed e = true -> bad EvFail || bad EvRefuse = true) ->
  places (bs ++ [b]) (esize e) w -> mem (st w) !! 0 = None ->
  Forall (fun n => ereq pl e n = true /\ n < W) (mrequests (plains (length bs) ops)) ->
  gs_ok bad pl e bs b ops w.
Proof. exact set_safe. Qed.
Print Assumptions C74_set_allocator.

(** A prepared object is installed together with its block, which is returned through an instance of
    global; the state that s_Alloc had is taken out before. *)
Definition C74_type : aexp := ESegragator 16 (EFreelist 0 16 EMalloc) (ECascading (ELinear 64)).
Definition C74_program : list gsop :=
  [GInst (GNew 0); GInst (GUse 0 (OAlloc 8)); GInst (GUse 0 (OFree 0));
   GObj (MNew 0); GObj (MUse 0 (OAlloc 32)); GObj (MUse 0 (OWrite 0 31 9));
   GObj (MMove 1 2); GSet 0 0; GInst (GCopy 1 0); GInst (GUse 1 (ORead 0 31)); GInst (GUse 1 (OAlloc 16));
   GObj (MUse 0 (OAlloc 16)); GObj (MDrop 2); GInst (GUnequal 0 1); GSet 1 1; GInst (GUse 0 (OFree 1)); GInst (GUse 0 (OFree 0)); GSet 1 1].
Example C74_example :
  wf C74_type = true /\ movable C74_type = true /\ assignable C74_type = true /\ places [4096; 4160; 4224] (esize C74_type) (w_raw 192) /\
  forallb (fun n => ereq PMalloc C74_type n && (n <? W)) (mrequests (plains 2 C74_program)) = true /\
  outcome (gs_session PMalloc C74_type [4096; 4160] 4224 C74_program (w_raw 192)) =
  Some ([ObUnit; ObPtr 65536; ObUnit; ObUnit; ObPtr 131072; ObUnit; ObBool true; ObBool true; ObUnit; ObByte (Some 9); ObPtr 196608;
         ObPtr 262144; ObUnit; ObBool true; ObUnit; ObUnit; ObUnit; ObBool true], []).
Proof. split; [done|]. split; [done|]. split; [done|]. split; [by apply (places3 0); lia|]. split; by vm_compute. Qed.

(** Not while a block of s_Alloc is outstanding: a read of the block afterwards. *)
Theorem C74_outstanding_refuted :
  exists e w, movable e = true /\ assignable e = true /\ wf e = true /\ places [4096; 4160] (esize e) w /\
  crash (set_with_block e w) = Some UBAccess.
Proof. exact set_loses_block. Qed.
Print Assumptions C74_outstanding_refuted.
