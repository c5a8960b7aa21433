(** Model of utility/aligned_malloc.h. *)
From Verif Require Import Base Mem.

(** The five preprocessor branches of utility/aligned_malloc.h:50-72. *)
Inductive platform :=
| PMalloc    (** KTL_HAS_MALLOC_ALIGNED: glibc, Windows 64, macOS, FreeBSD (line 51) *)
| PMm        (** KTL_HAS_MM_MALLOC (line 53) *)
| PPosix     (** KTL_HAS_POSIX_MEMALIGN (lines 55-58) *)
| PMsvc      (** _MSC_VER (line 60) *)
| PGeneric.  (** everything else (lines 62-69) *)

Definition is_pow2 (n : N) : bool := (0 <? n) && (N.land n (n - 1) =? 0).

(** posix_memalign(&res, alignment, size): EINVAL unless the alignment is a power of two
    and a multiple of sizeof(void* ); in that case the callers below set the result to null. *)
Definition posix_memalign (alignment size : N) : M N :=
  if is_pow2 alignment && (alignment mod 8 =? 0) then malloc alignment size else ret 0.

(** utility/aligned_malloc.h:48-71.  [malloc] of the platforms of the first branch is
    16-aligned (that is what the macro says); the generic branch assumes 8-aligned malloc.
    In the POSIX branch the arguments of posix_memalign are passed in the order
    (size, alignment) as the source does (line 56), although the function expects
    (alignment, size). *)
Definition aligned_malloc (pl : platform) (size alignment : N) : M N :=
  match pl with
  | PMalloc => malloc 16 size
  | PMm | PMsvc => malloc alignment size
  | PPosix => posix_memalign size alignment
  | PGeneric =>
    ptr <- malloc 8 (add64 size alignment) ;;
    if ptr =? 0 then ret 0
    else
      let res := add64 (N.land ptr (not64 (sub64 alignment 1))) alignment in
      wr_ptr (sub64 res 8) ptr ;;; ret res
  end.

(** utility/aligned_malloc.h:73-87. *)
Definition aligned_free (pl : platform) (p : N) : M unit :=
  match pl with
  | PMalloc | PMm | PPosix | PMsvc => mfree p
  | PGeneric => if p =? 0 then ret tt else ptr <- rd_ptr (sub64 p 8) ;; mfree ptr
  end.
