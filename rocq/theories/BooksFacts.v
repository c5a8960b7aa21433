(** Proofs of C75: whole programs, examples. *)
From Coq Require Import ssreflect.
From Verif Require Import Base Mem Allocators Checked Tree Client AllocSpec AllocProofs Env Vector Array HeapPure Heap Books BooksProofs BooksVec BooksHeap ContExamples HeapExamples.

Local Open Scope N_scope.

Lemma books_report {A : alloc} (E : env (overflow A)) f g h s p : books E f g -> E !! h = Some s -> reports p s (f h) (g h).
Proof. intros HB Hs w. destruct (HB h s Hs) as [H1 H2]. cbn. unfold ov_dtor, say. by rewrite H1 H2. Qed.
Lemma report_none {A : alloc} p (s : ov A) : reports p s 0 0 -> no_report p s.
Proof.
  intros H w. rewrite H. unfold say. change (s64 0 =? 0)%Z with true. cbv iota. unfold bind, ret. by destruct (a_dtor A p (o_in s) w).
Qed.

(** The conclusions of the theorems. *)
Definition tells {A : alloc} {X} (al : X -> nat) (val num : X -> N) (r : list cobs * (env (overflow A) * gmap nat X)) : Prop :=
  let '(_, (E, vs)) := r in forall h s p, E !! h = Some s -> reports p s (held al val h vs) (held al num h vs).
Definition silent {A : alloc} (r : list cobs * env (overflow A)) : Prop :=
  let '(_, E) := r in forall h s p, E !! h = Some s -> no_report p s.

Lemma in_books_tells {A : alloc} {X} (al : X -> nat) (val num : X -> N) good (r : list cobs * (env (overflow A) * gmap nat X)) :
  in_books A al val num good (snd r) -> tells al val num r.
Proof. destruct r as [os [E vs]]. intros [HB _] h s p Hs. cbn [fst snd] in HB. by apply (books_report E _ _ h s p HB). Qed.
Lemma books_silent {A : alloc} (r : list cobs * env (overflow A)) : books (snd r) (fun _ => 0%Z) (fun _ => 0%Z) -> silent r.
Proof. destruct r as [os E]. intros HB h s p Hs. apply report_none. by apply (books_report E _ _ h s p HB). Qed.

Lemma all_ok {X} (l : list X) : forallb (fun _ => true) l = true.
Proof. by induction l. Qed.

Lemma vector_tells A b sz k ops : 0 < sz -> ends (crun_from (overflow A) b (vstep (overflow A) b sz k) k ops) (tells v_al (v_bytes sz) (fun _ => 0)).
Proof.
  intros Hsz. eapply ends_imp; [|apply in_books_tells].
  eapply crun_from_books; [|apply all_ok]. intros o q _ Hq. by apply vstep_books.
Qed.
Lemma vector_silent A b sz k ops :
  0 < sz -> ends (crun_to_end (overflow A) b (vstep (overflow A) b sz k) (release (overflow A) b sz) k ops) silent.
Proof.
  intros Hsz. eapply ends_imp; [|apply books_silent]. eapply crun_to_end_books; [| |apply all_ok].
  - intros o q _ Hq. by apply vstep_books.
  - intros x E f g _ HB. eapply ends_imp; [by apply release_books|]. intros E' H. eapply books_ext; [exact H|done|]. intros i. by rewrite upd_0.
Qed.
Lemma array_tells A b sz k ops : 0 < sz -> ends (crun_from (overflow A) b (astep (overflow A) b sz k) k ops) (tells r_alc (r_bytes sz) (fun _ => 0)).
Proof.
  intros Hsz. eapply ends_imp; [|apply in_books_tells].
  eapply crun_from_books; [|apply all_ok]. intros o q _ Hq. by apply astep_books.
Qed.
Lemma array_silent A b sz k ops :
  0 < sz -> ends (crun_to_end (overflow A) b (astep (overflow A) b sz k) (arelease (overflow A) b sz) k ops) silent.
Proof.
  intros Hsz. eapply ends_imp; [|apply books_silent]. eapply crun_to_end_books; [| |apply all_ok].
  - intros o q _ Hq. by apply astep_books.
  - intros x E f g _ HB. eapply ends_imp; [by apply arelease_books|]. intros E' H. eapply books_ext; [exact H|done|]. intros i. by rewrite upd_0.
Qed.
Lemma heap_tells A b sz T comp eqv k ops :
  0 < sz -> forallb no_move_al ops = true ->
  ends (crun_from (overflow A) b (hstep (overflow A) b sz T comp eqv k) k ops) (tells h_al (h_bytes sz) h_size).
Proof.
  intros Hsz Ha. eapply ends_imp; [|apply in_books_tells].
  eapply crun_from_books; [|exact Ha]. intros o q Ho Hq. by apply hstep_books.
Qed.
Lemma heap_silent A b sz T comp eqv k ops :
  0 < sz -> forallb no_move_al ops = true ->
  ends (crun_to_end (overflow A) b (hstep (overflow A) b sz T comp eqv k) (hrelease (overflow A) b sz T) k ops) silent.
Proof.
  intros Hsz Ha. eapply ends_imp; [|apply books_silent]. eapply crun_to_end_books; [| |exact Ha].
  - intros o q Ho Hq. by apply hstep_books.
  - intros x E f g Hx HB. by apply hrelease_books.
Qed.

(** * Examples *)
Definition reported {X} (r : res X) : option (list event) :=
  match r with
  | Ok _ _ evs => Some (List.filter (fun e => match e with EvLeak _ | EvLogic _ => true | _ => false end) evs)
  | Err _ _ => None
  end.
(** The allocators are destroyed before the containers. *)
Definition early {A : alloc} {X O} (stp : O -> env A * gmap nat X -> M (cobs * (env A * gmap nat X))) (k : nat) (ops : list O) : M unit :=
  ' (_, (E, _)) <- crun_from A 4096 stp k ops ;; _ <- dtor_all A 4096 0 k E ;; ret tt.

Lemma heap_move_logic :
  exists w, place 4096 0 w /\
  reported (hprog (EOverflow EMalloc) 1 int4 2 [HNewList 0 [Val 1; Val 2] 0 0; HMoveAl 1 0 1] w) = Some [EvLogic 2].
Proof. exists (w_raw 0). split; [by apply (w_raw_place 0)|by vm_compute]. Qed.
