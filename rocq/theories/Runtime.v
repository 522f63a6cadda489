(** * Runtime: ids under concurrency and reference counting.

    The parser model (Parser.v) hands out ids from one counter without threads.  Here are the two
    parts of the code whose behaviour depends on schedules and histories: the id counter and the
    [Arc]s that Arr, Tup and Obj consist of. *)
From Verif Require Export Base.
From Coq Require Import Permutation Lia List.
Import ListNotations.
Open Scope N_scope.

(** ** Ids *)

(** [usize] on a 64-bit target. *)
Definition usize_max_1 : N := 18446744073709551616.

(** A thread that creates an instance first calls [gen_id] and then allocates the instance with the
    id it got (src/arr.rs:62-70, src/tup.rs:19-28, src/obj.rs:128-134); between the two other
    threads may run. *)
Inductive thread := Idle | Allocating (id : N).

(** src/lib.rs:57-66: [CUR_ID]; [im_threads]: what each thread is doing; [im_instances]: the ids of
    all instances allocated so far with their threads, and [im_taken]: all ids handed out, in the
    order of the modifications of [CUR_ID]; both newest first. *)
Record idm := mkidm {
  im_cur : N;
  im_threads : nat -> thread;
  im_taken : list N;
  im_instances : list (nat * N)
}.
Definition idm_init : idm := mkidm 0 (fun _ => Idle) [] [].
Definition set_thread (f : nat -> thread) (t : nat) (x : thread) : nat -> thread :=
  fun u => if Nat.eqb u t then x else f u.

(** One step of thread [t].  src/lib.rs:64-66: [fetch_add(1, Relaxed)] is one atomic step, which wraps
    around.  (Relaxed orders only this location; the C++/Rust memory model gives each location a
    total modification order and each read-modify-write reads its predecessor in it.  The schedule
    ranges over all such orders.)
    The second step allocates the instance.  An idle thread may start a creation at any time. *)
Definition idm_step (t : nat) (m : idm) : idm :=
  match im_threads m t with
  | Idle => mkidm ((im_cur m + 1) mod usize_max_1) (set_thread (im_threads m) t (Allocating (im_cur m)))
                  (im_cur m :: im_taken m) (im_instances m)
  | Allocating id => mkidm (im_cur m) (set_thread (im_threads m) t Idle) (im_taken m)
                           ((t, id) :: im_instances m)
  end.
(** A schedule: which thread makes each step. *)
Definition idm_run (sched : list nat) : idm := fold_left (fun m t => idm_step t m) sched idm_init.

(** ** Reference counts *)

(** An address is where an [ArcInner] lives.  [in_nth]: a name of the instance for the specification
    (how many were created before it); [in_strong]: the strong count; [in_kids]: the handles the
    instance holds (elements, values of fields, the parent), which never change
    (src/arr.rs:9-17, src/tup.rs:9-12, src/obj.rs:22-30). *)
Notation addr := N.
Record inst := mkinst { in_nth : nat; in_strong : N; in_kids : list addr }.

(** [rt_vars]: the handles owned by variables of the program (of any thread, including statics like
    the include sentinels); [rt_drop]: handles whose drop has begun but has not decremented the count
    yet. *)
Record rt := mkrt {
  rt_heap : list (addr * inst);
  rt_vars : list addr;
  rt_drop : list addr;
  rt_created : nat
}.
Definition rt_init : rt := mkrt [] [] [] 0.

Fixpoint hfind (h : list (addr * inst)) (a : addr) : option inst :=
  match h with
  | [] => None
  | (b, i) :: h' => if a =? b then Some i else hfind h' a
  end.
Fixpoint hset_strong (h : list (addr * inst)) (a : addr) (n : N) : list (addr * inst) :=
  match h with
  | [] => []
  | (b, i) :: h' =>
      if a =? b then (b, mkinst (in_nth i) n (in_kids i)) :: h' else (b, i) :: hset_strong h' a n
  end.
Fixpoint hremove (h : list (addr * inst)) (a : addr) : list (addr * inst) :=
  match h with
  | [] => []
  | (b, i) :: h' => if a =? b then h' else (b, i) :: hremove h' a
  end.

(** The handles a program can get at: those of its variables and those inside the instances these
    handles point to ([get], [values_ref], [iter], [get_parent], ...). *)
Inductive accessible (s : rt) : addr -> Prop :=
| acc_var a : In a (rt_vars s) -> accessible s a
| acc_kid a i k : accessible s a -> hfind (rt_heap s) a = Some i -> In k (in_kids i) -> accessible s k.

(** The atomic steps, of whichever thread. *)
Inductive rt_step : rt -> rt -> Prop :=
(** [from_values_unchecked], [from_pairs_unchecked], ...: the handles [kids] are moved from variables
    into the new instance, which is allocated where no instance lives ([Arc::new]: count 1). *)
| st_new s a kids vars : Permutation (rt_vars s) (kids ++ vars) -> hfind (rt_heap s) a = None ->
    rt_step s (mkrt ((a, mkinst (rt_created s) 1 kids) :: rt_heap s) (a :: vars) (rt_drop s) (S (rt_created s)))
(** [clone] of an accessible handle ([derive(Clone)] on Arr, Tup, Obj, Value: [Arc::clone]); also
    [get] and the other getters. *)
| st_clone s a i : accessible s a -> hfind (rt_heap s) a = Some i ->
    rt_step s (mkrt (hset_strong (rt_heap s) a (in_strong i + 1)) (a :: rt_vars s) (rt_drop s) (rt_created s))
(** A variable goes out of scope. *)
| st_drop s a vars : Permutation (rt_vars s) (a :: vars) ->
    rt_step s (mkrt (rt_heap s) vars (a :: rt_drop s) (rt_created s))
(** [Arc::drop]: decrement; *)
| st_dec s a i rest : Permutation (rt_drop s) (a :: rest) -> hfind (rt_heap s) a = Some i ->
    in_strong i <> 1 ->
    rt_step s (mkrt (hset_strong (rt_heap s) a (in_strong i - 1)) (rt_vars s) rest (rt_created s))
(** the last handle also destroys the instance, which drops the handles inside it. *)
| st_free s a i rest : Permutation (rt_drop s) (a :: rest) -> hfind (rt_heap s) a = Some i ->
    in_strong i = 1 ->
    rt_step s (mkrt (hremove (rt_heap s) a) (rt_vars s) (in_kids i ++ rest) (rt_created s)).

(** The steps that belong to drops already begun. *)
Inductive rt_drop_step : rt -> rt -> Prop :=
| ds_dec s a i rest : Permutation (rt_drop s) (a :: rest) -> hfind (rt_heap s) a = Some i ->
    in_strong i <> 1 ->
    rt_drop_step s (mkrt (hset_strong (rt_heap s) a (in_strong i - 1)) (rt_vars s) rest (rt_created s))
| ds_free s a i rest : Permutation (rt_drop s) (a :: rest) -> hfind (rt_heap s) a = Some i ->
    in_strong i = 1 ->
    rt_drop_step s (mkrt (hremove (rt_heap s) a) (rt_vars s) (in_kids i ++ rest) (rt_created s)).

(** A history. *)
Inductive rt_reach : rt -> Prop :=
| rr_init : rt_reach rt_init
| rr_step s s' : rt_reach s -> rt_step s s' -> rt_reach s'.

(** src/arr.rs, src/tup.rs, src/obj.rs: [num_references] is [Arc::strong_count], [ptr_eq] is
    [Arc::ptr_eq]. *)
Definition num_references (s : rt) (a : addr) : option N := option_map in_strong (hfind (rt_heap s) a).
Definition ptr_eq (a b : addr) : bool := a =? b.
