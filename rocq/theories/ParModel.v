(** Model of concurrency/concurrency.h: parallel_execute as a transition system. One step is one mutex operation or one call
    of a provided object by one thread; any interleaving of steps is an execution (sequentially consistent memory; all shared
    data except the worker provider is accessed under a mutex). *)
From Verif Require Import Lib.
Open Scope nat_scope.

Section Par.
  (** job provider: has_next_job does not change it. Worker: any state. Collector: any state *)
  Context {P J W R C : Type}.
  Variable has_next : P -> bool.
  Variable next : P -> J * P.
  Variable creates : W -> Prop.        (** the workers create_worker may return *)
  Variable execute : W -> J -> R * W.  (** execute_job may change the worker *)
  Variable collect : C -> R -> J -> C.
  (** where a thread is in func: concurrency.h 55-66 *)
  Inductive pc :=
  | Idle                              (* not started yet *)
  | Start                             (* line 56, before the call *)
  | Creating                          (* line 56, inside create_worker, no lock held *)
  | LockJob (w : W)                   (* line 58, waiting for job_provider_mutex *)
  | Has (w : W)                       (* line 59, holding it *)
  | Next (w : W)                      (* line 60, holding it *)
  | UnlockJob (w : W) (j : J)         (* line 61, holding it *)
  | Break                             (* line 59, holding it: the lock's destructor runs *)
  | Exec (w : W) (j : J)              (* line 62 *)
  | LockRes (w : W) (j : J) (r : R)   (* line 63, waiting for result_collector_mutex *)
  | Collect (w : W) (j : J) (r : R)   (* line 64, holding it *)
  | UnlockRes (w : W)                 (* line 65, holding it: the lock's destructor runs *)
  | End.
  (** the calling thread: concurrency.h 67-78. With num_threads <= 1 func runs in the caller, which we model as one thread it waits for *)
  Inductive main_pc := Spawn (i : nat) | Join (i : nat) | Returned.
  Record state := mk { thr : nat -> pc; prov : P; coll : C; job_mutex : option nat; res_mutex : option nat; main : main_pc }.
  Definition upd (f : nat -> pc) (i : nat) (c : pc) : nat -> pc := fun k => if k =? i then c else f k.
  (** what an observer of the provided objects sees *)
  Inductive event := ENext (t : nat) (j : J) | EExec (t : nat) (j : J) (r : R) | ECollect (t : nat) (r : R) (j : J).

  Definition threads (num_threads : Z) : nat := if (1 <? num_threads)%Z then Z.to_nat num_threads else 1.
  Variable n : nat.
  Definition init (p : P) (c : C) : state := mk (fun _ => Idle) p c None None (Spawn 0).
  Inductive step : state -> list event -> state -> Prop :=
  | St_spawn s i : main s = Spawn i -> i < n -> step s [] (mk (upd (thr s) i Start) (prov s) (coll s) (job_mutex s) (res_mutex s) (Spawn (i + 1)))
  | St_spawned s : main s = Spawn n -> step s [] (mk (thr s) (prov s) (coll s) (job_mutex s) (res_mutex s) (Join 0))
  | St_join s i : main s = Join i -> i < n -> thr s i = End -> step s [] (mk (thr s) (prov s) (coll s) (job_mutex s) (res_mutex s) (Join (i + 1)))
  | St_return s : main s = Join n -> step s [] (mk (thr s) (prov s) (coll s) (job_mutex s) (res_mutex s) Returned)
  | St_create s t : thr s t = Start -> step s [] (mk (upd (thr s) t Creating) (prov s) (coll s) (job_mutex s) (res_mutex s) (main s))
  | St_created s t w : thr s t = Creating -> creates w -> step s [] (mk (upd (thr s) t (LockJob w)) (prov s) (coll s) (job_mutex s) (res_mutex s) (main s))
  | St_lock_job s t w : thr s t = LockJob w -> job_mutex s = None -> step s [] (mk (upd (thr s) t (Has w)) (prov s) (coll s) (Some t) (res_mutex s) (main s))
  | St_has s t w : thr s t = Has w -> has_next (prov s) = true -> step s [] (mk (upd (thr s) t (Next w)) (prov s) (coll s) (job_mutex s) (res_mutex s) (main s))
  | St_break s t w : thr s t = Has w -> has_next (prov s) = false -> step s [] (mk (upd (thr s) t Break) (prov s) (coll s) (job_mutex s) (res_mutex s) (main s))
  | St_end s t : thr s t = Break -> step s [] (mk (upd (thr s) t End) (prov s) (coll s) None (res_mutex s) (main s))
  | St_next s t w j p : thr s t = Next w -> next (prov s) = (j, p) -> step s [ENext t j] (mk (upd (thr s) t (UnlockJob w j)) p (coll s) (job_mutex s) (res_mutex s) (main s))
  | St_unlock_job s t w j : thr s t = UnlockJob w j -> step s [] (mk (upd (thr s) t (Exec w j)) (prov s) (coll s) None (res_mutex s) (main s))
  | St_exec s t w j r w' : thr s t = Exec w j -> execute w j = (r, w') -> step s [EExec t j r] (mk (upd (thr s) t (LockRes w' j r)) (prov s) (coll s) (job_mutex s) (res_mutex s) (main s))
  | St_lock_res s t w j r : thr s t = LockRes w j r -> res_mutex s = None -> step s [] (mk (upd (thr s) t (Collect w j r)) (prov s) (coll s) (job_mutex s) (Some t) (main s))
  | St_collect s t w j r : thr s t = Collect w j r -> step s [ECollect t r j] (mk (upd (thr s) t (UnlockRes w)) (prov s) (collect (coll s) r j) (job_mutex s) (res_mutex s) (main s))
  | St_unlock_res s t w : thr s t = UnlockRes w -> step s [] (mk (upd (thr s) t (LockJob w)) (prov s) (coll s) (job_mutex s) None (main s)).
  (** an execution: its length and the events in order *)
  Inductive exec (s0 : state) : nat -> list event -> state -> Prop :=
  | X_nil : exec s0 0 [] s0
  | X_step k tr s e s' : exec s0 k tr s -> step s e s' -> exec s0 (k + 1) (tr ++ e) s'.
End Par.
Arguments pc : clear implicits.
Arguments state : clear implicits.
Arguments event : clear implicits.

(** add_result_collector: concurrency.h 84-89 *)
Definition add_collect {R J} (add : R -> R -> R) (c : R) (r : R) (j : J) : R := add c r.
(** range_job_provider<I>: concurrency.h 97-103, over the integers; the state is (begin, end) *)
Definition range_has (p : Z * Z) : bool := (fst p <? snd p)%Z.
Definition range_next (len : Z) (p : Z * Z) : (Z * Z) * (Z * Z) :=
  let b := (fst p + len)%Z in (((b - len)%Z, Z.min b (snd p)), (b, snd p)).
(** the same in a signed type of wd bits: [None] on overflow *)
Definition in_range (wd x : Z) : option Z := if (- 2 ^ (wd - 1) <=? x)%Z && (x <? 2 ^ (wd - 1))%Z then Some x else None.
Definition range_next_w (wd len : Z) (p : Z * Z) : option ((Z * Z) * (Z * Z)) :=
  let* b := in_range wd (fst p + len) in let* a := in_range wd (b - len) in Some ((a, Z.min b (snd p)), (b, snd p)).
