(** The live event stream (streaming/stream/live_event_stream.py) as a transition system over all the
    schedules of its threads: any number of producers calling append, one mail man (_deliver), one
    caller of stop and the worker threads of the pool; and the thread-safe dictionary.

    Granularity: a critical section of the condition's lock is one step, except for stop(), which keeps
    the lock while it waits in ThreadPoolExecutor.shutdown().  Condition.wait() puts the thread at the
    end of the queue of waiters and notify() wakes the first one (threading.Condition keeps the waiters
    in a deque).  receive() (streaming/algo/interface.py:42-48) runs under the lock of the algorithm, so it is
    one step of the worker.  Observers are registered before the first event. *)
From Coq Require Import List Arith.
Import ListNotations.

(** live_event_stream.py:24-27 StreamState *)
Inductive sstate := Inactive | Active | Finished.
(** The mail man: not started, about to enter / inside its loop, waiting on the condition, returned,
    or killed by the RuntimeError that submit() raises after shutdown(). *)
Inductive mailman := NotStarted | Ready | Waiting | Returned | Crashed.
(** The caller of stop(): not called yet, about to check the deque, waiting on the condition, inside
    shutdown() with the lock held, returned. *)
Inductive stopper := NotCalled | Checking | Blocked | Shutting | Stopped.
Inductive waiter := MailMan | Stopper.

Section Live.
  Context {event observer : Type}.
  Definition task := (event * observer)%type.
  Record st := St {
    dq : list event;          (* self._dq *)
    state : sstate;           (* self._state *)
    man : mailman;
    stop : stopper;
    waiters : list waiter;    (* threads in self._cond.wait(), in order *)
    queue : list task;        (* work queue of the thread pool *)
    running : list task;      (* tasks taken by the workers *)
    closed : bool;            (* the pool has been shut down *)
    processed : list task;    (* history: receive() calls, in the order in which they took effect *)
    accepted : list event     (* history: events accepted by append *)
  }.
  Definition init : st := St [] Inactive NotStarted NotCalled [] [] [] false [] [].

  (** Condition.notify(): the first waiter becomes ready. *)
  Definition notify (s : st) : st :=
    match waiters s with
    | [] => s
    | MailMan :: w => St (dq s) (state s) Ready (stop s) w (queue s) (running s) (closed s) (processed s) (accepted s)
    | Stopper :: w => St (dq s) (state s) (man s) Checking w (queue s) (running s) (closed s) (processed s) (accepted s)
    end.
  (** The lock is free between steps unless stop() is inside shutdown() or the mail man died holding it. *)
  Definition lock_free (s : st) : Prop := stop s <> Shutting /\ man s <> Crashed.

  (** live_event_stream.py:46-51 append *)
  Definition append (e : event) (s : st) : st :=
    match state s with
    | Finished => s
    | _ => notify (St (dq s ++ [e]) (state s) (man s) (stop s) (waiters s) (queue s) (running s) (closed s) (processed s) (accepted s ++ [e]))
    end.
  (** live_event_stream.py:69-74 start *)
  Definition start (s : st) : st :=
    St (dq s) Active Ready (stop s) (waiters s) (queue s) (running s) (closed s) (processed s) (accepted s).
  (** live_event_stream.py:53-67 _deliver, one round of the outer loop up to wait(), return or the end *)
  Definition deliver (obs : list observer) (s : st) : st :=
    match dq s with
    | [] =>
      let s := notify s in
      match state s with
      | Finished => St (dq s) (state s) Returned (stop s) (waiters s) (queue s) (running s) (closed s) (processed s) (accepted s)
      | _ => St (dq s) (state s) Waiting (stop s) (waiters s ++ [MailMan]) (queue s) (running s) (closed s) (processed s) (accepted s)
      end
    | e :: r =>
      if closed s then St r (state s) (match obs with [] => Ready | _ => Crashed end) (stop s) (waiters s) (queue s) (running s) (closed s) (processed s) (accepted s)
      else St r (state s) Ready (stop s) (waiters s) (queue s ++ map (pair e) obs) (running s) (closed s) (processed s) (accepted s)
    end.
  (** live_event_stream.py:76-84 stop, from the acquisition of the lock (or the return of wait()) to
      wait() or into shutdown() *)
  Definition stop_check (s : st) : st :=
    match dq s with
    | _ :: _ => St (dq s) (state s) (man s) Blocked (waiters s ++ [Stopper]) (queue s) (running s) (closed s) (processed s) (accepted s)
    | [] => St (dq s) (state s) (man s) Shutting (waiters s) (queue s) (running s) true (processed s) (accepted s)
    end.
  (** the rest of stop, after shutdown(wait=True) has seen all the work done *)
  Definition stop_finish (s : st) : st :=
    match state s with
    | Active => notify (St (dq s) Finished (man s) Stopped (waiters s) (queue s) (running s) (closed s) (processed s) (accepted s))
    | _ => St (dq s) (state s) (man s) Stopped (waiters s) (queue s) (running s) (closed s) (processed s) (accepted s)
    end.

  (** Steps of the environment: producers, start() and the call of stop(). *)
  Inductive env_step : st -> st -> Prop :=
  | step_append e s : lock_free s -> env_step s (append e s)
  | step_start s : lock_free s -> man s = NotStarted -> env_step s (start s)
  | step_call s : stop s = NotCalled -> env_step s (St (dq s) (state s) (man s) Checking (waiters s) (queue s) (running s) (closed s) (processed s) (accepted s)).
  (** Steps of the mail man, of stop() and of the workers of the pool of size n. *)
  Inductive int_step (n : nat) (obs : list observer) : st -> st -> Prop :=
  | step_deliver s : lock_free s -> man s = Ready -> int_step n obs s (deliver obs s)
  | step_check s : lock_free s -> stop s = Checking -> int_step n obs s (stop_check s)
  | step_finish s : stop s = Shutting -> queue s = [] -> running s = [] -> int_step n obs s (stop_finish s)
  | step_take s t q : queue s = t :: q -> length (running s) < n ->
      int_step n obs s (St (dq s) (state s) (man s) (stop s) (waiters s) q (running s ++ [t]) (closed s) (processed s) (accepted s))
  | step_receive s t r1 r2 : running s = r1 ++ t :: r2 ->
      int_step n obs s (St (dq s) (state s) (man s) (stop s) (waiters s) (queue s) (r1 ++ r2) (closed s) (processed s ++ [t]) (accepted s)).
  Inductive reach (n : nat) (obs : list observer) : st -> Prop :=
  | reach_init : reach n obs init
  | reach_env s s' : reach n obs s -> env_step s s' -> reach n obs s'
  | reach_int s s' : reach n obs s -> int_step n obs s s' -> reach n obs s'.
  (** Runs in which start() comes before stop(): the intended use. *)
  Inductive reach_started (n : nat) (obs : list observer) : st -> Prop :=
  | rs_start s : reach n obs s -> stop s = NotCalled -> man s = Ready -> state s = Active -> reach_started n obs s
  | rs_env s s' : reach_started n obs s -> env_step s s' -> reach_started n obs s'
  | rs_int s s' : reach_started n obs s -> int_step n obs s s' -> reach_started n obs s'.
End Live.
Arguments st : clear implicits.
Arguments task : clear implicits.

(** streaming/util/dictio/versions/thread_safe.py: what each method does to the (non-reentrant) lock,
    in order.  "iteration" is the call of __iter__ made by a for clause over the dictionary. *)
Inductive lock_op := Acquire | Release.
Inductive tsd_method := SetItem | Iter | Keys | Values | IterValues.
Definition tsd_iter : list lock_op := [Acquire; Release].   (* :31-35 __iter__ *)
Definition tsd_code (m : tsd_method) : list lock_op :=
  match m with
  | SetItem => [Acquire; Release]                  (* :24-29 __setitem__ *)
  | Iter => tsd_iter
  | Keys => [Acquire; Release]                     (* :37-41 keys: iterates over self.itemlist, not over self *)
  | Values => [Acquire] ++ tsd_iter ++ [Release]   (* :43-47 values: [self[key] for key in self] under the lock *)
  | IterValues => [Acquire] ++ tsd_iter ++ [Release] (* :49-53 itervalues: the iterable of a generator expression is evaluated at once *)
  end.
(** threading.Lock: acquire blocks for ever if the calling thread itself holds the lock. *)
Fixpoint run_lock (code : list lock_op) (held : bool) : option bool :=
  match code with
  | [] => Some held
  | Acquire :: r => if held then None else run_lock r true
  | Release :: r => run_lock r false
  end.
