(** Thread pool and task providers: src/thread_pool.h, src/thread_pool.cpp.

    Small-step interleaving model.  Threads: the workers, one client thread per provider
    (the thread that calls _run, _wait and the destructor) and one thread that manages the
    pool (resize, clear, remove, stop).  One step is one access to an atomic or shared
    variable, or one whole critical section of a mutex; the three kinds of mutex are only held
    inside such sections, so they need no state.  Waiting on a condition variable tests the
    predicate under the mutex and, when it is false, puts the thread to sleep in the same
    step; a notification, or a spurious wake-up at any time, makes it test again.

    Simplified: sequentially consistent memory (the unlocked reads of _exit, _running and
    _worker.size() are single steps and not undefined behaviour); size_t counters are [nat];
    a task executed by clear() does not throw; a task executed by a worker ends. *)
From Coq Require Import List Arith Bool.
Import ListNotations.

(** Program counter of a worker: thread_pool.cpp:278-314 and, inside _taskRun, 51-78. *)
Inductive wpc :=
| WStart                    (* 280, ++_runningThreadCount == _threadCount *)
| WCreated                  (* 281-284 *)
| WHead                     (* 287, while ( !_exit[threadId] ) *)
| WWait                     (* 288-290, test of the predicate _run[threadId] *)
| WSleep                    (* 289, asleep *)
| WCheck                    (* 292 *)
| WPop                      (* 295-311 *)
| WGive (p : nat)           (* 53, taskId = _givenTaskCount++ *)
| WLt (p t : nat)           (* 55, taskId < _taskCount *)
| WBegin (p t : nat)        (* 58, call of _task( taskId ) *)
| WEnd (p t : nat)          (* 58, return from _task, or exception *)
| WExc (p : nat)            (* 63, _exceptionRaised = true *)
| WDone (p : nat)           (* 67, ++_completedTaskCount *)
| WCmp (p c : nat)          (* 69, completedTasks == _taskCount *)
| WNotify (p : nat)         (* 70-75 *)
| WExit                     (* 313, --_runningThreadCount *)
| WDead.                    (* thread function returned, joinable *)

(** Program counter of the thread using a provider. *)
Inductive cpc :=
| CIdle
| CCount (n : nat)          (* 131, _taskCount = taskCount *)
| CGiven (n : nat)          (* 132, _givenTaskCount = 0 *)
| CCompl (n : nat)          (* 133, _completedTaskCount = 0 *)
| CAdd (n : nat)            (* 135 and 208-212, threadCount() == 0 *)
| CRunning (n : nat)        (* 214-216, _running = true *)
| CInsert (n : nat)         (* 218-225 *)
| CWait                     (* 82-83, test of the predicate !_running *)
| CSleep.                   (* 83, asleep *)

(** Program counter of the thread managing the pool. *)
Inductive apc :=
| AIdle
| AGrowVec (n : nat)        (* 164-167 *)
| AGrowCnt (n : nat)        (* 169 *)
| AGrowSpawn (n : nat)      (* 171-172 *)
| AGrowWait                 (* 174-175, test of the predicate *)
| AGrowSleep                (* 175, asleep *)
| AShrinkFlag (n : nat)     (* 178-184 *)
| AShrinkJoin (n : nat)     (* 186-189 *)
| AShrinkPop (n : nat)      (* 191-196 *)
| AStopFlag                 (* 262-269 *)
| AStopJoin (k : nat).      (* 271-274 *)

(** What can be observed of a provider, newest first (not part of the code). *)
Inductive ev :=
| EStart (n : nat)                 (* a group of n tasks was added *)
| EBegin (t : nat)                 (* _task( t ) called *)
| EEnd (t : nat) (threw : bool)    (* it returned, or threw *)
| EWaited (ok : bool).             (* _wait returned ok *)

(** AbstractTaskProvider: thread_pool.h:34-66 (fields 54-63) *)
Record prov := mkP { tcount : nat; given : nat; compl : nat; running : bool; exc : bool; pc : cpc; plog : list ev }.
(** ThreadPool: thread_pool.h:90-123 (fields 108-120) *)
Record pool := mkS { prs : list prov; tasks : list nat; runf : list bool; exitf : list bool; ws : list wpc;
                     rtc : nat; tct : nat; created : bool; ap : apc }.

(** thread_pool.cpp:25-31 and 144-148 *)
Definition pinit : prov := mkP 0 0 0 false false CIdle [].
Definition sinit (providers : nat) : pool := mkS (repeat pinit providers) [] [] [] [] 0 0 false AIdle.

Inductive sres := Blocked | Undef | Next (s : pool).

Fixpoint put {A} (l : list A) (i : nat) (x : A) : list A :=
  match l, i with
  | [], _ => []
  | _ :: t, O => x :: t
  | y :: t, S j => y :: put t j x
  end.

Definition set_w (s : pool) (i : nat) (w : wpc) : pool :=
  mkS (prs s) (tasks s) (runf s) (exitf s) (put (ws s) i w) (rtc s) (tct s) (created s) (ap s).
Definition set_p (s : pool) (p : nat) (x : prov) : pool :=
  mkS (put (prs s) p x) (tasks s) (runf s) (exitf s) (ws s) (rtc s) (tct s) (created s) (ap s).
Definition set_tasks (s : pool) (l : list nat) : pool :=
  mkS (prs s) l (runf s) (exitf s) (ws s) (rtc s) (tct s) (created s) (ap s).
Definition set_run (s : pool) (l : list bool) : pool :=
  mkS (prs s) (tasks s) l (exitf s) (ws s) (rtc s) (tct s) (created s) (ap s).
Definition set_exit (s : pool) (l : list bool) : pool :=
  mkS (prs s) (tasks s) (runf s) l (ws s) (rtc s) (tct s) (created s) (ap s).
Definition set_ws (s : pool) (l : list wpc) : pool :=
  mkS (prs s) (tasks s) (runf s) (exitf s) l (rtc s) (tct s) (created s) (ap s).
Definition set_rtc (s : pool) (n : nat) : pool :=
  mkS (prs s) (tasks s) (runf s) (exitf s) (ws s) n (tct s) (created s) (ap s).
Definition set_tct (s : pool) (n : nat) : pool :=
  mkS (prs s) (tasks s) (runf s) (exitf s) (ws s) (rtc s) n (created s) (ap s).
Definition set_created (s : pool) (b : bool) : pool :=
  mkS (prs s) (tasks s) (runf s) (exitf s) (ws s) (rtc s) (tct s) b (ap s).
Definition set_ap (s : pool) (a : apc) : pool :=
  mkS (prs s) (tasks s) (runf s) (exitf s) (ws s) (rtc s) (tct s) (created s) a.

(** notify_all on ThreadPool::_waiting *)
Definition wake (w : wpc) : wpc := match w with WSleep => WWait | _ => w end.
(** notify_one on ThreadPool::_completeCreation (one waiter at most) *)
Definition awake (a : apc) : apc := match a with AGrowSleep => AGrowWait | _ => a end.
(** notify_one on AbstractTaskProvider::_waiting (one waiter at most) *)
Definition cwake (c : cpc) : cpc := match c with CSleep => CWait | _ => c end.

(** Access to a provider through its pointer. *)
Definition with_p (s : pool) (p : nat) (f : prov -> sres) : sres :=
  match nth_error (prs s) p with Some x => f x | None => Undef end.
(** Access to an element of _run or _exit (operator[], no check). *)
Definition with_b (l : list bool) (i : nat) (f : bool -> sres) : sres :=
  match nth_error l i with Some b => f b | None => Undef end.

(** One step of worker i: thread_pool.cpp:278-314, 51-78; [threw] tells how a task ends. *)
Definition wstep (s : pool) (i : nat) (threw : bool) : sres :=
  match nth_error (ws s) i with
  | None => Blocked
  | Some w =>
    match w with
    | WStart => Next (set_w (set_rtc s (S (rtc s))) i (if S (rtc s) =? tct s then WCreated else WHead))
    | WCreated => Next (set_w (set_ap (set_created s true) (awake (ap s))) i WHead)
    | WHead => with_b (exitf s) i (fun b => Next (set_w s i (if b then WExit else WWait)))
    | WWait => with_b (runf s) i (fun b => Next (set_w s i (if b then WCheck else WSleep)))
    | WSleep => Blocked
    | WCheck => with_b (exitf s) i (fun b => Next (set_w s i (if b then WExit else WPop)))
    | WPop => match tasks s with
              | [] => with_b (runf s) i (fun _ => Next (set_w (set_run s (put (runf s) i false)) i WHead))
              | p :: t => Next (set_w (set_tasks s t) i (WGive p))
              end
    | WGive p => with_p s p (fun x =>
        Next (set_w (set_p s p (mkP (tcount x) (S (given x)) (compl x) (running x) (exc x) (pc x) (plog x))) i (WLt p (given x))))
    | WLt p t => with_p s p (fun x => Next (set_w s i (if t <? tcount x then WBegin p t else WHead)))
    | WBegin p t => with_p s p (fun x =>
        Next (set_w (set_p s p (mkP (tcount x) (given x) (compl x) (running x) (exc x) (pc x) (EBegin t :: plog x))) i (WEnd p t)))
    | WEnd p t => with_p s p (fun x =>
        Next (set_w (set_p s p (mkP (tcount x) (given x) (compl x) (running x) (exc x) (pc x) (EEnd t threw :: plog x))) i
                    (if threw then WExc p else WDone p)))
    | WExc p => with_p s p (fun x =>
        Next (set_w (set_p s p (mkP (tcount x) (given x) (compl x) (running x) true (pc x) (plog x))) i (WDone p)))
    | WDone p => with_p s p (fun x =>
        Next (set_w (set_p s p (mkP (tcount x) (given x) (S (compl x)) (running x) (exc x) (pc x) (plog x))) i (WCmp p (S (compl x)))))
    | WCmp p c => with_p s p (fun x => Next (set_w s i (if c =? tcount x then WNotify p else WHead)))
    | WNotify p => with_p s p (fun x =>
        Next (set_w (set_p s p (mkP (tcount x) (given x) (compl x) false (exc x) (cwake (pc x)) (plog x))) i WHead))
    | WExit => Next (set_w (set_rtc s (pred (rtc s))) i WDead)
    | WDead => Blocked
    end
  end.

(** What the client thread decides to do when idle: [_run( n )], [_wait()] or
    the destructor (remove followed by _wait: 41-44, 109-113, 329-332). *)
Inductive ccmd := Run (n : nat) | Wait | Destroy.

(** One step of the client thread of provider p: thread_pool.cpp:80-94, 128-142, 206-226, 239-246, 339-348. *)
Definition cstep (s : pool) (p : nat) (cmd : ccmd) : sres :=
  match nth_error (prs s) p with None => Blocked | Some x =>
  let go c := Next (set_p s p (mkP (tcount x) (given x) (compl x) (running x) (exc x) c (plog x))) in
  match pc x with
  | CIdle => match cmd with
             | Run n => if negb (running x) && (0 <? n) then go (CCount n) else Next s
             | Wait => go CWait
             | Destroy => Next (set_tasks (set_p s p (mkP (tcount x) (given x) (compl x) (running x) (exc x) CWait (plog x)))
                                  (filter (fun q => negb (q =? p)) (tasks s)))
             end
  | CCount n => Next (set_p s p (mkP n (given x) (compl x) (running x) (exc x) (CGiven n) (plog x)))
  | CGiven n => Next (set_p s p (mkP (tcount x) 0 (compl x) (running x) (exc x) (CCompl n) (plog x)))
  | CCompl n => Next (set_p s p (mkP (tcount x) (given x) 0 (running x) (exc x) (CAdd n) (plog x)))
  | CAdd n => if length (ws s) =? 0 then go CIdle (* exception "No threads in thread pool" *) else go (CRunning n)
  | CRunning n => Next (set_p s p (mkP (tcount x) (given x) (compl x) true (exc x) (CInsert n) (plog x)))
  | CInsert n =>
      Next (mkS (put (prs s) p (mkP (tcount x) (given x) (compl x) (running x) (exc x) CIdle (EStart n :: plog x)))
                (tasks s ++ repeat p n) (map (fun _ => true) (runf s)) (exitf s) (map wake (ws s)) (rtc s) (tct s) (created s) (ap s))
  | CWait => if running x then go CSleep
             else Next (set_p s p (mkP (tcount x) (given x) (compl x) (running x) false CIdle (EWaited (negb (exc x)) :: plog x)))
  | CSleep => Blocked
  end
  end.

(** clear() runs task number 1 (the argument [true]) of every queued provider: thread_pool.cpp:248-256 *)
Fixpoint clear_run (prs : list prov) (q : list nat) : list prov :=
  match q with
  | [] => prs
  | p :: t => clear_run (match nth_error prs p with
                         | Some x => put prs p (mkP (tcount x) (given x) (compl x) (running x) (exc x) (pc x)
                                                    (EEnd 1 false :: EBegin 1 :: plog x))
                         | None => prs end) t
  end.
Definition clear (s : pool) : pool :=
  mkS (clear_run (prs s) (tasks s)) [] (runf s) (exitf s) (ws s) (rtc s) (tct s) (created s) (ap s).

(** std::vector::resize *)
Definition vresize (l : list bool) (n : nat) (b : bool) : list bool := firstn n l ++ repeat b (n - length l).
(** std::fill( begin + n, end, 1 ) *)
Definition fill_from (l : list bool) (n : nat) : list bool := firstn n l ++ map (fun _ => true) (skipn n l).

Inductive acmd := Resize (n : nat) | Clear | Remove (p : nat) | Stop.

(** One step of the managing thread: thread_pool.cpp:158-199, 239-276. *)
Definition astep (s : pool) (cmd : acmd) : sres :=
  let goto a := Next (set_ap s a) in
  match ap s with
  | AIdle => match cmd with
             | Resize n => if n =? 0 then Next s (* exception *)
                           else if length (ws s) <? n then goto (AGrowVec n)
                           else if n <? length (ws s) then goto (AShrinkFlag n) else Next s
             | Clear => Next (clear s)
             | Remove p => Next (set_tasks s (filter (fun q => negb (q =? p)) (tasks s)))
             | Stop => let s := clear s in
                       if length (ws s) =? 0 then Next s else Next (set_ap s AStopFlag)
             end
  | AGrowVec n => Next (set_ap (set_run (set_exit s (vresize (exitf s) n false)) (vresize (runf s) n true)) (AGrowCnt n))
  | AGrowCnt n => Next (set_ap (set_tct s n) (AGrowSpawn n))
  | AGrowSpawn n => if length (ws s) <? n then Next (set_ws s (ws s ++ [WStart])) else goto AGrowWait
  | AGrowWait => if created s then goto AIdle else goto AGrowSleep
  | AGrowSleep => Blocked
  | AShrinkFlag n =>
      Next (set_ap (set_ws (set_run (set_exit s (fill_from (exitf s) n)) (fill_from (runf s) n)) (map wake (ws s))) (AShrinkJoin n))
  | AShrinkJoin n =>
      if n <? length (ws s) then
        match last (ws s) WDead with
        | WDead => Next (set_ap (set_ws s (removelast (ws s))) (AShrinkPop n))
        | _ => Blocked
        end
      else goto AIdle
  | AShrinkPop n => Next (set_ap (set_run (set_exit s (removelast (exitf s))) (removelast (runf s))) (AShrinkJoin n))
  | AStopFlag =>
      Next (set_ap (set_ws (set_run (set_exit s (fill_from (exitf s) 0)) (fill_from (runf s) 0)) (map wake (ws s))) (AStopJoin 0))
  | AStopJoin k =>
      match nth_error (ws s) k with
      | None => Next (set_ap (set_ws s []) AIdle)
      | Some WDead => goto (AStopJoin (S k))
      | Some _ => Blocked
      end
  end.

(** The scheduler's choice: which thread moves, and what its environment decides. *)
Inductive label :=
| LW (i : nat) (threw : bool)
| LWake (i : nat)                  (* spurious wake-up of worker i *)
| LC (p : nat) (cmd : ccmd)
| LCWake (p : nat)                 (* spurious wake-up of the client of p *)
| LA (cmd : acmd)
| LAWake.                          (* spurious wake-up of the managing thread *)

Definition step (s : pool) (l : label) : sres :=
  match l with
  | LW i threw => wstep s i threw
  | LWake i => match nth_error (ws s) i with Some WSleep => Next (set_w s i WWait) | _ => Blocked end
  | LC p cmd => cstep s p cmd
  | LCWake p => match nth_error (prs s) p with
                | Some x => match pc x with
                            | CSleep => Next (set_p s p (mkP (tcount x) (given x) (compl x) (running x) (exc x) CWait (plog x)))
                            | _ => Blocked end
                | None => Blocked end
  | LA cmd => astep s cmd
  | LAWake => match ap s with AGrowSleep => Next (set_ap s AGrowWait) | _ => Blocked end
  end.

(** An execution: a sequence of enabled steps. *)
Fixpoint run (s : pool) (ls : list label) : sres :=
  match ls with
  | [] => Next s
  | l :: t => match step s l with Next s' => run s' t | r => r end
  end.
