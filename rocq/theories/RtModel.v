(** * Model of the asynchronous operation of do_mpc/opcua/_base.py (RTBase), lines 221-257.

    The code runs in the user's thread (async_step_start, async_step_stop), in timer threads
    (async_run) and in the thread of the first step.  One transition executes one atomic operation:
    a test or an assignment of an attribute, creating, starting or cancelling a timer, starting a
    thread, the begin or the end of make_step.  The threads are interleaved arbitrarily.  Times are
    not modelled: a started timer may fire at any moment (CPython's threading.Timer: after the interval,
    the function is called unless the finished event has been set by cancel). *)
From Verif Require Import Base.
Set Implicit Arguments.

(** One atomic operation. *)
Inductive instr :=
| ISetRunning (b : bool)   (* self.is_running = b *)
| ISetNew (b : bool)       (* self.new_init = b *)
| ISetFag (b : bool)       (* self.async_fag = b *)
| ITestNew                 (* if self.new_init == True: ... *)
| ISpawn                   (* self.new_thread = Thread(target=self.make_step); start() *)
| ITestRun                 (* if not self.is_running: ... *)
| INewTimer                (* self.thread = Timer(..., self.async_run) *)
| IStartTimer              (* self.thread.start() *)
| ITestFag                 (* if self.async_fag == True: ... *)
| ICancel                  (* self.thread.cancel() *)
| IBegin | IEnd.           (* make_step begins, ends (or raises) *)

(** _base.py:230-247 async_step_start. *)
Definition p_start : list instr := [ITestNew; ITestRun; ITestFag].
(** _base.py:250-257 async_step_stop. *)
Definition p_stop : list instr := [ICancel; ISetRunning false; ISetNew true; ISetFag true].
(** _base.py:221-227 async_run. *)
Definition p_run : list instr := ISetRunning false :: p_start ++ [IBegin; IEnd].
(** The thread of the first step, line 235. *)
Definition p_step : list instr := [IBegin; IEnd].

Record timer := mkTimer { tm_started : bool; tm_finished : bool; tm_fired : bool }.

(** The attributes of the object (lines 87-89; self.thread is the number of a timer, [None] if it has
    never been set), all timers, the remaining code of the user's call ([] between calls) and of every
    other thread, and the number of steps begun so far. *)
Record rt := mkRt {
  r_running : bool; r_new : bool; r_fag : bool; r_cur : option nat;
  r_timers : list timer; r_user : list instr; r_thr : list (list instr); r_begun : nat }.

Definition rt0 : rt := mkRt false true false None [] [] [] 0.

Fixpoint upd {A} (n : nat) (x : A) (l : list A) : list A :=
  match l, n with
  | [], _ => []
  | _ :: t, 0 => x :: t
  | y :: t, S k => y :: upd k x t
  end.

(** Execute one operation; the result is the new state and the rest of the code of this thread (an
    exception ends it: cancel before self.thread exists is an AttributeError, starting a timer twice a
    RuntimeError). *)
Definition exec (i : instr) (rest : list instr) (s : rt) : rt * list instr :=
  let '(mkRt ru nw fa cu tm us th bg) := s in
  match i with
  | ISetRunning b => (mkRt b nw fa cu tm us th bg, rest)
  | ISetNew b => (mkRt ru b fa cu tm us th bg, rest)
  | ISetFag b => (mkRt ru nw b cu tm us th bg, rest)
  | ITestNew => (s, if nw then [ISpawn; ISetNew false] ++ rest else rest)
  | ISpawn => (mkRt ru nw fa cu tm us (th ++ [p_step]) bg, rest)
  | ITestRun => (s, if ru then rest else [INewTimer; IStartTimer; ISetRunning true] ++ rest)
  | INewTimer => (mkRt ru nw fa (Some (List.length tm)) (tm ++ [mkTimer false false false]) us th bg, rest)
  | IStartTimer =>
      match cu with
      | None => (s, [])
      | Some c => match nth_error tm c with
                  | Some (mkTimer false f d) => (mkRt ru nw fa cu (upd c (mkTimer true f d) tm) us th bg, rest)
                  | _ => (s, [])
                  end
      end
  | ITestFag => (s, if fa then ISetFag false :: rest else rest)
  | ICancel =>
      match cu with
      | None => (s, [])
      | Some c => match nth_error tm c with
                  | Some (mkTimer st _ d) => (mkRt ru nw fa cu (upd c (mkTimer st true d) tm) us th bg, rest)
                  | None => (s, [])
                  end
      end
  | IBegin => (mkRt ru nw fa cu tm us th (S bg), rest)
  | IEnd => (s, rest)
  end.

(** What can happen next: the user calls start or stop (between calls), the user's call or another
    thread executes one operation, a timer fires. *)
Inductive label := LStart | LStop | LUser | LThr (k : nat) | LFire (i : nat).

Definition set_user (p : list instr) (s : rt) : rt :=
  mkRt (r_running s) (r_new s) (r_fag s) (r_cur s) (r_timers s) p (r_thr s) (r_begun s).
Definition set_thr (k : nat) (p : list instr) (s : rt) : rt :=
  mkRt (r_running s) (r_new s) (r_fag s) (r_cur s) (r_timers s) (r_user s) (upd k p (r_thr s)) (r_begun s).

Definition next (l : label) (s : rt) : option rt :=
  match l with
  | LStart => match r_user s with [] => Some (set_user p_start s) | _ => None end
  | LStop => match r_user s with [] => Some (set_user p_stop s) | _ => None end
  | LUser => match r_user s with
             | [] => None
             | i :: rest => let (s', p) := exec i rest s in Some (set_user p s')
             end
  | LThr k => match nth_error (r_thr s) k with
              | Some (i :: rest) => let (s', p) := exec i rest s in Some (set_thr k p s')
              | _ => None
              end
  | LFire i => match nth_error (r_timers s) i with
               | Some (mkTimer true false false) =>
                   Some (mkRt (r_running s) (r_new s) (r_fag s) (r_cur s)
                              (upd i (mkTimer true false true) (r_timers s)) (r_user s)
                              (r_thr s ++ [p_run]) (r_begun s))
               | _ => None
               end
  end.

Fixpoint run (ls : list label) (s : rt) : option rt :=
  match ls with
  | [] => Some s
  | l :: t => match next l s with Some s' => run t s' | None => None end
  end.
