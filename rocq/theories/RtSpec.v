(** * Vocabulary for the real-time client (C52). *)
From Verif Require Import Base RtModel.
Set Implicit Arguments.

(** A step is in progress in a thread that has begun make_step and not ended it. *)
Definition in_step (p : list instr) : bool := match p with [IEnd] => true | _ => false end.
Definition in_progress (s : rt) : nat := List.length (filter in_step (r_thr s)).

(** A thread is busy with control code if it is neither finished nor inside make_step. *)
Definition in_control (p : list instr) : bool := match p with [] | [IEnd] => false | _ => true end.
Definition quiet (s : rt) : Prop := r_user s = [] /\ forall p, In p (r_thr s) -> in_control p = false.

(** Requests of the user in a history. *)
Definition is_call (l : label) : bool := match l with LStart | LStop => true | _ => false end.

(** The schedule keeps to the cycle: timers fire and calls are made only while no control code is
    being executed, and timers fire, and start is called, only when the last step has ended. *)
Definition on_time (l : label) (s : rt) : Prop :=
  match l with
  | LFire _ | LStart => quiet s /\ in_progress s = 0
  | LStop => quiet s
  | _ => True
  end.

Inductive on_time_run : list label -> rt -> rt -> Prop :=
| ot_nil s : on_time_run [] s s
| ot_cons l ls s s' s'' : on_time l s -> next l s = Some s' -> on_time_run ls s' s'' -> on_time_run (l :: ls) s s''.

(** The requests of a history: [stopped] tells whether the last call was a stop (or there was none);
    every firing of a timer asks for a step, and so does every start in the stopped state. *)
Definition stopped' (l : label) (stopped : bool) : bool := match l with LStart => false | LStop => true | _ => stopped end.
Definition adds (l : label) (stopped : bool) : nat :=
  match l with LStart => if stopped then 1 else 0 | LFire _ => 1 | _ => 0 end.
Fixpoint requested (stopped : bool) (ls : list label) : nat :=
  match ls with [] => 0 | l :: t => adds l stopped + requested (stopped' l stopped) t end.
Fixpoint stopped_after (stopped : bool) (ls : list label) : bool :=
  match ls with [] => stopped | l :: t => stopped_after (stopped' l stopped) t end.
