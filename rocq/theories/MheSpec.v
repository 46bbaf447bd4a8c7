(** * Specification vocabulary for the moving horizon estimator, over observed histories only. *)
From Verif Require Import Base MpcModel MheModel.
Import List.

(** The moving window of length N over the measurements [ys] (oldest first): position k holds the measurement
    number [length ys - N + k], or the oldest one if that number is negative (subtraction stops at 0). *)
Definition is_window {Y} (N : nat) (ys w : list Y) : Prop :=
  length w = N /\ forall k, k < N -> nth_error w k = nth_error ys (length ys + k - N).

Section Spec.
  Context {E : HEnv}.
  Notation trace := (list (@hcall E * res (option (hX E)))).

  Definition hsettings_of (tr : trace) : @hset E :=
    fold_left (fun s e => match e with (HParam f, Ok _) => f s | (HSetting f, Ok _) => f s | _ => s end) tr hset_init.
  Definition htvp_of (tr : trace) : option (hTm E -> hTVh E) :=
    fold_left (fun o e => match e with (HTvp (Good f), Ok _) => Some f | _ => o end) tr None.
  Definition hp_of (tr : trace) : option (hTm E -> hPS E) :=
    fold_left (fun o e => match e with (HPfun (Good f), Ok _) => Some f | _ => o end) tr None.
  Definition htvp_force (tr : trace) : hTm E -> hTVh E := match htvp_of tr with Some f => f | None => h_tvp_dummy E end.
  Definition hp_force (tr : trace) : hTm E -> hPS E := match hp_of tr with Some f => f | None => h_p_dummy E end.
  (** The user's measurement function, if one was accepted. *)
  Definition huser_y (tr : trace) : option (hTm E -> list (hY E)) :=
    fold_left (fun o e => match e with (HYfun f, Ok _) => Some f | _ => o end) tr None.

  (** The clock, the current estimate and the log of the steps since the last reset or setup:
      (measurement, estimate before the step, estimate returned, time). *)
  Record hentry := mkEntry { n_y : hY E; n_before : hX E; n_after : hX E; n_t : hTm E }.
  Definition htick (s : @hset E) (t : hTm E) : hTm E := match hs_tstep s with Some dt => h_tadd E t dt | None => t end.
  Definition hlog_state (tr : trace) : @hset E * hX E * hTm E * list hentry :=
    fold_left (fun st e =>
      let '(s, x, t, l) := st in
      match e with
      | (HParam f, Ok _) => (f s, x, t, l)
      | (HSetting f, Ok _) => (f s, x, t, l)
      | (HStep (Good y), Ok (Some x')) => (s, x', htick s t, l ++ [mkEntry y x x' t])
      | (HReset, Ok _) => (s, x, h_t_zero E, [])
      | (HSetup, Ok _) => (s, x, t, [])
      | (HX0 x', Ok _) => (s, x', t, l)
      | (HT0 t', Ok _) => (s, x, t', l)
      | _ => st
      end) tr (hset_init, h_x_zero E, h_t_zero E, []).
  Definition hclock (tr : trace) : hTm E := snd (fst (hlog_state tr)).
  Definition hlog (tr : trace) : list hentry := snd (hlog_state tr).
  (** The current state estimate: returned by the last successful step, or assigned. *)
  Definition estimate (tr : trace) : hX E := snd (fst (fst (hlog_state tr))).

  Definition hwas_setup (tr : trace) : Prop := exists v, In (HSetup, Ok v) tr.

  (** Ordinary histories: the settings object is not changed after a setup (set_param refuses by itself); a
      user's measurement function always returns as many measurements as the horizon in force, which is not
      changed afterwards. *)
  Definition hallowed (before : trace) (c : @hcall E) : Prop :=
    match c with
    | HParam g => huser_y before <> None -> hs_nhor (g (hsettings_of before)) = hs_nhor (hsettings_of before)
    | HSetting g => ~ hwas_setup before /\ (huser_y before <> None -> hs_nhor (g (hsettings_of before)) = hs_nhor (hsettings_of before))
    | HYfun f => forall t, hs_nhor (hsettings_of before) = Some (length (f t))
    | _ => True
    end.
  Definition hordinary (tr : trace) : Prop :=
    forall before c o after, tr = before ++ (c, o) :: after -> hallowed before c.
End Spec.
