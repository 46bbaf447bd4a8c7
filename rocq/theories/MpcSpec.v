(** * Specification vocabulary for the MPC life cycle, over observed histories only.

    A history is the list of API calls with what each returned ([call * outcome], oldest first).  The
    definitions below read such a list; none of them looks at the controller object. *)
From Verif Require Import Base MpcModel.
Import List.

Section Spec.
  Context {E : Env}.
  Notation trace := (list (@call E * res (option (tU E)))).

  (** The input applied last: returned by the last successful step or assigned by the user. *)
  Definition prev_input (tr : trace) : tU E :=
    fold_left (fun u e => match e with
                          | (KStep _, Ok (Some u')) => u'
                          | (KU0 (Good u'), Ok _) => u'
                          | _ => u
                          end) tr (u_zero E).

  (** The settings: every accepted set_param and every attribute assignment, in order. *)
  Definition settings_of (tr : trace) : @settings E :=
    fold_left (fun s e => match e with
                          | (KParam f, Ok _) => f s
                          | (KSetting f, Ok _) => f s
                          | _ => s
                          end) tr (settings_init).

  (** The functions in force: the last accepted one, or the default. *)
  Definition tvp_of (tr : trace) : option (tTm E -> tTVh E) :=
    fold_left (fun o e => match e with (KTvp (Good f), Ok _) => Some f | _ => o end) tr None.
  Definition p_of (tr : trace) : option (tTm E -> tPc E) :=
    fold_left (fun o e => match e with (KP (Good f), Ok _) => Some f | _ => o end) tr None.
  Definition tvp_force (tr : trace) : tTm E -> tTVh E := match tvp_of tr with Some f => f | None => tvp_dummy E end.
  Definition p_force (tr : trace) : tTm E -> tPc E := match p_of tr with Some f => f | None => p_dummy E end.

  (** The clock, and the log of the steps since the last reset or setup: (state passed, input returned,
      time).  Each accepted step adds one entry and advances the clock by the sampling time in force. *)
  Definition tick (s : @settings E) (t : tTm E) : tTm E := match s_tstep s with Some dt => tadd E t dt | None => t end.
  Definition clock_log (tr : trace) : @settings E * tTm E * list (tX E * tU E * tTm E) :=
    fold_left (fun st e =>
      let '(s, t, l) := st in
      match e with
      | (KParam f, Ok _) => (f s, t, l)
      | (KSetting f, Ok _) => (f s, t, l)
      | (KStep (Good x), Ok (Some u)) => (s, tick s t, l ++ [(x, u, t)])
      | (KReset, Ok _) => (s, t_zero E, [])
      | (KSetup, Ok _) => (s, t, [])
      | (KCreate, Ok _) => (s, t, [])
      | (KT0 (Good t'), Ok _) => (s, t', l)
      | _ => st
      end) tr (settings_init, t_zero E, []).
  Definition clock (tr : trace) : tTm E := snd (fst (clock_log tr)).
  Definition log (tr : trace) : list (tX E * tU E * tTm E) := snd (clock_log tr).

  (** The objective given last. *)
  Definition objective_of (tr : trace) : option (tObj E) :=
    fold_left (fun o e => match e with (KObjective _ _ ob, Ok _) => Some ob | _ => o end) tr None.
  (** The nonlinear constraints, in the order they were added. *)
  Definition nlcons_of (tr : trace) : list (tNl E) :=
    fold_left (fun l e => match e with (KNlCons c, Ok _) => l ++ [c] | _ => l end) tr [].

  (** Slack symbols of an earlier attempt are left over: some setup or prepare_nlp call was made, with both
      mandatory settings present, after a soft constraint had been added. *)
  Definition leftover (tr : trace) : bool :=
    snd (fold_left (fun st e =>
      let '(s, l, b) := st in
      match e with
      | (KParam f, Ok _) => (f s, l, b)
      | (KSetting f, Ok _) => (f s, l, b)
      | (KNlCons c, Ok _) => (s, l ++ [c], b)
      | (KSetup, _) | (KPrepare, _) =>
          (s, l, match s_tstep s, s_nhor s with Some _, Some _ => b || existsb (is_soft E) l | _, _ => b end)
      | _ => st
      end) tr (settings_init, [], false)).

  (** Order on bound values. *)
  Definition ext_le (a b : ext (tR E)) : Prop :=
    match a, b with
    | MInf, _ => True
    | _, PInf => True
    | Fin x, Fin y => Rleb E x y = true
    | _, _ => False
    end.

  (** A setup happened: some setup or create_nlp call returned normally. *)
  Definition was_setup (tr : trace) : Prop := exists v, In (KSetup, Ok v) tr \/ In (KCreate, Ok v) tr.

  (** Histories of the ordinary route: one [setup] call instead of prepare_nlp / create_nlp, attributes of the settings
      object assigned before a setup only (afterwards set_param has to refuse), and set_rterm called with valid
      keywords. *)
  Definition allowed (before : trace) (c : @call E) : Prop :=
    match c with
    | KSetting _ => ~ was_setup before
    | KPrepare | KCreate => False
    | KRterm kws n => (length kws <= n)%nat
    | _ => True
    end.
  Definition ordinary (tr : trace) : Prop :=
    forall before c o after, tr = before ++ (c, o) :: after -> allowed before c.
End Spec.
