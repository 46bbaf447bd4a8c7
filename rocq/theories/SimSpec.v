(** * Specification vocabulary for the simulator. *)
From Verif Require Import Base MpcModel SimModel.
Import List.

Section SimSpec.
  Context {E : SEnv}.
  Notation trace := (list (@scall E * res (option (sY E)))).

  (** One sampling interval of the model with constant input, parameters and noise. *)
  Inductive transition (dt : sTm E) (u : sU E) (tv : sTV E) (p : sP E) (w : sW E) : sX E -> sZ E -> sX E -> sZ E -> Prop :=
  | tr_discrete x z (Hd : s_discrete E = true) (Hz : s_nz0 E = true) :
      transition dt u tv p w x z (s_rhs E x u z tv p w) z
  | tr_discrete_dae x z z' (Hd : s_discrete E = true) (Hz : s_nz0 E = false) (Hr : z' = s_root E z x u tv p w) :
      transition dt u tv p w x z (s_rhs E x u z' tv p w) z'
  | tr_continuous x z x' z' (Hd : s_discrete E = false) (Hi : s_integ E dt x z u tv p w = (x', z')) :
      transition dt u tv p w x z x' z'.

  (** A run of the model from (x, z) at time t under a list of inputs, measurement and process noises, with
      what should be recorded for each step: state before the step, input, time, measurement after it. *)
  Inductive trajectory (tf : sTm E -> sTV E) (pf : sTm E -> sP E) (dt : sTm E) :
      sTm E -> sX E -> sZ E -> list (sU E * sV E * sW E) -> list (sX E * sU E * sTm E * sY E) -> sTm E -> sX E -> sZ E -> Prop :=
  | traj_nil t x z : trajectory tf pf dt t x z [] [] t x z
  | traj_cons t x z u v w x1 z1 l rows t' x' z'
      (Hs : transition dt u (tf t) (pf t) w x z x1 z1)
      (Hr : trajectory tf pf dt (s_tadd E t dt) x1 z1 l rows t' x' z') :
      trajectory tf pf dt t x z ((u, v, w) :: l) ((x, u, t, s_meas E x1 u z1 (tf t) (pf t) v) :: rows) t' x' z'.

  (** The functions in force, from the observed history. *)
  Definition stvp_of (tr : trace) : option (sTm E -> sTV E) :=
    fold_left (fun o e => match e with (STvp (Good f), Ok _) => Some f | _ => o end) tr None.
  Definition sp_of (tr : trace) : option (sTm E -> sP E) :=
    fold_left (fun o e => match e with (SP (Good f), Ok _) => Some f | _ => o end) tr None.
  Definition stvp_force tr := match stvp_of tr with Some f => f | None => s_tvp_dummy E end.
  Definition sp_force tr := match sp_of tr with Some f => f | None => s_p_dummy E end.

  Definition swas_setup (tr : trace) : Prop := exists v, In (SSetup, Ok v) tr.
  (** The sampling time given last by set_param or by attribute. *)
  Definition stime_step (tr : trace) : option (sTm E) :=
    fold_left (fun o e => match e with (SParam t, Ok _) => Some t | (SSetting t, Ok _) => t | _ => o end) tr None.

  (** Input and time of every accepted step since the last reset; the clock. *)
  Definition slog_state (tr : trace) : option (sTm E) * sTm E * list (option (arg (sU E)) * sTm E) :=
    fold_left (fun st e =>
      let '(dt, t, l) := st in
      match e with
      | (SParam d, Ok _) => (Some d, t, l)
      | (SSetting d, Ok _) => (d, t, l)
      | (SStep u _ _, Ok _) => (dt, match dt with Some d => s_tadd E t d | None => t end, l ++ [(u, t)])
      | (SReset, Ok _) => (dt, s_t_zero E, [])
      | (ST0 (Good t'), Ok _) => (dt, t', l)
      | _ => st
      end) tr (None, s_t_zero E, []).
  Definition sclock tr := snd (fst (slog_state tr)).
  Definition slog tr := snd (slog_state tr).

  (** The value an argument of make_step stands for: an omitted noise is zero, an omitted input is accepted for
      models without inputs. *)
  Definition given_u (u : option (arg (sU E))) : option (sU E) :=
    match u with None => if s_nu0 E then Some (s_u_zero E) else None | Some (Good v) => Some v | Some Bad => None end.
  Definition given {A} (z : A) (a : option (arg A)) : option A :=
    match a with None => Some z | Some (Good v) => Some v | Some Bad => None end.
  (** Call [c] is a step with these values. *)
  Definition step_with (c : @scall E) (l : sU E * sV E * sW E) : Prop :=
    match c with
    | SStep u v w => given_u u = Some (fst (fst l)) /\ given (s_v_zero E) v = Some (snd (fst l)) /\ given (s_w_zero E) w = Some (snd l)
    | _ => False
    end.

  (** [n] times, starting with [t]. *)
  Fixpoint ticks (dt t : sTm E) (n : nat) : list (sTm E) :=
    match n with O => [] | Datatypes.S n => t :: ticks dt (s_tadd E t dt) n end.

  (** Every field of the data object has [n] rows. *)
  Definition same_rows (d : @srows E) (n : nat) : Prop :=
    length (q_x d) = n /\ length (q_u d) = n /\ length (q_z d) = n /\ length (q_tvp d) = n /\ length (q_p d) = n /\
    length (q_y d) = n /\ length (q_aux d) = n /\ length (q_time d) = n.

  (** One recorded row, and the rows of a data object field by field. *)
  Record row := mkRow { w_x : sX E; w_u : sU E; w_z : sZ E; w_tv : sTV E; w_p : sP E; w_aux : sAUX E }.
  Definition full_rows (d d' : @srows E) (rows : list row) : Prop :=
    q_x d' = q_x d ++ map w_x rows /\ q_u d' = q_u d ++ map w_u rows /\ q_z d' = q_z d ++ map w_z rows /\
    q_tvp d' = q_tvp d ++ map w_tv rows /\ q_p d' = q_p d ++ map w_p rows /\ q_aux d' = q_aux d ++ map w_aux rows.
  (** The auxiliary value of a row belongs to that row. *)
  Definition own_aux (r : row) : Prop := w_aux r = s_aux E (w_x r) (w_u r) (w_z r) (w_tv r) (w_p r).
  (** It belongs to the row's state, with input and parameters of the row before. *)
  Definition lagged_aux (prev r : row) : Prop := w_aux r = s_aux E (w_x r) (w_u prev) (w_z r) (w_tv prev) (w_p prev).
  Fixpoint lagged_from (prev : row) (l : list row) : Prop :=
    match l with [] => True | r :: l => lagged_aux prev r /\ lagged_from r l end.

  (** Ordinary histories: the settings object is not written after a successful setup. *)
  Definition sordinary (tr : trace) : Prop :=
    forall before t o after, tr = before ++ (SSetting t, o) :: after -> ~ swas_setup before.
End SimSpec.

(** The calls a run of the closed loop from state [x] makes, with what they return, and the loop's result: each
    input goes from the controller to the simulator, each measurement back; the first exception ends it. *)
Section LoopSpec.
  Context {E : Env} {F : SEnv}.
  Variable toU : tU E -> sU F.
  Variable toX : sY F -> tX E.
  Inductive loop_trace : tX E -> nat -> list (@call E * res (option (tU E))) -> list (@scall F * res (option (sY F))) -> res (tX E) -> Prop :=
  | lt_done x : loop_trace x 0 [] [] (Ok x)
  | lt_iter x n u y tm ts r (Hr : loop_trace (toX y) n tm ts r) :
      loop_trace x (Datatypes.S n) ((KStep (Good x), Ok (Some u)) :: tm) ((SStep (Some (Good (toU u))) None None, Ok (Some y)) :: ts) r
  | lt_controller x n e : loop_trace x (Datatypes.S n) [(KStep (Good x), Err e)] [] (Err e)
  | lt_simulator x n u e :
      loop_trace x (Datatypes.S n) [(KStep (Good x), Ok (Some u))] [(SStep (Some (Good (toU u))) None None, Err e)] (Err e).
End LoopSpec.
