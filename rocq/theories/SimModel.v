(** * Model of do_mpc/simulator.py: class Simulator, and of the closed loop with MPC and StateFeedback.

    Simplifications: python argument types are right except where [arg] offers a wrong case; tvp/p functions
    are pure functions of time; building CasADi objects does not raise; data rows are typed values (class Data
    is modelled in DataModel.v).  Numerical integration is an arbitrary function of its inputs. *)
From Verif Require Import Base MpcModel.
Import List.

(** What the simulator is parametric in. *)
Record SEnv := mkSEnv {
  sX : Type; sU : Type; sZ : Type; sTV : Type; sP : Type; sW : Type; sV : Type; sY : Type; sAUX : Type; sTm : Type;
  s_discrete : bool;                 (* model_type == 'discrete' *)
  s_nu0 : bool;                      (* model.n_u == 0 *)
  s_nz0 : bool;                      (* model.n_z == 0 *)
  s_ntvp : nat; s_np : nat;
  s_tadd : sTm -> sTm -> sTm; s_t_zero : sTm;
  s_x_zero : sX; s_u_zero : sU; s_z_zero : sZ; s_w_zero : sW; s_v_zero : sV; s_aux_zero : sAUX;
  s_rhs : sX -> sU -> sZ -> sTV -> sP -> sW -> sX;                    (* _rhs_fun, discrete time *)
  s_root : sZ -> sX -> sU -> sTV -> sP -> sW -> sZ;                   (* discrete_dae_solver, from a guess *)
  s_integ : sTm -> sX -> sZ -> sU -> sTV -> sP -> sW -> sX * sZ;      (* integrator over an interval *)
  s_aux : sX -> sU -> sZ -> sTV -> sP -> sAUX;                        (* _aux_expression_fun *)
  s_meas : sX -> sU -> sZ -> sTV -> sP -> sV -> sY;                   (* _meas_fun *)
  s_zinit : sZ -> sX -> sU -> sTV -> sP -> sZ;                        (* nlpsol of init_algebraic_variables *)
  s_tvp_dummy : sTm -> sTV; s_p_dummy : sTm -> sP }.                  (* simulator.py:213-223 *)

Section Sim.
  Context {E : SEnv}.

  (** Rows of the data object. *)
  Record srows := mkSrows { q_x : list (sX E); q_u : list (sU E); q_z : list (sZ E); q_tvp : list (sTV E); q_p : list (sP E);
                            q_y : list (sY E); q_aux : list (sAUX E); q_time : list (sTm E) }.
  Definition no_srows : srows := mkSrows [] [] [] [] [] [] [] [].

  Record sim := mkSim {
    c_setup : bool; c_first : bool;                       (* flags setup, first_step *)
    c_tstep : option (sTm E);                             (* settings.t_step *)
    c_dt : option (sTm E);                                (* the interval the integrator was built for (set at setup) *)
    c_tvpf : option (sTm E -> sTV E); c_pf : option (sTm E -> sP E);
    c_x0 : sX E; c_u0 : sU E; c_z0 : sZ E; c_t0 : sTm E;
    c_simz : sZ E; c_simaux : sAUX E;                     (* sim_z_num, sim_aux_num *)
    c_data : srows }.

  (** simulator.py:151-170 __init__; model/_iteratedvariables.py:37-44. *)
  Definition sim_init : sim :=
    mkSim false true None None None None (s_x_zero E) (s_u_zero E) (s_z_zero E) (s_t_zero E) (s_z_zero E) (s_aux_zero E) no_srows.

  (** simulator.py:198-203 reset_history. *)
  Definition sim_reset (s : sim) : sim :=
    mkSim (c_setup s) true (c_tstep s) (c_dt s) (c_tvpf s) (c_pf s) (c_x0 s) (c_u0 s) (c_z0 s) (s_t_zero E) (c_simz s) (c_simaux s) no_srows.

  Definition sim_fns (t : option (sTm E -> sTV E)) (p : option (sTm E -> sP E)) (s : sim) : sim :=
    mkSim (c_setup s) (c_first s) (c_tstep s) (c_dt s) t p (c_x0 s) (c_u0 s) (c_z0 s) (c_t0 s) (c_simz s) (c_simaux s) (c_data s).
  (** simulator.py:355-406 set_tvp_fun, 422-485 set_p_fun. *)
  Definition sim_set_tvp (s : sim) (f : arg (sTm E -> sTV E)) : res sim :=
    match f with Good g => Ok (sim_fns (Some g) (c_pf s) s) | Bad => Err ExcAssertion end.
  Definition sim_set_p (s : sim) (f : arg (sTm E -> sP E)) : res sim :=
    match f with Good g => Ok (sim_fns (c_tvpf s) (Some g) s) | Bad => Err ExcAssertion end.

  (** simulator.py:311-342 set_param(t_step = ...), and assignment to [simulator.settings.t_step]. *)
  Definition sim_tstep (s : sim) (t : option (sTm E)) : sim :=
    mkSim (c_setup s) (c_first s) t (c_dt s) (c_tvpf s) (c_pf s) (c_x0 s) (c_u0 s) (c_z0 s) (c_t0 s) (c_simz s) (c_simaux s) (c_data s).
  Definition sim_set_param (s : sim) (t : sTm E) : res sim := if c_setup s then Err ExcAssertion else Ok (sim_tstep s (Some t)).

  (** simulator.py:205-224 _check_validity and 227-308 setup. *)
  Definition sim_setup (s : sim) : sim * res unit :=
    if (match c_tvpf s with None => true | _ => false end) && Nat.ltb 0 (s_ntvp E) then (s, Err ExcGeneric)
    else if (match c_pf s with None => true | _ => false end) && Nat.ltb 0 (s_np E) then (s, Err ExcGeneric)
    else
      let s1 := sim_fns (Some (match c_tvpf s with Some f => f | None => s_tvp_dummy E end))
                        (Some (match c_pf s with Some f => f | None => s_p_dummy E end)) s in
      match c_tstep s1 with
      | None => (s1, Err ExcValue)
      | Some dt => (mkSim true (c_first s1) (c_tstep s1) (Some dt) (c_tvpf s1) (c_pf s1) (c_x0 s1) (c_u0 s1) (c_z0 s1) (c_t0 s1)
                      (s_z_zero E) (s_aux_zero E) (c_data s1), Ok tt)
      end.

  (** simulator.py:488-500 set_initial_guess. *)
  Definition sim_guess (s : sim) : res sim :=
    if c_setup s then
      Ok (mkSim (c_setup s) (c_first s) (c_tstep s) (c_dt s) (c_tvpf s) (c_pf s) (c_x0 s) (c_u0 s) (c_z0 s) (c_t0 s) (c_z0 s) (c_simaux s) (c_data s))
    else Err ExcAssertion.
  Definition sim_attrs (x : sX E) (u : sU E) (z : sZ E) (t : sTm E) (s : sim) : sim :=
    mkSim (c_setup s) (c_first s) (c_tstep s) (c_dt s) (c_tvpf s) (c_pf s) x u z t (c_simz s) (c_simaux s) (c_data s).
  (** simulator.py:502-560 init_algebraic_variables: z0 is assigned before set_initial_guess checks the
      setup flag. *)
  Definition sim_init_alg (s : sim) : sim * res (sZ E) :=
    match c_pf s, c_tvpf s with
    | Some pf, Some tf =>
        let z := s_zinit E (c_z0 s) (c_x0 s) (c_u0 s) (tf (c_t0 s)) (pf (c_t0 s)) in
        let s1 := sim_attrs (c_x0 s) (c_u0 s) z (c_t0 s) s in
        match sim_guess s1 with Ok s2 => (s2, Ok z) | Err e => (s1, Err e) end
    | _, _ => (s, Err ExcAttribute)
    end.

  (** simulator.py:563-615 simulate: new state, new algebraic state. *)
  Definition simulate (dt : option (sTm E)) (x : sX E) (z : sZ E) (u : sU E) (tv : sTV E) (p : sP E) (w : sW E) : sX E * sZ E :=
    if s_discrete E then
      let z' := if s_nz0 E then z else s_root E z x u tv p w in (s_rhs E x u z' tv p w, z')
    else match dt with Some d => s_integ E d x z u tv p w | None => (x, z) end.   (* None: not reachable, set at setup *)

  (** An optional argument: omitted, good or bad. *)
  Definition noise {A} (a : option (arg A)) (zero : A) : res A :=
    match a with None => Ok zero | Some (Good v) => Ok v | Some Bad => Err ExcAssertion end.

  (** simulator.py:617-706 make_step. *)
  Definition sim_step (s : sim) (u : option (arg (sU E))) (v : option (arg (sV E))) (w : option (arg (sW E))) : sim * res (sY E) :=
    match (match u with
           | None => if s_nu0 E then Ok (s_u_zero E) else Err ExcAssertion
           | Some (Good u) => Ok u
           | Some Bad => Err ExcAssertion
           end) with
    | Err e => (s, Err e)
    | Ok u0 =>
        if c_setup s then
          match noise w (s_w_zero E), noise v (s_v_zero E) with
          | Err e, _ => (s, Err e)
          | _, Err e => (s, Err e)
          | Ok w0, Ok v0 =>
              match c_tvpf s, c_pf s with
              | Some tf, Some pf =>
                  let tv := tf (c_t0 s) in let p := pf (c_t0 s) in
                  let z0 := c_simz s in
                  let aux0 := if c_first s then s_aux E (c_x0 s) u0 z0 tv p else c_simaux s in
                  let (x', z') := simulate (c_dt s) (c_x0 s) z0 u0 tv p w0 in
                  let aux' := s_aux E x' u0 z' tv p in
                  let y := s_meas E x' u0 z' tv p v0 in
                  let d := c_data s in
                  let d' := mkSrows (q_x d ++ [c_x0 s]) (q_u d ++ [u0]) (q_z d ++ [z0]) (q_tvp d ++ [tv]) (q_p d ++ [p]) (q_y d ++ [y]) (q_aux d ++ [aux0]) (q_time d ++ [c_t0 s]) in
                  match c_tstep s with
                  | None => (mkSim (c_setup s) (c_first s) (c_tstep s) (c_dt s) (c_tvpf s) (c_pf s) x' u0 z0 (c_t0 s) z' aux' d', Err ExcType)
                  | Some dt => (mkSim (c_setup s) false (c_tstep s) (c_dt s) (c_tvpf s) (c_pf s) x' u0 z0 (s_tadd E (c_t0 s) dt) z' aux' d', Ok y)
                  end
              | _, _ => (s, Err ExcAttribute)
              end
          end
        else (s, Err ExcAssertion)
    end.

  (** Calls of the public API. *)
  Inductive scall :=
  | SParam (t : sTm E)                       (* set_param *)
  | SSetting (t : option (sTm E))            (* settings.t_step = ... *)
  | STvp (f : arg (sTm E -> sTV E))
  | SP (f : arg (sTm E -> sP E))
  | SSetup
  | SGuess
  | SInitAlg
  | SStep (u : option (arg (sU E))) (v : option (arg (sV E))) (w : option (arg (sW E)))
  | SReset
  | SX0 (x : arg (sX E))
  | SZ0 (z : arg (sZ E))
  | ST0 (t : arg (sTm E)).

  Definition sret (s : sim) (r : res sim) : sim * res (option (sY E)) := match r with Ok s' => (s', Ok None) | Err e => (s, Err e) end.
  Definition do_scall (s : sim) (c : scall) : sim * res (option (sY E)) :=
    match c with
    | SParam t => sret s (sim_set_param s t)
    | SSetting t => (sim_tstep s t, Ok None)
    | STvp f => sret s (sim_set_tvp s f)
    | SP f => sret s (sim_set_p s f)
    | SSetup => match sim_setup s with (s', Ok _) => (s', Ok None) | (s', Err e) => (s', Err e) end
    | SGuess => sret s (sim_guess s)
    | SInitAlg => match sim_init_alg s with (s', Ok _) => (s', Ok None) | (s', Err e) => (s', Err e) end
    | SStep u v w => match sim_step s u v w with (s', Ok y) => (s', Ok (Some y)) | (s', Err e) => (s', Err e) end
    | SReset => (sim_reset s, Ok None)
    | SX0 a => match a with Good x => (sim_attrs x (c_u0 s) (c_z0 s) (c_t0 s) s, Ok None) | Bad => (s, Err ExcAssertion) end
    | SZ0 a => match a with Good z => (sim_attrs (c_x0 s) (c_u0 s) z (c_t0 s) s, Ok None) | Bad => (s, Err ExcAssertion) end
    | ST0 a => match a with Good t => (sim_attrs (c_x0 s) (c_u0 s) (c_z0 s) t s, Ok None) | Bad => (s, Err ExcAssertion) end
    end.
  Fixpoint sexec (h : list scall) (s : sim) : sim * list (scall * res (option (sY E))) :=
    match h with
    | [] => (s, [])
    | c :: r => let (s1, o) := do_scall s c in let (s2, tr) := sexec r s1 in (s2, (c, o) :: tr)
    end.
End Sim.

(** The standard loop (main.py of the examples and documentation): u = mpc.make_step(x); y = simulator.make_step(u);
    x = estimator.make_step(y) with StateFeedback (estimator/_base.py:55-72, returns its argument).  It
    stops at the first exception. *)
Section Loop.
  Context {E : Env} {F : SEnv}.
  Variable toU : tU E -> sU F.          (* the same numpy array *)
  Variable toX : sY F -> tX E.
  Fixpoint loop (n : nat) (m : @mpc E) (s : @sim F) (x : tX E) : @mpc E * @sim F * res (tX E) :=
    match n with
    | O => (m, s, Ok x)
    | Datatypes.S n =>
        match make_step m (Good x) with
        | (m1, Err e) => (m1, s, Err e)
        | (m1, Ok u) =>
            match sim_step s (Some (Good (toU u))) None None with
            | (s1, Err e) => (m1, s1, Err e)
            | (s1, Ok y) => loop n m1 s1 (toX y)
            end
        end
    end.
End Loop.
