(** * Model of the life cycle of do_mpc/controller/_mpc.py: class MPC (with do_mpc/optimizer.py):
    configuration, bounds and scaling, setup, make_step, history.

    The optimisation problem itself is modelled in NlpModel.v; here the solver is an arbitrary function
    of the problem configuration, the variable bounds, the warm start and the parameters.

    Simplifications: python argument types are right except where an argument type offers a wrong
    case; warnings and sleeps have no effect; data rows are typed values (class Data itself is
    modelled in DataModel.v); user-supplied tvp/p functions are pure functions of time. *)
From Verif Require Import Base.
Local Open Scope string_scope.

(** Bound values: numbers and the two infinities. *)
Inductive ext (R : Type) := MInf | Fin (r : R) | PInf.
Arguments MInf {R}. Arguments Fin {R} r. Arguments PInf {R}.

Inductive vtype := Vx | Vu | Vz | Vpest.
Inductive side := Lower | Upper.
(** The numerical structures holding bounds (optimizer.py:56-63, controller/_mpc.py:157-158). *)
Inductive addr := Alb (t : vtype) | Aub (t : vtype) | Atlb | Atub.
Definition vtype_eqb (a b : vtype) : bool :=
  match a, b with Vx, Vx | Vu, Vu | Vz, Vz | Vpest, Vpest => true | _, _ => false end.
Definition addr_eqb (a b : addr) : bool :=
  match a, b with
  | Alb s, Alb t => vtype_eqb s t | Aub s, Aub t => vtype_eqb s t
  | Atlb, Atlb | Atub, Atub => true | _, _ => false
  end.

(** An argument as passed by the user: a value of the right type and size, or something else. *)
Inductive arg (A : Type) := Good (a : A) | Bad.
Arguments Good {A} a. Arguments Bad {A}.

(** Everything the life cycle is parametric in: value types, the model's dimensions, the solver.  A record
    of data only (no proofs), so that a theorem quantified over [E : Env] holds for all of them. *)
Record settings_ (Tm : Type) := mkSet { s_tstep : option Tm; s_nhor : option nat; s_term : bool; s_full : bool; s_lagr : bool; s_stats : bool }.
Arguments mkSet {Tm}. Arguments s_tstep {Tm}. Arguments s_nhor {Tm}. Arguments s_term {Tm}. Arguments s_full {Tm}. Arguments s_lagr {Tm}. Arguments s_stats {Tm}.
(** What is fixed when the problem is created (prepare_nlp/create_nlp). *)
Record problem_ (R Obj Rt Nl Tm : Type) := mkProb { pr_obj : Obj; pr_rt : Rt; pr_nl : list Nl; pr_scal : vtype -> nat -> R; pr_set : settings_ Tm }.
Arguments mkProb {R Obj Rt Nl Tm}. Arguments pr_obj {R Obj Rt Nl Tm}. Arguments pr_rt {R Obj Rt Nl Tm}. Arguments pr_nl {R Obj Rt Nl Tm}.
Arguments pr_scal {R Obj Rt Nl Tm}. Arguments pr_set {R Obj Rt Nl Tm}.
(** Values written into lb_opt_x / ub_opt_x by _update_bounds (_mpc.py:1052-1085). *)
Record obounds_ (R : Type) := mkOB { ob : side -> vtype -> nat -> ext R; ob_term : side -> nat -> ext R }.
Arguments mkOB {R}. Arguments ob {R}. Arguments ob_term {R}.

Record Env := mkEnv {
  tR : Type; tInd : Type;                      (* numbers; power indices *)
  tX : Type; tU : Type; tZ : Type;             (* state, input, algebraic variables *)
  tTVh : Type; tTV : Type; tPc : Type; tP : Type; (* tvp over the horizon, tvp now, p scenarios, nominal p *)
  tAUX : Type; tTm : Type;                     (* auxiliary expressions, time *)
  tObj : Type; tRt : Type; tNl : Type;         (* objective, rate penalty, one nonlinear constraint *)
  tOX : Type; tLG : Type; tLX : Type; tST : Type; (* solution vector, multipliers, solver statistics *)
  Rleb : tR -> tR -> bool;
  one : tR;
  (** [var_struct.f[ind]]: positions addressed by a power index, after the check that the variable
      name exists (optimizer.py:312,346; _mpc.py:444,468). *)
  resolve : vtype -> tInd -> res (list nat);
  n_of : vtype -> nat;                         (* number of entries of the structure *)
  n_tvp : nat; n_p : nat;
  tadd : tTm -> tTm -> tTm;
  t_zero : tTm; x_zero : tX; u_zero : tU; z_zero : tZ;
  tv_now : tTVh -> tTV;                        (* tvp0['_tvp', 0] *)
  p_nom : tPc -> tP;                           (* p0['_p', 0] *)
  rt_zero : tRt;
  rt_update : tRt -> list (string * tR) -> tRt;
  ox_init : problem_ tR tObj tRt tNl tTm -> tOX;             (* _opt_x(0) *)
  guess : tOX -> tX -> tU -> tZ -> (vtype -> nat -> tR) -> tOX;
  S : problem_ tR tObj tRt tNl tTm -> obounds_ tR -> tOX -> option (tLG * tLX) -> (tX * tU * tTVh * tPc) -> tOX * tLG * tLX * tST;
  ox_u : tOX -> tU;                            (* opt_x_num['_u', 0, 0] *)
  ox_z : tOX -> tZ;                            (* opt_x_num['_z', 0, 0, 0] *)
  aux_of : problem_ tR tObj tRt tNl tTm -> tOX -> (tX * tU * tTVh * tPc) -> tAUX;
  scale_u : (nat -> tR) -> tU -> tU;           (* elementwise product with _u_scaling *)
  scale_z : (nat -> tR) -> tZ -> tZ;
  tvp_dummy : tTm -> tTVh; p_dummy : tTm -> tPc; (* _mpc.py:911-922: defaults *)
  is_soft : tNl -> bool }.

Section Mpc.
  Context {E : Env}.
  Notation R := (tR E). Notation Ind := (tInd E). Notation X := (tX E). Notation U := (tU E). Notation Z := (tZ E).
  Notation TVh := (tTVh E). Notation TV := (tTV E). Notation Pc := (tPc E). Notation P := (tP E). Notation AUX := (tAUX E).
  Notation Tm := (tTm E). Notation Obj := (tObj E). Notation Rt := (tRt E). Notation Nl := (tNl E). Notation OX := (tOX E).
  Notation LG := (tLG E). Notation LX := (tLX E). Notation ST := (tST E).

  Definition settings := settings_ Tm.
  Definition problem := problem_ R Obj Rt Nl Tm.
  Definition obounds := obounds_ R.

  (** controller/_controllersettings.py:64-138: the settings that matter here. *)
  Definition settings_init : settings := mkSet None None false false true true.

  (** Rows of the data object (data.py), one list per field. *)
  Record rows := mkRows {
    r_x : list X; r_u : list U; r_z : list Z; r_tvp : list TV; r_p : list P; r_time : list Tm; r_aux : list AUX;
    r_optp : list (X * U * TVh * Pc); r_full : list (OX * AUX); r_lam : list LG; r_stats : list ST }.
  (** data.py:158-165 init_storage. *)
  Definition no_rows : rows := mkRows [] [] [] [] [] [] [] [] [] [] [].

  Record mpc := mkMpc {
    m_prepared : bool; m_setup : bool; m_run1 : bool;         (* flags prepare_nlp, setup, initial_run *)
    m_set : settings;
    m_obj : option Obj; m_rt : Rt; m_nl : list Nl;
    m_scal : vtype -> nat -> R;
    m_store : addr -> nat -> ext R; m_tlb : addr; m_tub : addr;
    m_tvpf : option (Tm -> TVh); m_pf : option (Tm -> Pc);
    m_x0 : X; m_u0 : U; m_z0 : Z; m_t0 : Tm;
    m_slack : bool;                 (* slack_cost mentions slack symbols (optimizer.py:80,571) *)
    m_pend : option (problem * bool); (* result of _prepare_nlp; true if its objective mentions slack symbols of an earlier call *)
    m_prob : option problem;        (* the problem the solver object was created for *)
    m_ob : option obounds;
    m_ox : option OX; m_lam : option (LG * LX);
    m_fields : bool * bool * bool;  (* data fields for the full solution, multipliers, solver statistics *)
    m_data : rows }.

  (** _mpc.py:143-180 __init__ and optimizer.py:42-80. *)
  Definition mpc_init : mpc :=
    mkMpc false false false settings_init None (rt_zero E) [] (fun _ _ => (one E))
      (fun a _ => match a with Alb _ | Atlb => MInf | Aub _ | Atub => PInf end) Atlb Atub
      None None (x_zero E) (u_zero E) (z_zero E) (t_zero E) false None None None None None (false, false, false) no_rows.

  (** Assignments to groups of attributes. *)
  Definition with_store (s : addr -> nat -> ext R) (m : mpc) : mpc :=
    mkMpc (m_prepared m) (m_setup m) (m_run1 m) (m_set m) (m_obj m) (m_rt m) (m_nl m) (m_scal m) s (m_tlb m) (m_tub m)
      (m_tvpf m) (m_pf m) (m_x0 m) (m_u0 m) (m_z0 m) (m_t0 m) (m_slack m) (m_pend m) (m_prob m) (m_ob m) (m_ox m) (m_lam m) (m_fields m) (m_data m).
  Definition with_ob (o : option obounds) (m : mpc) : mpc :=
    mkMpc (m_prepared m) (m_setup m) (m_run1 m) (m_set m) (m_obj m) (m_rt m) (m_nl m) (m_scal m) (m_store m) (m_tlb m) (m_tub m)
      (m_tvpf m) (m_pf m) (m_x0 m) (m_u0 m) (m_z0 m) (m_t0 m) (m_slack m) (m_pend m) (m_prob m) o (m_ox m) (m_lam m) (m_fields m) (m_data m).
  Definition with_cfg (st : settings) (o : option Obj) (rt : Rt) (nl : list Nl) (sc : vtype -> nat -> R)
      (tf : option (Tm -> TVh)) (pf : option (Tm -> Pc)) (m : mpc) : mpc :=
    mkMpc (m_prepared m) (m_setup m) (m_run1 m) st o rt nl sc (m_store m) (m_tlb m) (m_tub m)
      tf pf (m_x0 m) (m_u0 m) (m_z0 m) (m_t0 m) (m_slack m) (m_pend m) (m_prob m) (m_ob m) (m_ox m) (m_lam m) (m_fields m) (m_data m).
  Definition with_slack (b : bool) (m : mpc) : mpc :=
    mkMpc (m_prepared m) (m_setup m) (m_run1 m) (m_set m) (m_obj m) (m_rt m) (m_nl m) (m_scal m) (m_store m) (m_tlb m) (m_tub m)
      (m_tvpf m) (m_pf m) (m_x0 m) (m_u0 m) (m_z0 m) (m_t0 m) b (m_pend m) (m_prob m) (m_ob m) (m_ox m) (m_lam m) (m_fields m) (m_data m).
  Definition with_iter (x : X) (u : U) (z : Z) (t : Tm) (m : mpc) : mpc :=
    mkMpc (m_prepared m) (m_setup m) (m_run1 m) (m_set m) (m_obj m) (m_rt m) (m_nl m) (m_scal m) (m_store m) (m_tlb m) (m_tub m)
      (m_tvpf m) (m_pf m) x u z t (m_slack m) (m_pend m) (m_prob m) (m_ob m) (m_ox m) (m_lam m) (m_fields m) (m_data m).
  Definition with_ox (o : option OX) (m : mpc) : mpc :=
    mkMpc (m_prepared m) (m_setup m) (m_run1 m) (m_set m) (m_obj m) (m_rt m) (m_nl m) (m_scal m) (m_store m) (m_tlb m) (m_tub m)
      (m_tvpf m) (m_pf m) (m_x0 m) (m_u0 m) (m_z0 m) (m_t0 m) (m_slack m) (m_pend m) (m_prob m) (m_ob m) o (m_lam m) (m_fields m) (m_data m).
  Definition with_sol (o : OX) (l : LG * LX) (m : mpc) : mpc :=
    mkMpc (m_prepared m) (m_setup m) true (m_set m) (m_obj m) (m_rt m) (m_nl m) (m_scal m) (m_store m) (m_tlb m) (m_tub m)
      (m_tvpf m) (m_pf m) (m_x0 m) (m_u0 m) (m_z0 m) (m_t0 m) (m_slack m) (m_pend m) (m_prob m) (m_ob m) (Some o) (Some l) (m_fields m) (m_data m).
  Definition with_data (d : rows) (m : mpc) : mpc :=
    mkMpc (m_prepared m) (m_setup m) (m_run1 m) (m_set m) (m_obj m) (m_rt m) (m_nl m) (m_scal m) (m_store m) (m_tlb m) (m_tub m)
      (m_tvpf m) (m_pf m) (m_x0 m) (m_u0 m) (m_z0 m) (m_t0 m) (m_slack m) (m_pend m) (m_prob m) (m_ob m) (m_ox m) (m_lam m) (m_fields m) d.

  (** *** Bounds *)
  Definition saddr (s : side) (t : vtype) : addr := match s with Lower => Alb t | Upper => Aub t end.
  Definition has_bounds (t : vtype) : bool := match t with Vpest => false | _ => true end.

  (** [var_struct[var_name] = val]: one value for all addressed entries, or one per entry. *)
  Definition spread (pos : list nat) (vals : list (ext R)) : res (list (nat * ext R)) :=
    match vals with
    | [v] => Ok (map (fun p => (p, v)) pos)
    | _ => if Nat.eqb (List.length vals) (List.length pos) then Ok (combine pos vals) else Err ExcGeneric
    end.
  Definition put (a : addr) (w : list (nat * ext R)) (s : addr -> nat -> ext R) : addr -> nat -> ext R :=
    fold_left (fun s pv => fun b q => if addr_eqb a b && Nat.eqb (fst pv) q then snd pv else s b q) w s.

  (** _mpc.py:1052-1085 _update_bounds: what is written, as a function of the current structures (the
      positions inside opt_x are the subject of NlpModel.v). *)
  Definition snapshot (m : mpc) : obounds :=
    mkOB (fun s t p => m_store m (saddr s t) p)
         (fun s p => m_store m (match s with Lower => m_tlb m | Upper => m_tub m end) p).

  (** optimizer.py:286-319 bounds getter (a structure of an MPC has no _p_est bounds: AttributeError). *)
  Definition get_bounds (m : mpc) (s : side) (t : vtype) (i : Ind) : res (list (ext R)) :=
    if has_bounds t then let! pos := (resolve E) t i in Ok (map (m_store m (saddr s t)) pos) else Err ExcAttribute.
  (** optimizer.py:322-353 bounds setter. *)
  Definition set_bounds (m : mpc) (s : side) (t : vtype) (i : Ind) (vals : list (ext R)) : res mpc :=
    if has_bounds t then
      let! pos := (resolve E) t i in
      let! w := spread pos vals in
      let m' := with_store (put (saddr s t) w (m_store m)) m in
      Ok (if m_prepared m then with_ob (Some (snapshot m')) m' else m')
    else Err ExcAttribute.

  (** optimizer.py:419-439 scaling setter. *)
  Definition set_scaling (m : mpc) (t : vtype) (i : Ind) (vals : list R) : res mpc :=
    if m_setup m then Err ExcAssertion
    else if has_bounds t then
      let! pos := (resolve E) t i in
      let! w := (match vals with
                 | [v] => Ok (map (fun p => (p, v)) pos)
                 | _ => if Nat.eqb (List.length vals) (List.length pos) then Ok (combine pos vals) else Err ExcGeneric
                 end) in
      Ok (with_cfg (m_set m) (m_obj m) (m_rt m) (m_nl m)
            (fold_left (fun s pv => fun u q => if vtype_eqb t u && Nat.eqb (fst pv) q then snd pv else s u q) w (m_scal m))
            (m_tvpf m) (m_pf m) m)
    else Err ExcAttribute.
  (** optimizer.py:391-416 scaling getter. *)
  Definition get_scaling (m : mpc) (t : vtype) (i : Ind) : res (list R) :=
    if has_bounds t then let! pos := (resolve E) t i in Ok (map (m_scal m t) pos) else Err ExcAttribute.

  (** _mpc.py:424-446 terminal_bounds getter: it reads the structures _x_lb / _x_ub. *)
  Definition get_terminal (m : mpc) (s : side) (i : Ind) : res (list (ext R)) :=
    let! pos := (resolve E) Vx i in Ok (map (m_store m (saddr s Vx)) pos).
  (** _mpc.py:448-471 terminal_bounds setter (no call of _update_bounds). *)
  Definition set_terminal (m : mpc) (s : side) (i : Ind) (vals : list (ext R)) : res mpc :=
    let! pos := (resolve E) Vx i in
    let! w := spread pos vals in
    Ok (with_store (put (match s with Lower => m_tlb m | Upper => m_tub m end) w (m_store m)) m).

  (** *** Configuration *)
  (** _mpc.py:508-514 set_param. *)
  Definition set_param (m : mpc) (f : settings -> settings) : res mpc :=
    if m_setup m then Err ExcAssertion
    else Ok (with_cfg (f (m_set m)) (m_obj m) (m_rt m) (m_nl m) (m_scal m) (m_tvpf m) (m_pf m) m).
  (** _mpc.py:182-199: assignment to an attribute of [mpc.settings]; nothing checks the setup flag. *)
  Definition set_setting (m : mpc) (f : settings -> settings) : res mpc :=
    Ok (with_cfg (f (m_set m)) (m_obj m) (m_rt m) (m_nl m) (m_scal m) (m_tvpf m) (m_pf m) m).

  (** _mpc.py:541-582 set_objective: an omitted term has no attribute shape (AttributeError); a
      non-scalar one fails the assertion.  [arg] Bad stands for a non-scalar term. *)
  Definition set_objective (m : mpc) (mterm lterm : option (arg unit)) (o : Obj) : res mpc :=
    match mterm, lterm with
    | None, _ => Err ExcAttribute
    | Some Bad, _ => Err ExcAssertion
    | Some (Good _), None => Err ExcAttribute
    | Some (Good _), Some Bad => Err ExcAssertion
    | Some (Good _), Some (Good _) =>
        if m_setup m then Err ExcAssertion
        else Ok (with_cfg (m_set m) (Some o) (m_rt m) (m_nl m) (m_scal m) (m_tvpf m) (m_pf m) m)
    end.
  (** _mpc.py:645-668 set_rterm with keyword arguments, all of them valid or not (a failing keyword
      leaves earlier ones set; [kw_ok] says how many are valid from the start). *)
  Definition set_rterm (m : mpc) (kws : list (string * R)) (kw_ok : nat) : mpc * res unit :=
    if m_setup m then (m, Err ExcAssertion)
    else if Nat.leb (List.length kws) kw_ok
    then (with_cfg (m_set m) (m_obj m) ((rt_update E) (m_rt m) kws) (m_nl m) (m_scal m) (m_tvpf m) (m_pf m) m, Ok tt)
    else (with_cfg (m_set m) (m_obj m) ((rt_update E) (m_rt m) (firstn kw_ok kws)) (m_nl m) (m_scal m) (m_tvpf m) (m_pf m) m, Err ExcAssertion).
  (** optimizer.py:524-541 set_nl_cons. *)
  Definition set_nl_cons (m : mpc) (c : Nl) : res mpc :=
    if m_setup m then Err ExcAssertion
    else Ok (with_cfg (m_set m) (m_obj m) (m_rt m) (m_nl m ++ [c])%list (m_scal m) (m_tvpf m) (m_pf m) m).
  (** optimizer.py:672-676 set_tvp_fun and _mpc.py:806-808 set_p_fun (structure checks pass or not). *)
  Definition set_tvp_fun (m : mpc) (f : arg (Tm -> TVh)) : res mpc :=
    match f with
    | Good g => Ok (with_cfg (m_set m) (m_obj m) (m_rt m) (m_nl m) (m_scal m) (Some g) (m_pf m) m)
    | Bad => Err ExcAssertion
    end.
  Definition set_p_fun (m : mpc) (f : arg (Tm -> Pc)) : res mpc :=
    match f with
    | Good g => Ok (with_cfg (m_set m) (m_obj m) (m_rt m) (m_nl m) (m_scal m) (m_tvpf m) (Some g) m)
    | Bad => Err ExcAssertion
    end.

  (** [lb.cat > ub.cat] in one entry. *)
  Definition ext_gtb (a b : ext R) : bool :=
    match a, b with
    | MInf, _ => false | _, PInf => false
    | PInf, _ => true | _, MInf => true
    | Fin x, Fin y => negb ((Rleb E) x y)
    end.
  Definition is_pinf (e : ext R) : bool := match e with PInf => true | _ => false end.
  Definition is_minf (e : ext R) : bool := match e with MInf => true | _ => false end.

  (** _mpc.py:898-903: some lower bound above its upper bound. *)
  Definition bounds_bad (m : mpc) : bool :=
    existsb (fun t => existsb (fun p => ext_gtb (m_store m (Alb t) p) (m_store m (Aub t) p)) (seq 0 (n_of E t))) [Vx; Vu; Vz].

  (** _mpc.py:874-922 _check_validity (returns the terminal references after the defaulting of
      lines 906-909). *)
  Definition check_validity (m : mpc) : res (addr * addr) :=
    match m_obj m with
    | None => Err ExcGeneric
    | Some _ =>
        if (match m_tvpf m with None => true | _ => false end) && Nat.ltb 0 (n_tvp E) then Err ExcGeneric
        else if (match m_pf m with None => true | _ => false end) && Nat.ltb 0 (n_p E) then Err ExcGeneric
        else if bounds_bad m then Err ExcGeneric
        else
          let tub := if forallb (fun p => is_pinf (m_store m (m_tub m) p)) (seq 0 (n_of E Vx)) && s_term (m_set m) then Aub Vx else m_tub m in
          let tlb := if forallb (fun p => is_minf (m_store m (m_tlb m) p)) (seq 0 (n_of E Vx)) && s_term (m_set m) then Alb Vx else m_tlb m in
          Ok (tlb, tub)
    end.

  (** _mpc.py:1087-1281 _prepare_nlp.  Order: mandatory settings, _setup_nl_cons (optimizer.py:543-589,
      which adds the penalty of the new slack symbols to slack_cost, 571), _check_validity, building
      (assumed not to raise), bounds, numerical copies. *)
  Definition prepare (m : mpc) : mpc * res unit :=
    match s_tstep (m_set m), s_nhor (m_set m) with
    | None, _ => (m, Err ExcValue)                          (* check_for_mandatory_settings *)
    | _, None => (m, Err ExcValue)
    | Some _, Some _ =>
        let stale := m_slack m in
        let m0 := with_slack (m_slack m || existsb (is_soft E) (m_nl m)) m in
        match check_validity m0 with
        | Err e => (m0, Err e)
        | Ok (tlb, tub) =>
            match m_obj m0 with
            | None => (m0, Err ExcGeneric)
            | Some o =>
                let pr := mkProb o (m_rt m0) (m_nl m0) (m_scal m0) (m_set m0) in
                let m1 := mkMpc true (m_setup m0) (m_run1 m0) (m_set m0) (m_obj m0) (m_rt m0) (m_nl m0) (m_scal m0) (m_store m0) tlb tub
                            (Some (match m_tvpf m0 with Some f => f | None => (tvp_dummy E) end))
                            (Some (match m_pf m0 with Some f => f | None => (p_dummy E) end))
                            (m_x0 m0) (m_u0 m0) (m_z0 m0) (m_t0 m0) (m_slack m0) (Some (pr, stale)) (m_prob m0) (m_ob m0)
                            (Some ((ox_init E) pr)) (m_lam m0) (m_fields m0) (m_data m0) in
                (with_ob (Some (snapshot m1)) m1, Ok tt)
            end
        end
    end.

  (** _mpc.py:1283-1309 _create_nlp.  castools.nlpsol refuses an objective with symbols that are neither
      variables nor parameters, which is the case if slack symbols of an earlier _prepare_nlp are left
      in it.  optimizer.py:448-481 _prepare_data adds data fields (none is ever removed) and empties
      the storage. *)
  Definition create (m : mpc) : mpc * res unit :=
    match m_pend m with
    | None => (m, Err ExcAttribute)
    | Some (pr, true) => (m, Err ExcGeneric)
    | Some (pr, false) =>
        let '(ff, fl, fs) := m_fields m in
        (mkMpc (m_prepared m) true (m_run1 m) (m_set m) (m_obj m) (m_rt m) (m_nl m) (m_scal m) (m_store m) (m_tlb m) (m_tub m)
           (m_tvpf m) (m_pf m) (m_x0 m) (m_u0 m) (m_z0 m) (m_t0 m) (m_slack m) (m_pend m) (Some pr) (m_ob m) (m_ox m) (m_lam m)
           (ff || s_full (m_set m), fl || s_lagr (m_set m), fs || s_stats (m_set m)) no_rows, Ok tt)
    end.

  (** _mpc.py:924-945 setup. *)
  Definition setup (m : mpc) : mpc * res unit :=
    match prepare m with
    | (m1, Ok _) => create m1
    | (m1, Err e) => (m1, Err e)
    end.

  (** _mpc.py:946-964 set_initial_guess. *)
  Definition set_initial_guess (m : mpc) : res mpc :=
    if m_setup m then
      match m_ox m with
      | Some ox => Ok (with_ox (Some (guess E ox (m_x0 m) (m_u0 m) (m_z0 m) (m_scal m))) m)
      | None => Err ExcType
      end
    else Err ExcAssertion.

  (** The rows written unconditionally by make_step (_mpc.py:1020-1029). *)
  Definition rows_basic (d : rows) (x : X) (u : U) (z : Z) (tv : TVh) (p : Pc) (t : Tm) (a : AUX) (par : X * U * TVh * Pc) : rows :=
    mkRows (r_x d ++ [x]) (r_u d ++ [u]) (r_z d ++ [z]) (r_tvp d ++ [(tv_now E) tv]) (r_p d ++ [(p_nom E) p])
           (r_time d ++ [t]) (r_aux d ++ [a]) (r_optp d ++ [par]) (r_full d) (r_lam d) (r_stats d).
  Definition add_full (d : rows) (v : OX * AUX) : rows :=
    mkRows (r_x d) (r_u d) (r_z d) (r_tvp d) (r_p d) (r_time d) (r_aux d) (r_optp d) (r_full d ++ [v]) (r_lam d) (r_stats d).
  Definition add_lam (d : rows) (v : LG) : rows :=
    mkRows (r_x d) (r_u d) (r_z d) (r_tvp d) (r_p d) (r_time d) (r_aux d) (r_optp d) (r_full d) (r_lam d ++ [v]) (r_stats d).
  Definition add_stats (d : rows) (v : ST) : rows :=
    mkRows (r_x d) (r_u d) (r_z d) (r_tvp d) (r_p d) (r_time d) (r_aux d) (r_optp d) (r_full d) (r_lam d) (r_stats d ++ [v]).
  (** [if setting: data.update(field = ...)] (_mpc.py:1030-1041; data.py:205 asserts that the field exists). *)
  Definition optional_row {V} (setting field : bool) (add : rows -> V -> rows) (v : V) (d : rows) : rows * res unit :=
    if setting then (if field then (add d v, Ok tt) else (d, Err ExcAssertion)) else (d, Ok tt).

  (** _mpc.py:966-1048 make_step together with optimizer.py:731-787 solve. *)
  Definition make_step (m : mpc) (a : arg X) : mpc * res U :=
    if m_setup m then
      match a with
      | Bad => (m, Err ExcAssertion)                        (* wrong type raises Exception, wrong size fails the assertion *)
      | Good x0 =>
          match m_tvpf m, m_pf m, m_prob m, m_ob m, m_ox m with
          | Some tf, Some pf, Some pr, Some obs, Some ox =>
              let tvp0 := tf (m_t0 m) in
              let p0 := pf (m_t0 m) in
              let par := (x0, m_u0 m, tvp0, p0) in
              match S E pr obs ox (if m_run1 m then m_lam m else None) par with
              | (ox', lg, lx, st) =>
                  let m1 := with_sol ox' (lg, lx) m in
                  let u0 := (scale_u E) (m_scal m Vu) ((ox_u E) ox') in
                  let z0 := (scale_z E) (m_scal m Vz) ((ox_z E) ox') in
                  let aux0 := aux_of E pr ox' par in
                  let '(ff, fl, fs) := m_fields m in
                  let d1 := rows_basic (m_data m) x0 u0 z0 tvp0 p0 (m_t0 m) aux0 par in
                  match optional_row (s_full (m_set m)) ff add_full (ox', aux0) d1 with
                  | (d2, Err e) => (with_data d2 m1, Err e)
                  | (d2, Ok _) =>
                      match optional_row (s_lagr (m_set m)) fl add_lam lg d2 with
                      | (d3, Err e) => (with_data d3 m1, Err e)
                      | (d3, Ok _) =>
                          match optional_row (s_stats (m_set m)) fs add_stats st d3 with
                          | (d4, Err e) => (with_data d4 m1, Err e)
                          | (d4, Ok _) =>
                              match s_tstep (m_set m) with
                              | None => (with_data d4 m1, Err ExcType)      (* float + None *)
                              | Some dt => (with_iter x0 u0 z0 ((tadd E) (m_t0 m) dt) (with_data d4 m1), Ok u0)
                              end
                          end
                      end
                  end
              end
          | _, _, _, _, _ => (m, Err ExcAttribute)
          end
      end
    else (m, Err ExcAssertion).

  (** optimizer.py:441-446 reset_history. *)
  Definition reset_history (m : mpc) : mpc := with_iter (m_x0 m) (m_u0 m) (m_z0 m) (t_zero E) (with_data no_rows m).

  (** model/_iteratedvariables.py:112-114,150-152,188-190,201-212: setters of x0, u0, t0 (array
      arguments; for structures see AliasModel.v). *)
  Definition set_x0 (m : mpc) (v : arg X) : res mpc :=
    match v with Bad => Err ExcAssertion | Good x => Ok (with_iter x (m_u0 m) (m_z0 m) (m_t0 m) m) end.
  Definition set_u0 (m : mpc) (v : arg U) : res mpc :=
    match v with Bad => Err ExcAssertion | Good u => Ok (with_iter (m_x0 m) u (m_z0 m) (m_t0 m) m) end.
  Definition set_t0 (m : mpc) (v : arg Tm) : res mpc :=
    match v with Bad => Err ExcAssertion | Good t => Ok (with_iter (m_x0 m) (m_u0 m) (m_z0 m) t m) end.

  (** *** Calls of the public API by a user who catches exceptions. *)
  Inductive call :=
  | KBounds (s : side) (t : vtype) (i : Ind) (v : list (ext R))
  | KTerminal (s : side) (i : Ind) (v : list (ext R))
  | KScaling (t : vtype) (i : Ind) (v : list R)
  | KParam (f : settings -> settings)
  | KSetting (f : settings -> settings)
  | KObjective (mt lt : option (arg unit)) (o : Obj)
  | KRterm (kws : list (string * R)) (kw_ok : nat)
  | KNlCons (c : Nl)
  | KTvp (f : arg (Tm -> TVh))
  | KP (f : arg (Tm -> Pc))
  | KSetup
  | KPrepare                     (* prepare_nlp and create_nlp called separately *)
  | KCreate
  | KGuess
  | KStep (x : arg X)
  | KReset
  | KX0 (x : arg X)
  | KU0 (u : arg U)
  | KT0 (t : arg Tm).

  (** Outcome of a call: the input returned by make_step, nothing, or an exception. *)
  Notation outcome := (res (option U)).
  Definition ret (m : mpc) (r : res mpc) : mpc * outcome :=
    match r with Ok m' => (m', Ok None) | Err e => (m, Err e) end.
  Definition retu (r : mpc * res unit) : mpc * outcome :=
    match r with (m, Ok _) => (m, Ok None) | (m, Err e) => (m, Err e) end.
  (** state after the call, and its outcome *)
  Definition do_call (m : mpc) (c : call) : mpc * outcome :=
    match c with
    | KBounds s t i v => ret m (set_bounds m s t i v)
    | KTerminal s i v => ret m (set_terminal m s i v)
    | KScaling t i v => ret m (set_scaling m t i v)
    | KParam f => ret m (set_param m f)
    | KSetting f => ret m (set_setting m f)
    | KObjective a b o => ret m (set_objective m a b o)
    | KRterm k n => retu (set_rterm m k n)
    | KNlCons c => ret m (set_nl_cons m c)
    | KTvp f => ret m (set_tvp_fun m f)
    | KP f => ret m (set_p_fun m f)
    | KSetup => retu (setup m)
    | KPrepare => retu (prepare m)
    | KCreate => retu (create m)
    | KGuess => ret m (set_initial_guess m)
    | KStep x => match make_step m x with (m', Ok u) => (m', Ok (Some u)) | (m', Err e) => (m', Err e) end
    | KReset => (reset_history m, Ok None)
    | KX0 v => ret m (set_x0 m v)
    | KU0 v => ret m (set_u0 m v)
    | KT0 v => ret m (set_t0 m v)
    end.
  (** A history: the calls in order, with what was observed. *)
  Fixpoint exec (h : list call) (m : mpc) : mpc * list (call * outcome) :=
    match h with
    | [] => (m, [])
    | c :: r => let (m1, o) := do_call m c in let (m2, tr) := exec r m1 in (m2, (c, o) :: tr)
    end.
End Mpc.
