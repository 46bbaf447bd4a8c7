(** * The optimisation problem of NlpModel.v inside the life cycle of MpcModel.v, and its model inside the
    simulator of SimModel.v: the three put together for a discrete-time model with numbers in R.

    Simplifications: settings other than t_step, n_horizon, use_terminal_bounds and store_* (n_robust, open_loop,
    nl_cons_single_slack, cons_check_colloc_points, nl_cons_check_colloc_points) are given with the link instead of
    being set by set_param, and so is the expression of set_rterm (see RcfgModel.v for the calls); an infinite bound on the wrong side (lower bound +infinity) counts as no bound, so that more points count as
    feasible than for the solver. *)
From Coq Require Import Reals.
From Verif Require Import Base NlpModel MpcModel SimModel.
Local Open Scope R_scope.

(** What the composition is parametric in. *)
Record link := mkLink {
  k_mdl : dyn_model;
  k_nr : nat; k_ncomb : nat; k_open : bool; k_single : bool; k_chk : bool; k_nlchk : bool;
  k_ind : Type; k_resolve : vtype -> k_ind -> res (list nat);
  k_ntvp : nat; k_np : nat;
  k_rt_update : vec -> list (string * R) -> vec;            (* names to positions of the input structure *)
  k_init : cfg -> point; k_guess : point -> vec -> vec -> vec -> (vtype -> nat -> R) -> point;
  (** nlpsol: problem, parameters, warm start, multipliers *)
  k_solve : cfg -> params -> point -> option (vec * vec) -> point * vec * vec * bool;
  (** the root finder of the simulator for the algebraic equations, from a guess *)
  k_root : vec -> vec -> vec -> vec -> vec -> vec -> vec;
  (** controller/_mpc.py:648-659 set_rterm(rterm=expression): an expression for the penalty on the changes of the inputs; without one
      the factors of the calls in the history count (:1243-1255). *)
  k_user : option (vec -> vec -> vec -> vec -> vec -> vec -> R) }.

Definition user_obj : Type := ((vec -> vec -> vec -> vec -> vec -> R) * (vec -> vec -> vec -> R))%type.   (* lterm, mterm *)

(** bounds as the setters of lb_opt_x / ub_opt_x store them *)
Definition opt_of (e : ext R) : option R := match e with Fin r => Some r | _ => None end.
Definition no_obounds : obounds_ R := mkOB (fun s _ _ => match s with Lower => MInf | Upper => PInf end) (fun s _ => match s with Lower => MInf | Upper => PInf end).

(** controller/_mpc.py:1088-1281 _prepare_nlp with 1052-1085 _update_bounds: the problem as a function of what was
    configured. *)
Definition link_cfg (L : link) (pr : problem_ R user_obj vec nl_con R) (obs : obounds_ R) : cfg :=
  {| N := match s_nhor (pr_set pr) with Some n => n | None => 0%nat end;
     nr := k_nr L; ncomb := k_ncomb L; open_loop := k_open L; single_slack := k_single L;
     chk_colloc := k_chk L; nl_chk_colloc := k_nlchk L;
     mdl := k_mdl L;
     sx := pr_scal pr Vx; su := pr_scal pr Vu; sz := pr_scal pr Vz;
     disc := Discrete;
     nlc := pr_nl pr; lterm := fst (pr_obj pr); mterm := snd (pr_obj pr); rterm := match k_user L with Some f => RUser f | None => RDefault (pr_rt pr) end;
     xlb := fun q => opt_of (ob obs Lower Vx q); xub := fun q => opt_of (ob obs Upper Vx q);
     ulb := fun q => opt_of (ob obs Lower Vu q); uub := fun q => opt_of (ob obs Upper Vu q);
     zlb := fun q => opt_of (ob obs Lower Vz q); zub := fun q => opt_of (ob obs Upper Vz q);
     tlb := fun q => opt_of (ob_term obs Lower q); tub := fun q => opt_of (ob_term obs Upper q) |}.

(** controller/_mpc.py:1006-1010: opt_p_num *)
Definition link_par (p : vec * vec * (nat -> vec) * (nat -> vec)) : params :=
  {| pX0 := fst (fst (fst p)); pUprev := snd (fst (fst p)); pTvp := snd (fst p); pP := snd p |}.

Definition Rleb_ (a b : R) : bool := if Rle_dec a b then true else false.

(** controller/_mpc.py:966-1048 make_step with optimizer.py:731-787 solve. *)
Definition link_env (L : link) : Env :=
  mkEnv R (k_ind L) vec vec vec (nat -> vec) vec (nat -> vec) vec unit R user_obj vec nl_con point vec vec bool
    Rleb_ 1 (k_resolve L)
    (fun t => match t with Vx => n_x (k_mdl L) | Vu => n_u (k_mdl L) | Vz => n_z (k_mdl L) | Vpest => 0%nat end)
    (k_ntvp L) (k_np L) Rplus 0 vzero vzero vzero
    (fun tv => tv 0%nat) (fun p => p 0%nat)
    vzero (k_rt_update L)
    (fun pr => k_init L (link_cfg L pr no_obounds)) (k_guess L)
    (fun pr obs ox l par => k_solve L (link_cfg L pr obs) (link_par par) ox l)
    (fun pt => oU pt 0%nat 0%nat) (fun pt => oZ pt 0%nat 0%nat 0%nat) (fun _ _ _ => tt)
    (fun sc u => vmul u sc) (fun sc z => vmul z sc)
    (fun _ _ => vzero) (fun _ _ => vzero)
    (fun con => match nl_soft con with Some _ => true | None => false end).

(** simulator.py:563-615 simulate and 617-706 make_step for the same model, the state measured (a model without
    set_meas: model/_model.py:935-938; the noise is omitted in the loop and then zero). *)
Definition link_sim (L : link) : SEnv :=
  mkSEnv vec vec vec vec vec vec vec vec unit R
    true (Nat.eqb (n_u (k_mdl L)) 0) (Nat.eqb (n_z (k_mdl L)) 0) (k_ntvp L) (k_np L)
    Rplus 0 vzero vzero vzero vzero vzero tt
    (fun x u z tv p w => rhs (k_mdl L) x u z tv p w) (k_root L) (fun _ x z _ _ _ _ => (x, z))
    (fun _ _ _ _ _ => tt) (fun x _ _ _ _ _ => x) (fun z _ _ _ _ => z)
    (fun _ => vzero) (fun _ => vzero).
