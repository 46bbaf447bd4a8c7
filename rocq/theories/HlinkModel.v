(** * The estimation problem of MheNlpModel.v inside the life cycle of MheModel.v, with
    numbers in R (the counterpart of LinkModel.v for the estimator).

    Simplifications: nl_cons_single_slack, nl_cons_check_colloc_points, cons_check_colloc_points and the discretisation
    (with its step) are given with the link instead of being set by set_param; bounds are finite or absent. *)
From Coq Require Import Reals.
From Verif Require Import Base NlpModel MpcModel MheModel MheNlpModel.
Import List.
Local Open Scope R_scope.

(** What the composition is parametric in. *)
Record hlink := mkHlink {
  q_mdl : dyn_model; q_ny : nat; q_npe : nat;
  q_meas : vec -> vec -> vec -> vec -> vec -> vec -> vec;       (* x, u, z, tvp, p, v *)
  q_psel : nat -> nat + nat;                                    (* estimated or set parameter, _mhe.py:165-171 *)
  q_single : bool; q_chk : bool; q_nlchk : bool; q_disc : discr; q_ntvp : nat; q_npset : nat;
  (** nlpsol: problem, parameters, warm start, multipliers *)
  q_solve : mcfg -> mpar -> mpoint -> option (vec * vec) -> mpoint * vec * vec * bool }.

Definition h_userobj : Type := ((vec -> vec -> vec -> vec -> R) * (vec -> vec -> vec -> vec -> vec -> R))%type.   (* stage_cost, arrival_cost *)
Definition h_scal : Type := vtype -> vec.
Definition h_bounds : Type := vtype -> (nat -> option R) * (nat -> option R).

Definition q_size (L : hlink) (t : vtype) : nat :=
  match t with Vx => n_x (q_mdl L) | Vu => n_u (q_mdl L) | Vz => n_z (q_mdl L) | Vpest => q_npe L end.

(** _mhe.py:820-825: some lower bound of a state, input or algebraic state above its upper bound (those of the
    estimated parameters are not compared). *)
Definition crossing (b : (nat -> option R) * (nat -> option R)) (a : nat) : bool :=
  match fst b a, snd b a with Some l, Some u => if Rlt_dec u l then true else false | _, _ => false end.
Definition bounds_bad (L : hlink) (b : h_bounds) : bool :=
  existsb (fun t => existsb (crossing (b t)) (seq 0 (q_size L t))) [Vx; Vu; Vz].

(** _mhe.py:1027-1193 _prepare_nlp and 992-1025 _update_bounds: the problem as a function of what was configured. *)
Definition hlink_cfg (L : hlink) (pr : hprob_ h_userobj mnl h_scal R) (b : h_bounds) : mcfg :=
  {| hN := match hs_nhor (hp_set pr) with Some n => n | None => 0%nat end;
     hsingle := q_single L; hchk := q_chk L; hnlchk := q_nlchk L;
     hmdl := q_mdl L; hny := q_ny L; hnpe := q_npe L; hmeas := q_meas L;
     hsx := hp_scal pr Vx; hsu := hp_scal pr Vu; hsz := hp_scal pr Vz; hspe := hp_scal pr Vpest;
     hdisc := q_disc L; psel := q_psel L; hnl := hp_nl pr; hstage := fst (hp_obj pr); harrival := snd (hp_obj pr);
     hxlb := fst (b Vx); hxub := snd (b Vx); hulb := fst (b Vu); huub := snd (b Vu);
     hzlb := fst (b Vz); hzub := snd (b Vz); hplb := fst (b Vpest); hpub := snd (b Vpest) |}.

(** _mhe.py:942-946: opt_p_num. *)
Definition hlink_par (p : hpar_ vec vec vec (list vec) vec) : mpar :=
  {| mXprev := hq_xprev p; mPeprev := hq_peprev p; mPs := hq_pset p;
     mTvp := fun k => nth k (hq_tvp p) vzero; mY := fun k => nth k (hq_y p) vzero |}.

Definition zero_point : mpoint :=
  {| mX := fun _ _ => vzero; mZ := fun _ _ => vzero; mU := fun _ => vzero; mW := fun _ => vzero; mV := fun _ => vzero; mE := fun _ => vzero; mPe := vzero |}.
(** _mhe.py:861-880 set_initial_guess. *)
Definition guess_point (o : nat * mpoint) (x u z pe : vec) (sc : h_scal) : nat * mpoint :=
  (fst o, {| mX := fun _ _ => vdiv x (sc Vx); mZ := fun _ _ => vdiv z (sc Vz); mU := fun _ => vdiv u (sc Vu);
             mW := mW (snd o); mV := mV (snd o); mE := mE (snd o); mPe := vdiv pe (sc Vpest) |}).

(** The number of steps of the problem; a solution is kept with it, because '_x', -1 is the last entry. *)
Definition horizon_of (pr : hprob_ h_userobj mnl h_scal R) : nat := match hs_nhor (hp_set pr) with Some n => n | None => 0%nat end.

(** _mhe.py:893-990 make_step with optimizer.py:731-787 solve. *)
Definition hlink_env (L : hlink) : HEnv :=
  mkHEnv vec vec vec vec vec vec (list vec) vec vec unit R
    h_userobj mnl h_scal h_bounds
    (nat * mpoint) vec vec bool
    (q_ntvp L) (q_npset L)
    Rplus 0
    vzero vzero vzero vzero vzero
    (fun _ _ => 1) (fun _ => (fun _ => None, fun _ => None)) (bounds_bad L)
    (fun l => last l vzero)
    (fun pe ps i => match q_psel L i with inl j => pe j | inr j => ps j end)
    (fun pr => (horizon_of pr, zero_point))
    guess_point
    (fun pr b o l p => match q_solve L (hlink_cfg L pr b) (hlink_par p) (snd o) l with (pt, lg, lx, st) => ((horizon_of pr, pt), lg, lx, st) end)
    (fun _ _ _ => tt)
    (fun sc o => vmul (mX (snd o) 1%nat (ncoll (q_disc L))) (sc Vx))
    (fun sc o => vmul (mX (snd o) (fst o) (ncoll (q_disc L))) (sc Vx))
    (fun sc o => vmul (mU (snd o) (fst o - 1)) (sc Vu)) (fun sc o => vmul (mZ (snd o) (fst o - 1) (Nat.max (ncoll (q_disc L)) 1 - 1)) (sc Vz)) (fun sc o => vmul (mPe (snd o)) (sc Vpest))
    (fun _ => repeat vzero 0) (fun _ => vzero).
