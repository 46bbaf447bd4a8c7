(** * What "the estimator is right on noise-free data" means. *)
From Coq Require Import Reals.
From Verif Require Import Base NlpModel NlpSpec MpcModel MheNlpModel MheNlpSpec HlinkModel.
Import List.
Local Open Scope R_scope.

(** Symmetric or not: v'Pv > 0 for every v that is not zero on its first n components. *)
Definition positive_definite (n : nat) (P : nat -> nat -> R) : Prop :=
  forall v : vec, (exists a, (a < n)%nat /\ v a <> 0) -> 0 < weighted_square n P v.
(** A weight may be left out only for an empty vector (set_default_objective). *)
Definition definite_weight (P : option weight) (n : nat) : Prop :=
  match P with Some W => w_shape W = (n, n) /\ positive_definite n (w_at W) | None => n = 0%nat end.

(** A point that is feasible and no feasible point costs less. *)
Definition minimiser (c : mcfg) (par : mpar) (pt : mpoint) : Prop :=
  mhe_feasible c par pt /\
  forall pt' p p', mhe_feasible c par pt' -> mhe_nlp c par pt = Ok p -> mhe_nlp c par pt' = Ok p' -> obj p <= obj p'.
(** The solver returns a minimiser of the problem for every value of its parameters for which there is one. *)
Definition solves_globally (L : hlink) (c : mcfg) : Prop :=
  forall par ws l pt lg lx st, q_solve L c par ws l = (pt, lg, lx, st) -> (exists q, minimiser c par q) -> minimiser c par pt.

(** The model's parameters: estimated ones from pe, the others from ps. *)
Definition true_p (L : hlink) (pe ps : vec) : vec := fun i => match q_psel L i with inl j => pe j | inr j => ps j end.

(** The expressions of the model are expressions of its own variables: n_x states, nw process and nv measurement
    noises, n_pe estimated parameters. *)
Definition own_variables (L : hlink) (nw nv : nat) : Prop :=
  (forall x x' u z tvp p w w', agree (n_x (q_mdl L)) x x' -> agree nw w w' ->
     agree (n_x (q_mdl L)) (rhs (q_mdl L) x u z tvp p w) (rhs (q_mdl L) x' u z tvp p w') /\
     agree (n_z (q_mdl L)) (alg (q_mdl L) x u z tvp p w) (alg (q_mdl L) x' u z tvp p w')) /\
  (forall x x' u z tvp p v v', agree (n_x (q_mdl L)) x x' -> agree nv v v' ->
     agree (q_ny L) (q_meas L x u z tvp p v) (q_meas L x' u z tvp p v')) /\
  (forall i j, q_psel L i = inl j -> (j < q_npe L)%nat).
Definition own_constraints (L : hlink) (nl : list mnl) : Prop :=
  forall n x x' u z tvp pe pe' ps, In n nl -> agree (n_x (q_mdl L)) x x' -> agree (q_npe L) pe pe' ->
    mn_g n x u z tvp pe ps = mn_g n x' u z tvp pe' ps.

(** Without noise, the measurement after a step determines the state after it, given the state before it (for instance
    because the inputs, or the states, are among the measurements). *)
Definition measurement_determines_step (L : hlink) (p : vec) : Prop :=
  forall x u u' z z' tvp,
    let x1 := rhs (q_mdl L) x u z tvp p vzero in let x1' := rhs (q_mdl L) x u' z' tvp p vzero in
    agree (n_z (q_mdl L)) (alg (q_mdl L) x u z tvp p vzero) vzero ->
    agree (n_z (q_mdl L)) (alg (q_mdl L) x u' z' tvp p vzero) vzero ->
    agree (q_ny L) (q_meas L x1 u z tvp p vzero) (q_meas L x1' u' z' tvp p vzero) ->
    agree (n_x (q_mdl L)) x1 x1'.

(** T steps of the plant, without noise: states xs 0 .. xs T; step j with input us j, algebraic states zs j and
    time-varying parameters tvs j ends in xs (j+1), where ys j is measured. *)
Record plant_run (L : hlink) (T : nat) (xs us zs tvs ys : nat -> vec) (p : vec) : Prop := {
  run_step : forall j, (j < T)%nat -> agree (n_x (q_mdl L)) (xs (j+1)%nat) (rhs (q_mdl L) (xs j) (us j) (zs j) (tvs j) p vzero);
  run_alg : forall j, (j < T)%nat -> agree (n_z (q_mdl L)) (alg (q_mdl L) (xs j) (us j) (zs j) (tvs j) p vzero) vzero;
  run_meas : forall j, (j < T)%nat -> agree (q_ny L) (ys j) (q_meas L (xs (j+1)%nat) (us j) (zs j) (tvs j) p vzero) }.

(** The run, and the parameters, respect the bounds and constraints given to the estimator. *)
Record run_within (L : hlink) (T : nat) (xs us zs tvs : nat -> vec) (pe ps : vec) (b : h_bounds) (nl : list mnl) : Prop := {
  in_x : forall j a, (j <= T)%nat -> (a < n_x (q_mdl L))%nat -> inside (fst (b Vx) a) (snd (b Vx) a) (xs j a);
  in_u : forall j a, (j < T)%nat -> (a < n_u (q_mdl L))%nat -> inside (fst (b Vu) a) (snd (b Vu) a) (us j a);
  in_z : forall j a, (j < T)%nat -> (a < n_z (q_mdl L))%nat -> inside (fst (b Vz) a) (snd (b Vz) a) (zs j a);
  in_p : forall a, (a < q_npe L)%nat -> inside (fst (b Vpest) a) (snd (b Vpest) a) (pe a);
  in_nl : forall j n, (j < T)%nat -> In n nl -> le_ub (mn_g n (xs j) (us j) (zs j) (tvs j) pe ps) (mn_ub n) }.

(** Penalties of soft constraints are not negative, and neither are their maximum violations. *)
Definition sane_penalties (nl : list mnl) : Prop :=
  forall s, In s (m_soft nl) -> 0 <= snd s /\ match fst s with Some m => 0 <= m | None => True end.
