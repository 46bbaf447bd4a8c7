(** * Specification vocabulary for C97: recursive feasibility of continuous-time controllers. *)
From Coq Require Import Reals.
From Verif Require Import Base NlpModel NlpSpec RobustProps PlanSpec CplanSpec.
Local Open Scope R_scope.

(** The collocation equations of an interval determine its end. *)
Definition end_unique (m : dyn_model) (deg ni : nat) (h : R) (C : nat -> nat -> R) (D : nat -> R) : Prop :=
  forall x0 u tvp p X Z x1 X' Z' x1',
    collocation_interval m deg ni h C D x0 X Z x1 u tvp p -> collocation_interval m deg ni h C D x0 X' Z' x1' u tvp p ->
    agree (n_x m) x1 x1'.
(** The terminal bounds lie within the state bounds and are robustly control invariant: from every terminal state there is an
    admissible input [law] (independent of the state if the controller is open loop) such that for every parameter row i an
    interval [xlaw x i], [zlaw x i] leads to a terminal state and meets all constraints. *)
Definition terminal_invariant_collocation (c : cfg) (deg ni : nat) (h : R) (C : nat -> nat -> R) (D : nat -> R) (tvp : vec) (P : nat -> vec)
    (law : vec -> vec) (xlaw zlaw : vec -> nat -> nat -> nat -> vec) (goes_to : vec -> nat -> vec) : Prop :=
  (open_loop c = true -> forall x x', law x = law x') /\
  forall x, in_terminal c x ->
    (forall a, (a < n_x (mdl c))%nat -> inside (xlb c a) (xub c a) (x a)) /\
    (forall a, (a < n_u (mdl c))%nat -> inside (ulb c a) (uub c a) (law x a)) /\
    forall i, admissible c i ->
      collocation_interval (mdl c) deg ni h C D x (xlaw x i) (zlaw x i) (goes_to x i) (law x) tvp (P i) /\
      (forall a, (a < n_z (mdl c))%nat -> inside (zlb c a) (zub c a) (zlaw x i 0%nat 0%nat a)) /\
      (forall con, In con (nlc c) -> respects con x (law x) (zlaw x i 0%nat 0%nat) tvp (P i)) /\
      in_terminal c (goes_to x i) /\
      (chk_colloc c = true -> forall e j, (e < ni)%nat -> (j <= deg)%nat ->
         (forall a, (a < n_x (mdl c))%nat -> inside (xlb c a) (xub c a) (xlaw x i e j a)) /\
         (forall a, (a < n_z (mdl c))%nat -> inside (zlb c a) (zub c a) (zlaw x i e j a))).
(** The collocation points of the last interval respect the state bounds. *)
Definition last_interval_inside (c : cfg) (pt : point) : Prop :=
  forall s q a, (s < nmax c)%nat -> (q < ncoll (disc c))%nat -> (a < n_x (mdl c))%nat -> inside (xlb c a) (xub c a) (physX c pt (N c) s q a).
