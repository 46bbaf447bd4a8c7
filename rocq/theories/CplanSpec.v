(** * Specification vocabulary for C95: plans for continuous-time models, in which every step is integrated by orthogonal
    collocation; without scenario tree, optimisation variables, scaling or slack variables. *)
From Coq Require Import Reals.
From Verif Require Import Base NlpModel NlpSpec RobustProps PlanSpec.
Local Open Scope R_scope.

(** One control interval from state [x0] to state [x1] under the input u: [X i j], [Z i j] are the states and algebraic
    states at point j of finite element i (point 0 is the beginning of the element).  The algebraic equations hold at all
    points, the polynomial through the points of an element (derivative matrix C, end point weights D) satisfies the
    differential equation at the points j >= 1, and each element begins where the one before ends. *)
Definition collocation_interval (m : dyn_model) (deg ni : nat) (h : R) (C : nat -> nat -> R) (D : nat -> R)
    (x0 : vec) (X Z : nat -> nat -> vec) (x1 u tvp p : vec) : Prop :=
  agree (n_x m) (X 0%nat 0%nat) x0 /\
  (forall i j a, (i < ni)%nat -> (j <= deg)%nat -> (a < n_z m)%nat -> alg m (X i j) u (Z i j) tvp p vzero a = 0) /\
  (forall i j a, (i < ni)%nat -> (1 <= j <= deg)%nat -> (a < n_x m)%nat ->
     rsum (map (fun r => C r j * X i r a) (seq 0 (deg + 1))) = h * rhs m (X i j) u (Z i j) tvp p vzero a) /\
  (forall i a, (i + 1 < ni)%nat -> (a < n_x m)%nat -> X (i + 1)%nat 0%nat a = rsum (map (fun r => D r * X i r a) (seq 0 (deg + 1)))) /\
  (forall a, (a < n_x m)%nat -> x1 a = rsum (map (fun r => D r * X (ni - 1)%nat r a) (seq 0 (deg + 1)))).

(** A plan: [policy h] is the input and [state h] the state after the parameter values h were seen; [X h], [Z h] are the
    points of the step in which the last parameter of h was seen.  It is robust if for every realisation of the parameters every
    step is a collocation interval and all constraints are met: bounds of inputs, of the states at the beginning of
    the steps 1..N-1, of the algebraic states at the beginning of every step, terminal bounds, nonlinear constraints; with
    collocation checks also the bounds of the states at all points of all steps but the last one, and of the algebraic states at
    all points. *)
Definition robust_collocation_plan (c : cfg) (deg ni : nat) (h : R) (C : nat -> nat -> R) (D : nat -> R) (par : params)
    (policy state : list nat -> vec) (X Z : list nat -> nat -> nat -> vec) : Prop :=
  (open_loop c = true -> forall l l', List.length l = List.length l' -> policy l = policy l') /\
  agree (n_x (mdl c)) (state []) (pX0 par) /\
  forall ps, realisation c ps -> forall k, (k < N c)%nat ->
    let now := map ps (seq 0 k) in
    let next := map ps (seq 0 (k + 1)) in
    let p := pP par (ps k) in
    collocation_interval (mdl c) deg ni h C D (state now) (X next) (Z next) (state next) (policy now) (pTvp par k) p /\
    (forall a, (a < n_u (mdl c))%nat -> inside (ulb c a) (uub c a) (policy now a)) /\
    ((1 <= k)%nat -> forall a, (a < n_x (mdl c))%nat -> inside (xlb c a) (xub c a) (state now a)) /\
    ((k + 1 = N c)%nat -> forall a, (a < n_x (mdl c))%nat -> inside (tlb c a) (tub c a) (state next a)) /\
    (forall a, (a < n_z (mdl c))%nat -> inside (zlb c a) (zub c a) (Z next 0%nat 0%nat a)) /\
    (forall con, In con (nlc c) -> respects con (state now) (policy now) (Z next 0%nat 0%nat) (pTvp par k) p) /\
    (chk_colloc c = true -> forall i j, (i < ni)%nat -> (j <= deg)%nat ->
       (forall a, (a < n_z (mdl c))%nat -> inside (zlb c a) (zub c a) (Z next i j a)) /\
       ((k + 1 < N c)%nat -> (1 <= i + j)%nat -> forall a, (a < n_x (mdl c))%nat -> inside (xlb c a) (xub c a) (X next i j a))).
