(** * Specification vocabulary for C96: the cost of a collocation plan (C95), without scenario tree, optimisation variables or
    state scaling. *)
From Coq Require Import Reals.
From Verif Require Import Base NlpModel NlpSpec NlpProps RobustProps PlanSpec BestSpec CplanSpec.
Local Open Scope R_scope.

(** The slacks of a plan: [slack h a] is the slack of the a-th soft constraint after the rows h were seen; it is between
    0 and the maximum violation and covers the violation of the constraint. *)
Definition collocation_slacks (c : cfg) (par : params) (policy state : list nat -> vec) (Z : list nat -> nat -> nat -> vec) (slack : list nat -> nat -> R) : Prop :=
  slack_shared c slack /\
  forall ps, realisation c ps ->
    forall k i con vmax pen, (k < N c)%nat -> nth_error (nlc c) i = Some con -> nl_soft con = Some (vmax, pen) ->
      let now := map ps (seq 0 k) in
      let next := map ps (seq 0 (k + 1)) in
      let eps := slack now (List.length (soft_list (firstn i (nlc c)))) in
      0 <= eps /\ le_ub eps vmax /\ le_ub (nl_g con (state now) (policy now) (Z next 0%nat 0%nat) (pTvp par k) (pP par (ps k)) - eps) (nl_ub con).

(** The cost of a plan if the parameter rows are ps: stage costs at the beginning of the steps and terminal cost, plus rate
    penalty and slack penalty of every step times the number of branches of the tree after this step. *)
Definition collocation_scenario_cost (c : cfg) (par : params) (r : vec) (policy state : list nat -> vec) (Z : list nat -> nat -> nat -> vec)
    (slack : list nat -> nat -> R) (ps : nat -> nat) : R :=
  let seen := fun k => map ps (seq 0 k) in
  let p := fun k => pP par (ps k) in
  total (N c) (fun k => lterm c (state (seen k)) (policy (seen k)) (Z (seen (k + 1)%nat) 0%nat 0%nat) (pTvp par k) (p k))
  + mterm c (state (seen (N c))) (pTvp par (N c)) (p (N c - 1)%nat)
  + total (N c) (fun k => INR (ncomb c ^ Nat.min (k + 1) (nr c)) *
      (slack_charge 0 (nlc c) (slack (seen k)) + rate_penalty c r (policy (seen k)) (if (k =? 0)%nat then pUprev par else policy (seen (k - 1)%nat)))).
(** The average over all sequences of parameter rows. *)
Definition collocation_plan_cost (c : cfg) (par : params) (r : vec) (policy state : list nat -> vec) (Z : list nat -> nat -> nat -> vec) (slack : list nat -> nat -> R) : R :=
  1 / INR (ncomb c ^ nr c) * rsum (map (fun l => collocation_scenario_cost c par r policy state Z slack (realise c l)) (sequences (ncomb c) (nr c))).

(** Best plans. *)
Definition optimal_collocation_plan (c : cfg) (deg ni : nat) (h : R) (C : nat -> nat -> R) (D : nat -> R) (par : params) (r : vec)
    (policy state : list nat -> vec) (X Z : list nat -> nat -> nat -> vec) (slack : list nat -> nat -> R) (v : R) : Prop :=
  robust_collocation_plan c deg ni h C D par policy state X Z /\ collocation_slacks c par policy state Z slack /\
  collocation_plan_cost c par r policy state Z slack = v /\
  forall policy' state' X' Z' slack', robust_collocation_plan c deg ni h C D par policy' state' X' Z' -> collocation_slacks c par policy' state' Z' slack' ->
    v <= collocation_plan_cost c par r policy' state' Z' slack'.
