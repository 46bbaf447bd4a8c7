(** * Specification vocabulary for C106 with collocation: the cost of a collocation plan with a rate penalty given as an expression. *)
From Coq Require Import Reals.
From Verif Require Import Base NlpModel NlpSpec NlpProps RobustProps PlanSpec BestSpec CplanSpec CbestSpec UrateSpec.
Local Open Scope R_scope.

(** What the expression charges if the parameter rows are ps: state at the beginning of the step, input, previous input divided by the
    scaling of the inputs; every step times the number of branches of the tree after it. *)
Definition collocation_rate_cost (c : cfg) (par : params) (f : rate_expr) (policy state : list nat -> vec) (ps : nat -> nat) : R :=
  let seen := fun k => map ps (seq 0 k) in
  total (N c) (fun k => INR (ncomb c ^ Nat.min (k + 1) (nr c)) *
    f (state (seen k)) (policy (seen k)) (fun a => (if (k =? 0)%nat then pUprev par else policy (seen (k - 1)%nat)) a / su c a)
      vzero (pTvp par k) (pP par (ps k))).
(** Average of the cost without rate penalty (C96) and of this charge over all sequences of parameter rows. *)
Definition user_collocation_cost (c : cfg) (par : params) (f : rate_expr) (policy state : list nat -> vec) (Z : list nat -> nat -> nat -> vec)
    (slack : list nat -> nat -> R) : R :=
  1 / INR (ncomb c ^ nr c) *
  rsum (map (fun l => collocation_scenario_cost c par (fun _ => 0) policy state Z slack (realise c l) + collocation_rate_cost c par f policy state (realise c l))
    (sequences (ncomb c) (nr c))).
Definition optimal_user_collocation_plan (c : cfg) (deg ni : nat) (h : R) (C : nat -> nat -> R) (D : nat -> R) (par : params) (f : rate_expr)
    (policy state : list nat -> vec) (X Z : list nat -> nat -> nat -> vec) (slack : list nat -> nat -> R) (v : R) : Prop :=
  robust_collocation_plan c deg ni h C D par policy state X Z /\ collocation_slacks c par policy state Z slack /\
  user_collocation_cost c par f policy state Z slack = v /\
  forall policy' state' X' Z' slack', robust_collocation_plan c deg ni h C D par policy' state' X' Z' -> collocation_slacks c par policy' state' Z' slack' ->
    v <= user_collocation_cost c par f policy' state' Z' slack'.
