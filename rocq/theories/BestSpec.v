(** * Specification vocabulary for C91: the cost of a plan, without scenario tree, optimisation variables or state scaling. *)
From Coq Require Import Reals.
From Verif Require Import Base NlpModel NlpSpec NlpProps RobustProps PlanSpec.
Local Open Scope R_scope.

(** All lists of m numbers below n. *)
Fixpoint sequences (n m : nat) : list (list nat) :=
  match m with
  | O => [[]]
  | S m' => flat_map (fun l => map (fun i => l ++ [i]) (seq 0 n)) (sequences n m')
  end.
(** The parameter rows of the steps: the listed ones, then the last one again (row 0 if n_robust = 0). *)
Definition realise (c : cfg) (l : list nat) (k : nat) : nat :=
  if (nr c =? 0)%nat then 0%nat else nth (Nat.min k (nr c - 1)) l 0%nat.

(** The rows that select the branch of the tree, read as digits: the number of the branch after the rows h were seen. *)
Definition place (c : cfg) (h : list nat) : nat := fold_left (fun s i => s * ncomb c + i)%nat (firstn (nr c) h) 0%nat.
(** With nl_cons_single_slack the steps share their slacks: there is one slack for every constraint and number of a branch. *)
Definition slack_shared (c : cfg) (slack : list nat -> nat -> R) : Prop :=
  single_slack c = true -> forall h h' a, place c h = place c h' -> slack h a = slack h' a.
(** The slacks of a plan: [slack h a] is the slack of the a-th soft constraint after the rows h were seen; it is between
    0 and the maximum violation and covers the violation of the constraint. *)
Definition slack_plan (c : cfg) (par : params) (policy zpol : list nat -> vec) (slack : list nat -> nat -> R) : Prop :=
  slack_shared c slack /\
  forall ps, realisation c ps ->
    let u := fun k => policy (map ps (seq 0 k)) in
    let z := fun k => zpol (map ps (seq 0 (k + 1))) in
    let p := fun k => pP par (ps k) in
    let x := plant (mdl c) (pX0 par) u z (pTvp par) p in
    forall k i con vmax pen, (k < N c)%nat -> nth_error (nlc c) i = Some con -> nl_soft con = Some (vmax, pen) ->
      let eps := slack (map ps (seq 0 k)) (List.length (soft_list (firstn i (nlc c)))) in
      0 <= eps /\ le_ub eps vmax /\ le_ub (nl_g con (x k) (u k) (z k) (pTvp par k) (p k) - eps) (nl_ub con).

(** The cost of a plan if the parameter rows are ps: stage costs and terminal cost, plus rate penalty and slack penalty of
    every step times the number of branches of the tree after this step. *)
Definition scenario_cost (c : cfg) (par : params) (r : vec) (policy zpol : list nat -> vec) (slack : list nat -> nat -> R) (ps : nat -> nat) : R :=
  let u := fun k => policy (map ps (seq 0 k)) in
  let z := fun k => zpol (map ps (seq 0 (k + 1))) in
  let p := fun k => pP par (ps k) in
  let x := plant (mdl c) (pX0 par) u z (pTvp par) p in
  total (N c) (fun k => lterm c (x k) (u k) (z k) (pTvp par k) (p k))
  + mterm c (x (N c)) (pTvp par (N c)) (p (N c - 1)%nat)
  + total (N c) (fun k => INR (ncomb c ^ Nat.min (k + 1) (nr c)) *
      (slack_charge 0 (nlc c) (slack (map ps (seq 0 k))) + rate_penalty c r (u k) (if (k =? 0)%nat then pUprev par else u (k - 1)%nat))).
(** The average over all sequences of parameter rows. *)
Definition plan_cost (c : cfg) (par : params) (r : vec) (policy zpol : list nat -> vec) (slack : list nat -> nat -> R) : R :=
  1 / INR (ncomb c ^ nr c) * rsum (map (fun l => scenario_cost c par r policy zpol slack (realise c l)) (sequences (ncomb c) (nr c))).

(** The cost functions see the declared states and inputs only (stage costs of algebraic states:
    C07_stage_cost_algebraic_refuted). *)
Definition xu_cost (c : cfg) : Prop :=
  (forall x x' u u' z z' tvp p, agree (n_x (mdl c)) x x' -> agree (n_u (mdl c)) u u' -> lterm c x u z tvp p = lterm c x' u' z' tvp p) /\
  (forall x x' tvp p, agree (n_x (mdl c)) x x' -> mterm c x tvp p = mterm c x' tvp p).

(** The objective value of the problem handed to the solver. *)
Definition has_objective (c : cfg) (par : params) (pt : point) (v : R) : Prop := exists p, prepare_nlp c par pt = Ok p /\ obj p = v.

(** Best points of the problem handed to the solver, and best plans. *)
Definition optimal_point (c : cfg) (par : params) (pt : point) (v : R) : Prop :=
  feasible c par pt /\ has_objective c par pt v /\
  forall pt' v', feasible c par pt' -> has_objective c par pt' v' -> v <= v'.
Definition optimal_plan (c : cfg) (par : params) (r : vec) (policy zpol : list nat -> vec) (slack : list nat -> nat -> R) (v : R) : Prop :=
  robust_plan c par policy zpol /\ slack_plan c par policy zpol slack /\ plan_cost c par r policy zpol slack = v /\
  forall policy' zpol' slack', robust_plan c par policy' zpol' -> slack_plan c par policy' zpol' slack' ->
    v <= plan_cost c par r policy' zpol' slack'.
