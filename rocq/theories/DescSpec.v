(** * Specification vocabulary for C92: what a step costs, and what the user has to provide at the end of the horizon. *)
From Coq Require Import Reals.
From Verif Require Import Base NlpModel NlpSpec NlpProps RobustProps PlanSpec BestSpec.
Local Open Scope R_scope.

(** One sequence of parameter rows only: nominal control, or a single combination of parameters. *)
Definition one_scenario (c : cfg) : Prop := nr c = 0%nat \/ ncomb c = 1%nat.
(** What the user's objective charges for one step: stage cost and rate penalty. *)
Definition step_cost (c : cfg) (r : vec) (x u uprev tvp p : vec) : R := lterm c x u vzero tvp p + rate_penalty c r u uprev.
(** Penalties of soft constraints are not negative. *)
Definition penalties_ok (c : cfg) : Prop := forall con v pen, In con (nlc c) -> nl_soft con = Some (v, pen) -> 0 <= pen.
(** On the terminal set the law [law] keeps the nonlinear constraints without violation, and the terminal cost decreases along
    it by at least what the step costs ([up]: any admissible previous input; without rate penalty it plays no role). *)
Definition terminal_decrease (c : cfg) (r tvp tvp' p : vec) (law : vec -> vec) (zlaw : vec -> nat -> vec) : Prop :=
  forall x up, in_terminal c x -> (forall a, (a < n_u (mdl c))%nat -> inside (ulb c a) (uub c a) (up a)) ->
    (forall con, In con (nlc c) -> le_ub (nl_g con x (law x) (zlaw x 0%nat) tvp p) (nl_ub con)) /\
    step_cost c r x (law x) up tvp p + mterm c (rhs (mdl c) x (law x) (zlaw x 0%nat) tvp p vzero) tvp' p <= mterm c x tvp p.
