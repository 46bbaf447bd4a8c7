(** * Specification vocabulary for C106: the cost of a plan with a rate penalty given as an expression (set_rterm with rterm). *)
From Coq Require Import Reals.
From Verif Require Import Base NlpModel NlpSpec NlpProps RobustProps PlanSpec BestSpec.
Local Open Scope R_scope.

(** An expression in state, input, previous input, algebraic states, tvp and parameters. *)
Definition rate_expr := vec -> vec -> vec -> vec -> vec -> vec -> R.
(** It sees the declared states, inputs and previous inputs, tvp and parameters. *)
Definition xu_rate (m : dyn_model) (f : rate_expr) : Prop :=
  forall x x' u u' v v' z z' tvp p, agree (n_x m) x x' -> agree (n_u m) u u' -> agree (n_u m) v v' -> f x u v z tvp p = f x' u' v' z' tvp p.
(** It is zero when the input does not change. *)
Definition no_change_free (f : rate_expr) : Prop := forall x u z tvp p, f x u u z tvp p = 0.

(** What the expression charges if the parameter rows are ps: the previous input of a step divided by the scaling of the inputs,
    and every step times the number of branches of the tree after it. *)
Definition user_rate_cost (c : cfg) (par : params) (f : rate_expr) (policy zpol : list nat -> vec) (ps : nat -> nat) : R :=
  let u := fun k => policy (map ps (seq 0 k)) in
  let z := fun k => zpol (map ps (seq 0 (k + 1))) in
  let p := fun k => pP par (ps k) in
  let x := plant (mdl c) (pX0 par) u z (pTvp par) p in
  total (N c) (fun k => INR (ncomb c ^ Nat.min (k + 1) (nr c)) *
    f (x k) (u k) (fun a => (if (k =? 0)%nat then pUprev par else u (k - 1)%nat) a / su c a) vzero (pTvp par k) (p k)).
(** Average of the cost without rate penalty (C91) and of this charge over all sequences of parameter rows. *)
Definition user_plan_cost (c : cfg) (par : params) (f : rate_expr) (policy zpol : list nat -> vec) (slack : list nat -> nat -> R) : R :=
  1 / INR (ncomb c ^ nr c) *
  rsum (map (fun l => scenario_cost c par (fun _ => 0) policy zpol slack (realise c l) + user_rate_cost c par f policy zpol (realise c l)) (sequences (ncomb c) (nr c))).
Definition optimal_user_plan (c : cfg) (par : params) (f : rate_expr) (policy zpol : list nat -> vec) (slack : list nat -> nat -> R) (v : R) : Prop :=
  robust_plan c par policy zpol /\ slack_plan c par policy zpol slack /\ user_plan_cost c par f policy zpol slack = v /\
  forall policy' zpol' slack', robust_plan c par policy' zpol' -> slack_plan c par policy' zpol' slack' ->
    v <= user_plan_cost c par f policy' zpol' slack'.

(** The same configuration with the expression as rate penalty. *)
Definition with_expr (c : cfg) (f : rate_expr) : cfg :=
  {| N := N c; nr := nr c; ncomb := ncomb c; open_loop := open_loop c; single_slack := single_slack c;
     chk_colloc := chk_colloc c; nl_chk_colloc := nl_chk_colloc c; mdl := mdl c;
     sx := sx c; su := su c; sz := sz c; disc := disc c; nlc := nlc c; lterm := lterm c; mterm := mterm c;
     rterm := RUser f; xlb := xlb c; xub := xub c; ulb := ulb c; uub := uub c; zlb := zlb c; zub := zub c;
     tlb := tlb c; tub := tub c |}.
(** The quadratic penalty of the factors r as an expression. *)
Definition quadratic_rate (n : nat) (r : vec) : rate_expr := fun _ u v _ _ _ => total n (fun a => r a * (u a - v a) ^ 2).
