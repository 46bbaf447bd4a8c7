(** * C106: with scaling 1, plans cost the same for factors and for the quadratic expression of these factors. *)
From Coq Require Import Reals Lra Lia.
From Verif Require Import Base NlpModel NlpSpec NlpProofs NlpProofs2 NlpProofs3 NlpProps RobustProps PlanSpec PlanProps BestSpec BestProps CplanSpec CbestSpec CbestProps UrateSpec UrateProps CurateSpec.
Local Open Scope R_scope.

Theorem C106_factors_same_best_plans :
  forall c par r, (forall a, (a < n_u (mdl c))%nat -> su c a = 1) ->
  let f := quadratic_rate (n_u (mdl c)) r in
  (forall policy zpol slack, user_plan_cost c par f policy zpol slack = plan_cost c par r policy zpol slack) /\
  (forall policy zpol slack v, optimal_user_plan c par f policy zpol slack v <-> optimal_plan c par r policy zpol slack v).
Proof.
  intros c par r H1 f.
  assert (Q : forall policy zpol slack, user_plan_cost c par f policy zpol slack = plan_cost c par r policy zpol slack).
  { intros policy zpol slack. unfold user_plan_cost, plan_cost. f_equal. apply rsum_ext. intros l _. set (ps := realise c l). clearbody ps.
    unfold scenario_cost, user_rate_cost. cbv zeta. rewrite Rplus_assoc. f_equal. rewrite <- (sumn_plus (N c)). apply sumn_ext. intros k _.
    rewrite <- Rmult_plus_distr_l. f_equal. rewrite Rplus_assoc. f_equal.
    replace (rate_penalty c (fun _ => 0) _ _) with 0.
    2:{ unfold rate_penalty. symmetry. transitivity (sumn (n_u (mdl c)) (fun _ => 0)); [|apply sumn_zero]. apply sumn_ext. intros a _. ring. }
    rewrite Rplus_0_l. unfold f, quadratic_rate, rate_penalty. apply sumn_ext. intros a Ha. rewrite (H1 a Ha). destruct (k =? 0)%nat; field. }
  split; [exact Q|]. intros policy zpol slack v. unfold optimal_user_plan, optimal_plan. rewrite Q. split; intros (A & B & C & D); (split; [exact A|]; split; [exact B|]; split; [exact C|]); intros p z s Hp Hs; specialize (D p z s Hp Hs); rewrite Q in *; exact D.
Qed.
Print Assumptions C106_factors_same_best_plans.

(** The same with collocation. *)
Theorem C106_collocation_factors_same_best_plans :
  forall c deg ni h C D par r, (forall a, (a < n_u (mdl c))%nat -> su c a = 1) ->
  let f := quadratic_rate (n_u (mdl c)) r in
  (forall policy state Z slack, user_collocation_cost c par f policy state Z slack = collocation_plan_cost c par r policy state Z slack) /\
  (forall policy state X Z slack v, optimal_user_collocation_plan c deg ni h C D par f policy state X Z slack v <->
     optimal_collocation_plan c deg ni h C D par r policy state X Z slack v).
Proof.
  intros c deg ni h C D par r H1 f.
  assert (Q : forall policy state Z slack, user_collocation_cost c par f policy state Z slack = collocation_plan_cost c par r policy state Z slack).
  { intros policy state Z slack. unfold user_collocation_cost, collocation_plan_cost. f_equal. apply rsum_ext. intros l _. set (ps := realise c l). clearbody ps.
    unfold collocation_scenario_cost, collocation_rate_cost. cbv zeta. rewrite Rplus_assoc. f_equal. rewrite <- (sumn_plus (N c)). apply sumn_ext. intros k _.
    rewrite <- Rmult_plus_distr_l. f_equal. rewrite Rplus_assoc. f_equal.
    replace (rate_penalty c (fun _ => 0) _ _) with 0.
    2:{ unfold rate_penalty. symmetry. transitivity (sumn (n_u (mdl c)) (fun _ => 0)); [|apply sumn_zero]. apply sumn_ext. intros a _. ring. }
    rewrite Rplus_0_l. unfold f, quadratic_rate, rate_penalty. apply sumn_ext. intros a Ha. rewrite (H1 a Ha). destruct (k =? 0)%nat; field. }
  split; [exact Q|]. intros policy state X Z slack v. unfold optimal_user_collocation_plan, optimal_collocation_plan. rewrite Q.
  split; intros (A & B & E & F); (split; [exact A|]; split; [exact B|]; split; [exact E|]); intros p s x z w Hp Hs; specialize (F p s x z w Hp Hs); rewrite Q in *; exact F.
Qed.
Print Assumptions C106_collocation_factors_same_best_plans.

(** Scaling 1 and a plan (discrete-time and collocation). *)
Example C106_nonvacuous_same_plans : forall one,
  (forall a, (a < n_u (mdl (op_cfg one)))%nat -> su (op_cfg one) a = 1) /\ robust_plan (op_cfg one) (pl_par 1) op_policy (fun _ => vzero) /\
  slack_plan (op_cfg one) (pl_par 1) op_policy (fun _ => vzero) (op_slack one) /\
  user_plan_cost (op_cfg one) (pl_par 1) (quadratic_rate 1 (fun _ => 1)) op_policy (fun _ => vzero) (op_slack one) = (if one then 99 / 4 else 39 / 2) /\
  (forall a, (a < n_u (mdl (cb_cfg one)))%nat -> su (cb_cfg one) a = 1).
Proof.
  intros one. destruct (C91_nonvacuous one) as (_ & _ & _ & _ & _ & _ & _ & _ & _ & _ & A & B & E).
  split; [intros; reflexivity|]. split; [exact A|]. split; [exact B|]. split; [|intros; reflexivity].
  rewrite <- E. refine (proj1 (C106_factors_same_best_plans (op_cfg one) (pl_par 1) (fun _ => 1) _) _ _ _). intros; reflexivity.
Qed.
