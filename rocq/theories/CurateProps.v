(** * C106 with a continuous-time model: a rate penalty given as an expression. *)
From Coq Require Import Reals Lra Lia.
From Verif Require Import Base TreeModel TreeSpec NlpModel NlpSpec NlpProofs NlpProofs4 NlpProps RobustProps PlanSpec PlanProofs PlanProps BestSpec BestProps CplanSpec CplanProofs CplanProps CbestSpec CbestProofs CbestProps UrateSpec UrateProps CurateSpec CurateProofs.
Local Open Scope R_scope.

(** Points and collocation plans have the same objective values (as C96, with the expression instead of factors). *)
Theorem C106_collocation_objective_is_plan_cost_partial :
  forall c deg ni h C D par f u0 v, cfg_ok c -> scaling_pos c -> disc c = Colloc deg ni h C D -> wf_model (mdl c) -> wf_inputs (mdl c) ->
  nl_chk_colloc c = false -> (forall con, In con (nlc c) -> xu_constraint (mdl c) con) -> (nr c < N c)%nat -> rterm c = RUser f ->
  xu_cost c -> xu_rate (mdl c) f ->
  ((exists pt, feasible c par pt /\ has_objective c par pt v /\ agree (n_u (mdl c)) (physU c pt 0 0) u0) <->
   (exists policy state X Z slack, robust_collocation_plan c deg ni h C D par policy state X Z /\ collocation_slacks c par policy state Z slack /\
      user_collocation_cost c par f policy state Z slack = v /\ agree (n_u (mdl c)) (policy []) u0)).
Proof.
  intros c deg ni h C D par f u0 v Hok Hpos Hd Hwf Hwu Hnl Hcon Hnr Hr Hxu Hxr. split.
  - intros (pt & Hf & (p & Ep & Eo) & Hu).
    destruct (cplan_alike c par deg Hok Hpos Hnl Hcon Hnr pt Hf) as (slack & Hs & HA).
    destruct (user_ccost_eq c par pt f _ _ (Zp c pt deg) _ Hok Hpos Hnr Hr Hxu Hxr HA) as (p' & Ep' & Eo').
    exists (pol c pt), (stp c pt), (Xp c pt deg), (Zp c pt deg), slack. split; [apply to_cplan; assumption|]. split; [exact Hs|]. split.
    + rewrite Ep in Ep'. injection Ep' as <-. rewrite <- Eo', Eo. reflexivity.
    + rewrite to_plan_first. exact Hu.
  - intros (policy & state & X & Z & slack & Hp & Hs & <- & Hu).
    destruct (cpoint_alike c par deg ni h C D Hok Hpos Hd Hwf Hwu Hnl Hcon Hnr policy state X Z slack Hp Hs) as (pt & Hf & E & HA).
    exists pt. split; [exact Hf|]. split; [apply user_ccost_eq; assumption|]. intros a Ha. rewrite (E a Ha). apply Hu. exact Ha.
Qed.
Print Assumptions C106_collocation_objective_is_plan_cost_partial.

(** u0 is the first input of a best point, with objective v, exactly if it is the first input of a best plan, with cost v. *)
Theorem C106_collocation_optimal_iff_partial :
  forall c deg ni h C D par f u0 v, cfg_ok c -> scaling_pos c -> disc c = Colloc deg ni h C D -> wf_model (mdl c) -> wf_inputs (mdl c) ->
  nl_chk_colloc c = false -> (forall con, In con (nlc c) -> xu_constraint (mdl c) con) -> (nr c < N c)%nat -> rterm c = RUser f ->
  xu_cost c -> xu_rate (mdl c) f ->
  ((exists pt, optimal_point c par pt v /\ agree (n_u (mdl c)) (physU c pt 0 0) u0) <->
   (exists policy state X Z slack, optimal_user_collocation_plan c deg ni h C D par f policy state X Z slack v /\ agree (n_u (mdl c)) (policy []) u0)).
Proof.
  intros c deg ni h C D par f u0 v Hok Hpos Hd Hwf Hwu Hnl Hcon Hnr Hr Hxu Hxr.
  pose proof (fun u w => C106_collocation_objective_is_plan_cost_partial c deg ni h C D par f u w Hok Hpos Hd Hwf Hwu Hnl Hcon Hnr Hr Hxu Hxr) as HC. split.
  - intros (pt & (Hf & Ho & Hbest) & Hu). destruct (proj1 (HC u0 v)) as (policy & state & X & Z & slack & Hp & Hs & E & Hu').
    { exists pt. split; [exact Hf|]. split; [exact Ho|exact Hu]. }
    exists policy, state, X, Z, slack. split; [|exact Hu']. split; [exact Hp|]. split; [exact Hs|]. split; [exact E|].
    intros policy' state' X' Z' slack' Hp' Hs'.
    destruct (proj2 (HC (policy' []) (user_collocation_cost c par f policy' state' Z' slack'))) as (pt' & Hf' & Ho' & _).
    { exists policy', state', X', Z', slack'. split; [exact Hp'|]. split; [exact Hs'|]. split; [reflexivity|intros a _; reflexivity]. }
    apply (Hbest pt'); assumption.
  - intros (policy & state & X & Z & slack & (Hp & Hs & E & Hbest) & Hu). destruct (proj2 (HC u0 v)) as (pt & Hf & Ho & Hu').
    { exists policy, state, X, Z, slack. split; [exact Hp|]. split; [exact Hs|]. split; [exact E|exact Hu]. }
    exists pt. split; [|exact Hu']. split; [exact Hf|]. split; [exact Ho|]. intros pt' v' Hf' Ho'.
    destruct (proj1 (HC (physU c pt' 0 0) v')) as (policy' & state' & X' & Z' & slack' & Hp' & Hs' & <- & _).
    { exists pt'. split; [exact Hf'|]. split; [exact Ho'|intros a _; reflexivity]. }
    eapply Hbest; eassumption.
Qed.
Print Assumptions C106_collocation_optimal_iff_partial.

(** ** The configuration of the example of C96 with the expression (u - u_prev)^2 (1 + x^2). *)
Definition cur_f : rate_expr := fun x u v _ _ _ => (u 0%nat - v 0%nat) ^ 2 * (1 + x 0%nat ^ 2).
Definition cur_cfg (one : bool) : cfg := with_expr (cb_cfg one) cur_f.
Example C106_nonvacuous_collocation : forall one,
  let c := cur_cfg one in
  cfg_ok c /\ scaling_pos c /\ disc c = Colloc 1 2 (1/2) cp_C cp_D /\ wf_model (mdl c) /\ wf_inputs (mdl c) /\ nl_chk_colloc c = false /\
  (forall con, In con (nlc c) -> xu_constraint (mdl c) con) /\ (nr c < N c)%nat /\ rterm c = RUser cur_f /\ xu_cost c /\ xu_rate (mdl c) cur_f /\
  robust_collocation_plan c 1 2 (1/2) cp_C cp_D (pl_par 1) op_policy cb_st cb_X cb_X /\
  collocation_slacks c (pl_par 1) op_policy cb_st cb_X (op_slack one) /\
  user_collocation_cost c (pl_par 1) cur_f op_policy cb_st cb_X (op_slack one) = if one then 111 / 4 else 45 / 2.
Proof.
  intros one c. destruct (C96_nonvacuous one) as (A1 & A2 & A3 & A4 & _ & A6 & _ & _ & A9 & A10 & A11 & _).
  split; [exact A1|]. split; [exact A2|]. split; [reflexivity|]. split; [exact A3|]. split; [exact A4|]. split; [reflexivity|].
  split; [exact A6|]. split; [cbn; lia|]. split; [reflexivity|]. split; [exact A9|].
  split. { intros x x' u u' v v' z z' tvp q Hx Hu Hv. unfold cur_f. rewrite (Hx 0%nat), (Hu 0%nat), (Hv 0%nat) by (cbn; lia). reflexivity. }
  split; [exact A10|]. split; [exact A11|].
  unfold user_collocation_cost, collocation_scenario_cost, collocation_rate_cost, cur_f, total, rate_penalty, total. destruct one; cbn; unfold vzero; lra.
Qed.
