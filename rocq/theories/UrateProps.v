(** * C106: a rate penalty given as an expression. *)
From Coq Require Import Reals Lra Lia.
From Verif Require Import Base TreeModel TreeSpec TreeProofs TreeProofs2 NlpModel NlpSpec NlpProofs NlpProofs2 NlpProofs3 NlpProofs4 NlpProps RobustProps PlanSpec PlanProofs PlanProps BestSpec BestProofs BestProofs2 BestProps UrateSpec UrateProofs.
Local Open Scope R_scope.

(** Finding: the expression (u - u_prev)^2 charges a feasible point whose inputs all equal the previously applied input, because
    it gets the physical input, but the previous input divided by the scaling. *)
Theorem C106_no_change_charged_refuted :
  exists c f par pt p0 p, cfg_ok c /\ scaling_pos c /\ f = quadratic_rate (n_u (mdl c)) (fun _ => 1) /\ no_change_free f /\ feasible (with_expr c f) par pt /\
    (forall k s a, physU c pt k s a = pUprev par a) /\
    prepare_nlp (with_rate c (fun _ => 0)) par pt = Ok p0 /\ prepare_nlp (with_expr c f) par pt = Ok p /\ obj p <> obj p0.
Proof.
  set (c := {| N := 1; nr := 0; ncomb := 1; open_loop := false; single_slack := false; chk_colloc := true;
     nl_chk_colloc := false; mdl := pl_mdl; sx := fun _ => 1; su := fun _ => 2; sz := fun _ => 1;
     disc := Discrete; nlc := []; lterm := fun _ _ _ _ _ => 0; mterm := fun _ _ _ => 0; rterm := RDefault (fun _ => 0);
     xlb := fun _ => None; xub := fun _ => None; ulb := fun _ => None; uub := fun _ => None;
     zlb := fun _ => None; zub := fun _ => None; tlb := fun _ => None; tub := fun _ => None |}).
  set (f := quadratic_rate (n_u (mdl c)) (fun _ => 1)).
  set (par := {| pX0 := fun _ => 0; pTvp := fun _ => vzero; pP := fun _ => vzero; pUprev := fun _ => 2 |}).
  set (pt := {| oX := fun k _ _ _ => 2 * INR k; oZ := fun _ _ _ _ => 0; oU := fun _ _ _ => 1; oE := fun _ _ _ => 0 |}).
  assert (Hok : cfg_ok c) by (split; [cbn; lia|]; split; [cbn; lia|]; split; [intros a _; cbn; lra|exact I]).
  assert (Hpos : scaling_pos c) by (split; [|split]; intros a _; cbn; lra).
  assert (Hsu : forall a, (a < n_u (mdl c))%nat -> su c a <> 0) by (intros a _; cbn; lra).
  destruct (tree_exists 1 0 1) as [t Ht]; [lia..|].
  destruct (body_sat (with_expr c f) Hok par pt t Ht) as (p & E & _).
  destruct (body_sat (with_rate c (fun _ => 0)) Hok par pt t Ht) as (p0 & E0 & _).
  assert (Ep : prepare_nlp (with_expr c f) par pt = Ok p) by (unfold prepare_nlp; cbn [with_expr ncomb nr N c]; rewrite Ht; exact E).
  assert (Ep0 : prepare_nlp (with_rate c (fun _ => 0)) par pt = Ok p0) by (unfold prepare_nlp; cbn [with_rate ncomb nr N c]; rewrite Ht; exact E0).
  exists c, f, par, pt, p0, p. split; [exact Hok|]. split; [exact Hpos|]. split; [reflexivity|].
  split; [intros x u z tvp q; unfold f, quadratic_rate, total; cbn; lra|].
  split; [|split; [|split; [exact Ep0|split; [exact Ep|]]]].
  - apply (feasible_iff (with_expr c f) par pt Hok Hpos). split; [split; [|split]|split].
    + split; [|split; [|split]]; intros; unfold inside; cbn; split; exact I.
    + intros _. split; intros; unfold inside; cbn; split; exact I.
    + intros k s a _ _ Ha. cbn in Ha. lia.
    + intros a Ha. unfold stateX, physX; cbn. unfold vmul; cbn. lra.
    + intros k s b (Hk & Hs & Hb). cbn in Hk, Hs, Hb. assert (k = 0)%nat as -> by lia. assert (s = 0)%nat as -> by (unfold width_of, nodes in Hs; cbn in Hs; lia).
      split; [|intros i con Hi; destruct i; discriminate Hi].
      split; intros a Ha; cbn in Ha; [|lia]. assert (a = 0)%nat as -> by lia. unfold stateX, physX, physU; cbn. unfold vmul, vzero; cbn. lra.
  - intros k s a. unfold physU; cbn. lra.
  - rewrite (user_split (with_expr c f) par pt t p0 p f Hok eq_refl Hsu) with (2 := Ht) (3 := Ep0) (4 := Ep).
    2:{ intros x u v v' z tvp q Hv. unfold f, quadratic_rate, total. cbn. rewrite (Hv 0%nat) by (cbn; lia). reflexivity. }
    unfold total. cbn. unfold width_of, nodes, fan_of, fan. cbn. unfold total, physU. cbn. lra.
Qed.
Print Assumptions C106_no_change_charged_refuted.

(** What does hold.  The expression adds to the objective, for every point and every edge of the tree (step k, node s, branch b),
    its value at the state and input of the node, the input of the node before (the previously applied input in step 0) divided
    by the scaling of the inputs, tvp of the step and parameters of the branch; so with scaling 1 its value at the physical
    inputs.  Missing: scaling other than 1 (refuted above), algebraic states (as in C07: those stored under the node's own index). *)
Theorem C106_charge_partial :
  forall c f par pt t p0 p, cfg_ok c -> (forall a, (a < n_u (mdl c))%nat -> su c a <> 0) ->
  (forall x u v v' z tvp q, agree (n_u (mdl c)) v v' -> f x u v z tvp q = f x u v' z tvp q) ->
  setup_scenario_tree (ncomb c) (nr c) (N c) = Ok t ->
  prepare_nlp (with_rate c (fun _ => 0)) par pt = Ok p0 -> prepare_nlp (with_expr c f) par pt = Ok p ->
  let zlast := (Nat.max (ncoll (disc c)) 1 - 1)%nat in
  let charge (scale : vec) := total (N c) (fun k => total (width_of c k) (fun s => total (fan_of c k) (fun b =>
      f (stateX c pt k s) (physU c pt k (uidx c s))
        (fun a => (if (k =? 0)%nat then pUprev par else physU c pt (k - 1) (uidx c (s / fan_of c (k - 1)))) a / scale a)
        (physZ c pt k s zlast) (pTvp par k) (pP par (comb c k s b))))) in
  obj p = obj p0 + charge (su c) /\ ((forall a, (a < n_u (mdl c))%nat -> su c a = 1) -> obj p = obj p0 + charge (fun _ => 1)).
Proof.
  intros c f par pt t p0 p Hok Hsu Hag Ht E0 E zlast charge.
  assert (M : obj p = obj p0 + charge (su c)) by exact (user_split (with_expr c f) par pt t p0 p f Hok eq_refl Hsu Hag Ht E0 E).
  split; [exact M|]. intros H1. rewrite M. f_equal. unfold charge. apply sumn_ext. intros k Hk. apply sumn_ext. intros s Hs. apply sumn_ext. intros b Hb.
  apply Hag. intros a Ha. rewrite (H1 a Ha). reflexivity.
Qed.
Print Assumptions C106_charge_partial.

(** With scaling 1 passing factors and passing the quadratic expression of these factors give the same objective. *)
Theorem C106_factors_are_an_expression :
  forall c r par pt p q, cfg_ok c -> (forall a, (a < n_u (mdl c))%nat -> su c a = 1) ->
  prepare_nlp (with_rate c r) par pt = Ok p -> prepare_nlp (with_expr c (quadratic_rate (n_u (mdl c)) r)) par pt = Ok q ->
  obj p = obj q /\ cons p = cons q /\ cons_lb p = cons_lb q /\ cons_ub p = cons_ub q.
Proof.
  intros c r par pt p q Hok H1 Ep Eq. assert (HN : (1 <= N c)%nat) by apply Hok. assert (Hc : (1 <= ncomb c)%nat) by apply Hok.
  assert (Hsu : forall a, (a < n_u (mdl c))%nat -> su c a <> 0) by (intros a Ha; rewrite (H1 a Ha); lra).
  destruct (tree_exists (ncomb c) (nr c) (N c) Hc HN) as [t Ht].
  destruct (body_sat (with_rate c (fun _ => 0)) Hok par pt t Ht) as (p0 & E & _).
  assert (E0 : prepare_nlp (with_rate c (fun _ => 0)) par pt = Ok p0) by (unfold prepare_nlp; cbn [with_rate ncomb nr N]; rewrite Ht; exact E).
  assert (Hag : forall x u v v' z tvp q', agree (n_u (mdl c)) v v' -> quadratic_rate (n_u (mdl c)) r x u v z tvp q' = quadratic_rate (n_u (mdl c)) r x u v' z tvp q').
  { intros x u v v' z tvp q' Hv. apply sumn_ext. intros a Ha. rewrite (Hv a Ha). reflexivity. }
  destruct (C106_charge_partial c _ par pt t p0 q Hok Hsu Hag Ht E0 Eq) as [_ Q]. specialize (Q H1).
  destruct (C58_rate_penalty_partial c par pt t p0 p r Hok Hsu Ht E0 Ep) as [_ P]. specialize (P H1).
  split.
  - rewrite P, Q. f_equal. apply sumn_ext. intros k Hk. apply sumn_ext. intros s Hs. apply sumn_ext. intros b Hb. unfold quadratic_rate. apply sumn_ext. intros a Ha.
    destruct (k =? 0)%nat; f_equal; field.
  - unfold prepare_nlp, prepare_body in Ep, Eq. cbn [with_rate with_expr ncomb nr N] in Ep, Eq. rewrite Ht in Ep, Eq. cbn [bind] in Ep, Eq.
    change (edges (with_expr c (quadratic_rate (n_u (mdl c)) r))) with (edges (with_rate c r)) in Eq.
    change (edge_cons (with_expr c (quadratic_rate (n_u (mdl c)) r)) t par pt) with (edge_cons (with_rate c r) t par pt) in Eq.
    destruct (mapM _ _) as [bl|]; cbn [bind] in Ep, Eq; [|discriminate]. injection Ep as <-. injection Eq as <-. cbn. repeat split; reflexivity.
Qed.
Print Assumptions C106_factors_are_an_expression.

(** Points and plans have the same objective values (as C91, with the expression instead of factors). *)
Theorem C106_objective_is_plan_cost_partial :
  forall c par f u0 v, cfg_ok c -> scaling_pos c -> disc c = Discrete -> wf_model (mdl c) -> wf_inputs (mdl c) -> nl_chk_colloc c = false ->
  (forall con, In con (nlc c) -> xu_constraint (mdl c) con) -> (nr c < N c)%nat -> rterm c = RUser f -> xu_cost c -> xu_rate (mdl c) f ->
  ((exists pt, feasible c par pt /\ has_objective c par pt v /\ agree (n_u (mdl c)) (physU c pt 0 0) u0) <->
   (exists policy zpol slack, robust_plan c par policy zpol /\ slack_plan c par policy zpol slack /\
      user_plan_cost c par f policy zpol slack = v /\ agree (n_u (mdl c)) (policy []) u0)).
Proof.
  intros c par f u0 v Hok Hpos Hd Hwf Hwu Hnl Hcon Hnr Hr Hxu Hxr. split.
  - intros (pt & Hf & (p & Ep & Eo) & Hu).
    destruct (plan_alike c par Hok Hpos Hd Hwf Hnl Hcon Hnr pt Hf) as (slack & Hs & HA).
    destruct (user_cost_eq c par pt f _ _ _ Hok Hpos Hnr Hr Hxu Hxr HA) as (p' & Ep' & Eo').
    exists (pol c pt), (zp c pt), slack. split; [apply to_plan; assumption|]. split; [exact Hs|]. split.
    + rewrite Ep in Ep'. injection Ep' as <-. rewrite <- Eo', Eo. reflexivity.
    + rewrite to_plan_first. exact Hu.
  - intros (policy & zpol & slack & Hp & Hs & <- & Hu).
    destruct (point_alike c par Hok Hpos Hd Hwf Hwu Hnl Hcon Hnr policy zpol slack Hp Hs) as (pt & Hf & E & HA).
    exists pt. split; [exact Hf|]. split; [apply user_cost_eq; assumption|]. intros a Ha. rewrite (E a Ha). apply Hu. exact Ha.
Qed.
Print Assumptions C106_objective_is_plan_cost_partial.

(** u0 is the first input of a best point, with objective v, exactly if it is the first input of a best plan, with cost v. *)
Theorem C106_optimal_iff_partial :
  forall c par f u0 v, cfg_ok c -> scaling_pos c -> disc c = Discrete -> wf_model (mdl c) -> wf_inputs (mdl c) -> nl_chk_colloc c = false ->
  (forall con, In con (nlc c) -> xu_constraint (mdl c) con) -> (nr c < N c)%nat -> rterm c = RUser f -> xu_cost c -> xu_rate (mdl c) f ->
  ((exists pt, optimal_point c par pt v /\ agree (n_u (mdl c)) (physU c pt 0 0) u0) <->
   (exists policy zpol slack, optimal_user_plan c par f policy zpol slack v /\ agree (n_u (mdl c)) (policy []) u0)).
Proof.
  intros c par f u0 v Hok Hpos Hd Hwf Hwu Hnl Hcon Hnr Hr Hxu Hxr.
  pose proof (fun u w => C106_objective_is_plan_cost_partial c par f u w Hok Hpos Hd Hwf Hwu Hnl Hcon Hnr Hr Hxu Hxr) as HC. split.
  - intros (pt & (Hf & Ho & Hbest) & Hu). destruct (proj1 (HC u0 v)) as (policy & zpol & slack & Hp & Hs & E & Hu').
    { exists pt. split; [exact Hf|]. split; [exact Ho|exact Hu]. }
    exists policy, zpol, slack. split; [|exact Hu']. split; [exact Hp|]. split; [exact Hs|]. split; [exact E|].
    intros policy' zpol' slack' Hp' Hs'.
    destruct (proj2 (HC (policy' []) (user_plan_cost c par f policy' zpol' slack'))) as (pt' & Hf' & Ho' & _).
    { exists policy', zpol', slack'. split; [exact Hp'|]. split; [exact Hs'|]. split; [reflexivity|intros a _; reflexivity]. }
    apply (Hbest pt'); assumption.
  - intros (policy & zpol & slack & (Hp & Hs & E & Hbest) & Hu). destruct (proj2 (HC u0 v)) as (pt & Hf & Ho & Hu').
    { exists policy, zpol, slack. split; [exact Hp|]. split; [exact Hs|]. split; [exact E|exact Hu]. }
    exists pt. split; [|exact Hu']. split; [exact Hf|]. split; [exact Ho|]. intros pt' v' Hf' Ho'.
    destruct (proj1 (HC (physU c pt' 0 0) v')) as (policy' & zpol' & slack' & Hp' & Hs' & <- & _).
    { exists pt'. split; [exact Hf'|]. split; [exact Ho'|intros a _; reflexivity]. }
    apply Hbest; assumption.
Qed.
Print Assumptions C106_optimal_iff_partial.

(** ** The configuration of C91 with inputs scaled by 2 and the expression (u - 2 u_prev)^2, which charges the physical change. *)
Definition ur_f : rate_expr := fun _ u v _ _ _ => (u 0%nat - 2 * v 0%nat) ^ 2.
Definition ur_cfg (one : bool) : cfg :=
  {| N := 2; nr := 1; ncomb := 2; open_loop := false; single_slack := one; chk_colloc := true;
     nl_chk_colloc := false; mdl := pl_mdl; sx := fun _ => 2; su := fun _ => 2; sz := fun _ => 1;
     disc := Discrete; nlc := op_nl; lterm := fun x _ _ _ _ => x 0%nat ^ 2; mterm := fun x _ _ => x 0%nat ^ 2; rterm := RUser ur_f;
     xlb := fun _ => Some (-3); xub := fun _ => Some 3; ulb := fun _ => Some (-1); uub := fun _ => Some 1;
     zlb := fun _ => None; zub := fun _ => None; tlb := fun _ => Some (-3); tub := fun _ => Some 3 |}.
Example C106_nonvacuous : forall one,
  let c := ur_cfg one in
  cfg_ok c /\ scaling_pos c /\ disc c = Discrete /\ wf_model (mdl c) /\ wf_inputs (mdl c) /\ nl_chk_colloc c = false /\
  (forall con, In con (nlc c) -> xu_constraint (mdl c) con) /\ (nr c < N c)%nat /\ rterm c = RUser ur_f /\ xu_cost c /\ xu_rate (mdl c) ur_f /\
  robust_plan c (pl_par 1) op_policy (fun _ => vzero) /\ slack_plan c (pl_par 1) op_policy (fun _ => vzero) (op_slack one) /\
  user_plan_cost c (pl_par 1) ur_f op_policy (fun _ => vzero) (op_slack one) = if one then 99 / 4 else 39 / 2.
Proof.
  intros one c. destruct (C91_nonvacuous one) as (A1 & (P1 & _ & P3) & _ & A4 & A5 & _ & A7 & _ & _ & A10 & A11 & A12 & _).
  split; [exact A1|]. split; [split; [exact P1|split; [intros a _; cbn; lra|exact P3]]|]. split; [reflexivity|]. split; [exact A4|]. split; [exact A5|]. split; [reflexivity|].
  split; [exact A7|]. split; [cbn; lia|]. split; [reflexivity|]. split; [exact A10|].
  split. { intros x x' u u' v v' z z' tvp q _ Hu Hv. unfold ur_f. rewrite (Hu 0%nat), (Hv 0%nat) by (cbn; lia). reflexivity. }
  split; [exact A11|]. split; [exact A12|].
  unfold user_plan_cost, scenario_cost, user_rate_cost, ur_f, total, rate_penalty, total. destruct one; cbn; unfold vzero; lra.
Qed.
(** Scaling 1 for C106_factors_are_an_expression. *)
Example C106_nonvacuous_factors : forall one par pt, exists p q,
  let c := op_cfg one in
  cfg_ok c /\ (forall a, (a < n_u (mdl c))%nat -> su c a = 1) /\
  prepare_nlp (with_rate c (fun _ => 1)) par pt = Ok p /\ prepare_nlp (with_expr c (quadratic_rate (n_u (mdl c)) (fun _ => 1))) par pt = Ok q.
Proof.
  intros one par pt. destruct (tree_exists 2 1 2) as [t Ht]; [lia..|].
  assert (Hok : cfg_ok (op_cfg one)) by exact (proj1 (C91_nonvacuous one)).
  destruct (body_sat (with_rate (op_cfg one) (fun _ => 1)) Hok par pt t Ht) as (p & E & _).
  destruct (body_sat (with_expr (op_cfg one) (quadratic_rate (n_u (mdl (op_cfg one))) (fun _ => 1))) Hok par pt t Ht) as (q & E' & _).
  exists p, q. split; [exact Hok|]. split; [intros; reflexivity|].
  split; unfold prepare_nlp; cbn [with_rate with_expr ncomb nr N op_cfg]; rewrite Ht; assumption.
Qed.
