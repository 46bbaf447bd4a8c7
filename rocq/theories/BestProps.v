(** * C91: solving the problem handed to the solver is finding a robust plan of least average cost. *)
From Coq Require Import Reals Lra Lia.
From Verif Require Import Base TreeModel TreeSpec TreeProofs TreeProofs2 NlpModel NlpSpec NlpProofs NlpProofs2 NlpProofs3 NlpProofs4 NlpProps RobustProps PlanSpec PlanProofs PlanProps BestSpec BestProofs BestProofs2.
Local Open Scope R_scope.

(** Points and plans have the same objective values, for every first input. *)
Theorem C91_objective_is_plan_cost_partial :
  forall c par r u0 v, cfg_ok c -> scaling_pos c -> disc c = Discrete -> wf_model (mdl c) -> wf_inputs (mdl c) -> nl_chk_colloc c = false ->
  (forall con, In con (nlc c) -> xu_constraint (mdl c) con) -> (nr c < N c)%nat -> rterm c = RDefault r -> xu_cost c ->
  ((exists pt, feasible c par pt /\ has_objective c par pt v /\ agree (n_u (mdl c)) (physU c pt 0 0) u0) <->
   (exists policy zpol slack, robust_plan c par policy zpol /\ slack_plan c par policy zpol slack /\
      plan_cost c par r policy zpol slack = v /\ agree (n_u (mdl c)) (policy []) u0)).
Proof.
  intros c par r u0 v Hok Hpos Hd Hwf Hwu Hnl Hcon Hnr Hr Hxu. split.
  - intros (pt & Hf & (p & Ep & Eo) & Hu).
    destruct (plan_of_point c par r Hok Hpos Hd Hwf Hnl Hcon Hnr Hr Hxu pt Hf) as (slack & Hs & (p' & Ep' & Eo')).
    exists (pol c pt), (zp c pt), slack. split; [apply to_plan; assumption|]. split; [exact Hs|]. split.
    + rewrite Ep in Ep'. injection Ep' as <-. rewrite <- Eo', Eo. reflexivity.
    + rewrite to_plan_first. exact Hu.
  - intros (policy & zpol & slack & Hp & Hs & <- & Hu).
    destruct (point_of_plan c par r Hok Hpos Hd Hwf Hwu Hnl Hcon Hnr Hr Hxu policy zpol slack Hp Hs) as (pt & Hf & E & Ho).
    exists pt. split; [exact Hf|]. split; [exact Ho|]. intros a Ha. rewrite (E a Ha). apply Hu. exact Ha.
Qed.
Print Assumptions C91_objective_is_plan_cost_partial.

(** u0 is the first input of a best point, with objective v, exactly if it is the first input of a best plan, with cost v. *)
Theorem C91_optimal_iff_partial :
  forall c par r u0 v, cfg_ok c -> scaling_pos c -> disc c = Discrete -> wf_model (mdl c) -> wf_inputs (mdl c) -> nl_chk_colloc c = false ->
  (forall con, In con (nlc c) -> xu_constraint (mdl c) con) -> (nr c < N c)%nat -> rterm c = RDefault r -> xu_cost c ->
  ((exists pt, optimal_point c par pt v /\ agree (n_u (mdl c)) (physU c pt 0 0) u0) <->
   (exists policy zpol slack, optimal_plan c par r policy zpol slack v /\ agree (n_u (mdl c)) (policy []) u0)).
Proof.
  intros c par r u0 v Hok Hpos Hd Hwf Hwu Hnl Hcon Hnr Hr Hxu.
  pose proof (fun u w => C91_objective_is_plan_cost_partial c par r u w Hok Hpos Hd Hwf Hwu Hnl Hcon Hnr Hr Hxu) as HC. split.
  - intros (pt & (Hf & Ho & Hbest) & Hu). destruct (proj1 (HC u0 v)) as (policy & zpol & slack & Hp & Hs & E & Hu').
    { exists pt. split; [exact Hf|]. split; [exact Ho|exact Hu]. }
    exists policy, zpol, slack. split; [|exact Hu']. split; [exact Hp|]. split; [exact Hs|]. split; [exact E|].
    intros policy' zpol' slack' Hp' Hs'.
    destruct (proj2 (HC (policy' []) (plan_cost c par r policy' zpol' slack'))) as (pt' & Hf' & Ho' & _).
    { exists policy', zpol', slack'. split; [exact Hp'|]. split; [exact Hs'|]. split; [reflexivity|intros a _; reflexivity]. }
    apply (Hbest pt'); assumption.
  - intros (policy & zpol & slack & (Hp & Hs & E & Hbest) & Hu). destruct (proj2 (HC u0 v)) as (pt & Hf & Ho & Hu').
    { exists policy, zpol, slack. split; [exact Hp|]. split; [exact Hs|]. split; [exact E|exact Hu]. }
    exists pt. split; [|exact Hu']. split; [exact Hf|]. split; [exact Ho|]. intros pt' v' Hf' Ho'.
    destruct (proj1 (HC (physU c pt' 0 0) v')) as (policy' & zpol' & slack' & Hp' & Hs' & <- & _).
    { exists pt'. split; [exact Hf'|]. split; [exact Ho'|intros a _; reflexivity]. }
    apply Hbest; assumption.
Qed.
Print Assumptions C91_optimal_iff_partial.

(** ** A configuration: x+ = x + u + p, p = -1/2 or 1/2, one branching, quadratic costs, rate penalty, soft constraint x <= 1/4, with a slack
    for every step ([one = false]) or with nl_cons_single_slack ([one = true]: the first step and the branch of row 0 share one). *)
Definition op_nl : list nl_con := [ {| nl_g := fun x _ _ _ _ => x 0%nat; nl_ub := Some (1/4); nl_soft := Some (Some 1, 7) |} ].
Definition op_cfg (one : bool) : cfg :=
  {| N := 2; nr := 1; ncomb := 2; open_loop := false; single_slack := one; chk_colloc := true;
     nl_chk_colloc := false; mdl := pl_mdl; sx := fun _ => 2; su := fun _ => 1; sz := fun _ => 1;
     disc := Discrete; nlc := op_nl; lterm := fun x _ _ _ _ => x 0%nat ^ 2; mterm := fun x _ _ => x 0%nat ^ 2; rterm := RDefault (fun _ => 1);
     xlb := fun _ => Some (-3); xub := fun _ => Some 3; ulb := fun _ => Some (-1); uub := fun _ => Some 1;
     zlb := fun _ => None; zub := fun _ => None; tlb := fun _ => Some (-3); tub := fun _ => Some 3 |}.
Definition op_policy (h : list nat) : vec := match h with [] => fun _ => -1 | i :: _ => fun _ => - 2 * pl_p i 0%nat end.
Definition op_slack (one : bool) (h : list nat) (_ : nat) : R := match h with [] => 3/4 | i :: _ => match i with O => if one then 3/4 else 0 | _ => 1/4 end end.
Example C91_nonvacuous : forall one,
  let c := op_cfg one in
  cfg_ok c /\ scaling_pos c /\ disc c = Discrete /\ wf_model (mdl c) /\ wf_inputs (mdl c) /\ nl_chk_colloc c = false /\
  (forall con, In con (nlc c) -> xu_constraint (mdl c) con) /\ (nr c < N c)%nat /\ rterm c = RDefault (fun _ => 1) /\ xu_cost c /\
  robust_plan c (pl_par 1) op_policy (fun _ => vzero) /\ slack_plan c (pl_par 1) op_policy (fun _ => vzero) (op_slack one) /\
  plan_cost c (pl_par 1) (fun _ => 1) op_policy (fun _ => vzero) (op_slack one) = if one then 99 / 4 else 39 / 2.
Proof.
  intros one c.
  assert (B : forall ps, realisation c ps -> (ps 0%nat = 0 \/ ps 0%nat = 1)%nat /\ ps 1%nat = ps 0%nat).
  { intros ps [H1 H2]. cbn in H1, H2. specialize (H1 0%nat ltac:(lia)). specialize (H2 1%nat ltac:(lia)). split; [lia|exact H2]. }
  assert (PN : forall i, (i = 0 \/ i = 1)%nat -> pl_p i 0%nat = -1/2 /\ i = 0%nat \/ pl_p i 0%nat = 1/2 /\ i = 1%nat).
  { intros i [-> | ->]; [left|right]; cbn; split; reflexivity. }
  split; [split; [cbn; lia|]; split; [cbn; lia|]; split; [intros a _; cbn; lra|exact I]|].
  split; [split; [|split]; intros a _; cbn; lra|]. split; [reflexivity|].
  destruct C89_nonvacuous as (_ & _ & _ & W1 & W2 & _). split; [exact W1|]. split; [exact W2|]. clear W1 W2. split; [reflexivity|].
  split; [intros con [<-|[]] x x' u u' z z' tvp p Hx Hu; cbn in *; apply Hx; lia|].
  split; [cbn; lia|]. split; [reflexivity|].
  split; [split; [intros x x' u u' z z' tvp p Hx _|intros x x' tvp p Hx]; cbn in *; rewrite (Hx 0%nat) by lia; reflexivity|].
  split; [|split].
  - split; [discriminate|]. intros ps Hps. destruct (B ps Hps) as [Hi E1]. destruct (PN _ Hi) as [[Ep Ei]|[Ep Ei]]; unfold inside; cbv zeta;
      (split; [|split; [|split; [|split; [|split]]]]);
      [ intros k a _ Ha; cbn in Ha; lia
      | intros k a Hk Ha; destruct k as [|[|k]]; [| |cbn in Hk; lia]; cbn -[pl_p]; rewrite ?E1, ?Ep; lra
      | intros k a Hk Ha; destruct k as [|[|k]]; [lia| |cbn in Hk; lia]; cbn -[pl_p]; rewrite ?E1, ?Ep; lra
      | intros a Ha; cbn -[pl_p]; rewrite ?E1, ?Ep; lra
      | intros k a _ Ha; cbn in Ha; lia
      | intros k con Hk [<-|[]]; (destruct k as [|[|k]]; [| |cbn in Hk; lia]); unfold respects; cbn -[pl_p]; rewrite ?E1, ?Ep; exists 1; cbn; lra
      | intros k a _ Ha; cbn in Ha; lia
      | intros k a Hk Ha; destruct k as [|[|k]]; [| |cbn in Hk; lia]; cbn -[pl_p]; rewrite ?E1, ?Ep; lra
      | intros k a Hk Ha; destruct k as [|[|k]]; [lia| |cbn in Hk; lia]; cbn -[pl_p]; rewrite ?E1, ?Ep; lra
      | intros a Ha; cbn -[pl_p]; rewrite ?E1, ?Ep; lra
      | intros k a _ Ha; cbn in Ha; lia
      | intros k con Hk [<-|[]]; (destruct k as [|[|k]]; [| |cbn in Hk; lia]); unfold respects; cbn -[pl_p]; rewrite ?E1, ?Ep; exists 1; cbn; lra ].
  - split.
    { intros Es h h' a E. cbn in Es. unfold op_slack. rewrite Es. unfold place in E. cbn in E.
      destruct h as [|[|i] h]; destruct h' as [|[|i'] h']; cbn in E; try reflexivity; try lia. all: exfalso; lia. }
    intros ps Hps u z p x k i con vmax pen Hk Hi Es. destruct (B ps Hps) as [Hj E1].
    destruct i as [|[|i]]; try discriminate Hi. injection Hi as <-. cbn in Es. injection Es as <- <-. unfold x, u, p, z.
    destruct (PN _ Hj) as [[Ep Ei]|[Ep Ei]]; (destruct k as [|[|k]]; [| |cbn in Hk; lia]); cbn -[pl_p]; rewrite ?Ei, ?E1, ?Ep; cbn; destruct one; lra.
  - unfold plan_cost, scenario_cost, total, rate_penalty, total. destruct one; cbn; unfold vzero; lra.
Qed.
