(** * C96: with a continuous-time model the best points of the problem handed to the solver are the best robust collocation plans. *)
From Coq Require Import Reals Lra Lia.
From Verif Require Import Base TreeModel TreeSpec NlpModel NlpSpec NlpProofs NlpProofs4 NlpProps RobustProps PlanSpec PlanProofs PlanProps BestSpec BestProps CplanSpec CplanProofs CplanProps CbestSpec CbestProofs.
Local Open Scope R_scope.

(** Missing for the full property: n_robust = n_horizon, stage costs of algebraic states (both refuted in C07), constraints of
    algebraic states (refuted in C09), constraints checked at collocation points, user-defined rate terms. *)
Theorem C96_objective_is_collocation_cost_partial :
  forall c deg ni h C D par r u0 v, cfg_ok c -> scaling_pos c -> disc c = Colloc deg ni h C D -> wf_model (mdl c) -> wf_inputs (mdl c) ->
  nl_chk_colloc c = false -> (forall con, In con (nlc c) -> xu_constraint (mdl c) con) -> (nr c < N c)%nat -> rterm c = RDefault r ->
  xu_cost c ->
  ((exists pt, feasible c par pt /\ has_objective c par pt v /\ agree (n_u (mdl c)) (physU c pt 0 0) u0) <->
   (exists policy state X Z slack, robust_collocation_plan c deg ni h C D par policy state X Z /\ collocation_slacks c par policy state Z slack /\
      collocation_plan_cost c par r policy state Z slack = v /\ agree (n_u (mdl c)) (policy []) u0)).
Proof.
  intros c deg ni h C D par r u0 v Hok Hpos Hd Hwf Hwu Hnl Hcon Hnr Hr Hxu. split.
  - intros (pt & Hf & (p & Ep & Eo) & Hu).
    destruct (cplan_of_point c par deg Hok Hpos Hnl Hcon Hnr r Hr Hxu pt Hf) as (slack & Hs & (p' & Ep' & Eo')).
    exists (pol c pt), (stp c pt), (Xp c pt deg), (Zp c pt deg), slack. split; [apply to_cplan; assumption|]. split; [exact Hs|]. split.
    + rewrite Ep in Ep'. injection Ep' as <-. rewrite <- Eo', Eo. reflexivity.
    + rewrite to_plan_first. exact Hu.
  - intros (policy & state & X & Z & slack & Hp & Hs & <- & Hu).
    destruct (point_of_cplan c par deg ni h C D Hok Hpos Hd Hwf Hwu Hnl Hcon Hnr r Hr Hxu policy state X Z slack Hp Hs) as (pt & Hf & E & Ho).
    exists pt. split; [exact Hf|]. split; [exact Ho|]. intros a Ha. rewrite (E a Ha). apply Hu. exact Ha.
Qed.
Print Assumptions C96_objective_is_collocation_cost_partial.

(** u0 is the first input of a best point, with objective v, if and only if it is the first input of a best plan, with cost v. *)
Theorem C96_optimal_iff_partial :
  forall c deg ni h C D par r u0 v, cfg_ok c -> scaling_pos c -> disc c = Colloc deg ni h C D -> wf_model (mdl c) -> wf_inputs (mdl c) ->
  nl_chk_colloc c = false -> (forall con, In con (nlc c) -> xu_constraint (mdl c) con) -> (nr c < N c)%nat -> rterm c = RDefault r ->
  xu_cost c ->
  ((exists pt, optimal_point c par pt v /\ agree (n_u (mdl c)) (physU c pt 0 0) u0) <->
   (exists policy state X Z slack, optimal_collocation_plan c deg ni h C D par r policy state X Z slack v /\ agree (n_u (mdl c)) (policy []) u0)).
Proof.
  intros c deg ni h C D par r u0 v Hok Hpos Hd Hwf Hwu Hnl Hcon Hnr Hr Hxu.
  pose proof (fun u w => C96_objective_is_collocation_cost_partial c deg ni h C D par r u w Hok Hpos Hd Hwf Hwu Hnl Hcon Hnr Hr Hxu) as HC. split.
  - intros (pt & (Hf & Ho & Hbest) & Hu). destruct (proj1 (HC u0 v)) as (policy & state & X & Z & slack & Hp & Hs & E & Hu').
    { exists pt. split; [exact Hf|]. split; [exact Ho|exact Hu]. }
    exists policy, state, X, Z, slack. split; [|exact Hu']. split; [exact Hp|]. split; [exact Hs|]. split; [exact E|].
    intros policy' state' X' Z' slack' Hp' Hs'.
    destruct (proj2 (HC (policy' []) (collocation_plan_cost c par r policy' state' Z' slack'))) as (pt' & Hf' & Ho' & _).
    { exists policy', state', X', Z', slack'. split; [exact Hp'|]. split; [exact Hs'|]. split; [reflexivity|intros a _; reflexivity]. }
    apply (Hbest pt'); assumption.
  - intros (policy & state & X & Z & slack & (Hp & Hs & E & Hbest) & Hu). destruct (proj2 (HC u0 v)) as (pt & Hf & Ho & Hu').
    { exists policy, state, X, Z, slack. split; [exact Hp|]. split; [exact Hs|]. split; [exact E|exact Hu]. }
    exists pt. split; [|exact Hu']. split; [exact Hf|]. split; [exact Ho|]. intros pt' v' Hf' Ho'.
    destruct (proj1 (HC (physU c pt' 0 0) v')) as (policy' & state' & X' & Z' & slack' & Hp' & Hs' & <- & _).
    { exists pt'. split; [exact Hf'|]. split; [exact Ho'|intros a _; reflexivity]. }
    eapply Hbest; eassumption.
Qed.
Print Assumptions C96_optimal_iff_partial.

(** ** The model of the example of C95 with one branching, quadratic costs, rate penalty and a soft constraint x <= 1/4. *)
Definition cb_cfg (one : bool) : cfg :=
  {| N := 2; nr := 1; ncomb := 2; open_loop := false; single_slack := one; chk_colloc := true;
     nl_chk_colloc := false; mdl := cp_mdl; sx := fun _ => 2; su := fun _ => 1; sz := fun _ => 3;
     disc := Colloc 1 2 (1/2) cp_C cp_D; nlc := op_nl; lterm := fun x _ _ _ _ => x 0%nat ^ 2; mterm := fun x _ _ => x 0%nat ^ 2; rterm := RDefault (fun _ => 1);
     xlb := fun _ => Some (-3); xub := fun _ => Some 3; ulb := fun _ => Some (-1); uub := fun _ => Some 1;
     zlb := fun _ => Some (-2); zub := fun _ => Some 2; tlb := fun _ => Some (-3); tub := fun _ => Some 3 |}.
Definition cb_st (l : list nat) : vec :=
  match l with [] => fun _ => 1 | [i] => fun _ => pl_p i 0%nat | i :: j :: _ => fun _ => pl_p j 0%nat - pl_p i 0%nat end.
Definition cb_X (l : list nat) (i j : nat) : vec :=
  fun _ => cb_st (removelast l) 0%nat + INR (i + j) * ((op_policy (removelast l) 0%nat + pl_p (last l 0%nat) 0%nat) / 2).
Example C96_nonvacuous : forall one,
  let c := cb_cfg one in
  cfg_ok c /\ scaling_pos c /\ wf_model (mdl c) /\ wf_inputs (mdl c) /\ nl_chk_colloc c = false /\
  (forall con, In con (nlc c) -> xu_constraint (mdl c) con) /\ (nr c < N c)%nat /\ rterm c = RDefault (fun _ => 1) /\ xu_cost c /\
  robust_collocation_plan c 1 2 (1/2) cp_C cp_D (pl_par 1) op_policy cb_st cb_X cb_X /\
  collocation_slacks c (pl_par 1) op_policy cb_st cb_X (op_slack one) /\
  collocation_plan_cost c (pl_par 1) (fun _ => 1) op_policy cb_st cb_X (op_slack one) = if one then 99 / 4 else 39 / 2.
Proof.
  intros one c.
  assert (B : forall ps, realisation c ps -> (ps 0%nat = 0 \/ ps 0%nat = 1)%nat /\ ps 1%nat = ps 0%nat).
  { intros ps [H1 H2]. cbn in H1, H2. specialize (H1 0%nat ltac:(lia)). specialize (H2 1%nat ltac:(lia)). split; [lia|exact H2]. }
  assert (PN : forall i, (i = 0 \/ i = 1)%nat -> pl_p i 0%nat = -1/2 /\ i = 0%nat \/ pl_p i 0%nat = 1/2 /\ i = 1%nat).
  { intros i [-> | ->]; [left|right]; cbn; split; reflexivity. }
  assert (IJ : forall i j, (i < 2)%nat -> (j <= 1)%nat -> INR (i + j) = 0 \/ INR (i + j) = 1 \/ INR (i + j) = 2).
  { intros i j Hi Hj. assert (i + j = 0 \/ i + j = 1 \/ i + j = 2)%nat as [-> | [-> | ->]] by lia; cbn; lra. }
  destruct C95_nonvacuous as (_ & _ & W1 & W2 & _).
  split; [split; [cbn; lia|]; split; [cbn; lia|]; split; [intros a _; cbn; lra|cbn; split; [lia|split; [lia|exact W1]]]|].
  split; [split; [|split]; intros a _; cbn; lra|]. split; [exact W1|]. split; [exact W2|]. split; [reflexivity|].
  split; [intros con [<-|[]] x x' u u' z z' tvp p Hx Hu; cbn in *; apply Hx; lia|].
  split; [cbn; lia|]. split; [reflexivity|].
  split; [split; [intros x x' u u' z z' tvp p Hx _|intros x x' tvp p Hx]; cbn in *; rewrite (Hx 0%nat) by lia; reflexivity|].
  split; [|split].
  - split; [discriminate|]. split; [intros a _; reflexivity|]. intros ps Hps k Hk. destruct (B ps Hps) as [Hi E1].
    assert (HK : (k = 0 \/ k = 1)%nat) by (cbn in Hk; lia).
    assert (EP : pl_p (ps 0%nat) 0%nat = -1/2 \/ pl_p (ps 0%nat) 0%nat = 1/2) by (destruct (PN _ Hi) as [[Ep _]|[Ep _]]; [left|right]; exact Ep).
    unfold inside. destruct HK as [-> | ->]; cbn -[pl_p INR Nat.add cb_X rsum] in *; cbn [Nat.add seq map] in *; rewrite ?E1.
    all: split; [|split; [|split; [|split; [|split; [|split]]]]].
    all: try (intros; cbn -[pl_p INR] in *; lra).
    all: try (intros; unfold cb_X; cbn -[pl_p INR] in *; cbn [INR]; lra).
    all: try (intros; lia).
    all: try (split; [|split; [|split; [|split]]]; unfold cb_X; cbn -[pl_p INR Nat.add];
      [ intros a _; cbn; lra | intros; lra
      | intros i j a Hi' Hj Ha; assert (j = 1)%nat as -> by lia; assert (i = 0 \/ i = 1)%nat as [-> | ->] by lia; cbn -[pl_p]; lra
      | intros i a Hi' Ha; assert (i = 0)%nat as -> by lia; cbn -[pl_p]; lra
      | intros a Ha; cbn -[pl_p]; lra ]).
    all: try (intros con [<-|[]]; unfold respects; cbn -[pl_p]; exists 1; cbn; lra).
    all: intros _ i j Hi' Hj; pose proof (IJ i j Hi' Hj) as HIJ; unfold cb_X; cbn -[pl_p INR Nat.add]; split; intros; destruct HIJ as [-> | [-> | ->]]; lra.
  - split.
    { destruct (C91_nonvacuous one) as (_ & _ & _ & _ & _ & _ & _ & _ & _ & _ & _ & (Q & _) & _). intros Es h h' a E. apply (Q Es). exact E. }
    intros ps Hps k i con vmax pen Hk Hi Es. destruct (B ps Hps) as [Hj E1].
    destruct i as [|[|i]]; try discriminate Hi. injection Hi as <-. cbn in Es. injection Es as <- <-.
    destruct (PN _ Hj) as [[Ep Ei]|[Ep Ei]]; (destruct k as [|[|k]]; [| |cbn in Hk; lia]); cbn -[pl_p]; rewrite ?Ei, ?E1, ?Ep; cbn; destruct one; lra.
  - unfold collocation_plan_cost, collocation_scenario_cost, total, rate_penalty, total. destruct one; cbn; unfold vzero; lra.
Qed.
