(** * C92: the cost of the optimal plan decreases along the closed loop. *)
From Coq Require Import Reals Lra Lia.
From Verif Require Import Base TreeModel TreeSpec TreeProofs TreeProofs2 NlpModel NlpSpec NlpProofs NlpProofs2 NlpProofs3 NlpProofs4 NlpProps RobustProps PlanSpec PlanProofs PlanProofs2 PlanProps BestSpec BestProofs BestProofs2 BestProps DescSpec DescProofs.
Local Open Scope R_scope.

(** From any feasible point with objective v, after a step with its first input the next problem is feasible, and its best
    objective value is at most v minus the cost of the step. *)
Theorem C92_cost_decreases :
  forall c par par' r pt v z law zlaw, cfg_ok c -> scaling_pos c -> disc c = Discrete -> wf_model (mdl c) -> wf_inputs (mdl c) -> alg_unique (mdl c) ->
  nl_chk_colloc c = false -> (forall con, In con (nlc c) -> xu_constraint (mdl c) con) -> (nr c < N c)%nat -> rterm c = RDefault r ->
  xu_cost c -> violations_ok c -> penalties_ok c -> one_scenario c ->
  feasible c par pt -> has_objective c par pt v ->
  (forall a, (a < n_z (mdl c))%nat -> alg (mdl c) (pX0 par) (physU c pt 0 0) z (pTvp par 0%nat) (pP par 0%nat) vzero a = 0) ->
  terminal_invariant c (pTvp par (N c)) (pP par) law zlaw ->
  terminal_decrease c r (pTvp par (N c)) (pTvp par' (N c)) (pP par 0%nat) law zlaw ->
  next_problem c par par' (rhs (mdl c) (pX0 par) (physU c pt 0 0) z (pTvp par 0%nat) (pP par 0%nat) vzero) ->
  agree (n_u (mdl c)) (pUprev par') (physU c pt 0 0) ->
  (exists pt', feasible c par' pt') /\
  forall pt' v', optimal_point c par' pt' v' ->
    v' + step_cost c r (pX0 par) (physU c pt 0 0) (pUprev par) (pTvp par 0%nat) (pP par 0%nat) <= v.
Proof.
  intros c par par' r pt v z law zlaw Hok Hpos Hd Hwf Hwu Huq Hnl Hcon Hnr Hr Hxu Hvio Hpen H1 Hf Ho Hz Hterm Hdec Hnext Hprev.
  assert (HN : (1 <= N c)%nat) by apply Hok.
  assert (Hi : admissible c 0) by (split; [apply Hok|reflexivity]).
  split; [apply (C90_recursive_feasibility c par par' pt 0%nat z law zlaw); try assumption; apply one_covers; assumption|].
  destruct (plan_of_point c par r Hok Hpos Hd Hwf Hnl Hcon Hnr Hr Hxu pt Hf) as (slack & Hs & (p' & Ep' & Eo')).
  destruct Ho as (p & Ep & Eo). rewrite Ep in Ep'. injection Ep' as <-.
  pose proof (to_plan c par pt Hok Hpos Hd Hwf Hnl Hcon Hf) as Hplan.
  pose proof (proj2 Hplan _ (zeros_real c Hok)) as HR. cbv zeta in HR. destruct HR as (HA & _).
  assert (Hzz : agree (n_z (mdl c)) z (zp c pt [0%nat])).
  { apply (Huq (pX0 par) (physU c pt 0 0) (pTvp par 0%nat) (pP par 0%nat)); [exact Hz|]. intros a Ha.
    specialize (HA 0%nat a ltac:(lia) Ha). cbn [plant seq map Nat.add] in HA. rewrite to_plan_first in HA. exact HA. }
  assert (Hnext' : next_problem c par par' (rhs (mdl c) (pX0 par) (pol c pt []) (zp c pt [0%nat]) (pTvp par 0%nat) (pP par 0%nat) vzero)).
  { rewrite to_plan_first. destruct Hnext as (N1 & N2 & N3). split; [|split; assumption]. intros a Ha. rewrite (N1 a Ha). apply Hwf; [intros ? ?; reflexivity|exact Hzz|exact Ha]. }
  assert (Hplan' : robust_plan c par' (policy' c par (pol c pt) (zp c pt) law 0) (zpol' c par (pol c pt) (zp c pt) zlaw 0)).
  { apply shift_plan; auto. apply one_covers; assumption. }
  assert (Hprev' : agree (n_u (mdl c)) (pUprev par') (pol c pt [])) by (rewrite to_plan_first; exact Hprev).
  assert (Hs' : slack_plan c par' (policy' c par (pol c pt) (zp c pt) law 0) (zpol' c par (pol c pt) (zp c pt) zlaw 0) (slack' c slack)).
  { eapply sh_slack; eassumption. }
  assert (Hcost : plan_cost c par' r (policy' c par (pol c pt) (zp c pt) law 0) (zpol' c par (pol c pt) (zp c pt) zlaw 0) (slack' c slack)
     + step_cost c r (pX0 par) (pol c pt []) (pUprev par) (pTvp par 0%nat) (pP par 0%nat) <= plan_cost c par r (pol c pt) (zp c pt) slack).
  { eapply sh_cost; eassumption. }
  rewrite to_plan_first in Hcost. intros pt' v' (_ & _ & Hbest).
  destruct (point_of_plan c par' r Hok Hpos Hd Hwf Hwu Hnl Hcon Hnr Hr Hxu _ _ _ Hplan' Hs') as (pt2 & Hf2 & _ & Ho2).
  specialize (Hbest pt2 _ Hf2 Ho2). lra.
Qed.
Print Assumptions C92_cost_decreases.

(** ** A configuration: x+ = x + u + p with the single parameter value 1/2, stage cost x^2 + (u + p)^2, terminal cost 2 x^2 on
    [-1/2, 1/2], law u = -x - p, a soft constraint x <= 1. *)
Definition de_mdl : dyn_model :=
  {| n_x := 1; n_u := 1; n_z := 0; rhs := fun x u _ _ p _ => fun _ => x 0%nat + u 0%nat + p 0%nat; alg := fun _ _ _ _ _ _ => vzero |}.
Definition de_nl : list nl_con := [ {| nl_g := fun x _ _ _ _ => x 0%nat; nl_ub := Some 1; nl_soft := Some (Some 3, 7) |} ].
Definition de_cfg (one : bool) : cfg :=
  {| N := 2; nr := 0; ncomb := 1; open_loop := false; single_slack := one; chk_colloc := true;
     nl_chk_colloc := false; mdl := de_mdl; sx := fun _ => 2; su := fun _ => 4; sz := fun _ => 1;
     disc := Discrete; nlc := de_nl; lterm := fun x u _ _ p => x 0%nat ^ 2 + (u 0%nat + p 0%nat) ^ 2; mterm := fun x _ _ => 2 * x 0%nat ^ 2; rterm := RDefault (fun _ => 0);
     xlb := fun _ => Some (-3); xub := fun _ => Some 3; ulb := fun _ => Some (-2); uub := fun _ => Some 2;
     zlb := fun _ => None; zub := fun _ => None; tlb := fun _ => Some (-1/2); tub := fun _ => Some (1/2) |}.
Definition de_par (x u : R) : params := {| pX0 := fun _ => x; pTvp := fun _ => vzero; pP := fun _ _ => 1/2; pUprev := fun _ => u |}.
Example C92_nonvacuous : forall one,
  let c := de_cfg one in
  cfg_ok c /\ scaling_pos c /\ disc c = Discrete /\ wf_model (mdl c) /\ wf_inputs (mdl c) /\ alg_unique (mdl c) /\ nl_chk_colloc c = false /\
  (forall con, In con (nlc c) -> xu_constraint (mdl c) con) /\ (nr c < N c)%nat /\ rterm c = RDefault (fun _ => 0) /\ xu_cost c /\
  violations_ok c /\ penalties_ok c /\ one_scenario c /\
  (exists pt, feasible c (de_par 2 0) pt /\ has_objective c (de_par 2 0) pt (if one then 83/4 else 55/4) /\ agree (n_u (mdl c)) (physU c pt 0 0) (fun _ => -2)) /\
  terminal_invariant c vzero (fun _ _ => 1/2) (fun x _ => - x 0%nat - 1/2) (fun _ _ => vzero) /\
  terminal_decrease c (fun _ => 0) vzero vzero (fun _ => 1/2) (fun x _ => - x 0%nat - 1/2) (fun _ _ => vzero).
Proof.
  intros one c.
  assert (A1 : cfg_ok c) by (split; [cbn; lia|]; split; [cbn; lia|]; split; [intros a _; cbn; lra|exact I]).
  assert (A2 : scaling_pos c) by (split; [|split]; intros a _; cbn; lra).
  assert (A3 : wf_model (mdl c)).
  { intros x x' u z z' tvp p w Hx Hz. split; intros a Ha; cbn in *; [rewrite (Hx 0%nat) by lia; reflexivity|lia]. }
  assert (A4 : wf_inputs (mdl c)).
  { intros x u u' z tvp p w Hu. split; intros a Ha; cbn in *; [rewrite (Hu 0%nat) by lia; reflexivity|lia]. }
  assert (A5 : forall con, In con (nlc c) -> xu_constraint (mdl c) con).
  { intros con [<-|[]] x x' u u' z z' tvp p Hx Hu; cbn in *; rewrite (Hx 0%nat) by lia; reflexivity. }
  assert (A6 : xu_cost c).
  { split; [intros x x' u u' z z' tvp p Hx Hu|intros x x' tvp p Hx]; cbn in *; rewrite (Hx 0%nat) by lia; [rewrite (Hu 0%nat) by lia|]; reflexivity. }
  assert (A7 : one_scenario c) by (left; reflexivity).
  split; [exact A1|]. split; [exact A2|]. split; [reflexivity|]. split; [exact A3|]. split; [exact A4|].
  split; [intros x u tvp p z z' _ _ a Ha; cbn in Ha; lia|]. split; [reflexivity|]. split; [exact A5|]. split; [cbn; lia|]. split; [reflexivity|].
  split; [exact A6|].
  split; [intros con v pen [<-|[]] E; cbn in E; injection E as <- _; lra|].
  split; [intros con v pen [<-|[]] E; cbn in E; injection E as _ <-; lra|]. split; [exact A7|].
  split; [|split].
  - set (policy := fun h : list nat => match h with [] => fun _ : nat => -2 | _ => fun _ : nat => -1 end). set (zpol := fun _ : list nat => vzero).
    set (slack := fun (h : list nat) (_ : nat) => match h with [] => 1 | _ => if one then 1 else 0 end).
    destruct (proj2 (C91_objective_is_plan_cost_partial c (de_par 2 0) (fun _ => 0) (fun _ => -2) (if one then 83/4 else 55/4) A1 A2 eq_refl A3 A4 eq_refl A5 ltac:(cbn; lia) eq_refl A6)) as (pt & F & O & U).
    2:{ exists pt. split; [exact F|]. split; [exact O|exact U]. }
    exists policy, zpol, slack.
    assert (B : forall ps k, realisation c ps -> ps k = 0%nat) by (intros; apply (real_zeros c A1 A7); assumption).
    split; [|split; [|split]].
    + split; [discriminate|]. intros ps Hps. cbv zeta. unfold inside. split; [|split; [|split; [|split; [|split]]]].
      * intros k a _ Ha. cbn in Ha. lia.
      * intros k a Hk Ha. destruct k as [|[|k]]; [| |cbn in Hk; lia]; cbn; lra.
      * intros k a Hk Ha. destruct k as [|[|k]]; [lia| |cbn in Hk; lia]; cbn; lra.
      * intros a Ha. cbn; lra.
      * intros k a _ Ha. cbn in Ha. lia.
      * intros k con Hk [<-|[]]; (destruct k as [|[|k]]; [| |cbn in Hk; lia]); unfold respects; cbn; [exists 1|exists 0]; cbn; lra.
    + split; [intros Es h h' a _; cbn in Es; unfold slack; rewrite Es; destruct h, h'; reflexivity|]. intros ps Hps u z p x k i con vmax pen Hk Hi Es.
      destruct i as [|[|i]]; try discriminate Hi. injection Hi as <-. cbn in Es. injection Es as <- <-. unfold x, u, p, z.
      destruct k as [|[|k]]; [| |cbn in Hk; lia]; cbn; destruct one; lra.
    + unfold plan_cost, scenario_cost, total, rate_penalty, total. destruct one; cbn; lra.
    + intros a _. reflexivity.
  - split; [discriminate|]. intros x Hx. pose proof (Hx 0%nat ltac:(cbn; lia)) as Hx0. unfold inside in *. cbn in Hx0.
    split; [|split; [|intros i [Hi _]; split; [|split; [|split]]]].
    + intros a Ha. cbn in Ha. replace a with 0%nat by lia. cbn. lra.
    + intros a Ha. cbn. lra.
    + intros a Ha. cbn in Ha. lia.
    + intros a Ha. cbn in Ha. lia.
    + intros con [<-|[]]; unfold respects; cbn. exists 0. cbn. lra.
    + intros a Ha. unfold inside. cbn. lra.
  - intros x up Hx _. pose proof (Hx 0%nat ltac:(cbn; lia)) as Hx0. unfold inside in Hx0. cbn in Hx0. split.
    + intros con [<-|[]]. cbn. lra.
    + unfold step_cost, rate_penalty, total. cbn. lra.
Qed.
