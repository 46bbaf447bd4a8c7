(** * C95: with a continuous-time model the problem handed to the solver can be solved exactly if there is a robust plan whose
    steps are collocation intervals. *)
From Coq Require Import Reals Lra Lia.
From Verif Require Import Base TreeModel TreeSpec NlpModel NlpSpec NlpProofs NlpProofs4 NlpProps RobustProps PlanSpec PlanProofs PlanProps CplanSpec CplanProofs.
Local Open Scope R_scope.

(** Neither direction mentions tree nodes, scaling, the storage order of the collocation points, slack variables or bounds on
    unused variables. *)
Theorem C95_feasible_iff_collocation_plan :
  forall c deg ni h C D par u0, cfg_ok c -> scaling_pos c -> disc c = Colloc deg ni h C D -> wf_model (mdl c) -> wf_inputs (mdl c) ->
  nl_chk_colloc c = false -> violations_ok c -> (forall con, In con (nlc c) -> xu_constraint (mdl c) con) ->
  ((exists pt, feasible c par pt /\ agree (n_u (mdl c)) (physU c pt 0 0) u0) <->
   (exists policy state X Z, robust_collocation_plan c deg ni h C D par policy state X Z /\ agree (n_u (mdl c)) (policy []) u0)).
Proof.
  intros c deg ni h C D par u0 Hok Hpos Hd Hwf Hwu Hnl Hvio Hcon. split.
  - intros (pt & Hf & Hu). exists (pol c pt), (stp c pt), (Xp c pt deg), (Zp c pt deg). split.
    + apply to_cplan; assumption.
    + rewrite to_plan_first. exact Hu.
  - intros (policy & state & X & Z & Hp & Hu).
    destruct (to_cpoint c par deg ni h C D policy state X Z Hok Hpos Hd Hwf Hwu Hnl Hcon Hvio Hp) as (Hf & E).
    eexists. split; [exact Hf|]. intros a Ha. rewrite (E a Ha). apply Hu. exact Ha.
Qed.
Print Assumptions C95_feasible_iff_collocation_plan.

(** ** dx/dt = u + p, 0 = z - x; two finite elements of length 1/2, each integrated by one Radau point; the bounds and
    constraints of the example of C89, checked at all points. *)
Definition cp_mdl : dyn_model :=
  {| n_x := 1; n_u := 1; n_z := 1; rhs := fun x u _ _ p _ => fun _ => u 0%nat + p 0%nat; alg := fun x _ z _ _ _ => fun _ => z 0%nat - x 0%nat |}.
Definition cp_C (r j : nat) : R := match r with O => -1 | _ => 1 end.
Definition cp_D (r : nat) : R := match r with O => 0 | _ => 1 end.
Definition cp_cfg : cfg :=
  {| N := 2; nr := 2; ncomb := 2; open_loop := false; single_slack := false; chk_colloc := true;
     nl_chk_colloc := false; mdl := cp_mdl; sx := fun _ => 2; su := fun _ => 4; sz := fun _ => 3;
     disc := Colloc 1 2 (1/2) cp_C cp_D; nlc := pl_nl; lterm := fun _ _ _ _ _ => 0; mterm := fun _ _ _ => 0; rterm := RDefault (fun _ => 0);
     xlb := fun _ => Some (-3); xub := fun _ => Some 3; ulb := fun _ => Some (-1); uub := fun _ => Some 1;
     zlb := fun _ => Some (-2); zub := fun _ => Some 2; tlb := fun _ => Some (-1/2); tub := fun _ => Some (1/2) |}.
Definition cp_pol (l : list nat) : vec := match l with [] => fun _ => -1 | i :: _ => fun _ => - (1/2 + pl_p i 0%nat) end.
Definition cp_st (l : list nat) : vec :=
  match l with [] => fun _ => 3/2 | [i] => fun _ => 1/2 + pl_p i 0%nat | _ :: j :: _ => fun _ => pl_p j 0%nat end.
Definition cp_X (l : list nat) (i j : nat) : vec :=
  fun _ => cp_st (removelast l) 0%nat + INR (i + j) * ((cp_pol (removelast l) 0%nat + pl_p (last l 0%nat) 0%nat) / 2).

Example C95_nonvacuous :
  cfg_ok cp_cfg /\ scaling_pos cp_cfg /\ wf_model (mdl cp_cfg) /\ wf_inputs (mdl cp_cfg) /\ nl_chk_colloc cp_cfg = false /\ violations_ok cp_cfg /\
  (forall con, In con (nlc cp_cfg) -> xu_constraint (mdl cp_cfg) con) /\
  robust_collocation_plan cp_cfg 1 2 (1/2) cp_C cp_D (pl_par (3/2)) cp_pol cp_st cp_X cp_X.
Proof.
  assert (Hwf : wf_model cp_mdl).
  { intros x x' u z z' tvp p w Hx Hz. split; intros a Ha; cbn in *; [reflexivity|rewrite (Hx 0%nat), (Hz 0%nat) by lia; reflexivity]. }
  split; [|split; [|split; [exact Hwf|split; [|split; [reflexivity|split; [|split]]]]]].
  - split; [cbn; lia|]. split; [cbn; lia|]. split; [intros a _; cbn; lra|]. cbn. split; [lia|]. split; [lia|exact Hwf].
  - split; [|split]; intros a _; cbn; lra.
  - intros x u u' z tvp p w Hu. split; intros a Ha; cbn in *; [rewrite (Hu 0%nat) by lia; reflexivity|reflexivity].
  - intros con v pen [<-|[<-|[]]]; cbn; [discriminate|]. intros E. injection E as <- _. lra.
  - intros con [<-|[<-|[]]] x x' u u' z z' tvp p Hx Hu; cbn in *; rewrite (Hx 0%nat) by lia; [rewrite (Hu 0%nat) by lia|]; reflexivity.
  - split; [discriminate|]. split; [intros a _; reflexivity|]. intros ps [Hp _] k Hk. cbn in Hp.
    assert (B : forall k, (k < 2)%nat -> pl_p (ps k) 0%nat = -1/2 \/ pl_p (ps k) 0%nat = 1/2).
    { intros k' Hk'. specialize (Hp k' Hk'). destruct (ps k') as [|[|q]]; cbn; [left|right|lia]; reflexivity. }
    pose proof (B 0%nat ltac:(lia)) as B0. pose proof (B 1%nat ltac:(lia)) as B1.
    assert (IJ : forall i j, (i < 2)%nat -> (j <= 1)%nat -> INR (i + j) = 0 \/ INR (i + j) = 1 \/ INR (i + j) = 2).
    { intros i j Hi Hj. assert (i + j = 0 \/ i + j = 1 \/ i + j = 2)%nat as [-> | [-> | ->]] by lia; cbn; lra. }
    assert (HK : (k = 0 \/ k = 1)%nat) by (cbn in Hk; lia).
    unfold inside. destruct HK as [-> | ->]; cbn -[pl_p INR Nat.add cp_X rsum] in *; cbn [Nat.add seq map] in *.
    all: split; [|split; [|split; [|split; [|split; [|split]]]]].
    all: try (intros; cbn -[pl_p INR] in *; lra).
    all: try (intros; unfold cp_X; cbn -[pl_p INR] in *; cbn [INR]; lra).
    all: try (intros; lia).
    + split; [|split; [|split; [|split]]]; unfold cp_X; cbn -[pl_p INR Nat.add].
      * intros a _. cbn. lra.
      * intros; lra.
      * intros i j a Hi Hj Ha. assert (j = 1)%nat as -> by lia. assert (i = 0 \/ i = 1)%nat as [-> | ->] by lia; cbn -[pl_p]; lra.
      * intros i a Hi Ha. assert (i = 0)%nat as -> by lia. cbn -[pl_p]. lra.
      * intros a Ha. cbn -[pl_p]. lra.
    + intros con [<-|[<-|[]]]; unfold respects; cbn -[pl_p]; try lra. exists 1. cbn. lra.
    + intros _ i j Hi Hj. pose proof (IJ i j Hi Hj). unfold cp_X. cbn -[pl_p INR Nat.add]. split; intros; destruct H as [-> | [-> | ->]]; lra.
    + split; [|split; [|split; [|split]]]; unfold cp_X; cbn -[pl_p INR Nat.add].
      * intros a _. cbn. lra.
      * intros; lra.
      * intros i j a Hi Hj Ha. assert (j = 1)%nat as -> by lia. assert (i = 0 \/ i = 1)%nat as [-> | ->] by lia; cbn -[pl_p]; lra.
      * intros i a Hi Ha. assert (i = 0)%nat as -> by lia. cbn -[pl_p]. lra.
      * intros a Ha. cbn -[pl_p]. lra.
    + intros con [<-|[<-|[]]]; unfold respects; cbn -[pl_p]; try lra. exists 0. cbn. lra.
    + intros _ i j Hi Hj. pose proof (IJ i j Hi Hj). unfold cp_X. cbn -[pl_p INR Nat.add]. split; intros; destruct H as [-> | [-> | ->]]; lra.
Qed.
