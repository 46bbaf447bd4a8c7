(** * C89, C90: the robust problem has a solution exactly if there is a robust plan; recursive feasibility. *)
From Coq Require Import Reals Lra Lia.
From Verif Require Import Base TreeModel TreeSpec TreeProofs TreeProofs2 NlpModel NlpSpec NlpProofs NlpProofs2 NlpProofs3 NlpProofs4 NlpProps RobustProps PlanSpec PlanProofs PlanProofs2.
Local Open Scope R_scope.

(** The problem handed to the solver can be solved with first input u0 if and only if there is a plan that starts
    with u0 and is robust.  Neither direction mentions tree nodes, scaling, slack variables or bounds on unused variables. *)
Theorem C89_feasible_iff_robust_plan :
  forall c par u0, cfg_ok c -> scaling_pos c -> disc c = Discrete -> wf_model (mdl c) -> wf_inputs (mdl c) -> nl_chk_colloc c = false ->
  violations_ok c -> (forall con, In con (nlc c) -> xu_constraint (mdl c) con) ->
  ((exists pt, feasible c par pt /\ agree (n_u (mdl c)) (physU c pt 0 0) u0) <->
   (exists policy zpol, robust_plan c par policy zpol /\ agree (n_u (mdl c)) (policy []) u0)).
Proof.
  intros c par u0 Hok Hpos Hd Hwf Hwu Hnl Hvio Hcon. split.
  - intros (pt & Hf & Hu). exists (pol c pt), (zp c pt). split.
    + apply to_plan; assumption.
    + rewrite to_plan_first. exact Hu.
  - intros (policy & zpol & Hp & Hu). destruct (to_point c par policy zpol Hok Hpos Hd Hwf Hwu Hnl Hcon Hvio Hp) as (Hf & E).
    eexists. split; [exact Hf|]. intros a Ha. rewrite (E a Ha). apply Hu. exact Ha.
Qed.
Print Assumptions C89_feasible_iff_robust_plan.

(** If the terminal bounds are robustly control invariant and the tree covers every sequence of parameter rows, then
    after every step in which the plant has one of the rows the next problem is feasible again. *)
Theorem C90_recursive_feasibility :
  forall c par par' pt i z law zlaw, cfg_ok c -> scaling_pos c -> disc c = Discrete -> wf_model (mdl c) -> wf_inputs (mdl c) ->
  alg_unique (mdl c) -> nl_chk_colloc c = false -> violations_ok c -> (forall con, In con (nlc c) -> xu_constraint (mdl c) con) ->
  covers_all c -> feasible c par pt -> admissible c i ->
  (forall a, (a < n_z (mdl c))%nat -> alg (mdl c) (pX0 par) (physU c pt 0 0) z (pTvp par 0%nat) (pP par i) vzero a = 0) ->
  terminal_invariant c (pTvp par (N c)) (pP par) law zlaw ->
  next_problem c par par' (rhs (mdl c) (pX0 par) (physU c pt 0 0) z (pTvp par 0%nat) (pP par i) vzero) ->
  exists pt', feasible c par' pt'.
Proof.
  intros c par par' pt i z law zlaw Hok Hpos Hd Hwf Hwu Huq Hnl Hvio Hcon Hcov Hf Hi Hz Hterm Hnext.
  assert (HN : (1 <= N c)%nat) by apply Hok.
  pose proof (to_plan c par pt Hok Hpos Hd Hwf Hnl Hcon Hf) as Hplan.
  assert (Hr : realisation c (fun _ => i)).
  { destruct Hi as [Hi Hi0]. split; [intros; exact Hi|]. intros k Hk. destruct (Nat.eqb_spec (nr c) 0); [auto|reflexivity]. }
  pose proof (proj2 Hplan _ Hr) as HR. cbv zeta in HR. destruct HR as (HA & _).
  assert (Hzz : agree (n_z (mdl c)) z (zp c pt [i])).
  { apply (Huq (pX0 par) (physU c pt 0 0) (pTvp par 0%nat) (pP par i)); [exact Hz|]. intros a Ha.
    specialize (HA 0%nat a ltac:(lia) Ha). cbn [plant seq map Nat.add] in HA. rewrite to_plan_first in HA. exact HA. }
  assert (Hplan' : robust_plan c par' (policy' c par (pol c pt) (zp c pt) law i) (zpol' c par (pol c pt) (zp c pt) zlaw i)).
  { apply shift_plan; auto. rewrite to_plan_first. destruct Hnext as (H1 & H2 & H3). split; [|split; assumption].
    intros a Ha. rewrite (H1 a Ha). apply Hwf; [intros ? ?; reflexivity|exact Hzz|exact Ha]. }
  destruct (to_point c par' _ _ Hok Hpos Hd Hwf Hwu Hnl Hcon Hvio Hplan') as (Hf' & _). eexists. exact Hf'.
Qed.
Print Assumptions C90_recursive_feasibility.

(** ** A configuration: x+ = x + u + p, p = -1/2 or 1/2, -3 <= x <= 3, -1 <= u <= 1, terminal bounds -1/2 <= x <= 1/2, a
    hard and a soft constraint. *)
Definition pl_mdl : dyn_model :=
  {| n_x := 1; n_u := 1; n_z := 0; rhs := fun x u _ _ p _ => fun _ => x 0%nat + u 0%nat + p 0%nat; alg := fun _ _ _ _ _ _ => vzero |}.
Definition pl_nl : list nl_con :=
  [ {| nl_g := fun x u _ _ _ => x 0%nat + u 0%nat; nl_ub := Some 2; nl_soft := None |};
    {| nl_g := fun x _ _ _ _ => x 0%nat; nl_ub := Some 1; nl_soft := Some (Some 1, 7) |} ].
Definition pl_cfg (n r : nat) (m : dyn_model) (xb tb ub : R) (l : list nl_con) : cfg :=
  {| N := n; nr := r; ncomb := 2; open_loop := false; single_slack := false; chk_colloc := true;
     nl_chk_colloc := false; mdl := m; sx := fun _ => 2; su := fun _ => 4; sz := fun _ => 1;
     disc := Discrete; nlc := l; lterm := fun _ _ _ _ _ => 0; mterm := fun _ _ _ => 0; rterm := RDefault (fun _ => 0);
     xlb := fun _ => Some (- xb); xub := fun _ => Some xb; ulb := fun _ => Some (- ub); uub := fun _ => Some ub;
     zlb := fun _ => None; zub := fun _ => None; tlb := fun _ => Some (- tb); tub := fun _ => Some tb |}.
Definition pl_p (i : nat) : vec := fun _ => match i with O => -1/2 | _ => 1/2 end.
Definition pl_par (x : R) : params := {| pX0 := fun _ => x; pTvp := fun _ => vzero; pP := pl_p; pUprev := vzero |}.
Lemma pl_ok n r m xb tb ub l : (1 <= n)%nat -> cfg_ok (pl_cfg n r m xb tb ub l) /\ scaling_pos (pl_cfg n r m xb tb ub l).
Proof.
  intros Hn. split.
  - split; [exact Hn|]. split; [cbn; lia|]. split; [intros a _; cbn; lra|exact I].
  - split; [|split]; intros a _; cbn; lra.
Qed.

Example C89_nonvacuous :
  let c := pl_cfg 2 2 pl_mdl 3 (1/2) 1 pl_nl in
  cfg_ok c /\ scaling_pos c /\ disc c = Discrete /\ wf_model (mdl c) /\ wf_inputs (mdl c) /\ nl_chk_colloc c = false /\ violations_ok c /\
  (forall con, In con (nlc c) -> xu_constraint (mdl c) con) /\
  robust_plan c (pl_par (3/2)) (fun h => match h with [] => fun _ => -1 | i :: _ => fun _ => - (1/2 + pl_p i 0%nat) end) (fun _ => vzero).
Proof.
  intros c. destruct (pl_ok 2 2 pl_mdl 3 (1/2) 1 pl_nl ltac:(lia)) as [H1 H2]. split; [exact H1|]. split; [exact H2|]. split; [reflexivity|].
  split; [|split; [|split; [reflexivity|split; [|split]]]].
  - intros x x' u z z' tvp p w Hx Hz. split; intros a Ha; cbn in *; [rewrite (Hx 0%nat) by lia; reflexivity|lia].
  - intros x u u' z tvp p w Hu. split; intros a Ha; cbn in *; [rewrite (Hu 0%nat) by lia; reflexivity|lia].
  - intros con v pen [<-|[<-|[]]]; cbn; [discriminate|]. intros E. injection E as <- _. lra.
  - intros con [<-|[<-|[]]] x x' u u' z z' tvp p Hx Hu; cbn in *; rewrite (Hx 0%nat) by lia; [rewrite (Hu 0%nat) by lia|]; reflexivity.
  - split; [discriminate|]. intros ps [Hp _]. cbn in Hp.
    assert (B : forall k, (k < 2)%nat -> pl_p (ps k) 0%nat = -1/2 \/ pl_p (ps k) 0%nat = 1/2).
    { intros k Hk. specialize (Hp k Hk). destruct (ps k) as [|[|q]]; cbn; [left|right|lia]; reflexivity. }
    pose proof (B 0%nat ltac:(lia)) as B0. pose proof (B 1%nat ltac:(lia)) as B1.
    unfold inside. split; [|split; [|split; [|split; [|split]]]].
    + intros k a _ Ha. cbn in Ha. lia.
    + intros k a Hk Ha. destruct k as [|[|k]]; [| |cbn in Hk; lia]; cbn -[pl_p]; lra.
    + intros k a Hk Ha. destruct k as [|[|k]]; [lia| |cbn in Hk; lia]; cbn -[pl_p]; lra.
    + intros a Ha. cbn -[pl_p]; lra.
    + intros k a _ Ha. cbn in Ha. lia.
    + intros k con Hk [<-|[<-|[]]]; (destruct k as [|[|k]]; [| |cbn in Hk; lia]); unfold respects; cbn -[pl_p]; try lra.
      * exists 1. cbn. lra.
      * exists 0. cbn. lra.
Qed.

Example C90_nonvacuous :
  let c := pl_cfg 2 2 pl_mdl 3 (1/2) 1 pl_nl in
  alg_unique (mdl c) /\ covers_all c /\ (exists pt, feasible c (pl_par (3/2)) pt) /\ admissible c 0 /\ admissible c 1 /\
  terminal_invariant c vzero pl_p (fun x _ => - x 0%nat) (fun _ _ => vzero) /\
  (forall x, next_problem c (pl_par (3/2)) (pl_par (x 0%nat)) x).
Proof.
  intros c. split; [|split; [|split; [|split; [|split; [|split]]]]].
  - intros x u tvp p z z' _ _ a Ha. cbn in Ha. lia.
  - right. right. cbn. lia.
  - destruct C89_nonvacuous as (H1 & H2 & H3 & H4 & H5 & H6 & H7 & H8 & H9).
    destruct (proj2 (C89_feasible_iff_robust_plan c (pl_par (3/2)) (fun _ => -1) H1 H2 H3 H4 H5 H6 H7 H8)) as (pt & Hf & _).
    + do 2 eexists. split; [exact H9|]. intros a _. reflexivity.
    + exists pt. exact Hf.
  - split; [cbn; lia|discriminate].
  - split; [cbn; lia|discriminate].
  - split; [discriminate|]. intros x Hx. pose proof (Hx 0%nat ltac:(cbn; lia)) as Hx0. unfold inside in *. cbn in Hx0.
    split; [|split; [|intros i [Hi _]; split; [|split; [|split]]]].
    + intros a Ha. cbn in Ha. replace a with 0%nat by lia. cbn. lra.
    + intros a Ha. cbn. lra.
    + intros a Ha. cbn in Ha. lia.
    + intros a Ha. cbn in Ha. lia.
    + intros con [<-|[<-|[]]]; unfold respects; cbn; [lra|]. exists 0. cbn. lra.
    + intros a Ha. unfold inside. cbn. destruct i; cbn; lra.
  - intros x. split; [|split]; try reflexivity. intros a Ha. cbn in Ha. replace a with 0%nat by lia. reflexivity.
Qed.

(** With a robust horizon shorter than the horizon (the usual setting) the statement is false: the plan assumes that
    the parameters stay constant after the robust horizon. *)
Definition sw_rhs (x p : R) : R :=
  if Req_EM_T x 0 then 0 else if Req_EM_T x 1 then 2 + (p + 1/2) else if Req_EM_T x 2 then 10 * (p + 1/2)
  else if Req_EM_T x 3 then 10 * (1/2 - p) else x.
Definition sw_mdl : dyn_model :=
  {| n_x := 1; n_u := 1; n_z := 0; rhs := fun x _ _ _ p _ => fun _ => sw_rhs (x 0%nat) (p 0%nat); alg := fun _ _ _ _ _ _ => vzero |}.
Lemma sw_0 p : sw_rhs 0 p = 0.
Proof. unfold sw_rhs. destruct (Req_EM_T 0 0); lra. Qed.
Lemma sw_1 p : sw_rhs 1 p = 2 + (p + 1/2).
Proof. unfold sw_rhs. destruct (Req_EM_T 1 0); [lra|]. destruct (Req_EM_T 1 1); lra. Qed.
Lemma sw_2 p : sw_rhs 2 p = 10 * (p + 1/2).
Proof. unfold sw_rhs. destruct (Req_EM_T 2 0); [lra|]. destruct (Req_EM_T 2 1); [lra|]. destruct (Req_EM_T 2 2); lra. Qed.
Lemma sw_3 p : sw_rhs 3 p = 10 * (1/2 - p).
Proof. unfold sw_rhs. destruct (Req_EM_T 3 0); [lra|]. destruct (Req_EM_T 3 1); [lra|]. destruct (Req_EM_T 3 2); [lra|]. destruct (Req_EM_T 3 3); lra. Qed.

Theorem C90_short_robust_horizon_refuted :
  exists c par par' pt i z law zlaw, cfg_ok c /\ scaling_pos c /\ disc c = Discrete /\ wf_model (mdl c) /\ wf_inputs (mdl c) /\
  alg_unique (mdl c) /\ nl_chk_colloc c = false /\ violations_ok c /\ (forall con, In con (nlc c) -> xu_constraint (mdl c) con) /\
  N c = 2%nat /\ nr c = 1%nat /\ ncomb c = 2%nat /\ feasible c par pt /\ admissible c i /\
  (forall a, (a < n_z (mdl c))%nat -> alg (mdl c) (pX0 par) (physU c pt 0 0) z (pTvp par 0%nat) (pP par i) vzero a = 0) /\
  terminal_invariant c (pTvp par (N c)) (pP par) law zlaw /\
  next_problem c par par' (rhs (mdl c) (pX0 par) (physU c pt 0 0) z (pTvp par 0%nat) (pP par i) vzero) /\
  ~ exists pt', feasible c par' pt'.
Proof.
  set (c := pl_cfg 2 1 sw_mdl 5 0 1 []).
  destruct (pl_ok 2 1 sw_mdl 5 0 1 [] ltac:(lia)) as [Hok Hpos]. fold c in Hok, Hpos.
  assert (Hwf : wf_model (mdl c)).
  { intros x x' u z z' tvp p w Hx Hz. split; intros a Ha; cbn in *; [rewrite (Hx 0%nat) by lia; reflexivity|lia]. }
  assert (Hwu : wf_inputs (mdl c)) by (intros x u u' z tvp p w Hu; split; intros a Ha; cbn in *; reflexivity).
  assert (Hvio : violations_ok c) by (intros con v pen []).
  assert (Hcon : forall con, In con (nlc c) -> xu_constraint (mdl c) con) by (intros con []).
  assert (Hplan : robust_plan c (pl_par 1) (fun _ => vzero) (fun _ => vzero)).
  { split; [reflexivity|]. intros ps [Hp He]. pose proof (He 1%nat ltac:(cbn; lia)) as E1. cbn in E1. pose proof (Hp 0%nat ltac:(cbn; lia)) as P0. cbn in P0.
    unfold inside. split; [|split; [|split; [|split; [|split]]]].
    - intros k a _ Ha. cbn in Ha. lia.
    - intros k a _ _. cbn. unfold vzero. lra.
    - intros k a Hk Ha. replace k with 1%nat by (cbn in Hk; lia). cbn. rewrite sw_1. destruct (ps 0%nat); cbn; lra.
    - intros a Ha. cbn. rewrite sw_1, E1. destruct (ps 0%nat); cbn; [replace (2 + (-1/2 + 1/2)) with 2 by lra; rewrite sw_2|replace (2 + (1/2 + 1/2)) with 3 by lra; rewrite sw_3]; lra.
    - intros k a _ Ha. cbn in Ha. lia.
    - intros k con _ []. }
  destruct (to_point c (pl_par 1) _ _ Hok Hpos eq_refl Hwf Hwu eq_refl Hcon Hvio Hplan) as (Hf & _).
  exists c, (pl_par 1), (pl_par 2), (point_of c (pl_par 1) (fun _ => vzero) (fun _ => vzero)), 0%nat, vzero, (fun _ => vzero), (fun _ _ => vzero).
  split; [exact Hok|]. split; [exact Hpos|]. split; [reflexivity|]. split; [exact Hwf|]. split; [exact Hwu|].
  split; [intros x u tvp p z z' _ _ a Ha; cbn in Ha; lia|]. split; [reflexivity|]. split; [exact Hvio|]. split; [exact Hcon|].
  split; [reflexivity|]. split; [reflexivity|]. split; [reflexivity|]. split; [exact Hf|]. split; [split; [cbn; lia|discriminate]|].
  split; [intros a Ha; cbn in Ha; lia|]. split; [|split].
  - split; [reflexivity|]. intros x Hx. pose proof (Hx 0%nat ltac:(cbn; lia)) as Hx0. unfold inside in *. cbn in Hx0.
    assert (E : x 0%nat = 0) by lra.
    split; [|split; [|intros i [Hi _]; split; [|split; [|split]]]].
    + intros a Ha. cbn in Ha. replace a with 0%nat by lia. cbn. lra.
    + intros a Ha. cbn. unfold vzero. lra.
    + intros a Ha. cbn in Ha. lia.
    + intros a Ha. cbn in Ha. lia.
    + intros con [].
    + intros a Ha. unfold inside. cbn. rewrite E, sw_0. lra.
  - split; [|split]; try reflexivity. intros a Ha. cbn. rewrite sw_1. lra.
  - intros (pt' & Hf'). pose proof (to_plan c (pl_par 2) pt' Hok Hpos eq_refl Hwf eq_refl Hcon Hf') as [_ Hp'].
    assert (Hr : realisation c (fun _ => 1%nat)) by (split; cbn; [lia|reflexivity]).
    specialize (Hp' _ Hr). cbv zeta in Hp'. destruct Hp' as (_ & _ & Hb & _). specialize (Hb 1%nat 0%nat ltac:(cbn; lia) ltac:(cbn; lia)).
    unfold inside in Hb. cbn in Hb. rewrite sw_2 in Hb. lra.
Qed.
Print Assumptions C90_short_robust_horizon_refuted.
