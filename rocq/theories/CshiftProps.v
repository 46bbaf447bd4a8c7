(** * C97: recursive feasibility with continuous-time models. *)
From Coq Require Import Reals Lra Lia.
From Verif Require Import Base TreeModel TreeSpec NlpModel NlpSpec NlpProofs NlpProofs4 NlpProps RobustProps PlanSpec PlanProofs PlanProofs2 PlanProps CplanSpec CplanProofs CplanProps CshiftSpec CshiftProofs.
Local Open Scope R_scope.

(** Like C90: if the terminal bounds are robustly control invariant and the tree covers every sequence of parameter rows, the
    next problem is feasible again after every interval in which the plant has one of the rows; with cons_check_colloc_points only
    if the points of the last interval, to which the code applies no bounds, happen to respect the state bounds. *)
Theorem C97_recursive_feasibility_partial :
  forall c deg ni h C D par par' pt i X Z x1 law xlaw zlaw goes_to,
  cfg_ok c -> scaling_pos c -> disc c = Colloc deg ni h C D -> wf_model (mdl c) -> wf_inputs (mdl c) -> end_unique (mdl c) deg ni h C D ->
  nl_chk_colloc c = false -> violations_ok c -> (forall con, In con (nlc c) -> xu_constraint (mdl c) con) -> covers_all c ->
  feasible c par pt -> (chk_colloc c = true -> last_interval_inside c pt) -> admissible c i ->
  collocation_interval (mdl c) deg ni h C D (pX0 par) X Z x1 (physU c pt 0 0) (pTvp par 0%nat) (pP par i) ->
  terminal_invariant_collocation c deg ni h C D (pTvp par (N c)) (pP par) law xlaw zlaw goes_to ->
  next_problem c par par' x1 ->
  exists pt', feasible c par' pt'.
Proof.
  intros c deg ni h C D par par' pt i X Z x1 law xlaw zlaw goes_to Hok Hpos Hd Hwf Hwu Huq Hnl Hvio Hcon Hcov Hf Hlast Hi Hint Hterm Hnext.
  assert (HN : (1 <= N c)%nat) by apply Hok. assert (Hc : (1 <= ncomb c)%nat) by apply Hok.
  pose proof (to_cplan c par pt deg ni h C D Hok Hpos Hd Hnl Hcon Hf) as Hplan.
  assert (Hr : realisation c (fun _ => i)).
  { destruct Hi as [Hi Hi0]. split; [intros; exact Hi|]. intros k Hk. destruct (Nat.eqb_spec (nr c) 0); [auto|reflexivity]. }
  pose proof Hplan as (_ & Hini & Hrun). pose proof (Hrun _ Hr 0%nat ltac:(lia)) as HR. cbv zeta in HR. destruct HR as (HR & _).
  cbn [seq map Nat.add] in HR. rewrite to_plan_first in HR.
  assert (HR' : collocation_interval (mdl c) deg ni h C D (pX0 par) (Xp c pt deg [i]) (Zp c pt deg [i]) (stp c pt [i]) (physU c pt 0 0) (pTvp par 0%nat) (pP par i)).
  { destruct HR as (Q0 & Q). split; [|exact Q]. intros a Ha. rewrite (Q0 a Ha). apply Hini. exact Ha. }
  pose proof (Huq _ _ _ _ _ _ _ _ _ _ Hint HR') as Hx1.
  assert (Hl : chk_colloc c = true -> forall ps, realisation c ps -> forall e j a, (e < ni)%nat -> (j <= deg)%nat -> (1 <= e + j)%nat -> (a < n_x (mdl c))%nat ->
    inside (xlb c a) (xub c a) (Xp c pt deg (map ps (seq 0 (N c))) e j a)).
  { intros Hch ps Hps e j a He Hj Hej Ha. unfold Xp. rewrite nodeof_ps, map_length, seq_length by exact Hok.
    destruct ((e =? 0) && (j =? 0))%nat eqn:E0; [apply andb_true_iff in E0 as [E1 E2]; apply Nat.eqb_eq in E1, E2; lia|].
    apply (Hlast Hch); [|rewrite Hd; cbn [ncoll]; nia|exact Ha].
    pose proof (psnode_lt c Hok ps (N c) Hps) as Hw. pose proof (nodes_le_nmax c HN Hc (N c)). unfold width_of in Hw. lia. }
  assert (Hplan' : robust_collocation_plan c deg ni h C D par' (cpolicy' c (pol c pt) (stp c pt) law i) (cstate' c (stp c pt) goes_to i)
                     (cX' c (stp c pt) (Xp c pt deg) xlaw i) (cZ' c (stp c pt) (Zp c pt deg) zlaw i)).
  { apply (shift_cplan c deg ni h C D par par' (pol c pt) (stp c pt) (Xp c pt deg) (Zp c pt deg) law xlaw zlaw goes_to i); auto.
    destruct Hnext as (H1 & H2 & H3). split; [|split; assumption]. intros a Ha. rewrite (H1 a Ha). apply Hx1. exact Ha. }
  destruct (to_cpoint c par' deg ni h C D _ _ _ _ Hok Hpos Hd Hwf Hwu Hnl Hcon Hvio Hplan') as (Hf' & _). eexists. exact Hf'.
Qed.
Print Assumptions C97_recursive_feasibility_partial.

(** ** The example of C95, with law u = -x on the terminal set. *)
Definition cs_x (x : vec) (i e j : nat) : vec := fun _ => x 0%nat + INR (e + j) * ((- x 0%nat + pl_p i 0%nat) / 2).
Example C97_nonvacuous :
  end_unique (mdl cp_cfg) 1 2 (1/2) cp_C cp_D /\ covers_all cp_cfg /\
  (exists pt, feasible cp_cfg (pl_par (3/2)) pt /\ last_interval_inside cp_cfg pt /\ chk_colloc cp_cfg = true /\
     forall i, admissible cp_cfg i -> exists X Z x1,
       collocation_interval (mdl cp_cfg) 1 2 (1/2) cp_C cp_D (pX0 (pl_par (3/2))) X Z x1 (physU cp_cfg pt 0 0) vzero (pl_p i) /\
       next_problem cp_cfg (pl_par (3/2)) (pl_par (x1 0%nat)) x1) /\
  admissible cp_cfg 0 /\ admissible cp_cfg 1 /\
  terminal_invariant_collocation cp_cfg 1 2 (1/2) cp_C cp_D vzero pl_p (fun x _ => - x 0%nat) cs_x cs_x (fun _ i => pl_p i).
Proof.
  assert (IJ : forall i j, (i < 2)%nat -> (j <= 1)%nat -> INR (i + j) = 0 \/ INR (i + j) = 1 \/ INR (i + j) = 2).
  { intros i j Hi Hj. assert (i + j = 0 \/ i + j = 1 \/ i + j = 2)%nat as [-> | [-> | ->]] by lia; cbn; lra. }
  assert (PB : forall i, (i < 2)%nat -> pl_p i 0%nat = -1/2 \/ pl_p i 0%nat = 1/2) by (intros [|[|i]] Hi; cbn; [left|right|lia]; reflexivity).
  split; [|split; [|split; [|split; [|split]]]].
  - intros x0 u tvp p X Z x1 X' Z' x1' (A0 & A1 & A2 & A3 & A4) (B0 & B1 & B2 & B3 & B4) a Ha. cbn in Ha. replace a with 0%nat by lia.
    rewrite (A4 0%nat ltac:(cbn; lia)), (B4 0%nat ltac:(cbn; lia)). cbn.
    pose proof (A0 0%nat ltac:(cbn; lia)) as A00. pose proof (B0 0%nat ltac:(cbn; lia)) as B00.
    pose proof (A2 0%nat 1%nat 0%nat ltac:(lia) ltac:(lia) ltac:(cbn; lia)) as A20. pose proof (A2 1%nat 1%nat 0%nat ltac:(lia) ltac:(lia) ltac:(cbn; lia)) as A21.
    pose proof (B2 0%nat 1%nat 0%nat ltac:(lia) ltac:(lia) ltac:(cbn; lia)) as B20. pose proof (B2 1%nat 1%nat 0%nat ltac:(lia) ltac:(lia) ltac:(cbn; lia)) as B21.
    pose proof (A3 0%nat 0%nat ltac:(lia) ltac:(cbn; lia)) as A30. pose proof (B3 0%nat 0%nat ltac:(lia) ltac:(cbn; lia)) as B30.
    cbn in *. lra.
  - right. right. cbn. lia.
  - destruct C95_nonvacuous as (H1 & H2 & H3 & H4 & H5 & H6 & H7 & H8).
    destruct (to_cpoint cp_cfg (pl_par (3/2)) 1 2 (1/2) cp_C cp_D cp_pol cp_st cp_X cp_X H1 H2 eq_refl H3 H4 H5 H7 H6 H8) as (Hf & Hu).
    exists (cpoint_of cp_cfg (pl_par (3/2)) 1 2 cp_pol cp_st cp_X cp_X). split; [exact Hf|]. split; [|split; [reflexivity|]].
    + intros s q a Hs Hq Ha. unfold cpoint_of. rewrite (cp_x cp_cfg 1 2 cp_pol cp_st cp_X cp_X H2 _ (N cp_cfg) s q a Ha).
      destruct (realised cp_cfg H1 _ _ (clip_lt cp_cfg H1 (N cp_cfg) s)) as (ps & [Hp _] & <-). cbn in Hp.
      pose proof (PB _ (Hp 0%nat ltac:(lia))) as B0. pose proof (PB _ (Hp 1%nat ltac:(lia))) as B1.
      change (N cp_cfg) with 2%nat. cbn [seq map]. unfold inside. cbn in Hq. unfold xat.
      destruct q as [|[|[|[|q]]]]; [| | | |lia]; unfold cp_X; cbn -[pl_p]; lra.
    + intros i [Hi _]. cbn in Hi. exists (cp_X [i]), (cp_X [i]), (cp_st [i]).
      assert (Hr : realisation cp_cfg (fun _ => i)) by (split; [intros; exact Hi|intros; reflexivity]).
      destruct H8 as (_ & _ & H8). pose proof (H8 _ Hr 0%nat ltac:(cbn; lia)) as HR. cbv zeta in HR. destruct HR as ((R0 & R1 & R2 & R3 & R4) & _).
      split.
      * cbn [seq map Nat.add] in *. split; [exact R0|]. split; [exact R1|]. split; [|split; [exact R3|exact R4]].
        intros e j a He Hj Ha. etransitivity; [exact (R2 e j a He Hj Ha)|]. f_equal. apply (H4 (cp_X [i] e j)); [|exact Ha]. intros b Hb. symmetry. apply Hu. exact Hb.
      * split; [|split]; try reflexivity; intros a Ha; cbn in Ha; replace a with 0%nat by lia; reflexivity.
  - split; [cbn; lia|discriminate].
  - split; [cbn; lia|discriminate].
  - split; [discriminate|]. intros x Hx. pose proof (Hx 0%nat ltac:(cbn; lia)) as Hx0. unfold inside in *. cbn in Hx0.
    split; [|split; [|intros i [Hi _]; split; [|split; [|split; [|split]]]]].
    + intros a Ha. cbn in Ha. replace a with 0%nat by lia. cbn. lra.
    + intros a Ha. cbn. lra.
    + cbn in Hi. pose proof (PB i Hi). split; [|split; [|split; [|split]]]; unfold cs_x; cbn -[pl_p INR Nat.add].
      * intros a Ha. assert (a = 0)%nat as -> by lia. cbn. lra.
      * intros; lra.
      * intros e j a He Hj Ha. assert (j = 1)%nat as -> by lia. assert (e = 0 \/ e = 1)%nat as [-> | ->] by lia; cbn -[pl_p]; lra.
      * intros e a He Ha. assert (e = 0)%nat as -> by lia. cbn -[pl_p]. lra.
      * intros a Ha. assert (a = 0)%nat as -> by lia. cbn -[pl_p]. lra.
    + intros a Ha. unfold cs_x. cbn -[pl_p]. lra.
    + intros con [<-|[<-|[]]]; unfold respects; cbn -[pl_p]; [lra|]. exists 0. cbn. lra.
    + intros a Ha. unfold inside. cbn in Hi, Ha. replace a with 0%nat by lia. pose proof (PB i Hi). cbn -[pl_p]. lra.
    + intros _ e j He Hj. cbn in Hi. pose proof (PB i Hi) as HPB. pose proof (IJ e j He Hj) as HIJ. unfold cs_x. cbn -[pl_p INR Nat.add].
      split; intros; destruct HIJ as [-> | [-> | ->]]; lra.
Qed.

(** With cons_check_colloc_points the statement is false: a known disturbance v(t) that takes the state from 1 over 10 to 0 in one
    interval, with bounds -5 <= x <= 5 and terminal bounds 0 <= x <= 0.  The problem in which this interval is the last one is
    feasible, the next one is not. *)
Definition cr_mdl : dyn_model :=
  {| n_x := 1; n_u := 1; n_z := 0; rhs := fun x _ _ v _ _ => fun _ => if Req_EM_T (v 0%nat) 1 then 19/10 * x 0%nat - 10 else 0; alg := fun _ _ _ _ _ _ => vzero |}.
Definition cr_cfg : cfg :=
  {| N := 2; nr := 0; ncomb := 1; open_loop := false; single_slack := false; chk_colloc := true;
     nl_chk_colloc := false; mdl := cr_mdl; sx := fun _ => 1; su := fun _ => 1; sz := fun _ => 1;
     disc := Colloc 1 2 1 cp_C cp_D; nlc := []; lterm := fun _ _ _ _ _ => 0; mterm := fun _ _ _ => 0; rterm := RDefault (fun _ => 0);
     xlb := fun _ => Some (-5); xub := fun _ => Some 5; ulb := fun _ => Some (-1); uub := fun _ => Some 1;
     zlb := fun _ => None; zub := fun _ => None; tlb := fun _ => Some 0; tub := fun _ => Some 0 |}.
Definition cr_par (s : nat) : params :=
  {| pX0 := fun _ => 1; pTvp := fun k _ => if (k + s =? 1)%nat then 1 else 0; pP := fun _ => vzero; pUprev := vzero |}.
Lemma cr_on x u z v p w a : v 0%nat = 1 -> rhs cr_mdl x u z v p w a = 19/10 * x 0%nat - 10.
Proof. intros E. cbn. rewrite E. destruct (Req_EM_T 1 1); [reflexivity|lra]. Qed.
Lemma cr_off x u z v p w a : v 0%nat = 0 -> rhs cr_mdl x u z v p w a = 0.
Proof. intros E. cbn. rewrite E. destruct (Req_EM_T 0 1); [lra|reflexivity]. Qed.
Definition cr_st (l : list nat) : vec := fun _ => if (List.length l <? 2)%nat then 1 else 0.
Definition cr_X (l : list nat) (i j : nat) : vec := fun _ => if (List.length l <? 2)%nat then 1 else match (i + j)%nat with O => 1 | 1%nat => 10 | _ => 0 end.

Theorem C97_collocation_checks_refuted :
  exists c deg ni h C D par par' pt i X Z x1 law xlaw zlaw goes_to,
  cfg_ok c /\ scaling_pos c /\ disc c = Colloc deg ni h C D /\ wf_model (mdl c) /\ wf_inputs (mdl c) /\ end_unique (mdl c) deg ni h C D /\
  nl_chk_colloc c = false /\ violations_ok c /\ (forall con, In con (nlc c) -> xu_constraint (mdl c) con) /\ covers_all c /\ chk_colloc c = true /\
  feasible c par pt /\ admissible c i /\
  collocation_interval (mdl c) deg ni h C D (pX0 par) X Z x1 (physU c pt 0 0) (pTvp par 0%nat) (pP par i) /\
  terminal_invariant_collocation c deg ni h C D (pTvp par (N c)) (pP par) law xlaw zlaw goes_to /\
  next_problem c par par' x1 /\
  ~ exists pt', feasible c par' pt'.
Proof.
  assert (Hwf : wf_model cr_mdl).
  { intros x x' u z z' tvp p w Hx Hz. split; intros a Ha; cbn in *; [rewrite (Hx 0%nat) by lia; reflexivity|lia]. }
  assert (Hwu : wf_inputs cr_mdl) by (intros x u u' z tvp p w Hu; split; intros a Ha; cbn in *; reflexivity).
  assert (Hok : cfg_ok cr_cfg).
  { split; [cbn; lia|]. split; [cbn; lia|]. split; [intros a _; cbn; lra|]. cbn. split; [lia|]. split; [lia|exact Hwf]. }
  assert (Hpos : scaling_pos cr_cfg) by (split; [|split]; intros a _; cbn; lra).
  assert (Hvio : violations_ok cr_cfg) by (intros con v pen []).
  assert (Hcon : forall con, In con (nlc cr_cfg) -> xu_constraint (mdl cr_cfg) con) by (intros con []).
  assert (Hplan : robust_collocation_plan cr_cfg 1 2 1 cp_C cp_D (cr_par 0) (fun _ => vzero) cr_st cr_X (fun _ _ _ => vzero)).
  { split; [reflexivity|]. split; [intros a _; reflexivity|]. intros ps _ k Hk. assert (HK : (k = 0 \/ k = 1)%nat) by (cbn in Hk; lia).
    unfold inside.
    destruct HK as [-> | ->]; cbv zeta; (split; [|split; [|split; [|split; [|split; [|split]]]]]).
    all: try (intros; cbn in *; unfold vzero; lra).
    all: try (intros; cbn in *; lia).
    all: try (intros con Hin; contradiction Hin).
    - split; [|split; [|split; [|split]]].
      + intros a _. reflexivity.
      + intros; cbn in *; lia.
      + intros i j a Hi Hj Ha. change (mdl cr_cfg) with cr_mdl. rewrite cr_off by reflexivity. unfold cr_X. cbn. lra.
      + intros i a Hi Ha. unfold cr_X. cbn. lra.
      + intros a Ha. unfold cr_X. cbn. lra.
    - intros _ i j Hi Hj. split; [intros; cbn in *; lia|]. intros. cbn. lra.
    - split; [|split; [|split; [|split]]].
      + intros a _. reflexivity.
      + intros; cbn in *; lia.
      + intros i j a Hi Hj Ha. change (mdl cr_cfg) with cr_mdl. rewrite cr_on by reflexivity. unfold cr_X. assert (j = 1)%nat as -> by lia.
        assert (i = 0 \/ i = 1)%nat as [-> | ->] by lia; cbn; lra.
      + intros i a Hi Ha. assert (i = 0)%nat as -> by lia. unfold cr_X. cbn. lra.
      + intros a Ha. unfold cr_X. cbn. lra.
    - intros _ i j Hi Hj. split; [intros; cbn in *; lia|]. intros. cbn in *. lia. }
  destruct (to_cpoint cr_cfg (cr_par 0) 1 2 1 cp_C cp_D _ _ _ _ Hok Hpos eq_refl Hwf Hwu eq_refl Hcon Hvio Hplan) as (Hf & _).
  exists cr_cfg, 1%nat, 2%nat, 1, cp_C, cp_D, (cr_par 0), (cr_par 1), (cpoint_of cr_cfg (cr_par 0) 1 2 (fun _ => vzero) cr_st cr_X (fun _ _ _ => vzero)), 0%nat,
    (cr_X [0%nat]), (fun _ _ => vzero), (fun _ => 1), (fun _ => vzero), (fun _ _ _ _ => vzero), (fun _ _ _ _ => vzero), (fun _ _ => vzero).
  split; [exact Hok|]. split; [exact Hpos|]. split; [reflexivity|]. split; [exact Hwf|]. split; [exact Hwu|]. split.
  { intros x0 u tvp p X Z x1 X' Z' x1' (A0 & A1 & A2 & A3 & A4) (B0 & B1 & B2 & B3 & B4) a Ha. cbn in Ha. replace a with 0%nat by lia.
    rewrite (A4 0%nat ltac:(cbn; lia)), (B4 0%nat ltac:(cbn; lia)). cbn.
    pose proof (A0 0%nat ltac:(cbn; lia)) as A00. pose proof (B0 0%nat ltac:(cbn; lia)) as B00.
    pose proof (A2 0%nat 1%nat 0%nat ltac:(lia) ltac:(lia) ltac:(cbn; lia)) as A20. pose proof (A2 1%nat 1%nat 0%nat ltac:(lia) ltac:(lia) ltac:(cbn; lia)) as A21.
    pose proof (B2 0%nat 1%nat 0%nat ltac:(lia) ltac:(lia) ltac:(cbn; lia)) as B20. pose proof (B2 1%nat 1%nat 0%nat ltac:(lia) ltac:(lia) ltac:(cbn; lia)) as B21.
    pose proof (A3 0%nat 0%nat ltac:(lia) ltac:(cbn; lia)) as A30. pose proof (B3 0%nat 0%nat ltac:(lia) ltac:(cbn; lia)) as B30.
    cbn in *. destruct (Req_EM_T (tvp 0%nat) 1); lra. }
  split; [reflexivity|]. split; [exact Hvio|]. split; [exact Hcon|]. split; [left; reflexivity|]. split; [reflexivity|]. split; [exact Hf|].
  split; [split; [cbn; lia|reflexivity]|]. split; [|split; [|split]].
  - split; [|split; [|split; [|split]]].
    + intros a _. reflexivity.
    + intros; cbn in *; lia.
    + intros i j a Hi Hj Ha. change (mdl cr_cfg) with cr_mdl. rewrite cr_off by reflexivity. unfold cr_X. cbn. lra.
    + intros i a Hi Ha. unfold cr_X. cbn. lra.
    + intros a Ha. unfold cr_X. cbn. lra.
  - split; [reflexivity|]. intros x Hx. pose proof (Hx 0%nat ltac:(cbn; lia)) as Hx0. unfold inside in *. cbn in Hx0. assert (E0 : x 0%nat = 0) by lra.
    split; [|split; [|intros i [Hi _]; split; [|split; [|split; [|split]]]]].
    + intros a Ha. cbn in Ha. replace a with 0%nat by lia. cbn. lra.
    + intros a Ha. cbn. unfold vzero. lra.
    + split; [|split; [|split; [|split]]].
      * intros a Ha. cbn in Ha. replace a with 0%nat by lia. unfold vzero. lra.
      * intros; cbn in *; lia.
      * intros e j a He Hj Ha. change (mdl cr_cfg) with cr_mdl. rewrite cr_off by reflexivity. unfold vzero. cbn. lra.
      * intros e a He Ha. unfold vzero. cbn. lra.
      * intros a Ha. unfold vzero. cbn. lra.
    + intros; cbn in *; lia.
    + intros con [].
    + intros a Ha. unfold inside. cbn. unfold vzero. lra.
    + intros _ e j He Hj. split; intros a Ha; cbn in *; unfold vzero; [lra|lia].
  - split; [|split]; try reflexivity. intros k Hk. cbn. replace (k + 1 + 0)%nat with (k + 1)%nat by lia. reflexivity.
  - intros (pt' & Hf'). pose proof (to_cplan cr_cfg (cr_par 1) pt' 1 2 1 cp_C cp_D Hok Hpos eq_refl eq_refl Hcon Hf') as (_ & Hini & Hrun).
    assert (Hr : realisation cr_cfg (fun _ => 0%nat)) by (split; cbn; [lia|reflexivity]).
    pose proof (Hrun _ Hr 0%nat ltac:(cbn; lia)) as HR. cbv zeta in HR. destruct HR as ((R0 & _ & R2 & _) & _ & _ & _ & _ & _ & R7).
    specialize (R0 0%nat ltac:(cbn; lia)). specialize (R2 0%nat 1%nat 0%nat ltac:(lia) ltac:(lia) ltac:(cbn; lia)).
    destruct (R7 eq_refl 0%nat 1%nat ltac:(lia) ltac:(lia)) as [_ Q]. specialize (Q ltac:(cbn; lia) ltac:(lia) 0%nat ltac:(cbn; lia)).
    specialize (Hini 0%nat ltac:(cbn; lia)). change (mdl cr_cfg) with cr_mdl in R2. rewrite cr_on in R2 by reflexivity. unfold inside in Q.
    set (XX := Xp cr_cfg pt' 1 (map (fun _ : nat => 0%nat) (seq 0 (0 + 1)))) in *.
    change (map (fun _ : nat => 0%nat) (seq 0 0)) with (@nil nat) in R0.
    cbn [map seq rsum fold_right cp_C Nat.add] in R2. cbn in Q, R2, Hini. lra.
Qed.
Print Assumptions C97_collocation_checks_refuted.
