(** * The hypotheses of C92_closed_loop_cost are met: nominal control with horizon 2, input, state and terminal bounds, stage and
    terminal cost x^2, and a solver that returns the best point. *)
From Coq Require Import Reals Lra Lia.
From Verif Require Import Base TreeModel TreeSpec TreeProofs NlpModel NlpSpec NlpProofs NlpProofs2 NlpProofs3 NlpProofs4 NlpProps.
From Verif Require Import MpcModel MpcSpec MpcProofs MpcProps MpcHistSpec MpcHistProofs MpcHistProps RobustProps LinkModel LinkProps LinkExamples SimModel SimSpec SimProofs SimProps.
From Verif Require Import PlanSpec PlanProofs PlanProofs2 PlanProps LinkPlanProps LinkPlanExamples BestSpec BestProofs BestProofs2 BestProps LinkBestProps DescSpec DescProofs DescProps LinkDescProps.
Local Open Scope R_scope.
Local Open Scope list_scope.

(** go to the origin as fast as |u| <= 2 allows *)
Definition l4_pol (par : params) (h : list nat) : vec :=
  fun _ => match h with [] => l2_u (pX0 par 0%nat) | _ => - (pX0 par 0%nat + l2_u (pX0 par 0%nat)) end.
Definition l4 : link :=
  mkLink lk_mdl 0 2 false false false false nat
    (fun t i => match t with Vx | Vu => if Nat.eqb i 0 then Ok [0%nat] else Err ExcAssertion | _ => Err ExcAssertion end)
    0 1 (fun r _ => r) (fun _ => {| oX := fun _ _ _ => vzero; oZ := fun _ _ _ => vzero; oU := fun _ _ => vzero; oE := fun _ _ => vzero |})
    (fun o _ _ _ _ => o) (fun c par _ _ => (point_of c par (l4_pol par) (fun _ => vzero), vzero, vzero, true)) (fun z _ _ _ _ _ => z) None.
Definition l4_calls : list (@call (link_env l4)) :=
  [KSetting (fun s => mkSet (Some (1 : tTm (link_env l4))) (Some 2%nat) (s_term s) (s_full s) (s_lagr s) (s_stats s));
   KObjective (Some (Good tt)) (Some (Good tt)) ((fun x _ _ _ _ => x 0%nat ^ 2, fun x _ _ => x 0%nat ^ 2) : tObj (link_env l4));
   KScaling Vu (0%nat : tInd (link_env l4)) [2 : tR (link_env l4)];
   KBounds Upper Vx (0%nat : tInd (link_env l4)) [Fin (2 : tR (link_env l4))];
   KBounds Upper Vu (0%nat : tInd (link_env l4)) [Fin (2 : tR (link_env l4))];
   KTerminal Lower (0%nat : tInd (link_env l4)) [Fin (-1/2 : tR (link_env l4))];
   KTerminal Upper (0%nat : tInd (link_env l4)) [Fin (1/2 : tR (link_env l4))];
   KP (Good (fun _ => lk_p) : arg (tTm (link_env l4) -> tPc (link_env l4)));
   KSetup;
   KBounds Lower Vx (0%nat : tInd (link_env l4)) [Fin (-2 : tR (link_env l4))];
   KBounds Lower Vu (0%nat : tInd (link_env l4)) [Fin (-2 : tR (link_env l4))]].
Definition l4_m := fst (exec l4_calls mpc_init).
Definition l4_tr := snd (exec l4_calls mpc_init).
Definition l4_scalls : list (@scall (link_sim l4)) :=
  [SParam (1 : sTm (link_sim l4)); SP (Good (fun _ => lk_p 0) : arg (sTm (link_sim l4) -> sP (link_sim l4))); SSetup;
   SX0 (Good (fun _ => 7/2) : arg (sX (link_sim l4)))].
Definition l4_s := fst (sexec l4_scalls sim_init).
Definition l4_str := snd (sexec l4_scalls sim_init).

Lemma l4_best x u : -2 <= u <= 2 -> -2 <= l2_u x <= 2 /\ (x + l2_u x) ^ 2 <= (x + u) ^ 2.
Proof.
  intros Hu.
  assert (A : forall w, 0 <= (u - w) * (2 * x + u + w) -> (x + w) ^ 2 <= (x + u) ^ 2).
  { intros w Hw. replace ((x + u) ^ 2) with ((x + w) ^ 2 + (u - w) * (2 * x + u + w)) by ring. lra. }
  unfold l2_u. destruct (Rle_dec 2 (- x)) as [H|H].
  - rewrite Rmin_left by lra. rewrite Rmax_right by lra. split; [lra|]. apply A.
    replace ((u - 2) * (2 * x + u + 2)) with ((2 - u) * - (2 * x + u + 2)) by ring. apply Rmult_le_pos; lra.
  - rewrite Rmin_right by lra. destruct (Rle_dec (-2) (- x)) as [H'|H'].
    + rewrite Rmax_right by lra. split; [lra|]. apply A.
      replace ((u - - x) * (2 * x + u + - x)) with ((x + u) * (x + u)) by ring. apply Rle_0_sqr.
    + rewrite Rmax_left by lra. split; [lra|]. apply A. apply Rmult_le_pos; lra.
Qed.

Section Facts4.
  Variable c : cfg.
  Hypothesis PO : problem_of l4 l4_tr c.
  Lemma l4_facts : N c = 2%nat /\ nr c = 0%nat /\ ncomb c = 2%nat /\ open_loop c = false /\ single_slack c = false /\ nl_chk_colloc c = false /\ mdl c = lk_mdl /\ disc c = Discrete /\
    nlc c = [] /\ cfg_ok c /\ scaling_pos c /\ xlb c 0%nat = Some (-2) /\ xub c 0%nat = Some 2 /\ ulb c 0%nat = Some (-2) /\ uub c 0%nat = Some 2 /\
    tlb c 0%nat = Some (-1/2) /\ tub c 0%nat = Some (1/2) /\ lterm c = (fun x _ _ _ _ => x 0%nat ^ 2) /\ mterm c = (fun x _ _ => x 0%nat ^ 2) /\ rterm c = RDefault vzero.
  Proof.
    destruct PO as [PN (S1 & S2 & S3 & S4 & S5 & S6 & S7 & S8) Pl Po Pr Ps Px Pu Pz Pt].
    assert (HN : N c = 2%nat).
    { assert (E : s_nhor (settings_of l4_tr) = Some 2%nat) by (vm_compute; reflexivity). rewrite E in PN. injection PN as <-. reflexivity. }
    cbn in S1, S2, S3, S4, S5, S6, S7.
    assert (E1 : sx c 0%nat = 1). { destruct (Ps 0%nat) as (E & _). rewrite E. vm_compute. reflexivity. }
    assert (E2 : su c 0%nat = 2). { destruct (Ps 0%nat) as (_ & E & _). rewrite E. vm_compute. reflexivity. }
    assert (Hpos : scaling_pos c).
    { unfold scaling_pos. rewrite S7. split; [|split]; cbn; intros a Ha; [replace a with 0%nat by lia; rewrite E1; lra|replace a with 0%nat by lia; rewrite E2; lra|lia]. }
    assert (Hok : cfg_ok c).
    { split; [lia|]. split; [lia|]. split; [|rewrite S8; exact I]. intros a Ha. apply Rgt_not_eq, Hpos, Ha. }
    do 8 (split; [assumption|]). split; [rewrite Pl; vm_compute; reflexivity|]. split; [exact Hok|]. split; [exact Hpos|].
    destruct (Px 0%nat) as [B1 B2]. destruct (Pu 0%nat) as [B3 B4]. destruct (Pt 0%nat) as (lo & hi & [_ T1] & [_ T2] & B5 & B6).
    rewrite B1, B2, B3, B4, B5, B6.
    assert (ST : s_term (settings_of l4_tr) = false) by (vm_compute; reflexivity).
    rewrite T1, T2 by (right; exact ST).
    do 6 (split; [vm_compute; reflexivity|]).
    assert (EO : objective_of l4_tr = Some ((fun x _ _ _ _ => x 0%nat ^ 2, fun x _ _ => x 0%nat ^ 2) : tObj (link_env l4))) by reflexivity.
    rewrite EO in Po. injection Po as Q1 Q2. split; [symmetry; exact Q1|]. split; [symmetry; exact Q2|].
    rewrite Pr. reflexivity.
  Qed.
  Lemma l4_one : one_scenario c.
  Proof. left. apply l4_facts. Qed.
  Lemma l4_xu : xu_cost c.
  Proof.
    destruct l4_facts as (HN & Hr & Hcm & Ho & Hs & Hnl & Hm & Hd & Hc & Hok & Hpos & X1 & X2 & U1 & U2 & T1 & T2 & El & Em & Er).
    split; [intros x x' u u' z z' tvp p Hx _|intros x x' tvp p Hx]; rewrite ?El, ?Em; rewrite Hm in Hx; cbn in Hx; rewrite (Hx 0%nat) by lia; reflexivity.
  Qed.
  Lemma l4_cost par policy zpol slack : pP par = lk_p ->
    plan_cost c par vzero policy zpol slack = pX0 par 0%nat ^ 2 + (pX0 par 0%nat + policy [] 0%nat) ^ 2 + (pX0 par 0%nat + policy [] 0%nat + policy [0%nat] 0%nat) ^ 2.
  Proof.
    intros HP. destruct l4_facts as (HN & Hr & Hcm & Ho & Hs & Hnl & Hm & Hd & Hc & Hok & Hpos & X1 & X2 & U1 & U2 & T1 & T2 & El & Em & Er).
    rewrite (one_cost c l4_one). cbv zeta. unfold total. rewrite HN, Hm, Hc, El, Em, HP. unfold rate_penalty, total. rewrite Hm. unfold vzero. cbn. ring.
  Qed.
  Lemma l4_plan par : pP par = lk_p -> -4 <= pX0 par 0%nat <= 4 -> robust_plan c par (l4_pol par) (fun _ => vzero).
  Proof.
    intros HP Hx. destruct l4_facts as (HN & Hr & Hcm & Ho & Hs & Hnl & Hm & Hd & Hc & Hok & Hpos & X1 & X2 & U1 & U2 & T1 & T2 & El & Em & Er).
    split; [rewrite Ho; discriminate|]. intros ps Hps. cbv zeta. rewrite HN, Hm, Hc, HP. unfold inside.
    pose proof (real_zeros c Hok l4_one ps 0 Hps) as B0. pose proof (real_zeros c Hok l4_one ps 1 Hps) as B1.
    assert (A : -2 <= l2_u (pX0 par 0%nat) <= 2 /\ -2 <= pX0 par 0%nat + l2_u (pX0 par 0%nat) <= 2).
    { unfold l2_u, Rmax, Rmin. destruct (Rle_dec 2 (- pX0 par 0%nat)); destruct (Rle_dec _ _); lra. }
    split; [|split; [|split; [|split; [|split]]]].
    - intros k a _ Ha. cbn in Ha. lia.
    - intros k a Hk Ha. cbn in Ha. replace a with 0%nat by lia. rewrite U1, U2. destruct k as [|[|k]]; [| |lia]; cbn -[lk_p]; lra.
    - intros k a Hk Ha. cbn in Ha. replace a with 0%nat by lia. rewrite X1, X2. replace k with 1%nat by lia. cbn -[lk_p]. rewrite B0. cbn. lra.
    - intros a Ha. cbn in Ha. replace a with 0%nat by lia. rewrite T1, T2. cbn -[lk_p]. rewrite B0, B1. cbn. lra.
    - intros k a _ Ha. cbn in Ha. lia.
    - intros k con _ [].
  Qed.
  Lemma l4_opt par : pP par = lk_p -> -4 <= pX0 par 0%nat <= 4 ->
    optimal_point c par (point_of c par (l4_pol par) (fun _ => vzero)) (plan_cost c par vzero (l4_pol par) (fun _ => vzero) (fun _ _ => 0)).
  Proof.
    intros HP Hx. pose proof (l4_plan par HP Hx) as Hp.
    destruct l4_facts as (HN & Hr & Hcm & Ho & Hs & Hnl & Hm & Hd & Hc & Hok & Hpos & X1 & X2 & U1 & U2 & T1 & T2 & El & Em & Er).
    split; [|split].
    - apply (to_point c par (l4_pol par) (fun _ => vzero) Hok Hpos Hd); try (rewrite Hm; apply l2_wf); try assumption.
      + rewrite Hc. intros con [].
      + intros con v pen Q. rewrite Hc in Q. destruct Q.
    - apply cost_eq; try assumption; [lia|exact l4_xu|].
      intros ps Hps. cbv zeta. split; [|split].
      + intros k Hk a Ha. unfold stateX. rewrite Hd. cbn [ncoll]. unfold point_of.
        rewrite (tp_x c par (l4_pol par) (fun _ => vzero) Hpos _ k _ 0 a Ha). rewrite clip_id by (try exact Hok; apply psnode_lt; assumption). rewrite psnode_hist by assumption. rewrite hplant_ps by exact Hok. reflexivity.
      + intros k Hk a Ha. unfold point_of. rewrite (tp_uidx c par (l4_pol par) (fun _ => vzero) Hok Hpos Hp _ k _ (psnode_lt c Hok ps k Hps) a Ha), psnode_hist by assumption. reflexivity.
      + intros k a Hk Ha. rewrite Hc in Ha. cbn in Ha. lia.
    - intros pt' v' Hf' Ho'.
      destruct (proj1 (C91_objective_is_plan_cost_partial c par vzero (physU c pt' 0 0) v' Hok Hpos Hd ltac:(rewrite Hm; apply l2_wf) ltac:(rewrite Hm; apply l2_wf) Hnl
        ltac:(rewrite Hc; intros con []) ltac:(lia) Er l4_xu)) as (policy' & zpol' & slack' & Hp' & Hs' & <- & _).
      { exists pt'. split; [exact Hf'|]. split; [exact Ho'|intros a _; reflexivity]. }
      rewrite !l4_cost by exact HP. cbn [l4_pol].
      pose proof (proj2 Hp' _ (zeros_real c Hok)) as Q. cbv zeta in Q. destruct Q as (_ & Bu & _). specialize (Bu 0%nat 0%nat ltac:(lia) ltac:(rewrite Hm; cbn; lia)).
      unfold inside in Bu. rewrite U1, U2 in Bu. cbn in Bu.
      pose proof (proj2 (l4_best (pX0 par 0%nat) (policy' [] 0%nat) Bu)) as Q.
      set (y := pX0 par 0%nat + policy' [] 0%nat + policy' [0%nat] 0%nat). pose proof (pow2_ge_0 y). 
      replace (pX0 par 0%nat + l2_u (pX0 par 0%nat) + - (pX0 par 0%nat + l2_u (pX0 par 0%nat))) with 0 by ring. replace (0 ^ 2) with 0 by ring. lra.
  Qed.
  Lemma l4_feas par : pP par = lk_p -> (exists pt, feasible c par pt) -> -4 <= pX0 par 0%nat <= 4.
  Proof.
    intros HP (pt & Hf). destruct l4_facts as (HN & Hr & Hcm & Ho & Hs & Hnl & Hm & Hd & Hc & Hok & Hpos & X1 & X2 & U1 & U2 & T1 & T2 & El & Em & Er).
    pose proof (to_plan c par pt Hok Hpos Hd ltac:(rewrite Hm; apply l2_wf) Hnl ltac:(rewrite Hc; intros con []) Hf) as [_ Hp].
    pose proof (Hp _ (zeros_real c Hok)) as Q0. cbv zeta in Q0. destruct Q0 as (_ & Bu & B0 & _).
    specialize (Bu 0%nat 0%nat ltac:(lia) ltac:(rewrite Hm; cbn; lia)). specialize (B0 1%nat 0%nat ltac:(lia) ltac:(rewrite Hm; cbn; lia)).
    unfold inside in *. rewrite U1, U2 in Bu. rewrite X1, X2 in B0. cbn -[pol] in Bu. rewrite Hm, HP in B0. cbn -[pol lk_p] in B0. cbn [lk_p] in B0. lra.
  Qed.
End Facts4.

Example C92_nonvacuous_loop :
  (forall t i pos, k_resolve l4 t i = Ok pos -> NoDup pos) /\
  regular l4_tr /\ exec l4_calls mpc_init = (l4_m, l4_tr) /\ was_setup l4_tr /\
  sordinary l4_str /\ sexec l4_scalls sim_init = (l4_s, l4_str) /\ swas_setup l4_str /\
  sclock l4_str = clock l4_tr /\ stime_step l4_str = s_tstep (settings_of l4_tr) /\ s_tstep (settings_of l4_tr) = Some (1 : tTm (link_env l4)) /\
  wf_model (k_mdl l4) /\ wf_inputs (k_mdl l4) /\ alg_unique (k_mdl l4) /\ (forall t q, 0 < scaling_of l4_tr t q) /\
  s_nhor (settings_of l4_tr) = Some 2%nat /\ root_ok l4 /\ plant_covered l4 l4_tr l4_str /\
  k_nlchk l4 = false /\ k_user l4 = None /\ nlcons_of l4_tr = [] /\ k_nr l4 = 0%nat /\ k_ncomb l4 = 2%nat /\
  (forall c, problem_of l4 l4_tr c -> xu_cost c) /\ consistent_preview l4 l4_tr /\
  (forall c (t : R), problem_of l4 l4_tr c -> exists law zlaw, terminal_invariant c (tvp_force l4_tr t 2%nat) (p_force l4_tr t) law zlaw /\
       terminal_decrease c (rterm_of l4_tr) (tvp_force l4_tr t 2%nat) (tvp_force l4_tr (t + 1) 2%nat) (p_force l4_tr t 0%nat) law zlaw) /\
  (forall c x u0 (t : R) ox l, problem_of l4 l4_tr c -> let par := problem_params (x, u0, tvp_force l4_tr t, p_force l4_tr t) in
     (exists pt, feasible c par pt) -> exists v, optimal_point c par (fst (fst (fst (k_solve l4 c par ox l)))) v) /\
  (forall c, problem_of l4 l4_tr c -> exists pt, feasible c (problem_params (c_x0 l4_s, m_u0 l4_m, tvp_force l4_tr (clock l4_tr), p_force l4_tr (clock l4_tr))) pt).
Proof.
  assert (E1 : forall t, stvp_force l4_str t = vzero) by (intros; vm_compute; reflexivity).
  assert (E2 : forall t, tvp_force l4_tr t = fun _ => vzero) by (intros; vm_compute; reflexivity).
  assert (E3 : forall t, sp_force l4_str t = lk_p 0) by (intros; vm_compute; reflexivity).
  assert (E4 : forall t, p_force l4_tr t = lk_p) by (intros; vm_compute; reflexivity).
  split; [intros t i pos; destruct t; cbn; try discriminate; destruct (Nat.eqb i 0); try discriminate; intros H; injection H as <-; repeat constructor; intros []|].
  split; [apply regularb_ok; vm_compute; reflexivity|]. split; [apply surjective_pairing|]. split; [apply was_setupb_ok; vm_compute; reflexivity|].
  split; [apply sordinaryb_ok; vm_compute; reflexivity|]. split; [apply surjective_pairing|]. split; [apply swas_setupb_ok; vm_compute; reflexivity|].
  split; [vm_compute; reflexivity|]. split; [vm_compute; reflexivity|]. split; [vm_compute; reflexivity|].
  split; [apply l2_wf|]. split; [apply l2_wf|].
  split; [intros x u tvp p z z' _ _ a Ha; cbn in Ha; lia|].
  split.
  { assert (E : forall t, scaling_of l4_tr t = match t with Vu => assign (E := link_env l4) Vu 0%nat [2] (fun _ => 1) | _ => fun _ => 1 end).
    { intros t. destruct t; vm_compute; reflexivity. }
    intros t q. rewrite E. destruct t; try lra. unfold assign. cbn. destruct q; cbn; lra. }
  split; [vm_compute; reflexivity|]. split; [intros z0 x u tv p _ a Ha; cbn in Ha; lia|].
  split. { split; intros t; [rewrite E1, E2; reflexivity|]. exists 0%nat. split; [cbn; lia|]. split; [reflexivity|]. rewrite E3, E4. reflexivity. }
  split; [reflexivity|]. split; [reflexivity|]. split; [vm_compute; reflexivity|]. split; [reflexivity|]. split; [reflexivity|].
  split; [intros c PO; apply l4_xu; exact PO|].
  split. { intros dt nh t _ _. split; intros; [rewrite !E2; reflexivity|rewrite !E4; reflexivity]. }
  split; [|split].
  - intros c t PO. destruct (l4_facts c PO) as (HN & Hr & Hcm & Ho & Hs & Hnl & Hm & Hd & Hc & Hok & Hpos & X1 & X2 & U1 & U2 & T1 & T2 & El & Em & Er).
    exists (fun x _ => - x 0%nat), (fun _ _ => vzero). rewrite E4, !E2. split.
    + split; [rewrite Ho; discriminate|].
      intros x Hx. pose proof (Hx 0%nat ltac:(rewrite Hm; cbn; lia)) as Hx0. unfold inside in *. rewrite T1, T2 in Hx0. cbn in Hx0.
      rewrite Hm, Hc. split; [|split; [|intros i [Hi Hi0]; split; [|split; [|split]]]].
      * intros a Ha. cbn in Ha. replace a with 0%nat by lia. rewrite X1, X2. cbn. lra.
      * intros a Ha. cbn in Ha. replace a with 0%nat by lia. rewrite U1, U2. cbn. lra.
      * intros a Ha. cbn in Ha. lia.
      * intros a Ha. cbn in Ha. lia.
      * intros con [].
      * intros a Ha. rewrite Hm in Ha. cbn in Ha. replace a with 0%nat by lia. unfold inside. rewrite T1, T2. rewrite (Hi0 Hr). cbn. lra.
    + intros x up Hx _. rewrite Hc. split; [intros con []|]. unfold step_cost, rate_penalty, total. rewrite Hm, El, Em.
      assert (ER : rterm_of l4_tr = vzero) by reflexivity. rewrite ER. unfold vzero. cbn. lra.
  - intros c x u0 t ox l PO par Hex.
    assert (HP : pP par = lk_p) by apply E4.
    eexists. apply (l4_opt c PO par HP). apply (l4_feas c PO par HP Hex).
  - intros c PO. eexists. assert (E : c_x0 l4_s = fun _ => 7/2) by (vm_compute; reflexivity).
    apply (l4_opt c PO); [apply E4|]. cbn [pX0 problem_params fst]. rewrite E. lra.
Qed.
