(** * The hypotheses of C90_closed_loop_feasible_forever are met by a controller with horizon 2 = robust horizon, two
    parameter values, terminal bounds and a solver that solves its problems, and a plant with the second value. *)
From Coq Require Import Reals Lra Lia.
From Verif Require Import Base TreeModel TreeSpec TreeProofs NlpModel NlpSpec NlpProofs NlpProofs2 NlpProofs3 NlpProofs4 NlpProps.
From Verif Require Import MpcModel MpcSpec MpcProofs MpcProps MpcHistSpec MpcHistProofs MpcHistProps SimModel SimSpec SimProofs SimProps RobustProps LinkModel LinkProps LinkExamples.
From Verif Require Import PlanSpec PlanProofs PlanProofs2 PlanProps LinkPlanProps.
Local Open Scope R_scope.
Local Open Scope list_scope.

(** go to the origin as fast as |u| <= 2 allows *)
Definition l2_u (x : R) : R := Rmax (-2) (Rmin 2 (- x)).
Definition l2_pol (par : params) (h : list nat) : vec :=
  fun _ => match h with [] => l2_u (pX0 par 0%nat) | i :: _ => - (pX0 par 0%nat + l2_u (pX0 par 0%nat) + pP par i 0%nat) end.
Definition l2 : link :=
  mkLink lk_mdl 2 2 false false false false nat
    (fun t i => match t with Vx | Vu => if Nat.eqb i 0 then Ok [0%nat] else Err ExcAssertion | _ => Err ExcAssertion end)
    0 1 (fun r _ => r) (fun _ => {| oX := fun _ _ _ => vzero; oZ := fun _ _ _ => vzero; oU := fun _ _ => vzero; oE := fun _ _ => vzero |})
    (fun o _ _ _ _ => o) (fun c par _ _ => (point_of c par (l2_pol par) (fun _ => vzero), vzero, vzero, true)) (fun z _ _ _ _ _ => z) None.
Definition l2_calls : list (@call (link_env l2)) :=
  [KSetting (fun s => mkSet (Some (1 : tTm (link_env l2))) (Some 2%nat) (s_term s) (s_full s) (s_lagr s) (s_stats s));
   KObjective (Some (Good tt)) (Some (Good tt)) ((fun x _ _ _ _ => x 0%nat * x 0%nat, fun _ _ _ => 0) : tObj (link_env l2));
   KScaling Vu (0%nat : tInd (link_env l2)) [2 : tR (link_env l2)];
   KBounds Upper Vx (0%nat : tInd (link_env l2)) [Fin (1 : tR (link_env l2))];
   KBounds Upper Vu (0%nat : tInd (link_env l2)) [Fin (2 : tR (link_env l2))];
   KTerminal Lower (0%nat : tInd (link_env l2)) [Fin (-1/2 : tR (link_env l2))];
   KTerminal Upper (0%nat : tInd (link_env l2)) [Fin (1/2 : tR (link_env l2))];
   KP (Good (fun _ => lk_p) : arg (tTm (link_env l2) -> tPc (link_env l2)));
   KSetup;
   KBounds Lower Vx (0%nat : tInd (link_env l2)) [Fin (-1 : tR (link_env l2))];
   KBounds Lower Vu (0%nat : tInd (link_env l2)) [Fin (-2 : tR (link_env l2))]].
Definition l2_m := fst (exec l2_calls mpc_init).
Definition l2_tr := snd (exec l2_calls mpc_init).
Definition l2_scalls : list (@scall (link_sim l2)) :=
  [SParam (1 : sTm (link_sim l2)); SP (Good (fun _ => lk_p 1) : arg (sTm (link_sim l2) -> sP (link_sim l2))); SSetup;
   SX0 (Good (fun _ => 5/2) : arg (sX (link_sim l2)))].
Definition l2_s := fst (sexec l2_scalls sim_init).
Definition l2_str := snd (sexec l2_scalls sim_init).

  Lemma l2_wf : wf_model lk_mdl /\ wf_inputs lk_mdl.
  Proof.
    split.
    - intros x x' u z z' tvp p w Hx Hz. split; intros a Ha; cbn in *; [rewrite (Hx 0%nat) by lia; reflexivity|lia].
    - intros x u u' z tvp p w Hu. split; intros a Ha; cbn in *; [rewrite (Hu 0%nat) by lia; reflexivity|lia].
  Qed.
Section Facts.
  Variable c : cfg.
  Hypothesis PO : problem_of l2 l2_tr c.
  Lemma l2_facts : N c = 2%nat /\ nr c = 2%nat /\ ncomb c = 2%nat /\ open_loop c = false /\ nl_chk_colloc c = false /\ mdl c = lk_mdl /\ disc c = Discrete /\
    nlc c = [] /\ cfg_ok c /\ scaling_pos c /\ xlb c 0%nat = Some (-1) /\ xub c 0%nat = Some 1 /\ ulb c 0%nat = Some (-2) /\ uub c 0%nat = Some 2 /\
    tlb c 0%nat = Some (-1/2) /\ tub c 0%nat = Some (1/2).
  Proof.
    destruct PO as [PN (S1 & S2 & S3 & S4 & S5 & S6 & S7 & S8) Pl Po Pr Ps Px Pu Pz Pt].
    assert (HN : N c = 2%nat).
    { assert (E : s_nhor (settings_of l2_tr) = Some 2%nat) by (vm_compute; reflexivity). rewrite E in PN. injection PN as <-. reflexivity. }
    cbn in S1, S2, S3, S4, S5, S6, S7.
    assert (E1 : sx c 0%nat = 1). { destruct (Ps 0%nat) as (E & _). rewrite E. vm_compute. reflexivity. }
    assert (E2 : su c 0%nat = 2). { destruct (Ps 0%nat) as (_ & E & _). rewrite E. vm_compute. reflexivity. }
    assert (Hpos : scaling_pos c).
    { unfold scaling_pos. rewrite S7. split; [|split]; cbn; intros a Ha; [replace a with 0%nat by lia; rewrite E1; lra|replace a with 0%nat by lia; rewrite E2; lra|lia]. }
    assert (Hok : cfg_ok c).
    { split; [lia|]. split; [lia|]. split; [|rewrite S8; exact I]. intros a Ha. apply Rgt_not_eq, Hpos, Ha. }
    do 7 (split; [assumption|]). split; [rewrite Pl; vm_compute; reflexivity|]. split; [exact Hok|]. split; [exact Hpos|].
    destruct (Px 0%nat) as [B1 B2]. destruct (Pu 0%nat) as [B3 B4]. destruct (Pt 0%nat) as (lo & hi & [_ T1] & [_ T2] & B5 & B6).
    rewrite B1, B2, B3, B4, B5, B6.
    assert (ST : s_term (settings_of l2_tr) = false) by (vm_compute; reflexivity).
    rewrite T1, T2 by (right; exact ST).
    split; [vm_compute; reflexivity|]. split; [vm_compute; reflexivity|]. split; [vm_compute; reflexivity|]. split; [vm_compute; reflexivity|].
    split; vm_compute; reflexivity.
  Qed.
  (** the problem is feasible for exactly the states in [-3, 5/2], and the solver solves it there *)
  Lemma l2_plan par : pP par = lk_p -> -3 <= pX0 par 0%nat <= 5/2 -> robust_plan c par (l2_pol par) (fun _ => vzero).
  Proof.
    intros HP Hx. destruct l2_facts as (HN & Hr & Hcm & Ho & Hnl & Hm & Hd & Hc & Hok & Hpos & X1 & X2 & U1 & U2 & T1 & T2).
    split; [rewrite Ho; discriminate|]. intros ps [Hps _]. rewrite Hr, Hcm in Hps. cbv zeta. rewrite HN, Hm, Hc, HP. unfold inside.
    assert (B : forall k, (k < 2)%nat -> lk_p (ps k) 0%nat = 0 \/ lk_p (ps k) 0%nat = 1/2).
    { intros k Hk. specialize (Hps k Hk). destruct (ps k) as [|[|q]]; cbn; [left|right|lia]; reflexivity. }
    pose proof (B 0%nat ltac:(lia)) as B0. pose proof (B 1%nat ltac:(lia)) as B1.
    assert (A : -2 <= l2_u (pX0 par 0%nat) <= 2 /\ -1 <= pX0 par 0%nat + l2_u (pX0 par 0%nat) <= 1/2).
    { unfold l2_u, Rmax, Rmin. destruct (Rle_dec 2 (- pX0 par 0%nat)); destruct (Rle_dec _ _); lra. }
    split; [|split; [|split; [|split; [|split]]]].
    - intros k a _ Ha. cbn in Ha. lia.
    - intros k a Hk Ha. cbn in Ha. replace a with 0%nat by lia. rewrite U1, U2. destruct k as [|[|k]]; [| |lia]; cbn -[lk_p]; rewrite ?HP; lra.
    - intros k a Hk Ha. cbn in Ha. replace a with 0%nat by lia. rewrite X1, X2. replace k with 1%nat by lia. cbn -[lk_p]. lra.
    - intros a Ha. cbn in Ha. replace a with 0%nat by lia. rewrite T1, T2. cbn -[lk_p]. rewrite HP. lra.
    - intros k a _ Ha. cbn in Ha. lia.
    - intros k con _ [].
  Qed.
  Lemma l2_solves par : pP par = lk_p -> (exists pt, feasible c par pt) <-> -3 <= pX0 par 0%nat <= 5/2.
  Proof.
    intros HP. destruct l2_facts as (HN & Hr & Hcm & Ho & Hnl & Hm & Hd & Hc & Hok & Hpos & X1 & X2 & U1 & U2 & T1 & T2). split.
    - intros (pt & Hf). pose proof (to_plan c par pt Hok Hpos Hd ltac:(rewrite Hm; apply l2_wf) Hnl ltac:(rewrite Hc; intros con []) Hf) as [_ Hp].
      assert (R0 : realisation c (fun _ => 0%nat)) by (split; [rewrite Hcm; intros; lia|rewrite Hr; reflexivity]).
      assert (R1 : realisation c (fun _ => 1%nat)) by (split; [rewrite Hcm; intros; lia|rewrite Hr; reflexivity]).
      pose proof (Hp _ R0) as Q0. pose proof (Hp _ R1) as Q1. cbv zeta in Q0, Q1. destruct Q0 as (_ & Bu & B0 & _). destruct Q1 as (_ & _ & B1 & _).
      specialize (Bu 0%nat 0%nat ltac:(lia) ltac:(rewrite Hm; cbn; lia)). specialize (B0 1%nat 0%nat ltac:(lia) ltac:(rewrite Hm; cbn; lia)).
      specialize (B1 1%nat 0%nat ltac:(lia) ltac:(rewrite Hm; cbn; lia)). unfold inside in *. rewrite U1, U2 in Bu. rewrite X1, X2 in B0, B1.
      cbn -[pol] in Bu. rewrite Hm, HP in B0, B1. cbn -[pol lk_p] in B0, B1. cbn [lk_p] in B0, B1. lra.
    - intros Hx. eexists. apply (to_point c par (l2_pol par) (fun _ => vzero) Hok Hpos Hd); try (rewrite Hm; apply l2_wf); try assumption.
      + rewrite Hc. intros con [].
      + intros con v pen Q. rewrite Hc in Q. destruct Q.
      + apply l2_plan; assumption.
  Qed.
End Facts.

Example C90_nonvacuous_loop :
  (forall t i pos, k_resolve l2 t i = Ok pos -> NoDup pos) /\
  regular l2_tr /\ exec l2_calls mpc_init = (l2_m, l2_tr) /\ was_setup l2_tr /\
  sordinary l2_str /\ sexec l2_scalls sim_init = (l2_s, l2_str) /\ swas_setup l2_str /\
  sclock l2_str = clock l2_tr /\ stime_step l2_str = s_tstep (settings_of l2_tr) /\
  wf_model (k_mdl l2) /\ wf_inputs (k_mdl l2) /\ alg_unique (k_mdl l2) /\ (forall t q, 0 < scaling_of l2_tr t q) /\
  s_nhor (settings_of l2_tr) = Some 2%nat /\ root_ok l2 /\ plant_covered l2 l2_tr l2_str /\
  k_nlchk l2 = false /\ nlcons_of l2_tr = [] /\ k_nr l2 = 2%nat /\ k_ncomb l2 = 2%nat /\ consistent_preview l2 l2_tr /\
  (forall c (t : R), problem_of l2 l2_tr c -> exists law zlaw, terminal_invariant c (tvp_force l2_tr t 2%nat) (p_force l2_tr t) law zlaw) /\
  (forall c x u0 (t : R) ox l, problem_of l2 l2_tr c -> let par := problem_params (x, u0, tvp_force l2_tr t, p_force l2_tr t) in
     (exists pt, feasible c par pt) -> feasible c par (fst (fst (fst (k_solve l2 c par ox l))))) /\
  (forall c, problem_of l2 l2_tr c -> exists pt, feasible c (problem_params (c_x0 l2_s, m_u0 l2_m, tvp_force l2_tr (clock l2_tr), p_force l2_tr (clock l2_tr))) pt).
Proof.
  assert (E1 : forall t, stvp_force l2_str t = vzero) by (intros; vm_compute; reflexivity).
  assert (E2 : forall t, tvp_force l2_tr t = fun _ => vzero) by (intros; vm_compute; reflexivity).
  assert (E3 : forall t, sp_force l2_str t = lk_p 1) by (intros; vm_compute; reflexivity).
  assert (E4 : forall t, p_force l2_tr t = lk_p) by (intros; vm_compute; reflexivity).
  split; [intros t i pos; destruct t; cbn; try discriminate; destruct (Nat.eqb i 0); try discriminate; intros H; injection H as <-; repeat constructor; intros []|].
  split; [apply regularb_ok; vm_compute; reflexivity|]. split; [apply surjective_pairing|]. split; [apply was_setupb_ok; vm_compute; reflexivity|].
  split; [apply sordinaryb_ok; vm_compute; reflexivity|]. split; [apply surjective_pairing|]. split; [apply swas_setupb_ok; vm_compute; reflexivity|].
  split; [vm_compute; reflexivity|]. split; [vm_compute; reflexivity|].
  split; [apply l2_wf|]. split; [apply l2_wf|].
  split; [intros x u tvp p z z' _ _ a Ha; cbn in Ha; lia|].
  split.
  { assert (E : forall t, scaling_of l2_tr t = match t with Vu => assign (E := link_env l2) Vu 0%nat [2] (fun _ => 1) | _ => fun _ => 1 end).
    { intros t. destruct t; vm_compute; reflexivity. }
    intros t q. rewrite E. destruct t; try lra. unfold assign. cbn. destruct q; cbn; lra. }
  split; [vm_compute; reflexivity|]. split; [intros z0 x u tv p _ a Ha; cbn in Ha; lia|].
  split. { split; intros t; [rewrite E1, E2; reflexivity|]. exists 1%nat. split; [cbn; lia|]. split; [discriminate|]. rewrite E3, E4. reflexivity. }
  split; [reflexivity|]. split; [vm_compute; reflexivity|]. split; [reflexivity|]. split; [reflexivity|].
  split. { intros dt nh t _ _. split; intros; [rewrite !E2; reflexivity|rewrite !E4; reflexivity]. }
  split; [|split].
  - intros c t PO. destruct (l2_facts c PO) as (HN & Hr & Hcm & Ho & Hnl & Hm & Hd & Hc & Hok & Hpos & X1 & X2 & U1 & U2 & T1 & T2).
    exists (fun x _ => - x 0%nat), (fun _ _ => vzero). rewrite E4. split; [rewrite Ho; discriminate|].
    intros x Hx. pose proof (Hx 0%nat ltac:(rewrite Hm; cbn; lia)) as Hx0. unfold inside in *. rewrite T1, T2 in Hx0. cbn in Hx0.
    rewrite Hm, Hc. split; [|split; [|intros i [Hi _]; split; [|split; [|split]]]].
    + intros a Ha. cbn in Ha. replace a with 0%nat by lia. rewrite X1, X2. cbn. lra.
    + intros a Ha. cbn in Ha. replace a with 0%nat by lia. rewrite U1, U2. cbn. lra.
    + intros a Ha. cbn in Ha. lia.
    + intros a Ha. cbn in Ha. lia.
    + intros con [].
    + intros a Ha. rewrite Hm in Ha. cbn in Ha. replace a with 0%nat by lia. unfold inside. rewrite T1, T2. cbn. destruct i; cbn; lra.
  - intros c x u0 t ox l PO par Hex. destruct (l2_facts c PO) as (HN & Hr & Hcm & Ho & Hnl & Hm & Hd & Hc & Hok & Hpos & _).
    assert (HP : pP par = lk_p) by apply E4.
    apply (l2_solves c PO par HP) in Hex. cbn [l2 k_solve fst].
    apply (to_point c par (l2_pol par) (fun _ => vzero) Hok Hpos Hd); try (rewrite Hm; apply l2_wf); try assumption.
    + rewrite Hc. intros con [].
    + intros con v pen Q. rewrite Hc in Q. destruct Q.
    + apply l2_plan; assumption.
  - intros c PO. apply (l2_solves c PO); [apply E4|]. assert (E : c_x0 l2_s = fun _ => 5/2) by (vm_compute; reflexivity). cbn [pX0 problem_params fst]. rewrite E. lra.
Qed.
