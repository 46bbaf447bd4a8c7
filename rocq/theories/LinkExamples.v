(** * The hypotheses of C81 are met by a robust controller (two parameter values, robust horizon 1, horizon 2, input
    scaled by 2, bounds partly assigned after setup) and a plant with the second parameter value. *)
From Coq Require Import Reals Lra.
From Verif Require Import Base TreeModel TreeSpec TreeProofs NlpModel NlpSpec NlpProofs NlpProofs2 NlpProofs3 NlpProofs4 NlpProps.
From Verif Require Import MpcModel MpcSpec MpcProofs MpcProps MpcHistSpec MpcHistProofs MpcHistProps SimModel SimSpec SimProofs SimProps RobustProps LinkModel LinkProps.
Local Open Scope R_scope.
Local Open Scope list_scope.

(** x+ = x + u + p *)
Definition lk_mdl : dyn_model :=
  {| n_x := 1; n_u := 1; n_z := 0; rhs := fun x u _ _ p _ => fun _ => x 0%nat + u 0%nat + p 0%nat; alg := fun _ _ _ _ _ _ => vzero |}.
(** A solver: go to the origin at once, at step 1 to the parameter of the scenario. *)
Definition lk_point (c : cfg) (par : params) : point :=
  {| oX := fun k s _ _ => match k with O => pX0 par 0%nat / sx c 0%nat | _ => pP par s 0%nat / sx c 0%nat end;
     oZ := fun _ _ _ => vzero;
     oU := fun k s _ => (match k with O => - pX0 par 0%nat | _ => - pP par s 0%nat end) / su c 0%nat;
     oE := fun _ _ => vzero |}.
Definition lk : link :=
  mkLink lk_mdl 1 2 false false false false nat
    (fun t i => match t with Vx | Vu => if Nat.eqb i 0 then Ok [0%nat] else Err ExcAssertion | _ => Err ExcAssertion end)
    0 1 (fun r _ => r) (fun _ => {| oX := fun _ _ _ => vzero; oZ := fun _ _ _ => vzero; oU := fun _ _ => vzero; oE := fun _ _ => vzero |})
    (fun o _ _ _ _ => o) (fun c par _ _ => (lk_point c par, vzero, vzero, true)) (fun z _ _ _ _ _ => z) None.

Definition lk_p (i : nat) : vec := fun _ => match i with O => 0 | _ => 1/2 end.
Definition lk_calls : list (@call (link_env lk)) :=
  [KSetting (fun s => mkSet (Some (1 : tTm (link_env lk))) (Some 2%nat) (s_term s) (s_full s) (s_lagr s) (s_stats s));
   KObjective (Some (Good tt)) (Some (Good tt)) ((fun x _ _ _ _ => x 0%nat * x 0%nat, fun _ _ _ => 0) : tObj (link_env lk));
   KScaling Vu (0%nat : tInd (link_env lk)) [2 : tR (link_env lk)];
   KBounds Upper Vx (0%nat : tInd (link_env lk)) [Fin (1 : tR (link_env lk))];
   KBounds Upper Vu (0%nat : tInd (link_env lk)) [Fin (2 : tR (link_env lk))];
   KP (Good (fun _ => lk_p) : arg (tTm (link_env lk) -> tPc (link_env lk)));
   KSetup;
   KBounds Lower Vx (0%nat : tInd (link_env lk)) [Fin (-1 : tR (link_env lk))];
   KBounds Lower Vu (0%nat : tInd (link_env lk)) [Fin (-2 : tR (link_env lk))]].
Definition lk_m := fst (exec lk_calls mpc_init).
Definition lk_tr := snd (exec lk_calls mpc_init).
Definition lk_scalls : list (@scall (link_sim lk)) :=
  [SParam (1 : sTm (link_sim lk)); SP (Good (fun _ => lk_p 1) : arg (sTm (link_sim lk) -> sP (link_sim lk))); SSetup;
   SX0 (Good (fun _ => 3/2) : arg (sX (link_sim lk)))].
Definition lk_s := fst (sexec lk_scalls sim_init).
Definition lk_str := snd (sexec lk_scalls sim_init).

Example C81_nonvacuous :
  (forall t i pos, k_resolve lk t i = Ok pos -> NoDup pos) /\
  regular lk_tr /\ exec lk_calls mpc_init = (lk_m, lk_tr) /\ was_setup lk_tr /\
  sordinary lk_str /\ sexec lk_scalls sim_init = (lk_s, lk_str) /\ swas_setup lk_str /\
  sclock lk_str = clock lk_tr /\ stime_step lk_str = s_tstep (settings_of lk_tr) /\
  wf_model (k_mdl lk) /\ alg_unique (k_mdl lk) /\ (1 <= k_ncomb lk)%nat /\ (forall t q, 0 < scaling_of lk_tr t q) /\
  s_nhor (settings_of lk_tr) = Some 2%nat /\ root_ok lk /\ plant_covered lk lk_tr lk_str /\
  bound_of lk_tr Lower Vx 0%nat = Fin (-1) /\ bound_of lk_tr Upper Vx 0%nat = Fin 1.
Proof.
  split; [intros t i pos; destruct t; cbn; try discriminate; destruct (Nat.eqb i 0); try discriminate; intros H; injection H as <-; repeat constructor; intros []|].
  split; [apply regularb_ok; vm_compute; reflexivity|]. split; [apply surjective_pairing|]. split; [apply was_setupb_ok; vm_compute; reflexivity|].
  split; [apply sordinaryb_ok; vm_compute; reflexivity|]. split; [apply surjective_pairing|]. split; [apply swas_setupb_ok; vm_compute; reflexivity|].
  split; [vm_compute; reflexivity|]. split; [vm_compute; reflexivity|].
  split; [intros x x' u z z' tvp p w Hx Hz; split; intros a Ha; cbn in *; [rewrite (Hx 0%nat) by lia; reflexivity|lia]|].
  split; [intros x u tvp p z z' _ _ a Ha; cbn in Ha; lia|]. split; [cbn; lia|].
  split; [|split; [vm_compute; reflexivity|split; [intros z0 x u tv p _ a Ha; cbn in Ha; lia|split; [|split; vm_compute; reflexivity]]]].
  - assert (E : forall t, scaling_of lk_tr t = match t with Vu => assign (E := link_env lk) Vu 0%nat [2] (fun _ => 1) | _ => fun _ => 1 end).
    { intros t. destruct t; vm_compute; reflexivity. }
    intros t q. rewrite E. destruct t; try lra. unfold assign. cbn. destruct q; cbn; lra.
  - assert (E1 : forall t, stvp_force lk_str t = vzero) by (intros; vm_compute; reflexivity).
    assert (E2 : forall t, tvp_force lk_tr t = fun _ => vzero) by (intros; vm_compute; reflexivity).
    assert (E3 : forall t, sp_force lk_str t = lk_p 1) by (intros; vm_compute; reflexivity).
    assert (E4 : forall t, p_force lk_tr t = lk_p) by (intros; vm_compute; reflexivity).
    split; intros t; [rewrite E1, E2; reflexivity|]. exists 1%nat. split; [cbn; lia|]. split; [discriminate|]. rewrite E3, E4. reflexivity.
Qed.

(** The points this solver returns are feasible for every state in [-2, 2]; so C81 applies to every step of the loop. *)
Example C81_nonvacuous_feasible :
  forall c par, problem_of lk lk_tr c -> -2 <= pX0 par 0%nat <= 2 -> pP par = lk_p -> feasible c par (lk_point c par).
Proof.
  intros c par [PN (S1 & S2 & S3 & S4 & S5 & S6 & S7 & S8) Pl Po Pr Ps Px Pu Pz Pt] Hx Hp.
  assert (HN : N c = 2%nat).
  { assert (E : s_nhor (settings_of lk_tr) = Some 2%nat) by (vm_compute; reflexivity). rewrite E in PN. injection PN as <-. reflexivity. }
  cbn in S1, S2, S3, S4, S5, S6.
  assert (E1 : sx c 0%nat = 1). { destruct (Ps 0%nat) as (E & _). rewrite E. vm_compute. reflexivity. }
  assert (E2 : su c 0%nat = 2). { destruct (Ps 0%nat) as (_ & E & _). rewrite E. vm_compute. reflexivity. }
  assert (Hpos : scaling_pos c).
  { unfold scaling_pos. rewrite S7. split; [|split]; cbn; intros a Ha; [replace a with 0%nat by lia; rewrite E1; lra|replace a with 0%nat by lia; rewrite E2; lra|lia]. }
  assert (Hok : cfg_ok c).
  { split; [lia|]. split; [lia|]. split; [|rewrite S8; exact I]. intros a Ha. apply Rgt_not_eq, Hpos, Ha. }
  assert (Nl : nlc c = []) by (rewrite Pl; vm_compute; reflexivity).
  assert (NM : nmax c = 2%nat) by (unfold nmax; rewrite S1, S2; reflexivity).
  assert (NU : n_u_scenarios c = 2%nat) by (unfold n_u_scenarios; rewrite S3; exact NM).
  apply (feasible_iff c par _ Hok Hpos). split; [split; [|split]|split].
  - unfold physical_bounds. rewrite HN, NM, NU, S7. cbn [lk k_mdl lk_mdl n_x n_u n_z]. split; [|split; [|split]].
    + intros k s a Hk Hs Ha. replace a with 0%nat by lia. destruct (Pu 0%nat) as [B1 B2]. rewrite B1, B2.
      replace (bound_of lk_tr Lower Vu 0%nat) with (Fin (-2)) by (vm_compute; reflexivity).
      replace (bound_of lk_tr Upper Vu 0%nat) with (Fin 2) by (vm_compute; reflexivity).
      unfold inside, physU. cbn. rewrite E2, Hp. unfold lk_p. destruct k; [split; lra|]. destruct s; split; lra.
    + intros k s a Hk Hs Ha. replace a with 0%nat by lia. destruct (Px 0%nat) as [B1 B2]. rewrite B1, B2.
      replace (bound_of lk_tr Lower Vx 0%nat) with (Fin (-1)) by (vm_compute; reflexivity).
      replace (bound_of lk_tr Upper Vx 0%nat) with (Fin 1) by (vm_compute; reflexivity).
      unfold inside, stateX, physX. cbn. rewrite E1, Hp. unfold lk_p. destruct k; [lia|]. destruct s; split; lra.
    + intros s a Hs Ha. destruct (Pt a) as (lo & hi & [_ T1] & [_ T2] & B1 & B2). rewrite B1, B2.
      assert (ST : s_term (settings_of lk_tr) = false) by (vm_compute; reflexivity).
      rewrite T1, T2 by (right; exact ST).
      replace (terminal_of lk_tr Lower a) with (@MInf R) by (vm_compute; reflexivity).
      replace (terminal_of lk_tr Upper a) with (@PInf R) by (vm_compute; reflexivity). split; exact I.
    + intros k s a _ _ Ha. lia.
  - rewrite S5. discriminate.
  - unfold slack_bounds. rewrite Nl. cbn. intros. lia.
  - intros a Ha. rewrite S7 in Ha. cbn in Ha. replace a with 0%nat by lia. unfold stateX, physX. cbn. rewrite E1. lra.
  - intros k s b (Hk & Hs & Hb). unfold width_of, fan_of, nodes, fan in Hs, Hb. rewrite HN in Hk. rewrite S1, S2 in Hs, Hb. split.
    + unfold model_step, model_step_with. rewrite S8. unfold discrete_step. rewrite S7. cbv zeta. cbn [lk k_mdl lk_mdl n_x n_z].
      split; intros a Ha; [|lia]. cbn [rhs lk_mdl]. replace a with 0%nat by lia.
      unfold childnode, fan_of, fan, comb, stateX, physX, physU, uidx. rewrite S1, S2, S3, S8, Hp. cbn. rewrite E1, E2. unfold lk_p.
      destruct k as [|[|k]]; [| |lia]; cbn in Hs, Hb |- *.
      * replace s with 0%nat by lia. assert (Hb' : b = 0%nat \/ b = 1%nat) by lia. destruct Hb' as [->| ->]; cbn; rewrite ?Hp; unfold lk_p; lra.
      * replace b with 0%nat by lia. assert (Hs' : s = 0%nat \/ s = 1%nat) by lia. destruct Hs' as [->| ->]; cbn; rewrite ?Hp; unfold lk_p; lra.
    + unfold nl_step. rewrite Nl. intros [|i] con Q; discriminate Q.
Qed.
