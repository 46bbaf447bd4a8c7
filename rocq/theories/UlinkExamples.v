(** * The hypotheses of C106_make_step_is_optimal_partial are met: horizon 2, robust horizon 1, two parameter values, input
    bounds and scaling 2, stage cost x^2, the expression (u - u_prev)^2 besides factors that do not count, and a solver that returns
    the best point. *)
From Coq Require Import Reals Lra Lia.
From Verif Require Import Base TreeModel TreeSpec TreeProofs NlpModel NlpSpec NlpProofs NlpProofs2 NlpProofs3 NlpProofs4 NlpProps.
From Verif Require Import MpcModel MpcSpec MpcProofs MpcProps MpcHistSpec MpcHistProofs MpcHistProps RobustProps LinkModel LinkProps LinkExamples SimModel SimSpec SimProofs SimProps.
From Verif Require Import PlanSpec PlanProofs PlanProofs2 PlanProps LinkPlanProps LinkPlanExamples BestSpec BestProofs BestProofs2 BestProps UrateSpec UrateProofs UrateProps UlinkProps.
Local Open Scope R_scope.
Local Open Scope list_scope.

Definition l5_f : rate_expr := fun _ u v _ _ _ => (u 0%nat - v 0%nat) ^ 2.
(** the best first input for |u| <= 2 if the parameter is 0 or 1/2 and the previous input was v *)
Definition l5_w (x v : R) : R := (v - x - 1/4) / 3.
Definition l5_u (x v : R) : R := Rmax (-2) (Rmin 2 (l5_w x v)).
(** half of the first input afterwards: the expression gets the previous input divided by its scaling *)
Definition l5_pol (par : params) (h : list nat) : vec :=
  fun _ => match h with [] => l5_u (pX0 par 0%nat) (pUprev par 0%nat) | _ => l5_u (pX0 par 0%nat) (pUprev par 0%nat) / 2 end.
Definition l5 : link :=
  mkLink lk_mdl 1 2 false false false false nat
    (fun t i => match t with Vx | Vu => if Nat.eqb i 0 then Ok [0%nat] else Err ExcAssertion | _ => Err ExcAssertion end)
    0 1 (fun _ _ _ => 7) (fun _ => {| oX := fun _ _ _ => vzero; oZ := fun _ _ _ => vzero; oU := fun _ _ => vzero; oE := fun _ _ => vzero |})
    (fun o _ _ _ _ => o) (fun c par _ _ => (point_of c par (l5_pol par) (fun _ => vzero), vzero, vzero, true)) (fun z _ _ _ _ _ => z) (Some l5_f).
Definition l5_calls : list (@call (link_env l5)) :=
  [KSetting (fun s => mkSet (Some (1 : tTm (link_env l5))) (Some 2%nat) (s_term s) (s_full s) (s_lagr s) (s_stats s));
   KObjective (Some (Good tt)) (Some (Good tt)) ((fun x _ _ _ _ => x 0%nat ^ 2, fun _ _ _ => 0) : tObj (link_env l5));
   KScaling Vu (0%nat : tInd (link_env l5)) [2 : tR (link_env l5)];
   KBounds Upper Vu (0%nat : tInd (link_env l5)) [Fin (2 : tR (link_env l5))];
   KP (Good (fun _ => lk_p) : arg (tTm (link_env l5) -> tPc (link_env l5)));
   KRterm [("u"%string, (7 : tR (link_env l5)))] 1;
   KSetup;
   KBounds Lower Vu (0%nat : tInd (link_env l5)) [Fin (-2 : tR (link_env l5))]].
Definition l5_m := fst (exec l5_calls mpc_init).
Definition l5_tr := snd (exec l5_calls mpc_init).

Lemma l5_best x v u : -2 <= u <= 2 ->
  -2 <= l5_u x v <= 2 /\ (x + l5_u x v + 1/4) ^ 2 + 2 * (l5_u x v - v / 2) ^ 2 <= (x + u + 1/4) ^ 2 + 2 * (u - v / 2) ^ 2.
Proof.
  intros Hu.
  assert (A : forall w, 0 <= (u - w) * (u + w - 2 * l5_w x v) -> (x + w + 1/4) ^ 2 + 2 * (w - v / 2) ^ 2 <= (x + u + 1/4) ^ 2 + 2 * (u - v / 2) ^ 2).
  { intros w Hw. replace ((x + u + 1/4) ^ 2 + 2 * (u - v / 2) ^ 2) with ((x + w + 1/4) ^ 2 + 2 * (w - v / 2) ^ 2 + 3 * ((u - w) * (u + w - 2 * l5_w x v))) by (unfold l5_w; field). lra. }
  unfold l5_u. set (w := l5_w x v) in *. destruct (Rle_dec 2 w) as [H|H].
  - rewrite Rmin_left by lra. rewrite Rmax_right by lra. split; [lra|]. apply A.
    replace ((u - 2) * (u + 2 - 2 * w)) with ((2 - u) * (2 * w - u - 2)) by ring. apply Rmult_le_pos; lra.
  - rewrite Rmin_right by lra. destruct (Rle_dec (-2) w) as [H'|H'].
    + rewrite Rmax_right by lra. split; [lra|]. apply A. replace ((u - w) * (u + w - 2 * w)) with ((u - w) * (u - w)) by ring. apply Rle_0_sqr.
    + rewrite Rmax_left by lra. split; [lra|]. apply A. apply Rmult_le_pos; lra.
Qed.

Lemma l5_xu : xu_rate lk_mdl l5_f.
Proof. intros x x' u u' v v' z z' tvp p _ Hu Hv. unfold l5_f. rewrite (Hu 0%nat), (Hv 0%nat) by (cbn; lia). reflexivity. Qed.

Section Facts5.
  Variable c : cfg.
  Hypothesis PO : problem_of l5 l5_tr c.
  Lemma l5_facts : N c = 2%nat /\ nr c = 1%nat /\ ncomb c = 2%nat /\ open_loop c = false /\ single_slack c = false /\ nl_chk_colloc c = false /\ mdl c = lk_mdl /\ disc c = Discrete /\
    nlc c = [] /\ cfg_ok c /\ scaling_pos c /\ (forall a, xlb c a = None /\ xub c a = None) /\ ulb c 0%nat = Some (-2) /\ uub c 0%nat = Some 2 /\
    (forall a, tlb c a = None /\ tub c a = None) /\ lterm c = (fun x _ _ _ _ => x 0%nat ^ 2) /\ mterm c = (fun _ _ _ => 0) /\ rterm c = RUser l5_f /\ su c 0%nat = 2.
  Proof.
    destruct PO as [PN (S1 & S2 & S3 & S4 & S5 & S6 & S7 & S8) Pl Po Pr Ps Px Pu Pz Pt].
    assert (HN : N c = 2%nat).
    { assert (E : s_nhor (settings_of l5_tr) = Some 2%nat) by (vm_compute; reflexivity). rewrite E in PN. injection PN as <-. reflexivity. }
    cbn in S1, S2, S3, S4, S5, S6, S7.
    assert (E1 : sx c 0%nat = 1). { destruct (Ps 0%nat) as (E & _). rewrite E. vm_compute. reflexivity. }
    assert (E2 : su c 0%nat = 2). { destruct (Ps 0%nat) as (_ & E & _). rewrite E. vm_compute. reflexivity. }
    assert (Hpos : scaling_pos c).
    { unfold scaling_pos. rewrite S7. split; [|split]; cbn; intros a Ha; [replace a with 0%nat by lia; rewrite E1; lra|replace a with 0%nat by lia; rewrite E2; lra|lia]. }
    assert (Hok : cfg_ok c).
    { split; [lia|]. split; [lia|]. split; [|rewrite S8; exact I]. intros a Ha. apply Rgt_not_eq, Hpos, Ha. }
    do 8 (split; [assumption|]). split; [rewrite Pl; vm_compute; reflexivity|]. split; [exact Hok|]. split; [exact Hpos|].
    split. { intros a. destruct (Px a) as [B1 B2]. rewrite B1, B2. split; vm_compute; reflexivity. }
    destruct (Pu 0%nat) as [B3 B4]. rewrite B3, B4. split; [vm_compute; reflexivity|]. split; [vm_compute; reflexivity|].
    split.
    { intros a. destruct (Pt a) as (lo & hi & [_ T1] & [_ T2] & B5 & B6). assert (ST : s_term (settings_of l5_tr) = false) by (vm_compute; reflexivity).
      rewrite B5, B6, T1, T2 by (right; exact ST). split; vm_compute; reflexivity. }
    assert (EO : objective_of l5_tr = Some ((fun x _ _ _ _ => x 0%nat ^ 2, fun _ _ _ => 0) : tObj (link_env l5))) by reflexivity.
    rewrite EO in Po. injection Po as Q1 Q2. split; [symmetry; exact Q1|]. split; [symmetry; exact Q2|].
    split; [rewrite Pr; reflexivity|exact E2].
  Qed.
  Lemma l5_cost par policy zpol slack : pP par = lk_p ->
    user_plan_cost c par l5_f policy zpol slack =
      pX0 par 0%nat ^ 2 + ((pX0 par 0%nat + policy [] 0%nat + 1/4) ^ 2 + 1/16) + 2 * (policy [] 0%nat - pUprev par 0%nat / 2) ^ 2 +
      ((policy [0%nat] 0%nat - policy [] 0%nat / 2) ^ 2 + (policy [1%nat] 0%nat - policy [] 0%nat / 2) ^ 2).
  Proof.
    intros HP. destruct l5_facts as (HN & Hr & Hcm & Ho & Hs & Hnl & Hm & Hd & Hc & Hok & Hpos & X & U1 & U2 & T & El & Em & Er & Es).
    unfold user_plan_cost, scenario_cost, user_rate_cost, realise. rewrite HN, Hr, Hcm, Hm, Hc, El, Em, HP. unfold total, rate_penalty, total, l5_f. rewrite Hm, Es. unfold vzero. cbn. rewrite Es. field.
  Qed.
  Lemma l5_plan par : pP par = lk_p -> optimal_user_plan c par l5_f (l5_pol par) (fun _ => vzero) (fun _ _ => 0) (user_plan_cost c par l5_f (l5_pol par) (fun _ => vzero) (fun _ _ => 0)).
  Proof.
    intros HP. destruct l5_facts as (HN & Hr & Hcm & Ho & Hs & Hnl & Hm & Hd & Hc & Hok & Hpos & X & U1 & U2 & T & El & Em & Er & Es).
    split; [|split; [|split; [reflexivity|]]].
    - split; [rewrite Ho; discriminate|]. intros ps [Hps _]. cbv zeta. rewrite HN, Hm, Hc. unfold inside.
      split; [|split; [|split; [|split; [|split]]]].
      + intros k a _ Ha. cbn in Ha. lia.
      + intros k a Hk Ha. cbn in Ha. replace a with 0%nat by lia. rewrite U1, U2. pose proof (proj1 (l5_best (pX0 par 0%nat) (pUprev par 0%nat) 0 ltac:(lra))).
        destruct k as [|[|k]]; [| |lia]; cbn; lra.
      + intros k a Hk Ha. destruct (X a) as [-> ->]. cbn. auto.
      + intros a Ha. destruct (T a) as [-> ->]. cbn. auto.
      + intros k a _ Ha. cbn in Ha. lia.
      + intros k con _ [].
    - split; [intros ? ? ? ? _; reflexivity|]. intros ps _ u z p x k i con vmax pen _ Hi. rewrite Hc in Hi. destruct i; discriminate Hi.
    - intros policy' zpol' slack' [_ Hp'] _. rewrite !l5_cost by exact HP. unfold l5_pol.
      assert (R0 : realisation c (fun _ => 0%nat)) by (split; [rewrite Hcm; intros; lia|rewrite Hr; reflexivity]).
      pose proof (Hp' _ R0) as Q. cbv zeta in Q. destruct Q as (_ & Bu & _). specialize (Bu 0%nat 0%nat ltac:(lia) ltac:(rewrite Hm; cbn; lia)).
      unfold inside in Bu. rewrite U1, U2 in Bu. cbn in Bu.
      pose proof (proj2 (l5_best (pX0 par 0%nat) (pUprev par 0%nat) (policy' [] 0%nat) Bu)).
      pose proof (pow2_ge_0 (policy' [0%nat] 0%nat - policy' [] 0%nat / 2)). pose proof (pow2_ge_0 (policy' [1%nat] 0%nat - policy' [] 0%nat / 2)).
      set (w := l5_u _ _) in *. replace ((w / 2 - w / 2) ^ 2) with 0 by ring. lra.
  Qed.
  Lemma l5_point par policy zpol : robust_plan c par policy zpol -> has_objective c par (point_of c par policy zpol) (user_plan_cost c par l5_f policy zpol (fun _ _ => 0)).
  Proof.
    intros Hp. destruct l5_facts as (HN & Hr & Hcm & Ho & Hs & Hnl & Hm & Hd & Hc & Hok & Hpos & X & U1 & U2 & T & El & Em & Er & Es).
    apply user_cost_eq; try assumption; [lia| |rewrite Hm; apply l5_xu|].
    - split; [intros x x' u u' z z' tvp p Hx _|intros x x' tvp p Hx]; rewrite ?El, ?Em; [|reflexivity]. rewrite Hm in Hx. cbn in Hx. rewrite (Hx 0%nat) by lia. reflexivity.
    - intros ps Hps. cbv zeta. split; [|split].
      + intros k Hk a Ha. unfold stateX. rewrite Hd. cbn [ncoll]. unfold point_of.
        rewrite (tp_x c par policy zpol Hpos _ k _ 0 a Ha). rewrite clip_id by (try exact Hok; apply psnode_lt; assumption). rewrite psnode_hist by assumption. rewrite hplant_ps by exact Hok. reflexivity.
      + intros k Hk a Ha. unfold point_of. rewrite (tp_uidx c par policy zpol Hok Hpos Hp _ k _ (psnode_lt c Hok ps k Hps) a Ha), psnode_hist by assumption. reflexivity.
      + intros k a Hk Ha. rewrite Hc in Ha. cbn in Ha. lia.
  Qed.
End Facts5.

Example C106_nonvacuous_step :
  (forall t i pos, k_resolve l5 t i = Ok pos -> NoDup pos) /\
  regular l5_tr /\ exec l5_calls mpc_init = (l5_m, l5_tr) /\ was_setup l5_tr /\ wf_model (k_mdl l5) /\ wf_inputs (k_mdl l5) /\
  (forall t q, 0 < scaling_of l5_tr t q) /\ s_nhor (settings_of l5_tr) = Some 2%nat /\ k_nr l5 = 1%nat /\ k_ncomb l5 = 2%nat /\ k_nlchk l5 = false /\ k_user l5 = Some l5_f /\ xu_rate (k_mdl l5) l5_f /\
  nlcons_of l5_tr = [] /\ (forall c, problem_of l5 l5_tr c -> xu_cost c) /\
  (forall c xx u0 (t : R) ox l, problem_of l5 l5_tr c -> let par := problem_params (xx, u0, tvp_force l5_tr t, p_force l5_tr t) in
     (exists pt v, optimal_point c par pt v) -> exists v, optimal_point c par (fst (fst (fst (k_solve l5 c par ox l)))) v) /\
  (forall a, rterm_of l5_tr a = 7) /\ (* factors that do not count *)
  (forall c x, problem_of l5 l5_tr c -> exists policy zpol slack v,
     optimal_user_plan c (problem_params (x, m_u0 l5_m, tvp_force l5_tr (clock l5_tr), p_force l5_tr (clock l5_tr))) l5_f policy zpol slack v).
Proof.
  assert (E4 : forall t, p_force l5_tr t = lk_p) by (intros; vm_compute; reflexivity).
  split.
  { intros t i pos. unfold k_resolve, l5. destruct t; try discriminate; destruct (Nat.eqb i 0); try discriminate; intros H; injection H as <-; repeat constructor; intros []. }
  split; [apply regularb_ok; vm_compute; reflexivity|]. split; [apply surjective_pairing|]. split; [apply was_setupb_ok; vm_compute; reflexivity|].
  split; [apply l2_wf|]. split; [apply l2_wf|].
  split.
  { assert (E : forall t, scaling_of l5_tr t = match t with Vu => assign (E := link_env l5) Vu 0%nat [2] (fun _ => 1) | _ => fun _ => 1 end).
    { intros t. destruct t; vm_compute; reflexivity. }
    intros t q. rewrite E. destruct t; try lra. unfold assign. cbn. destruct q; cbn; lra. }
  split; [vm_compute; reflexivity|]. split; [reflexivity|]. split; [reflexivity|]. split; [reflexivity|]. split; [reflexivity|]. split; [apply l5_xu|]. split; [vm_compute; reflexivity|].
  assert (HX : forall c, problem_of l5 l5_tr c -> xu_cost c).
  { intros c PO. destruct (l5_facts c PO) as (HN & Hr & Hcm & Ho & Hs & Hnl & Hm & Hd & Hc & Hok & Hpos & X & U1 & U2 & T & El & Em & Er & Es).
    split; [intros x x' u u' z z' tvp p Hx _|intros x x' tvp p Hx]; rewrite ?El, ?Em; [|reflexivity]. rewrite Hm in Hx. cbn in Hx. rewrite (Hx 0%nat) by lia. reflexivity. }
  split; [exact HX|]. split.
  - intros c xx u0 t ox l PO par _. destruct (l5_facts c PO) as (HN & Hr & Hcm & Ho & Hs & Hnl & Hm & Hd & Hc & Hok & Hpos & X & U1 & U2 & T & El & Em & Er & Es).
    assert (HP : pP par = lk_p) by apply E4.
    pose proof (l5_plan c PO par HP) as (Hp & Hsl & _ & Hbest). cbn [l5 k_solve fst].
    exists (user_plan_cost c par l5_f (l5_pol par) (fun _ => vzero) (fun _ _ => 0)). split; [|split].
    + apply (to_point c par (l5_pol par) (fun _ => vzero) Hok Hpos Hd); try (rewrite Hm; apply l2_wf); try assumption.
      * rewrite Hc. intros con [].
      * intros con v pen Q. rewrite Hc in Q. destruct Q.
    + apply (l5_point c PO). exact Hp.
    + intros pt' v' Hf' Ho'.
      destruct (proj1 (C106_objective_is_plan_cost_partial c par l5_f (physU c pt' 0 0) v' Hok Hpos Hd ltac:(rewrite Hm; apply l2_wf) ltac:(rewrite Hm; apply l2_wf) Hnl
        ltac:(rewrite Hc; intros con []) ltac:(lia) Er (HX c PO) ltac:(rewrite Hm; apply l5_xu))) as (policy' & zpol' & slack' & Hp' & Hs' & <- & _).
      { exists pt'. split; [exact Hf'|]. split; [exact Ho'|intros a _; reflexivity]. }
      apply Hbest; assumption.
  - split; [intros a; vm_compute; reflexivity|]. intros c x PO. do 4 eexists. apply (l5_plan c PO). apply E4.
Qed.
