(** * The hypotheses of C104 are met: x+ = x + u, stage cost 4/3 x^2 + u^2 + rho (change of u)^2, terminal cost 2 x^2, horizon 1
    (rho = 0: standard mode, and 2 solves the Riccati equation; rho > 0: rate mode), a solver that returns the best point. *)
From Coq Require Import Reals Lra Lia String.
From Verif Require Import Base TreeModel TreeSpec TreeProofs NlpModel NlpSpec NlpProofs NlpProofs2 NlpProofs3 NlpProofs4 NlpProps.
From Verif Require Import MpcModel MpcSpec MpcProofs MpcProps MpcHistSpec MpcHistProofs MpcHistProps RobustProps LinkModel LinkProps LinkExamples SimModel SimSpec SimProofs SimProps.
From Verif Require Import PlanSpec PlanProofs PlanProofs2 PlanProps LinkPlanProps LinkPlanExamples BestSpec BestProofs BestProofs2 BestProps LinkBestProps.
Local Open Scope R_scope.
Local Open Scope list_scope.

Definition l4_mdl : dyn_model :=
  {| n_x := 1; n_u := 1; n_z := 0; rhs := fun x u _ _ _ _ => fun _ => x 0%nat + u 0%nat; alg := fun _ _ _ _ _ _ => vzero |}.
Section L4.
  Variable rho : R.
  Hypothesis Hrho : 0 <= rho.
  Definition l4_u (par : params) : R := (rho * pUprev par 0%nat - 2 * pX0 par 0%nat) / (3 + rho).
  Definition l4_pol (par : params) (h : list nat) : vec := fun _ => l4_u par.
  Definition l4 : link :=
    mkLink l4_mdl 0 1 false false false false nat (fun t i => Err ExcAssertion)
      0 0 (fun r kws => match kws with [(_, v)] => fun _ => v | _ => r end)
      (fun _ => {| oX := fun _ _ _ => vzero; oZ := fun _ _ _ => vzero; oU := fun _ _ => vzero; oE := fun _ _ => vzero |})
      (fun o _ _ _ _ => o) (fun c par _ _ => (point_of c par (l4_pol par) (fun _ => vzero), vzero, vzero, true)) (fun z _ _ _ _ _ => z) None.
  Definition l4_obj : tObj (link_env l4) := (fun x u _ _ _ => 4/3 * x 0%nat ^ 2 + u 0%nat ^ 2, fun x _ _ => 2 * x 0%nat ^ 2).
  Definition l4_calls : list (@call (link_env l4)) :=
    [KSetting (fun s => mkSet (Some (1 : tTm (link_env l4))) (Some 1%nat) (s_term s) (s_full s) (s_lagr s) (s_stats s));
     KObjective (Some (Good tt)) (Some (Good tt)) l4_obj;
     KRterm [("u"%string, rho : tR (link_env l4))] 1;
     KSetup].
  Definition l4_m := fst (exec l4_calls mpc_init).
  Definition l4_tr := snd (exec l4_calls mpc_init).
  Lemma l4_wf : wf_model l4_mdl /\ wf_inputs l4_mdl.
  Proof.
    split.
    - intros x x' u z z' tvp p w Hx Hz. split; intros a Ha; cbn in *; [rewrite (Hx 0%nat) by lia; reflexivity|lia].
    - intros x u u' z tvp p w Hu. split; intros a Ha; cbn in *; [rewrite (Hu 0%nat) by lia; reflexivity|lia].
  Qed.

  Section Facts4.
    Variable c : cfg.
    Hypothesis PO : problem_of l4 l4_tr c.
    Lemma l4_facts : N c = 1%nat /\ nr c = 0%nat /\ ncomb c = 1%nat /\ open_loop c = false /\ single_slack c = false /\ nl_chk_colloc c = false /\ mdl c = l4_mdl /\ disc c = Discrete /\
      nlc c = [] /\ cfg_ok c /\ scaling_pos c /\ (forall a, xlb c a = None /\ xub c a = None) /\ (forall a, ulb c a = None /\ uub c a = None) /\
      (forall a, tlb c a = None /\ tub c a = None) /\ lterm c = fst l4_obj /\ mterm c = snd l4_obj /\ rterm c = RDefault (fun _ => rho) /\ su c 0%nat = 1.
    Proof.
      destruct PO as [PN (S1 & S2 & S3 & S4 & S5 & S6 & S7 & S8) Pl Po Pr Ps Px Pu Pz Pt].
      assert (HN : N c = 1%nat).
      { assert (E : s_nhor (settings_of l4_tr) = Some 1%nat) by (vm_compute; reflexivity). rewrite E in PN. injection PN as <-. reflexivity. }
      cbn in S1, S2, S3, S4, S5, S6, S7.
      assert (E1 : sx c 0%nat = 1). { destruct (Ps 0%nat) as (E & _). rewrite E. vm_compute. reflexivity. }
      assert (E2 : su c 0%nat = 1). { destruct (Ps 0%nat) as (_ & E & _). rewrite E. vm_compute. reflexivity. }
      assert (Hpos : scaling_pos c).
      { unfold scaling_pos. rewrite S7. split; [|split]; cbn; intros a Ha; [replace a with 0%nat by lia; rewrite E1; lra|replace a with 0%nat by lia; rewrite E2; lra|lia]. }
      assert (Hok : cfg_ok c).
      { split; [lia|]. split; [lia|]. split; [|rewrite S8; exact I]. intros a Ha. apply Rgt_not_eq, Hpos, Ha. }
      do 8 (split; [assumption|]). split; [rewrite Pl; vm_compute; reflexivity|]. split; [exact Hok|]. split; [exact Hpos|].
      split. { intros a. destruct (Px a) as [B1 B2]. rewrite B1, B2. split; vm_compute; reflexivity. }
      split. { intros a. destruct (Pu a) as [B1 B2]. rewrite B1, B2. split; vm_compute; reflexivity. }
      split.
      { intros a. destruct (Pt a) as (lo & hi & [_ T1] & [_ T2] & B5 & B6). assert (ST : s_term (settings_of l4_tr) = false) by (vm_compute; reflexivity).
        rewrite B5, B6, T1, T2 by (right; exact ST). split; vm_compute; reflexivity. }
      assert (EO : objective_of l4_tr = Some l4_obj) by reflexivity.
      rewrite EO in Po. unfold l4_obj in Po. injection Po as Q1 Q2. split; [symmetry; exact Q1|]. split; [symmetry; exact Q2|].
      split; [rewrite Pr; reflexivity|exact E2].
    Qed.
    Lemma l4_cost par policy zpol :
      plan_cost c par (fun _ => rho) policy zpol (fun _ _ => 0) =
        4/3 * pX0 par 0%nat ^ 2 + policy [] 0%nat ^ 2 + 2 * (pX0 par 0%nat + policy [] 0%nat) ^ 2 + rho * (policy [] 0%nat - pUprev par 0%nat) ^ 2.
    Proof.
      destruct l4_facts as (HN & Hr & Hcm & Ho & Hs & Hnl & Hm & Hd & Hc & Hok & Hpos & X & U & T & El & Em & Er & Es).
      unfold plan_cost, scenario_cost, realise. rewrite HN, Hr, Hcm, Hm, Hc, El, Em. unfold total, rate_penalty, total. rewrite Hm. cbn. rewrite Es. field.
    Qed.
    Lemma l4_plan par : optimal_plan c par (fun _ => rho) (l4_pol par) (fun _ => vzero) (fun _ _ => 0) (plan_cost c par (fun _ => rho) (l4_pol par) (fun _ => vzero) (fun _ _ => 0)).
    Proof.
      destruct l4_facts as (HN & Hr & Hcm & Ho & Hs & Hnl & Hm & Hd & Hc & Hok & Hpos & X & U & T & El & Em & Er & Es).
      assert (E0 : forall policy zpol slack, plan_cost c par (fun _ => rho) policy zpol slack = plan_cost c par (fun _ => rho) policy zpol (fun _ _ => 0)).
      { intros. unfold plan_cost, scenario_cost. rewrite Hc. reflexivity. }
      split; [|split; [|split; [reflexivity|]]].
      - split; [rewrite Ho; discriminate|]. intros ps [Hps _]. cbv zeta. rewrite HN, Hm, Hc. unfold inside.
        split; [|split; [|split; [|split; [|split]]]].
        + intros k a _ Ha. cbn in Ha. lia.
        + intros k a Hk Ha. destruct (U a) as [-> ->]. cbn. auto.
        + intros k a Hk Ha. destruct (X a) as [-> ->]. cbn. auto.
        + intros a Ha. destruct (T a) as [-> ->]. cbn. auto.
        + intros k a _ Ha. cbn in Ha. lia.
        + intros k con _ [].
      - split; [intros ? ? ? ? _; reflexivity|]. intros ps _ u z p x k i con vmax pen _ Hi. rewrite Hc in Hi. destruct i; discriminate Hi.
      - intros policy' zpol' slack' _ _. rewrite (E0 policy' zpol' slack'), !l4_cost. unfold l4_pol, l4_u. generalize (policy' [] 0%nat) (pX0 par 0%nat) (pUprev par 0%nat). intros u x w.
        match goal with |- ?a <= ?b => replace b with (a + (3 + rho) * (u - (rho * w - 2 * x) / (3 + rho)) ^ 2) by (field; lra) end.
        pose proof (Rmult_le_pos (3 + rho) ((u - (rho * w - 2 * x) / (3 + rho)) ^ 2) ltac:(lra) (pow2_ge_0 _)). lra.
    Qed.
    Lemma l4_xu : xu_cost c.
    Proof.
      destruct l4_facts as (HN & Hr & Hcm & Ho & Hs & Hnl & Hm & Hd & Hc & Hok & Hpos & X & U & T & El & Em & Er & Es).
      split; [intros x x' u u' z z' tvp p Hx Hu|intros x x' tvp p Hx]; rewrite ?El, ?Em; unfold l4_obj; cbn [fst snd]; rewrite Hm in *; cbn in Hx; rewrite (Hx 0%nat) by lia; [|reflexivity].
      cbn in Hu. rewrite (Hu 0%nat) by lia. reflexivity.
    Qed.
    Lemma l4_point par policy zpol : robust_plan c par policy zpol -> has_objective c par (point_of c par policy zpol) (plan_cost c par (fun _ => rho) policy zpol (fun _ _ => 0)).
    Proof.
      intros Hp. destruct l4_facts as (HN & Hr & Hcm & Ho & Hs & Hnl & Hm & Hd & Hc & Hok & Hpos & X & U & T & El & Em & Er & Es).
      apply cost_eq; try assumption; [lia|exact l4_xu|].
      intros ps Hps. cbv zeta. split; [|split].
      - intros k Hk a Ha. unfold stateX. rewrite Hd. cbn [ncoll]. unfold point_of.
        rewrite (tp_x c par policy zpol Hpos _ k _ 0 a Ha). rewrite clip_id by (try exact Hok; apply psnode_lt; assumption). rewrite psnode_hist by assumption. rewrite hplant_ps by exact Hok. reflexivity.
      - intros k Hk a Ha. unfold point_of. rewrite (tp_uidx c par policy zpol Hok Hpos Hp _ k _ (psnode_lt c Hok ps k Hps) a Ha), psnode_hist by assumption. reflexivity.
      - intros k a Hk Ha. rewrite Hc in Ha. cbn in Ha. lia.
    Qed.
    Lemma l4_solver xx u0 t ox l : let par := problem_params (xx, u0, tvp_force l4_tr t, p_force l4_tr t) in
      exists v, optimal_point c par (fst (fst (fst (k_solve l4 c par ox l)))) v.
    Proof.
      intros par. destruct l4_facts as (HN & Hr & Hcm & Ho & Hs & Hnl & Hm & Hd & Hc & Hok & Hpos & X & U & T & El & Em & Er & Es).
      pose proof (l4_plan par) as (Hp & Hsl & _ & Hbest). cbn [l4 k_solve fst].
      exists (plan_cost c par (fun _ => rho) (l4_pol par) (fun _ => vzero) (fun _ _ => 0)). split; [|split].
      - apply (to_point c par (l4_pol par) (fun _ => vzero) Hok Hpos Hd); try (rewrite Hm; apply l4_wf); try assumption.
        + rewrite Hc. intros con [].
        + intros con v pen Q. rewrite Hc in Q. destruct Q.
      - apply l4_point. exact Hp.
      - intros pt' v' Hf' Ho'.
        destruct (proj1 (C91_objective_is_plan_cost_partial c par (fun _ => rho) (physU c pt' 0 0) v' Hok Hpos Hd ltac:(rewrite Hm; apply l4_wf) ltac:(rewrite Hm; apply l4_wf) Hnl
          ltac:(rewrite Hc; intros con []) ltac:(lia) Er l4_xu)) as (policy' & zpol' & slack' & Hp' & Hs' & <- & _).
        { exists pt'. split; [exact Hf'|]. split; [exact Ho'|intros a _; reflexivity]. }
        apply Hbest; assumption.
    Qed.
  End Facts4.
  Lemma l4_scaling t q : MpcHistSpec.scaling_of l4_tr t q = 1.
  Proof. destruct t; vm_compute; reflexivity. Qed.
  Lemma l4_run : regular l4_tr /\ exec l4_calls mpc_init = (l4_m, l4_tr) /\ was_setup l4_tr.
  Proof.
    split; [apply regularb_ok; vm_compute; reflexivity|]. split; [apply surjective_pairing|]. apply was_setupb_ok; vm_compute; reflexivity.
  Qed.
End L4.
