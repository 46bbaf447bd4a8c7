(** * C106 for the object: make_step with a rate penalty given as an expression. *)
From Coq Require Import Reals Lra Lia.
From Verif Require Import Base TreeModel TreeSpec TreeProofs NlpModel NlpSpec NlpProofs NlpProofs2 NlpProofs3 NlpProofs4 NlpProps.
From Verif Require Import MpcModel MpcSpec MpcProofs MpcProps MpcHistSpec MpcHistProofs RobustProps LinkModel LinkProps PlanSpec PlanProofs PlanProps BestSpec BestProps.
From Verif Require Import UrateSpec UrateProps.
Local Open Scope R_scope.
Local Open Scope list_scope.

Section Step.
  Variable L : link.
  Notation mtrace := (list (@call (link_env L) * res (option (tU (link_env L))))).

  (** As C91_make_step_is_optimal_partial, for a controller whose penalty on the changes of the inputs is the expression f:
      make_step returns the first input of a plan that is best for the cost with this expression, whatever factors the calls in the
      history gave. *)
  Theorem C106_make_step_is_optimal_partial f (hm : list (@call (link_env L))) m (tr : mtrace) nh x :
    (forall t i pos, k_resolve L t i = Ok pos -> NoDup pos) ->
    regular tr -> exec hm mpc_init = (m, tr) -> was_setup tr ->
    wf_model (k_mdl L) -> wf_inputs (k_mdl L) -> (1 <= k_ncomb L)%nat -> (forall t q, 0 < scaling_of tr t q) ->
    s_nhor (settings_of tr) = Some nh -> (1 <= nh)%nat -> (k_nr L < nh)%nat -> k_nlchk L = false -> k_user L = Some f -> xu_rate (k_mdl L) f ->
    (forall con, In con (nlcons_of tr) -> xu_constraint (k_mdl L) con) ->
    (forall c, problem_of L tr c -> xu_cost c) ->
    (forall c xx u0 (t : R) ox l, problem_of L tr c -> let par := problem_params (xx, u0, tvp_force tr t, p_force tr t) in
       (exists pt v, optimal_point c par pt v) -> exists v, optimal_point c par (fst (fst (fst (k_solve L c par ox l)))) v) ->
    exists c m' u, problem_of L tr c /\ make_step m (Good x) = (m', Ok u) /\
      let par := problem_params (x, m_u0 m, tvp_force tr (clock tr), p_force tr (clock tr)) in
      (exists policy zpol slack v, optimal_user_plan c par f policy zpol slack v) ->
      exists policy zpol slack v, optimal_user_plan c par f policy zpol slack v /\ NlpSpec.agree (n_u (k_mdl L)) u (policy []).
  Proof.
    intros ND Rg He Ws Hwf Hwu Hc Hsc Hnh HN Hnr Hnl Hus Hxr Hcon Hxu Hsol.
    destruct (inv4_reach (E := link_env L) ND hm m tr Rg He) as (I0 & J0 & K0 & H0).
    assert (Hset : m_setup m = true).
    { destruct (C14_ordinary_histories hm m tr (proj1 Rg) He) as (_ & _ & _ & _ & _ & Hok). destruct (Hok Ws x) as (m1 & u & ES).
      destruct (make_step_cases _ _ _ _ ES) as [(? & ? & _ & _ & [])|(? & Q & _)]; [exact Hset|discriminate]. }
    destruct (problem_for_of m tr I0 J0 H0 Hset) as (pr & Hpr & Hp & Hs0).
    destruct (bounds_for_of m tr I0 H0 Hset) as (obs & Hob & Hb).
    set (c := link_cfg L pr obs).
    assert (Hpd : m_pend m <> None) by (apply (i_prob _ _ I0), (i_set _ _ I0); exact Hset).
    destruct (i_have _ _ I0 Hpd) as (_ & X1 & X2 & X3).
    assert (PO : problem_of L tr c) by (apply problem_of_link; eauto).
    assert (HNc : N c = nh).
    { pose proof (eq_trans (eq_sym Hnh) (po_N _ _ _ PO)) as Q. injection Q as Q. exact (eq_sym Q). }
    assert (A : clock tr = m_t0 m) by (unfold clock; rewrite (i_c _ _ I0); reflexivity).
    assert (DT : exists dt, s_tstep (m_set m) = Some dt).
    { destruct (C14_ordinary_histories hm m tr (proj1 Rg) He) as (_ & _ & _ & _ & _ & Hok). destruct (Hok Ws x) as (m1 & u & ES).
      destruct (make_step_cases _ _ _ _ ES) as [(? & ? & _ & _ & [])|(? & Q & _)]; [eauto|discriminate]. }
    destruct DT as [dt DT].
    assert (MR : mready L m (tvp_force tr) (p_force tr) pr obs dt).
    { constructor; auto.
      - unfold tvp_force. pose proof (i_t _ _ I0) as B. unfold MpcProofs.agree in B. destruct (tvp_of tr); [congruence|]. destruct B; congruence.
      - unfold p_force. pose proof (i_p _ _ I0) as B. unfold MpcProofs.agree in B. destruct (p_of tr); [congruence|]. destruct B; congruence.
      - apply (j_f _ _ J0 Hset). }
    destruct (ready_step L m _ _ _ _ _ x MR) as (m1 & u & pt & ES & MR1 & T1 & SO & EU & RX & RU & RP).
    exists c, m1, u. split; [exact PO|]. split; [exact ES|]. rewrite A. fold c in SO, EU.
    set (par := problem_params (x, m_u0 m, tvp_force tr (m_t0 m), p_force tr (m_t0 m))) in *. cbv zeta.
    pose proof PO as [PN (S1 & S2 & S3 & S4 & S5 & S6 & S7 & S8) Pl Po Pr Ps Px Pu Pz Pt]. rewrite Hus in Pr.
    assert (Hpos : scaling_pos c).
    { split; [|split]; intros q _; destruct (Ps q) as (Q1 & Q2 & Q3); rewrite ?Q1, ?Q2, ?Q3; apply Hsc. }
    assert (Hok : cfg_ok c).
    { split; [rewrite HNc; exact HN|]. split; [rewrite S2; exact Hc|]. split; [|rewrite S8; exact Logic.I]. intros q Hq. apply Rgt_not_eq, Hpos, Hq. }
    assert (HC : forall u0 v, (exists pt, optimal_point c par pt v /\ NlpSpec.agree (n_u (mdl c)) (physU c pt 0 0) u0) <->
       (exists policy zpol slack, optimal_user_plan c par f policy zpol slack v /\ NlpSpec.agree (n_u (mdl c)) (policy []) u0)).
    { intros u0 v. apply C106_optimal_iff_partial; try assumption.
      - intros con Hi. rewrite Pl in Hi. apply (Hcon con Hi).
      - rewrite HNc, S1. exact Hnr.
      - apply Hxu. exact PO. }
    intros (policy & zpol & slack & v & Hopt).
    destruct (proj2 (HC (policy []) v)) as (pt0 & Hpt0 & _); [exists policy, zpol, slack; split; [exact Hopt|intros a _; reflexivity]|].
    destruct SO as (ox & l & lg & lx & st & Eso).
    assert (Q : exists v', optimal_point c par (fst (fst (fst (k_solve L c par ox l)))) v') by exact (Hsol c x (m_u0 m) (m_t0 m) ox l PO (ex_intro _ pt0 (ex_intro _ v Hpt0))).
    assert (Eq : k_solve L c par ox l = (pt, lg, lx, st)) by exact Eso. rewrite Eq in Q. cbn [fst] in Q. destruct Q as (v' & Hv').
    destruct (proj1 (HC (physU c pt 0 0) v')) as (policy' & zpol' & slack' & Hopt' & Hu').
    { exists pt. split; [exact Hv'|intros a _; reflexivity]. }
    exists policy', zpol', slack', v'. split; [exact Hopt'|]. intros a Ha. rewrite EU. symmetry. apply Hu'. exact Ha.
  Qed.
End Step.
Print Assumptions C106_make_step_is_optimal_partial.
