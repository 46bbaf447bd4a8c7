(** * C92 for the objects: the total cost of the closed loop is bounded by the cost of the first plan. *)
From Coq Require Import Reals Lra Lia.
From Verif Require Import Base TreeModel TreeSpec TreeProofs NlpModel NlpSpec NlpProofs NlpProofs2 NlpProofs3 NlpProofs4 NlpProps.
From Verif Require Import MpcModel MpcSpec MpcProofs MpcProps MpcHistSpec MpcHistProofs SimModel SimSpec SimProofs SimProps RobustProps LinkModel LinkProps PlanSpec PlanProofs PlanProofs2 PlanProps LinkPlanProps.
From Verif Require Import BestSpec BestProps DescSpec DescProofs DescProps.
Local Open Scope R_scope.
Local Open Scope list_scope.

Section Loop.
  Variable L : link.
  Notation mtrace := (list (@call (link_env L) * res (option (tU (link_env L))))).
  Notation strace := (list (@scall (link_sim L) * res (option (sY (link_sim L))))).

  Lemma ready_step_u0 m tf pf pr obs dt x m' u : mready L m tf pf pr obs dt -> make_step m (Good x) = (m', Ok u) -> m_u0 m' = u.
  Proof.
    intros R ES. destruct (make_step_cases _ _ _ _ ES) as [(x' & u' & Hx & Q & [])|(e & Q & _)]; [|discriminate].
    injection Q as <-. subst m'. reflexivity.
  Qed.

  Theorem C92_closed_loop_cost (n : nat) (hm : list (@call (link_env L))) m (tr : mtrace) (hs : list (@scall (link_sim L))) s (str : strace) nh dt :
    (forall t i pos, k_resolve L t i = Ok pos -> NoDup pos) ->
    (* controller and simulator: any regular histories with a successful setup, same clock and sampling time *)
    regular tr -> exec hm mpc_init = (m, tr) -> was_setup tr ->
    sordinary str -> sexec hs sim_init = (s, str) -> swas_setup str ->
    sclock str = clock tr -> stime_step str = s_tstep (settings_of tr) -> s_tstep (settings_of tr) = Some dt ->
    (* the problem: one scenario, costs and constraints of states and inputs *)
    wf_model (k_mdl L) -> wf_inputs (k_mdl L) -> alg_unique (k_mdl L) -> (1 <= k_ncomb L)%nat -> (forall t q, 0 < scaling_of tr t q) ->
    s_nhor (settings_of tr) = Some nh -> (1 <= nh)%nat -> (k_nr L < nh)%nat -> (k_nr L = 0%nat \/ k_ncomb L = 1%nat) ->
    root_ok L -> plant_covered L tr str -> k_nlchk L = false -> k_user L = None ->
    (forall con, In con (nlcons_of tr) -> xu_constraint (k_mdl L) con) ->
    (forall con v pen, In con (nlcons_of tr) -> nl_soft con = Some (Some v, pen) -> 0 <= v) ->
    (forall con v pen, In con (nlcons_of tr) -> nl_soft con = Some (v, pen) -> 0 <= pen) ->
    (forall c, problem_of L tr c -> xu_cost c) -> consistent_preview L tr ->
    (* terminal set and terminal cost *)
    (forall c (t : R), problem_of L tr c -> exists law zlaw, terminal_invariant c (tvp_force tr t nh) (p_force tr t) law zlaw /\
       terminal_decrease c (rterm_of tr) (tvp_force tr t nh) (tvp_force tr (t + dt) nh) (p_force tr t 0%nat) law zlaw) ->
    (* a solver that finds a best point of every feasible problem *)
    (forall c x u0 (t : R) ox l, problem_of L tr c -> let par := problem_params (x, u0, tvp_force tr t, p_force tr t) in
       (exists pt, feasible c par pt) -> exists v, optimal_point c par (fst (fst (fst (k_solve L c par ox l)))) v) ->
    (* the first problem is feasible *)
    (forall c, problem_of L tr c -> exists pt, feasible c (problem_params (c_x0 s, m_u0 m, tvp_force tr (clock tr), p_force tr (clock tr))) pt) ->
    exists c m' s' (rows : nat -> vec * vec * (nat -> vec) * (nat -> vec)) (us : nat -> vec) (vs : nat -> R),
      let par := fun k => problem_params (rows k) in
      let cost := fun k => step_cost c (rterm_of tr) (pX0 (par k)) (us k) (pUprev (par k)) (pTvp (par k) 0%nat) (pP (par k) 0%nat) in
      problem_of L tr c /\
      loop (E := link_env L) (F := link_sim L) (fun u => u) (fun y => y) n m s (c_x0 s) = (m', s', Ok (c_x0 s')) /\
      (* rows k is the recorded problem of step k, us k the recorded input, pX0 (par k) the recorded state *)
      r_optp (m_data m') = r_optp (m_data m) ++ map rows (seq 0 n) /\ r_u (m_data m') = r_u (m_data m) ++ map us (seq 0 n) /\
      q_u (c_data s') = q_u (c_data s) ++ map us (seq 0 n) /\ q_x (c_data s') = q_x (c_data s) ++ map (fun k => pX0 (par k)) (seq 0 n) /\
      pX0 (par 0%nat) = c_x0 s /\ pX0 (par n) = c_x0 s' /\
      pUprev (par 0%nat) = m_u0 m /\ (forall k, (k < n)%nat -> pUprev (par (k + 1)%nat) = us k) /\
      (* vs k is the least cost of a plan at step k; it decreases by at least the cost of the step *)
      (forall k, (k <= n)%nat -> exists policy zpol slack, optimal_plan c (par k) (rterm_of tr) policy zpol slack (vs k)) /\
      (forall k, (k < n)%nat -> vs (k + 1)%nat + cost k <= vs k) /\
      total n cost + vs n <= vs 0%nat.
  Proof.
    intros ND Rg He Ws Os Hs Wss Hck Hdt DTs Hwf Hwu Huq Hc Hsc Hnh HN Hnr Hone Hroot Hcov Hnl Hus Hcon Hvio Hpen Hxu Hprev Hterm Hsol Hfirst.
    destruct (inv4_reach (E := link_env L) ND hm m tr Rg He) as (I0 & J0 & K0 & H0).
    assert (Hset : m_setup m = true).
    { destruct (C14_ordinary_histories hm m tr (proj1 Rg) He) as (_ & _ & _ & _ & _ & Hok). destruct (Hok Ws (c_x0 s)) as (m1 & u & ES).
      destruct (make_step_cases _ _ _ _ ES) as [(? & ? & _ & _ & [])|(? & Q & _)]; [exact Hset|discriminate]. }
    destruct (problem_for_of m tr I0 J0 H0 Hset) as (pr & Hpr & Hp & Hs0).
    destruct (bounds_for_of m tr I0 H0 Hset) as (obs & Hob & Hb).
    set (c := link_cfg L pr obs).
    destruct (sinv2_reach hs s str Os Hs) as [I J].
    assert (CS : c_setup s = true) by (apply (v_setup _ _ I); exact Wss).
    destruct (j2_dt _ _ J CS) as [_ D2]. destruct (v_have _ _ I CS) as (D3 & D4 & _).
    assert (CT : c_tstep s = Some dt) by (rewrite (v_ts _ _ I), Hdt; exact DTs).
    assert (SR : sready L s (stvp_force str) (sp_force str) dt).
    { constructor; auto.
      - unfold stvp_force. pose proof (v_t _ _ I) as A. unfold sagree in A. destruct (stvp_of str); [congruence|]. destruct A; congruence.
      - unfold sp_force. pose proof (v_p _ _ I) as A. unfold sagree in A. destruct (sp_of str); [congruence|]. destruct A; congruence. }
    assert (DT : s_tstep (m_set m) = Some dt) by (rewrite (i_s _ _ I0); exact DTs).
    assert (Hpd : m_pend m <> None) by (apply (i_prob _ _ I0), (i_set _ _ I0); exact Hset).
    destruct (i_have _ _ I0 Hpd) as (_ & X1 & X2 & X3).
    assert (MR : mready L m (tvp_force tr) (p_force tr) pr obs dt).
    { constructor; auto.
      - unfold tvp_force. pose proof (i_t _ _ I0) as A. unfold MpcProofs.agree in A. destruct (tvp_of tr); [congruence|]. destruct A; congruence.
      - unfold p_force. pose proof (i_p _ _ I0) as A. unfold MpcProofs.agree in A. destruct (p_of tr); [congruence|]. destruct A; congruence.
      - apply (j_f _ _ J0 Hset). }
    assert (PO : problem_of L tr c) by (apply problem_of_link; eauto).
    assert (HNc : N c = nh).
    { pose proof (eq_trans (eq_sym Hnh) (po_N _ _ _ PO)) as Q. injection Q as Q. exact (eq_sym Q). }
    assert (A : clock tr = m_t0 m) by (unfold clock; rewrite (i_c _ _ I0); reflexivity).
    assert (CK : m_t0 m = c_t0 s).
    { assert (B : sclock str = c_t0 s) by (unfold sclock; rewrite (v_ck _ _ I); reflexivity). rewrite <- A, <- B. symmetry. exact Hck. }
    specialize (Hfirst c PO). rewrite A in Hfirst.
    pose proof (fun t => Hterm c t PO) as Ht. pose proof (Hxu c PO) as Hxuc.
    pose proof (fun t => Hprev dt nh t DTs Hnh) as Hpr'.
    clear - Hwf Hwu Huq Hc Hsc Hroot Hcov SR MR PO HNc CK HN Hnr Hone Hnl Hus Hcon Hvio Hpen Hxuc Hpr' Ht Hsol Hfirst.
    pose proof PO as [PN (S1 & S2 & S3 & S4 & S5 & S6 & S7 & S8) Pl Po Pr Ps Px Pu Pz Pt]. rewrite Hnl in S6. rewrite Hus in Pr.
    assert (Hpos : scaling_pos c).
    { split; [|split]; intros q _; destruct (Ps q) as (Q1 & Q2 & Q3); rewrite ?Q1, ?Q2, ?Q3; apply Hsc. }
    assert (Hok : cfg_ok c).
    { split; [rewrite HNc; exact HN|]. split; [rewrite S2; exact Hc|]. split; [|rewrite S8; exact Logic.I]. intros q Hq. apply Rgt_not_eq, Hpos, Hq. }
    assert (Hcon' : forall con, In con (nlc c) -> xu_constraint (mdl c) con) by (intros con Hi; rewrite Pl in Hi; rewrite S7; exact (Hcon con Hi)).
    assert (Hnr' : (nr c < N c)%nat) by (rewrite HNc, S1; exact Hnr).
    assert (Hwf' : wf_model (mdl c)) by (rewrite S7; exact Hwf). assert (Hwu' : wf_inputs (mdl c)) by (rewrite S7; exact Hwu).
    assert (Huq' : alg_unique (mdl c)) by (rewrite S7; exact Huq).
    assert (H1 : one_scenario c) by (unfold one_scenario; rewrite S1, S2; exact Hone).
    assert (Hvio' : violations_ok c) by (intros con v pen Hi; rewrite Pl in Hi; apply Hvio; exact Hi).
    assert (Hpen' : penalties_ok c) by (intros con v pen Hi; rewrite Pl in Hi; eapply Hpen; exact Hi).
    assert (Hpl : forall par v, (exists pt, optimal_point c par pt v) -> exists policy zpol slack, optimal_plan c par (rterm_of tr) policy zpol slack v).
    { intros par v (pt & Hpt).
      destruct (proj1 (C91_optimal_iff_partial c par (rterm_of tr) (physU c pt 0 0) v Hok Hpos S8 Hwf' Hwu' S6 Hcon' Hnr' Pr Hxuc)) as (po & zp & sl & Q & _).
      { exists pt. split; [exact Hpt|intros a _; reflexivity]. }
      exists po, zp, sl. exact Q. }
    assert (G : forall n m s, mready L m (tvp_force tr) (p_force tr) pr obs dt -> sready L s (stvp_force str) (sp_force str) dt -> m_t0 m = c_t0 s ->
      (exists pt, feasible c (problem_params (c_x0 s, m_u0 m, tvp_force tr (m_t0 m), p_force tr (m_t0 m))) pt) ->
      exists m' s' (rows : nat -> vec * vec * (nat -> vec) * (nat -> vec)) (us : nat -> vec) (vs : nat -> R),
      let par := fun k => problem_params (rows k) in
      let cost := fun k => step_cost c (rterm_of tr) (pX0 (par k)) (us k) (pUprev (par k)) (pTvp (par k) 0%nat) (pP (par k) 0%nat) in
      loop (E := link_env L) (F := link_sim L) (fun u => u) (fun y => y) n m s (c_x0 s) = (m', s', Ok (c_x0 s')) /\
      r_optp (m_data m') = r_optp (m_data m) ++ map rows (seq 0 n) /\ r_u (m_data m') = r_u (m_data m) ++ map us (seq 0 n) /\
      q_u (c_data s') = q_u (c_data s) ++ map us (seq 0 n) /\ q_x (c_data s') = q_x (c_data s) ++ map (fun k => pX0 (par k)) (seq 0 n) /\
      rows 0%nat = (c_x0 s, m_u0 m, tvp_force tr (m_t0 m), p_force tr (m_t0 m)) /\ pX0 (par n) = c_x0 s' /\
      (forall k, (k < n)%nat -> pUprev (par (k + 1)%nat) = us k) /\
      (forall k, (k <= n)%nat -> exists pt, optimal_point c (par k) pt (vs k)) /\
      (forall k, (k < n)%nat -> vs (k + 1)%nat + cost k <= vs k) /\
      total n cost + vs n <= vs 0%nat).
    { clear m s MR SR CK Hfirst n. induction n as [|n IH]; intros m s MR SR CK Hfirst.
      - destruct (ready_step L m _ _ _ _ _ (c_x0 s) MR) as (m1 & u & pt & _ & _ & _ & (ox & l & lg & lx & st & Eso) & _).
        assert (Q : exists v, optimal_point c (problem_params (c_x0 s, m_u0 m, tvp_force tr (m_t0 m), p_force tr (m_t0 m))) (fst (fst (fst (k_solve L c (problem_params (c_x0 s, m_u0 m, tvp_force tr (m_t0 m), p_force tr (m_t0 m))) ox l)))) v)
          by exact (Hsol c (c_x0 s) (m_u0 m) (m_t0 m) ox l PO Hfirst).
        destruct Q as [v Hv].
        exists m, s, (fun _ => (c_x0 s, m_u0 m, tvp_force tr (m_t0 m), p_force tr (m_t0 m))), (fun _ => vzero), (fun _ => v). cbv zeta. cbn [loop seq map]. rewrite !app_nil_r.
        do 7 (split; [reflexivity|]). split; [intros k Hk; lia|]. split; [intros k _; eexists; exact Hv|]. split; [intros k Hk; lia|].
        unfold total. cbn. lra.
      - destruct (ready_step L m _ _ _ _ _ (c_x0 s) MR) as (m1 & u & pt & ES & MR1 & T1 & SO & EU & RX & RU & RP).
        pose proof (ready_step_u0 m _ _ _ _ _ _ _ _ MR ES) as U1.
        destruct (sready_step L s _ _ _ u SR) as (s1 & z & SS & SR1 & T2 & EZ & EX & QX & QU & QP).
        set (row := (c_x0 s, m_u0 m, tvp_force tr (m_t0 m), p_force tr (m_t0 m))) in *.
        set (par := problem_params row) in *.
        assert (Hv : exists v, optimal_point c par pt v).
        { destruct SO as (ox & l & lg & lx & st & Eso).
          assert (Q : exists v, optimal_point c par (fst (fst (fst (k_solve L c par ox l)))) v) by exact (Hsol c (c_x0 s) (m_u0 m) (m_t0 m) ox l PO Hfirst).
          assert (Eq : k_solve L c par ox l = (pt, lg, lx, st)) by exact Eso. rewrite Eq in Q. exact Q. }
        destruct Hv as [v Hv]. pose proof (proj1 Hv) as Hf.
        destruct Hcov as [Hv1 Hpp]. destruct (Hpp (c_t0 s)) as (i & Hi & Hi0 & Ei).
        assert (i0 : i = 0%nat) by (destruct Hone as [Q|Q]; [exact (Hi0 Q)|rewrite Q in Hi; lia]). subst i.
        assert (E1 : stvp_force str (c_t0 s) = pTvp par 0%nat) by (rewrite Hv1, <- CK; reflexivity).
        assert (E2 : sp_force str (c_t0 s) = pP par 0%nat) by (rewrite Ei, <- CK; reflexivity).
        rewrite E1, E2, EU in EX, EZ. change (c_x0 s) with (pX0 par) in EX, EZ at 1.
        assert (Hz : forall a, (a < n_z (mdl c))%nat -> alg (mdl c) (pX0 par) (physU c pt 0 0) z (pTvp par 0%nat) (pP par 0%nat) vzero a = 0).
        { rewrite S7. intros a Ha. rewrite EZ. destruct (Nat.eqb_spec (n_z (k_mdl L)) 0) as [E0|E0]; [lia|].
          apply Hroot; [|exact Ha].
          assert (Q : exists z, forall a, (a < n_z (mdl c))%nat -> alg (mdl c) (pX0 par) (physU c pt 0 0) z (pTvp par 0%nat) (pP par 0%nat) vzero a = 0).
          { apply (first_alg c par pt Hok Hpos S8); [exact Hwf'|exact Hf|rewrite S2; exact Hi|reflexivity]. }
          rewrite S7 in Q. exact Q. }
        destruct (Ht (m_t0 m)) as (law & zlaw & Hti & Htd). destruct (Hpr' (m_t0 m)) as [Hp1 Hp2].
        set (par1 := problem_params (c_x0 s1, m_u0 m1, tvp_force tr (m_t0 m1), p_force tr (m_t0 m1))).
        assert (Hstep : (exists pt', feasible c par1 pt') /\ forall pt' v', optimal_point c par1 pt' v' ->
          v' + step_cost c (rterm_of tr) (pX0 par) (physU c pt 0 0) (pUprev par) (pTvp par 0%nat) (pP par 0%nat) <= v).
        { apply (C92_cost_decreases c par par1 (rterm_of tr) pt v z law zlaw); try assumption.
          - exact (proj1 (proj2 Hv)).
          - rewrite HNc. exact Hti.
          - rewrite HNc. unfold par1. rewrite T1. exact Htd.
          - split; [|split].
            + intros a Ha. unfold par1. cbn [pX0 problem_params fst snd]. rewrite EX, S7. reflexivity.
            + intros k Hk. unfold par1. cbn [pTvp problem_params fst snd par row]. rewrite T1. apply Hp1. rewrite HNc in Hk. exact Hk.
            + intros j Hj. unfold par1. cbn [pP problem_params fst snd par row]. rewrite T1. apply Hp2. rewrite S2 in Hj. exact Hj.
          - intros a Ha. unfold par1. cbn [pUprev problem_params fst snd]. rewrite U1, EU. reflexivity. }
        destruct Hstep as [Hnext Hdec].
        destruct (IH m1 s1 MR1 SR1) as (m' & s' & rows & us & vs & IH1); [rewrite T1, T2, CK; reflexivity|exact Hnext|]. cbv zeta in IH1.
        destruct IH1 as (LO & A1 & A2 & A3 & A4 & A5 & A6 & A7 & A8 & A9 & A10).
        set (ro := fun k => match k with O => row | Datatypes.S j => rows j end). set (uu := fun k => match k with O => u | Datatypes.S j => us j end).
        set (vv := fun k => match k with O => v | Datatypes.S j => vs j end).
        assert (Efirst : vs 0%nat + step_cost c (rterm_of tr) (pX0 par) u (pUprev par) (pTvp par 0%nat) (pP par 0%nat) <= v).
        { destruct (A8 0%nat ltac:(lia)) as (pt0 & Q). rewrite A5 in Q. rewrite EU. exact (Hdec pt0 _ Q). }
        assert (Ms : forall (B : Type) (g : nat -> B), map g (seq 1 n) = map (fun k => g (Datatypes.S k)) (seq 0 n)) by (intros B g; rewrite <- seq_shift, map_map; reflexivity).
        exists m', s', ro, uu, vv. cbv zeta. cbn [seq map]. rewrite !Ms.
        split; [cbn [loop]; rewrite ES, SS; exact LO|].
        split; [rewrite A1, RP, <- app_assoc; reflexivity|]. split; [rewrite A2, RU, <- app_assoc; reflexivity|].
        split; [rewrite A3, QU, <- app_assoc; reflexivity|]. split; [rewrite A4, QX, <- app_assoc; reflexivity|].
        split; [reflexivity|]. split; [exact A6|].
        split.
        { intros [|k] Hk; [|exact (A7 k ltac:(lia))]. cbn [Nat.add ro uu]. rewrite A5. exact U1. }
        split; [intros [|k] Hk; [exists pt; exact Hv|exact (A8 k ltac:(lia))]|].
        split; [intros [|k] Hk; [exact Efirst|exact (A9 k ltac:(lia))]|].
        rewrite total_first.
        match goal with |- ?a + ?b + vv (Datatypes.S n) <= vv 0%nat => assert (Hb : b + vs n <= vs 0%nat) by exact A10; change (a + b + vs n <= v); 
          assert (Ha : vs 0%nat + a <= v) by exact Efirst end. lra. }
    destruct (G n m s MR SR CK Hfirst) as (m' & s' & rows & us & vs & Q). cbv zeta in Q.
    destruct Q as (LO & A1 & A2 & A3 & A4 & A5 & A6 & A7 & A8 & A9 & A10).
    exists c, m', s', rows, us, vs. cbv zeta. split; [exact PO|]. split; [exact LO|]. split; [exact A1|]. split; [exact A2|]. split; [exact A3|]. split; [exact A4|].
    split; [rewrite A5; reflexivity|]. split; [exact A6|]. split; [rewrite A5; reflexivity|]. split; [exact A7|].
    split; [intros k Hk; apply Hpl; exact (A8 k Hk)|]. split; [exact A9|exact A10].
  Qed.
End Loop.
Print Assumptions C92_closed_loop_cost.
