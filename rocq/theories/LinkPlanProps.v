(** * C90 for the objects: controller and simulator in a loop stay feasible for ever. *)
From Coq Require Import Reals Lra Lia.
From Verif Require Import Base TreeModel TreeSpec TreeProofs NlpModel NlpSpec NlpProofs NlpProofs2 NlpProofs3 NlpProofs4 NlpProps.
From Verif Require Import MpcModel MpcSpec MpcProofs MpcProps MpcHistSpec MpcHistProofs SimModel SimSpec SimProofs SimProps RobustProps LinkModel LinkProps PlanSpec PlanProofs PlanProofs2 PlanProps.
Local Open Scope R_scope.
Local Open Scope list_scope.

Section Loop.
  Variable L : link.
  Notation mtrace := (list (@call (link_env L) * res (option (tU (link_env L))))).
  Notation strace := (list (@scall (link_sim L) * res (option (sY (link_sim L))))).

  (** The preview given by the user's function at the next sampling instant is the present one moved by one step, and
      the rows of the uncertainty table do not change. *)
  Definition consistent_preview (tr : mtrace) : Prop :=
    forall dt nh (t : R), s_tstep (settings_of tr) = Some dt -> s_nhor (settings_of tr) = Some nh ->
      (forall k, (k < nh)%nat -> tvp_force tr (t + dt) k = tvp_force tr t (k + 1)%nat) /\
      (forall i, (i < k_ncomb L)%nat -> p_force tr (t + dt) i = p_force tr t i).

  Theorem C90_closed_loop_feasible_forever (n : nat) (hm : list (@call (link_env L))) m (tr : mtrace) (hs : list (@scall (link_sim L))) s (str : strace) nh :
    (forall t i pos, k_resolve L t i = Ok pos -> NoDup pos) ->
    (* controller and simulator: any regular histories with a successful setup, same clock and sampling time *)
    regular tr -> exec hm mpc_init = (m, tr) -> was_setup tr ->
    sordinary str -> sexec hs sim_init = (s, str) -> swas_setup str ->
    sclock str = clock tr -> stime_step str = s_tstep (settings_of tr) ->
    (* the problem *)
    wf_model (k_mdl L) -> wf_inputs (k_mdl L) -> alg_unique (k_mdl L) -> (1 <= k_ncomb L)%nat -> (forall t q, 0 < scaling_of tr t q) ->
    s_nhor (settings_of tr) = Some nh -> (1 <= nh)%nat -> root_ok L -> plant_covered L tr str ->
    k_nlchk L = false -> (forall con, In con (nlcons_of tr) -> xu_constraint (k_mdl L) con) ->
    (forall con v pen, In con (nlcons_of tr) -> nl_soft con = Some (Some v, pen) -> 0 <= v) ->
    (k_nr L = 0%nat \/ k_ncomb L = 1%nat \/ (nh <= k_nr L)%nat) -> consistent_preview tr ->
    (forall c (t : R), problem_of L tr c -> exists law zlaw, terminal_invariant c (tvp_force tr t nh) (p_force tr t) law zlaw) ->
    (* a solver that finds a feasible point if there is one *)
    (forall c x u0 (t : R) ox l, problem_of L tr c -> let par := problem_params (x, u0, tvp_force tr t, p_force tr t) in
       (exists pt, feasible c par pt) -> feasible c par (fst (fst (fst (k_solve L c par ox l))))) ->
    (* the first problem is feasible *)
    (forall c, problem_of L tr c -> exists pt, feasible c (problem_params (c_x0 s, m_u0 m, tvp_force tr (clock tr), p_force tr (clock tr))) pt) ->
    exists c m' s' xs us ps pars,
      problem_of L tr c /\
      loop (E := link_env L) (F := link_sim L) (fun u => u) (fun y => y) n m s (c_x0 s) = (m', s', Ok (c_x0 s')) /\
      List.length xs = n /\ List.length us = n /\ List.length ps = n /\ List.length pars = n /\
      r_x (m_data m') = r_x (m_data m) ++ xs /\ q_x (c_data s') = q_x (c_data s) ++ xs /\
      q_u (c_data s') = q_u (c_data s) ++ us /\ q_p (c_data s') = q_p (c_data s) ++ ps /\ r_optp (m_data m') = r_optp (m_data m) ++ pars /\
      nth_error (xs ++ [c_x0 s']) 0 = Some (c_x0 s) /\
      (* all problems were feasible, and all steps keep all constraints *)
      forall k x u p par, nth_error xs k = Some x -> nth_error us k = Some u -> nth_error ps k = Some p -> nth_error pars k = Some par ->
        (exists pt, feasible c (problem_params par) pt) /\
        exists x', nth_error (xs ++ [c_x0 s']) (k + 1) = Some x' /\ interval_ok L tr x u (pTvp (problem_params par) 0%nat) p x'.
  Proof.
    intros ND Rg He Ws Os Hs Wss Hck Hdt Hwf Hwu Huq Hc Hsc Hnh HN Hroot Hcov Hnl Hcon Hvio Htree Hprev Hterm Hsol Hfirst.
    destruct (inv4_reach (E := link_env L) ND hm m tr Rg He) as (I0 & J0 & K0 & H0).
    assert (Hset : m_setup m = true).
    { destruct (C14_ordinary_histories hm m tr (proj1 Rg) He) as (_ & _ & _ & _ & _ & Hok). destruct (Hok Ws (c_x0 s)) as (m1 & u & ES).
      destruct (make_step_cases _ _ _ _ ES) as [(? & ? & _ & _ & [])|(? & Q & _)]; [exact Hset|discriminate]. }
    destruct (problem_for_of m tr I0 J0 H0 Hset) as (pr & Hpr & Hp & Hs0).
    destruct (bounds_for_of m tr I0 H0 Hset) as (obs & Hob & Hb).
    set (c := link_cfg L pr obs).
    destruct (sinv2_reach hs s str Os Hs) as [I J].
    assert (CS : c_setup s = true) by (apply (v_setup _ _ I); exact Wss).
    destruct (j2_dt _ _ J CS) as [_ D2]. destruct (v_have _ _ I CS) as (D3 & D4 & _).
    destruct (c_tstep s) as [dt|] eqn:CT; [|congruence].
    assert (SR : sready L s (stvp_force str) (sp_force str) dt).
    { constructor; auto.
      - unfold stvp_force. pose proof (v_t _ _ I) as A. unfold sagree in A. destruct (stvp_of str); [congruence|]. destruct A; congruence.
      - unfold sp_force. pose proof (v_p _ _ I) as A. unfold sagree in A. destruct (sp_of str); [congruence|]. destruct A; congruence. }
    assert (DTs : s_tstep (settings_of tr) = Some dt) by (rewrite <- Hdt, <- (v_ts _ _ I); exact CT).
    assert (DT : s_tstep (m_set m) = Some dt) by (rewrite (i_s _ _ I0); exact DTs).
    assert (Hpd : m_pend m <> None) by (apply (i_prob _ _ I0), (i_set _ _ I0); exact Hset).
    destruct (i_have _ _ I0 Hpd) as (_ & X1 & X2 & X3).
    assert (MR : mready L m (tvp_force tr) (p_force tr) pr obs dt).
    { constructor; auto.
      - unfold tvp_force. pose proof (i_t _ _ I0) as A. unfold MpcProofs.agree in A. destruct (tvp_of tr); [congruence|]. destruct A; congruence.
      - unfold p_force. pose proof (i_p _ _ I0) as A. unfold MpcProofs.agree in A. destruct (p_of tr); [congruence|]. destruct A; congruence.
      - apply (j_f _ _ J0 Hset). }
    assert (PO : problem_of L tr c) by (apply problem_of_link; eauto).
    assert (HNc : N c = nh).
    { pose proof (eq_trans (eq_sym Hnh) (po_N _ _ _ PO)) as Q. injection Q as Q. exact (eq_sym Q). }
    assert (A : clock tr = m_t0 m) by (unfold clock; rewrite (i_c _ _ I0); reflexivity).
    assert (CK : m_t0 m = c_t0 s).
    { assert (B : sclock str = c_t0 s) by (unfold sclock; rewrite (v_ck _ _ I); reflexivity). rewrite <- A, <- B. symmetry. exact Hck. }
    specialize (Hfirst c PO). rewrite A in Hfirst.
    assert (Ht : forall t : R, exists law zlaw, terminal_invariant c (tvp_force tr t nh) (p_force tr t) law zlaw) by (intros t; apply Hterm; exact PO).
    specialize (Hprev dt nh). pose proof (fun t => Hprev t DTs Hnh) as Hpr'.
    clear - Hwf Hwu Huq Hc Hsc Hroot Hcov SR MR PO HNc CK HN Hnl Hcon Hvio Htree Hpr' Ht Hsol Hfirst.
    pose proof PO as [PN (S1 & S2 & S3 & S4 & S5 & S6 & S7 & S8) Pl Po Pr Ps Px Pu Pz Pt].
    assert (Hpos : scaling_pos c).
    { split; [|split]; intros q _; destruct (Ps q) as (Q1 & Q2 & Q3); rewrite ?Q1, ?Q2, ?Q3; apply Hsc. }
    assert (Hok : cfg_ok c).
    { split; [rewrite HNc; exact HN|]. split; [rewrite S2; exact Hc|]. split; [|rewrite S8; exact Logic.I]. intros q Hq. apply Rgt_not_eq, Hpos, Hq. }
    exists c. revert m s MR SR CK Hfirst. induction n as [|n IH]; intros m s MR SR CK Hfirst.
    - exists m, s, [], [], [], []. cbn [loop]. rewrite !app_nil_r. split; [exact PO|]. repeat (split; [reflexivity|]).
      intros [|k] x u p par Q; discriminate Q.
    - destruct (ready_step L m _ _ _ _ _ (c_x0 s) MR) as (m1 & u & pt & ES & MR1 & T1 & SO & EU & RX & RU & RP).
      destruct (sready_step L s _ _ _ u SR) as (s1 & z & SS & SR1 & T2 & EZ & EX & QX & QU & QP).
      set (par := problem_params (c_x0 s, m_u0 m, tvp_force tr (m_t0 m), p_force tr (m_t0 m))) in *.
      assert (Hf : feasible c par pt).
      { destruct SO as (ox & l & lg & lx & st & Eso). assert (Q : feasible c par (fst (fst (fst (k_solve L c par ox l))))) by exact (Hsol c (c_x0 s) (m_u0 m) (m_t0 m) ox l PO Hfirst). assert (Eq : k_solve L c par ox l = (pt, lg, lx, st)) by exact Eso. rewrite Eq in Q. exact Q. }
      destruct Hcov as [Hv Hpp]. destruct (Hpp (c_t0 s)) as (i & Hi & Hi0 & Ei).
      assert (E1 : stvp_force str (c_t0 s) = pTvp par 0%nat) by (rewrite Hv, <- CK; reflexivity).
      assert (E2 : sp_force str (c_t0 s) = pP par i) by (rewrite Ei, <- CK; reflexivity).
      rewrite E1, E2, EU in EX, EZ. change (c_x0 s) with (pX0 par) in EX, EZ at 1.
      assert (Hz : forall a, (a < n_z (k_mdl L))%nat -> alg (k_mdl L) (pX0 par) (physU c pt 0 0) z (pTvp par 0%nat) (pP par i) vzero a = 0).
      { intros a Ha. rewrite EZ. destruct (Nat.eqb_spec (n_z (k_mdl L)) 0) as [E0|E0]; [lia|].
        apply Hroot; [|exact Ha].
        assert (Q : exists z, forall a, (a < n_z (mdl c))%nat -> alg (mdl c) (pX0 par) (physU c pt 0 0) z (pTvp par 0%nat) (pP par i) vzero a = 0).
        { apply (first_alg c par pt Hok Hpos S8); [rewrite S7; exact Hwf|exact Hf|rewrite S2; exact Hi|rewrite S1; exact Hi0]. }
        rewrite S7 in Q. exact Q. }
      assert (Hin : interval_ok L tr (pX0 par) (physU c pt 0 0) (pTvp par 0%nat) (pP par i) (c_x0 s1)).
      { apply (interval_from L tr c par pt i z); auto. rewrite HNc. exact HN. }
      assert (Hnext : exists pt', feasible c (problem_params (c_x0 s1, m_u0 m1, tvp_force tr (m_t0 m1), p_force tr (m_t0 m1))) pt').
      { destruct (Ht (m_t0 m)) as (law & zlaw & Hti). destruct (Hpr' (m_t0 m)) as [Hp1 Hp2].
        apply (C90_recursive_feasibility c par _ pt i z law zlaw Hok Hpos S8 Hwf Hwu Huq Hnl).
        - intros con v pen. rewrite Pl. apply Hvio.
        - intros con Hc'. rewrite Pl in Hc'. exact (Hcon con Hc').
        - unfold covers_all. rewrite S1, S2, HNc. exact Htree.
        - exact Hf.
        - split; [exact Hi|exact Hi0].
        - exact Hz.
        - rewrite HNc. exact Hti.
        - split; [|split].
          + intros a Ha. cbn [pX0 problem_params fst snd]. rewrite EX. reflexivity.
          + intros k Hk. cbn [pTvp problem_params fst snd par]. rewrite T1. apply Hp1. rewrite HNc in Hk. exact Hk.
          + intros j Hj. cbn [pP problem_params fst snd par]. rewrite T1. apply Hp2. rewrite S2 in Hj. exact Hj. }
      destruct (IH m1 s1 MR1 SR1) as (m' & s' & xs & us & ps & pars & _ & LO & L1 & L2 & L3 & L4 & A1 & A2 & A4 & A5 & A6 & FI & ST); [rewrite T1, T2, CK; reflexivity|exact Hnext|].
      exists m', s', (c_x0 s :: xs), (u :: us), (sp_force str (c_t0 s) :: ps), ((c_x0 s, m_u0 m, tvp_force tr (m_t0 m), p_force tr (m_t0 m)) :: pars).
      split; [exact PO|]. split; [cbn [loop]; rewrite ES, SS; exact LO|].
      split; [exact (f_equal Datatypes.S L1)|]. split; [exact (f_equal Datatypes.S L2)|]. split; [exact (f_equal Datatypes.S L3)|]. split; [exact (f_equal Datatypes.S L4)|].
      split; [rewrite A1, RX, <- app_assoc; reflexivity|]. split; [rewrite A2, QX, <- app_assoc; reflexivity|].
      split; [rewrite A4, QU, <- app_assoc; reflexivity|].
      split; [rewrite A5, QP, <- app_assoc; reflexivity|]. split; [rewrite A6, RP, <- app_assoc; reflexivity|].
      split; [reflexivity|].
      intros [|k] x v p par' K1 K2 K3 K4.
      + cbn in K1, K2, K3, K4. injection K1 as <-. injection K2 as <-. injection K3 as <-. injection K4 as <-.
        split; [exists pt; exact Hf|]. exists (c_x0 s1). split; [exact FI|]. rewrite E2. rewrite EU. exact Hin.
      + cbn in K1, K2, K3, K4. apply (ST k x v p par' K1 K2 K3 K4).
  Qed.
End Loop.
Print Assumptions C90_closed_loop_feasible_forever.
