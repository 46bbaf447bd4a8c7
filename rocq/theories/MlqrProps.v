(** * C104: for a linear model with the LQR's weights, MPC and LQR return the same input. *)
From Coq Require Import Reals Lra Lia.
From Verif Require Import Base NlpModel NlpSpec NlpProps RobustProps PlanSpec BestSpec MpcModel MpcSpec MpcProofs MpcHistSpec LinkModel LinkProps LinkBestProps.
From mathcomp Require Import all_ssreflect all_algebra.
From Verif Require Import RealField LqrModel LqrSpec LqrProofs LqrProofs2 LqrProps LqrstabSpec LqrstabProofs MlqrSpec MlqrProofs.
Set Implicit Arguments.
Unset Strict Implicit.
Unset Printing Implicit Defensive.
Import Order.TTheory GRing.Theory Num.Theory.
Local Open Scope ring_scope.

Section Mpc.
  Variable L : link.
  Notation mtrace := (seq (@call (link_env L) * res (option (tU (link_env L))))).

  (** An MPC object with history tr is set up for the horizon N, without robust horizon, with a solver that finds a best
      point whenever there is one. *)
  Record mpc_ready (hm : seq (@call (link_env L))) (m0 : @mpc (link_env L)) (tr : mtrace) (N : nat) : Prop := mkRdy {
    rd_resolve : forall t i pos, k_resolve L t i = Ok pos -> List.NoDup pos;
    rd_exec : regular tr /\ exec hm mpc_init = (m0, tr) /\ was_setup tr;
    rd_wf : wf_model (k_mdl L) /\ wf_inputs (k_mdl L);
    rd_robust : k_nr L = 0%N /\ (1 <= k_ncomb L)%N;
    rd_scal : forall t q, Rlt 0 (MpcHistSpec.scaling_of tr t q);
    rd_hor : s_nhor (MpcSpec.settings_of tr) = Some N;
    rd_cons : k_nlchk L = false /\ k_user L = None /\ forall con, List.In con (nlcons_of tr) -> xu_constraint (k_mdl L) con;
    rd_solver : forall c xx u0 (t : R) ox l, problem_of L tr c -> let par := problem_params (xx, u0, tvp_force tr t, p_force tr t) in
       (exists pt v, optimal_point c par pt v) -> exists v, optimal_point c par (fst (fst (fst (k_solve L c par ox l)))) v }.

  (** The parameters of the problem of the next make_step from x. *)
  Definition next_params (m0 : @mpc (link_env L)) (tr : mtrace) (x : vec) : params := problem_params (x, m_u0 m0, tvp_force tr (clock tr), p_force tr (clock tr)).

  Section Lemma_.
    Variables n m : nat.
    Variables (A : 'M[R]_n) (B : 'M[R]_(n,m)) (Q P : 'M[R]_n) (W : 'M[R]_m) (xss : 'cV[R]_n) (uss : 'cV[R]_m).
    (** The weights of the changes of the (scaled) inputs. *)
    Definition change_weight (tr : mtrace) : 'M[R]_m := diag_mx (\row_(i < m) (rterm_of tr i / (MpcHistSpec.scaling_of tr Vu i) ^+ 2)).

    Lemma mpc_first_input hm m0 tr N x v : mpc_ready hm m0 tr N.+1 -> linear_model A B (k_mdl L) ->
      (forall costs, objective_of tr = Some costs -> quadratic_costs Q W P xss uss costs) ->
      let cost := mpc_cost A B Q P W (change_weight tr) xss uss N.+1 (cv m (m_u0 m0)) (cv n x) in
      (forall c, problem_of L tr c -> exists us, (forall vs, cost us <= cost vs) /\ inactive c (next_params m0 tr x) A B us) ->
      optimal_first_input cost v ->
      exists u m1, MpcModel.make_step m0 (Good x) = (m1, Ok u) /\ forall i : 'I_m, u i = v i 0.
    Proof.
      move=> [ND [Rg [He Ws]] [Hwf Hwu] [Hnr Hc] Hsc HN [Hnl [Hnone Hcon]] Hsol] HL HQ cost Hin [_ Huniq].
      have Hxu c : problem_of L tr c -> xu_cost c.
      { move=> PO. have [H1 H2] := HQ _ (po_obj _ _ _ PO). rewrite /= in H1 H2. case: HL => Hn [Hm _]. have [_ [_ [_ [_ [_ [_ [Em _]]]]]]] := po_static _ _ _ PO.
        split; rewrite Em ?Hn ?Hm.
        - move=> y y' u u' z z' tvp p Hy Hu. by rewrite !H1 (cv_agree Hy) (cv_agree Hu).
        - move=> y y' tvp p Hy. by rewrite !H2 (cv_agree Hy). }
      have [|c [m1 [u [PO [ES Hplan]]]]] := C91_make_step_is_optimal_partial L hm m0 tr N.+1 x ND Rg He Ws Hwf Hwu (elimT ssrnat.leP Hc) Hsc HN (elimT ssrnat.leP (ltn0Sn N)) _ Hnl Hnone Hcon Hxu Hsol.
      { rewrite Hnr. exact/ssrnat.leP. }
      exists u, m1. split; first exact: ES. 
      have PO' := PO. case: PO' => PN [S1 [S2 [S3 [S4 [S5 [S6 [S7 S8]]]]]]] Pl Po Pr Ps Px Pu Pz Pt. rewrite Hnone in Pr.
      have ENc : NlpModel.N c = N.+1. { move: PN. rewrite HN => [[E]]. by rewrite E. }
      have Hnr0 : nr c = 0%N by rewrite S1.
      have HLc : linear_model A B (mdl c) by rewrite S7.
      have HQc : quadratic_costs Q W P xss uss (lterm c, mterm c) by apply: HQ.
      have Hsu a : (a < m)%N -> su c a <> 0. { move=> _ E. have [_ [E2 _]] := Ps a. have := Hsc Vu a. rewrite -E2 E. exact: Rlt_irrefl. }
      have Hxuc con : List.In con (nlc c) -> xu_constraint (mdl c) con. { rewrite Pl S7. exact: Hcon. }
      have Erw : rate_weight c (rterm_of tr) m = change_weight tr.
      { rewrite /rate_weight /change_weight. congr diag_mx. apply/matrixP => i j. rewrite !mxE. have [_ [E2 _]] := Ps j. by rewrite E2. }
      have [us [Hus Hina]] := Hin c PO.
      set par := next_params m0 tr x in Hina *.
      have EJ ws : mpc_cost A B Q P W (rate_weight c (rterm_of tr) m) xss uss (NlpModel.N c) (cv m (pUprev par)) (cv n (pX0 par)) ws = cost ws by rewrite Erw ENc.
      case: Hplan => [|policy [zpol [slack [w [Hopt Hu]]]]].
      { do 4 eexists. apply: (@follow_optimal c par (rterm_of tr) n m A B Q P W xss uss Hnr0 HLc HQc Hsu Hxuc us Hina). move=> vs. rewrite !EJ. exact: Hus. }
      have Hb := @best_plan_best c par (rterm_of tr) n m A B Q P W xss uss Hnr0 HLc HQc Hsu Hxuc us Hina policy zpol slack w.
      have E : cv m (policy [::]) = v.
      { apply: (Huniq (fun k => cv m (policy (hist0 k)))) => vs. have := Hb _ Hopt vs. rewrite !EJ. apply. move=> ws. rewrite !EJ. exact: Hus. }
      move=> i. rewrite -E mxE. apply: Hu. case: HL => _ [-> _]. exact/ssrnat.ltP.
    Qed.
  End Lemma_.
End Mpc.

(** Standard mode, finite horizon.  An MPC with the linear model x+ = A x + B u, the LQR's weights as quadratic costs around
    the steady state (xss, uss), no rate penalty, and bounds and constraints that are not active along a cheapest input
    sequence returns the input that the finite-horizon LQR of the same horizon returns, whatever was called before on both. *)
Theorem C104_mpc_is_finite_horizon_lqr (L : link) hm m0 tr N (x : vec)
    n m (dare : forall k, 'M[R]_k -> 'M[R]_(k,m) -> 'M[R]_k -> 'M[R]_m -> res 'M[R]_k)
    (A : 'M[R]_n) (B : 'M[R]_(n,m)) Q W oP (xss uss : seq R) tstep :
  let P := terminal_weight Q oP in
  (0 < n)%N -> (0 < m)%N -> symmetric Q -> psd Q -> symmetric W -> pd W -> symmetric P -> psd P ->
  size xss = n -> size uss = m -> col_of n xss = A *m col_of n xss + B *m col_of m uss ->
  mpc_ready (L := L) hm m0 tr N.+1 -> linear_model A B (k_mdl L) ->
  (forall costs, objective_of tr = Some costs -> quadratic_costs Q W P (col_of n xss) (col_of m uss) costs) ->
  (forall a, (a < m)%N -> rterm_of tr a = 0) ->
  let cost := lq_cost A B Q W P N.+1 (col_of n xss) (col_of m uss) (cv n x) in
  (forall c, problem_of L tr c -> exists us, (forall vs, cost us <= cost vs) /\ inactive c (next_params m0 tr x) A B us) ->
  exists s0 s, LqrModel.set_objective Q W oP (lqr_init A B (Some N.+1) tstep) = Ok s0 /\ LqrModel.setup dare s0 = Ok s /\
    forall calls : seq (lop R_realFieldType n),
      let s2 := fst (LqrModel.set_setpoint (Some xss) (Some uss) (lrun s calls)) in
      exists u m1 v, MpcModel.make_step m0 (Good x) = (m1, Ok u) /\ snd (LqrModel.make_step (cv n x) s2) = Ok v /\
        forall i : 'I_m, u i = v i 0.
Proof.
  move=> P Hn Hm HQ HQp HW HWp HP HPp Sx Su Hst Rdy HL Hobj Hrt cost Hin.
  case: (@C42_finite_horizon_optimal _ n m dare A B Q W oP N tstep Hn Hm HQ HQp HW HWp HP HPp) => s0 [s [E0 [E1 H]]].
  exists s0, s. split; first exact: E0. split; first exact: E1. move=> calls s2.
  case: (H calls xss uss (cv n x) Sx Su Hst) => v [Ev Hopt].
  have Z : change_weight m tr = 0.
  { apply/matrixP => i j. rewrite !mxE Hrt // mul0r mul0rn. by []. }
  have EC us : mpc_cost A B Q P W (change_weight m tr) (col_of n xss) (col_of m uss) N.+1 (cv m (m_u0 m0)) (cv n x) us = cost us.
  { by rewrite mpc_cost_std. }
  case: (@mpc_first_input L n m A B Q P W (col_of n xss) (col_of m uss) hm m0 tr N x v Rdy HL Hobj) => [c PO||u [m1 [ES Hu]]].
  - case: (Hin c PO) => us [Hus Hina]. exists us. split; last exact: Hina. move=> vs. rewrite !EC. exact: Hus.
  - case: Hopt => [[us [U0 Hus]] Hq]. split.
    + exists us. split; first exact: U0. move=> vs. rewrite !EC. exact: Hus.
    + move=> ws Hws. apply: Hq => vs. rewrite -/P -/cost -!EC. exact: Hws.
  - exists u, m1, v. split; first exact: ES. split; [exact: Ev|exact: Hu].
Qed.
Print Assumptions C104_mpc_is_finite_horizon_lqr.

(** Standard mode, infinite horizon.  With the solution p of the Riccati equation as terminal weight the MPC returns the
    input of the infinite-horizon LQR, for every prediction horizon. *)
Theorem C104_mpc_with_riccati_weight_is_lqr (L : link) hm m0 tr N (x : vec)
    n m (dare : forall k, 'M[R]_k -> 'M[R]_(k,m) -> 'M[R]_k -> 'M[R]_m -> res 'M[R]_k)
    (A : 'M[R]_n) (B : 'M[R]_(n,m)) Q W p (xss uss : seq R) tstep :
  (0 < n)%N -> (0 < m)%N -> symmetric Q -> psd Q -> symmetric W -> pd W ->
  dare n A B Q W = Ok p -> symmetric p -> psd p -> solves_dare A B Q W p ->
  size xss = n -> size uss = m -> col_of n xss = A *m col_of n xss + B *m col_of m uss ->
  mpc_ready (L := L) hm m0 tr N.+1 -> linear_model A B (k_mdl L) ->
  (forall costs, objective_of tr = Some costs -> quadratic_costs Q W p (col_of n xss) (col_of m uss) costs) ->
  (forall a, (a < m)%N -> rterm_of tr a = 0) ->
  let cost := lq_cost A B Q W p N.+1 (col_of n xss) (col_of m uss) (cv n x) in
  (forall c, problem_of L tr c -> exists us, (forall vs, cost us <= cost vs) /\ inactive c (next_params m0 tr x) A B us) ->
  exists s0 s, LqrModel.set_objective Q W None (lqr_init A B None tstep) = Ok s0 /\ LqrModel.setup dare s0 = Ok s /\
    forall calls : seq (lop R_realFieldType n),
      let s2 := fst (LqrModel.set_setpoint (Some xss) (Some uss) (lrun s calls)) in
      exists u m1 v, MpcModel.make_step m0 (Good x) = (m1, Ok u) /\ snd (LqrModel.make_step (cv n x) s2) = Ok v /\
        forall i : 'I_m, u i = v i 0.
Proof.
  move=> Hn Hm HQ HQp HW HWp Hd Hs Hp Hsol Sx Su Hst Rdy HL Hobj Hrt cost Hin.
  eexists. eexists. split; first by []. split.
  { rewrite /LqrModel.setup /= /discrete_gain Hn Hm /= Hd /= gain_of_ok //=. }
  move=> calls. set s1 := lrun _ calls. move=> s2.
  pose proof (run_static calls _ : lstatic s1 = _) as Hstat.
  case: Hstat => HA HB HK Hmode Hset.
  have [_ [Ex Eu]] := set_std Hset Hmode Sx Su.
  have := set_static (Some xss) (Some uss) s1. rewrite -/s2 => -[_ _ HK2 Hmode2 Hset2].
  rewrite HK in HK2. rewrite Hmode in Hmode2. rewrite Hset in Hset2.
  have HRf := dare_Rf Hsol.
  have Ev := step_std (cv n x) Hset2 Hmode2 HK2 Ex Eu Sx Su.
  have Hopt := @optimal_sp _ n m A B Q W HQ HQp HW HWp p N (col_of n xss) (col_of m uss) (cv n x) Hs Hp Hst.
  have Eric k : ric A B Q W p k = p. { elim: k => [//|k IH] /=. by rewrite IH. }
  rewrite Eric in Hopt.
  have Z : change_weight m tr = 0.
  { apply/matrixP => i j. rewrite !mxE Hrt // mul0r mul0rn. by []. }
  have EC us : mpc_cost A B Q p W (change_weight m tr) (col_of n xss) (col_of m uss) N.+1 (cv m (m_u0 m0)) (cv n x) us = cost us.
  { by rewrite mpc_cost_std. }
  set v := _ + _ in Ev Hopt.
  case: (@mpc_first_input L n m A B Q p W (col_of n xss) (col_of m uss) hm m0 tr N x v Rdy HL Hobj) => [c PO||u [m1 [ES Hu]]].
  - case: (Hin c PO) => us [Hus Hina]. exists us. split; last exact: Hina. move=> vs. rewrite !EC. exact: Hus.
  - case: Hopt => [[us [U0 Hus]] Hq]. split.
    + exists us. split; first exact: U0. move=> vs. rewrite !EC. exact: Hus.
    + move=> ws Hws. apply: Hq => vs. rewrite -/cost -!EC. exact: Hws.
  - exists u, m1, v. split; first exact: ES. split; [exact: Ev|exact: Hu].
Qed.
Print Assumptions C104_mpc_with_riccati_weight_is_lqr.

(** Rate mode.  If the MPC penalises the changes of the inputs (set_rterm with positive weights; they apply to the scaled
    inputs) it returns the input of the LQR in rate mode with the corresponding diagonal weight delR, provided both
    controllers returned the same input before. *)
Theorem C104_mpc_is_rate_lqr (L : link) hm m0 tr N (x : vec)
    n m (dare : forall k, 'M[R]_k -> 'M[R]_(k,m) -> 'M[R]_k -> 'M[R]_m -> res 'M[R]_k)
    (A : 'M[R]_n) (B : 'M[R]_(n,m)) Q W dR oP (xss uss : seq R) tstep :
  let P := terminal_weight Q oP in
  (0 < n)%N -> (0 < m)%N -> symmetric Q -> psd Q -> symmetric W -> psd W -> symmetric P -> psd P ->
  size xss = n -> size uss = m -> col_of n xss = A *m col_of n xss + B *m col_of m uss ->
  mpc_ready (L := L) hm m0 tr N.+1 -> linear_model A B (k_mdl L) ->
  (forall costs, objective_of tr = Some costs -> quadratic_costs Q W P (col_of n xss) (col_of m uss) costs) ->
  (forall a, (a < m)%N -> Rlt 0 (rterm_of tr a)) ->
  dR = diag_mx (\row_(i < m) (rterm_of tr i / MpcHistSpec.scaling_of tr Vu i ^+ 2)) ->
  let cost := rate_cost A B Q W dR P N.+1 (col_of n xss) (col_of m uss) (cv m (m_u0 m0)) (cv n x) in
  (forall c, problem_of L tr c -> exists us, (forall vs, cost us <= cost vs) /\ inactive c (next_params m0 tr x) A B us) ->
  exists s0 s, LqrModel.set_objective Q W oP (set_rterm dR (lqr_init A B (Some N.+1) tstep)) = Ok s0 /\ LqrModel.setup dare s0 = Ok s /\
    forall calls : seq (lop R_realFieldType n),
      let s1 := lrun s calls in
      let s2 := fst (LqrModel.set_setpoint (Some xss) (Some uss) s1) in
      lu0 s1 = cv m (m_u0 m0) ->
      exists u m1 v, MpcModel.make_step m0 (Good x) = (m1, Ok u) /\ snd (LqrModel.make_step (cv n x) s2) = Ok v /\
        forall i : 'I_m, u i = v i 0.
Proof.
  move=> P Hn Hm HQ HQp HW HWp HP HPp Sx Su Hst Rdy HL Hobj Hrt EdR cost Hin.
  have Hsym : symmetric dR by rewrite EdR /symmetric tr_diag_mx.
  have Hpd : pd dR.
  { rewrite EdR => y Hy. rewrite /qf.
    have E : (y^T *m diag_mx (\row_(i < m) (rterm_of tr i / MpcHistSpec.scaling_of tr Vu i ^+ 2)) *m y) 0 0
             = \sum_(i < m) (y i 0 ^+ 2 * (rterm_of tr i / MpcHistSpec.scaling_of tr Vu i ^+ 2)).
    { rewrite mxE. apply: eq_bigr => i _. rewrite mul_mx_diag !mxE. by rewrite mulrAC -expr2. }
    have Hd (i : 'I_m) : 0 < rterm_of tr i / MpcHistSpec.scaling_of tr Vu i ^+ 2.
    { apply: divr_gt0; first by apply/RltE; exact: Hrt. apply: exprn_gt0. apply/RltE. exact: (rd_scal Rdy). }
    have Hterm (i : 'I_m) : 0 <= y i 0 ^+ 2 * (rterm_of tr i / MpcHistSpec.scaling_of tr Vu i ^+ 2).
    { apply: mulr_ge0; [exact: sqr_ge0|exact: ltW]. }
    rewrite E lt_def sumr_ge0 // andbT. apply/negP => /eqP Z. move/eqP: Hy. apply. apply/matrixP => i j. rewrite !ord1 [RHS]mxE.
    have := psumr_eq0P (fun k _ => Hterm k) Z (i := i) erefl. move/eqP. rewrite mulf_eq0 (gt_eqF (Hd i)) orbF expf_eq0 /=. by move/eqP. }
  case: (@C42_rate_mode_optimal _ n m dare A B Q W dR oP N tstep Hn Hm HQ HQp HW HWp Hsym Hpd HP HPp) => s0 [s [E0 [E1 H]]].
  exists s0, s. split; first exact: E0. split; first exact: E1. move=> calls s1 s2 Hu0.
  case: (H calls xss uss (cv n x) Sx Su Hst) => v [Ev Hopt]. rewrite -/s1 Hu0 -/P -/cost in Hopt.
  have EC us : mpc_cost A B Q P W (change_weight m tr) (col_of n xss) (col_of m uss) N.+1 (cv m (m_u0 m0)) (cv n x) us
               = cost us - qf W (cv m (m_u0 m0) - col_of m uss).
  { rewrite /cost -mpc_cost_rate addrK EdR. by []. }
  case: (@mpc_first_input L n m A B Q P W (col_of n xss) (col_of m uss) hm m0 tr N x v Rdy HL Hobj) => [c PO||u [m1 [ES Hu]]].
  - case: (Hin c PO) => us [Hus Hina]. exists us. split; last exact: Hina. move=> vs. rewrite !EC ler_add2r. exact: Hus.
  - case: Hopt => [[us [U0 Hus]] Hq]. split.
    + exists us. split; first exact: U0. move=> vs. rewrite !EC ler_add2r. exact: Hus.
    + move=> ws Hws. apply: Hq => vs. have := Hws vs. by rewrite !EC ler_add2r.
  - exists u, m1, v. split; first exact: ES. split; [exact: Ev|exact: Hu].
Qed.
Print Assumptions C104_mpc_is_rate_lqr.
