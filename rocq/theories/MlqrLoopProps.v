(** * C105: an MPC with the LQR's model and weights in closed loop with the linear plant does what the LQR does (theorems only). *)
From Coq Require Import Reals Lra Lia.
From Verif Require Import Base NlpModel NlpSpec MpcModel MpcSpec MpcHistSpec LinkModel LinkProps.
From mathcomp Require Import all_ssreflect all_algebra.
From Verif Require Import RealField LqrModel LqrSpec LqrProofs LqrProofs2 LqrProps LqrstabSpec LqrstabProofs LqrstabProps MlqrSpec MlqrProofs MlqrProps MlqrLoopProofs.
Set Implicit Arguments.
Unset Strict Implicit.
Unset Printing Implicit Defensive.
Import Order.TTheory GRing.Theory Num.Theory.
Local Open Scope ring_scope.

(** Standard mode, finite horizon.  The LQR driving the plant x+ = A x + B u from x defines a trajectory xs, us; if bounds and
    constraints of the MPC are not active along a cheapest plan from any of its states, the MPC driving the same plant
    goes through the same states with the same inputs, for any number of steps.  If the terminal weight over-estimates the cost to
    go and Q is definite, both converge to the set point. *)
Theorem C105_finite_horizon_loops_coincide (L : link) hm m0 tr N
    n m (dare : forall k, 'M[R]_k -> 'M[R]_(k,m) -> 'M[R]_k -> 'M[R]_m -> res 'M[R]_k)
    (A : 'M[R]_n) (B : 'M[R]_(n,m)) Q W P (xss uss : seq R) tstep (x : 'cV[R]_n) :
  (0 < n)%N -> (0 < m)%N -> symmetric Q -> psd Q -> symmetric W -> pd W -> symmetric P -> psd P ->
  size xss = n -> size uss = m -> col_of n xss = A *m col_of n xss + B *m col_of m uss ->
  mpc_ready (L := L) hm m0 tr N.+1 -> linear_model A B (k_mdl L) ->
  (forall costs, objective_of tr = Some costs -> quadratic_costs Q W P (col_of n xss) (col_of m uss) costs) ->
  (forall a, (a < m)%N -> rterm_of tr a = 0) ->
  exists s0 s, LqrModel.set_objective Q W (Some P) (lqr_init A B (Some N.+1) tstep) = Ok s0 /\ LqrModel.setup dare s0 = Ok s /\
    forall calls : seq (lop R_realFieldType n),
      let s2 := fst (LqrModel.set_setpoint (Some xss) (Some uss) (lrun s calls)) in
      exists xs us, xs 0%N = x /\
        (forall k, exists s', loop A B s2 x k = Ok (s', xs k, mkseq us k)) /\
        ((forall j c t up, problem_of L tr c ->
            let cost := lq_cost A B Q W P N.+1 (col_of n xss) (col_of m uss) (xs j) in
            exists vs, (forall ws, cost vs <= cost ws) /\ inactive c (problem_params (vec_of (xs j), up, tvp_force tr t, p_force tr t)) A B vs) ->
         forall k, exists m', mpc_loop (L := L) A B m0 x k = Ok (m', xs k, mkseq us k)) /\
        (terminal_decrease A B Q W P -> pd Q -> converges_to xs (col_of n xss) /\ converges_to us (col_of m uss)).
Proof.
  move=> Hn Hm HQ HQp HW HWp HP HPp Sx Su Hst Rdy HL Hobj Hrt.
  eexists. eexists. split; first by []. split.
  { rewrite /LqrModel.setup /= /discrete_gain Hn Hm /=.
    have := @gain_loop_ok _ n m A B Q W HQ HQp HW HWp N None P HP HPp. rewrite /= => -> /=. reflexivity. }
  move=> calls. set s1 := lrun _ calls. move=> s2.
  pose proof (run_static calls _ : lstatic s1 = _) as Hstat.
  case: Hstat => HA HB HK Hmode Hset.
  have [_ [Ex Eu]] := set_std Hset Hmode Sx Su.
  have := set_static (Some xss) (Some uss) s1. rewrite -/s2 => -[_ _ HK2 Hmode2 Hset2].
  rewrite HK in HK2. rewrite Hmode in Hmode2. rewrite Hset in Hset2.
  have [Hs Hp] := @ric_sp _ n m A B Q W HQ HQp HW HWp P N HP HPp.
  have [xs [us [H0 Hus Hxs]]] := run_exists_std A B (Kf A B W (ric A B Q W P N)) (col_of n xss) (col_of m uss) x.
  exists xs, us. split=> //. split.
  { move=> k. rewrite -{1}H0. exact: (loop_std k Sx Su Hset2 Hmode2 HK2 Ex Eu Hus Hxs). }
  split.
  - move=> Hin k. rewrite -{1}H0.
    have Z : change_weight m tr = 0. { apply/matrixP => i j. by rewrite !mxE Hrt // mul0r mul0rn. }
    apply: (@mpc_follows L n m A B Q P W (col_of n xss) (col_of m uss) HL k hm m0 tr N xs us Rdy Hobj Hxs) => j.
    have EC ws : mpc_cost A B Q P W (change_weight m tr) (col_of n xss) (col_of m uss) N.+1 (before (cv m (m_u0 m0)) us j) (xs j) ws
                 = lq_cost A B Q W P N.+1 (col_of n xss) (col_of m uss) (xs j) ws by rewrite mpc_cost_std.
    have Hopt := @optimal_sp _ n m A B Q W HQ HQp HW HWp P N (col_of n xss) (col_of m uss) (xs j) HP HPp Hst. rewrite -Hus in Hopt.
    split.
    + case: Hopt => [[vs [U0 Hvs]] Hq]. split.
      * exists vs. split; first exact: U0. move=> ws. rewrite !EC. exact: Hvs.
      * move=> ws Hws. apply: Hq => vs'. rewrite -!EC. exact: Hws.
    + move=> c t up PO. case: (Hin j c t up PO) => vs [Hvs Hina]. exists vs. split; last exact: Hina. move=> ws. rewrite !EC. exact: Hvs.
  - move=> Hterm HQpd.
    have Hdec := terminal_ric HQ HQp HW HWp N HP HPp Hterm.
    have Herr := err_std Hst Hus Hxs.
    have EK j : us j - col_of m uss = Kf A B W (ric A B Q W P N) *m (xs j - col_of n xss) by rewrite Hus addrK.
    have [r [c [Hr Hr1 Hc Hb]]] := @converge_run R_archiFieldType _ _ _ _ _ _ HQ HQpd HW HWp _ Hs Hp Hdec _ Herr.
    split; apply: (@converges_bound R_archiFieldType _ _ _ _ _ Hr Hr1 Hc) => j; first exact: (Hb j).1.
    rewrite EK. exact: (Hb j).2.
Qed.
Print Assumptions C105_finite_horizon_loops_coincide.

(** Standard mode, infinite horizon: with the solution p of the Riccati equation as terminal weight the MPC, whatever its
    prediction horizon, drives the plant like the infinite-horizon LQR.  The cost of the first k steps plus the weighted
    remaining error is the weighted initial error, and with a definite Q both converge to the set point. *)
Theorem C105_riccati_loops_coincide (L : link) hm m0 tr N
    n m (dare : forall k, 'M[R]_k -> 'M[R]_(k,m) -> 'M[R]_k -> 'M[R]_m -> res 'M[R]_k)
    (A : 'M[R]_n) (B : 'M[R]_(n,m)) Q W p (xss uss : seq R) tstep (x : 'cV[R]_n) :
  (0 < n)%N -> (0 < m)%N -> symmetric Q -> psd Q -> symmetric W -> pd W ->
  dare n A B Q W = Ok p -> symmetric p -> psd p -> solves_dare A B Q W p ->
  size xss = n -> size uss = m -> col_of n xss = A *m col_of n xss + B *m col_of m uss ->
  mpc_ready (L := L) hm m0 tr N.+1 -> linear_model A B (k_mdl L) ->
  (forall costs, objective_of tr = Some costs -> quadratic_costs Q W p (col_of n xss) (col_of m uss) costs) ->
  (forall a, (a < m)%N -> rterm_of tr a = 0) ->
  exists s0 s, LqrModel.set_objective Q W None (lqr_init A B None tstep) = Ok s0 /\ LqrModel.setup dare s0 = Ok s /\
    forall calls : seq (lop R_realFieldType n),
      let s2 := fst (LqrModel.set_setpoint (Some xss) (Some uss) (lrun s calls)) in
      exists xs us, xs 0%N = x /\
        (forall k, exists s', loop A B s2 x k = Ok (s', xs k, mkseq us k)) /\
        ((forall j c t up, problem_of L tr c ->
            let cost := lq_cost A B Q W p N.+1 (col_of n xss) (col_of m uss) (xs j) in
            exists vs, (forall ws, cost vs <= cost ws) /\ inactive c (problem_params (vec_of (xs j), up, tvp_force tr t, p_force tr t)) A B vs) ->
         forall k, exists m', mpc_loop (L := L) A B m0 x k = Ok (m', xs k, mkseq us k)) /\
        (forall k, run_cost Q W (col_of n xss) (col_of m uss) xs us k + qf p (xs k - col_of n xss) = qf p (x - col_of n xss)) /\
        (pd Q -> converges_to xs (col_of n xss) /\ converges_to us (col_of m uss)).
Proof.
  move=> Hn Hm HQ HQp HW HWp Hd Hs Hp Hsol Sx Su Hst Rdy HL Hobj Hrt.
  eexists. eexists. split; first by []. split.
  { rewrite /LqrModel.setup /= /discrete_gain Hn Hm /= Hd /= gain_of_ok //=. }
  move=> calls. set s1 := lrun _ calls. move=> s2.
  pose proof (run_static calls _ : lstatic s1 = _) as Hstat.
  case: Hstat => HA HB HK Hmode Hset.
  have [_ [Ex Eu]] := set_std Hset Hmode Sx Su.
  have := set_static (Some xss) (Some uss) s1. rewrite -/s2 => -[_ _ HK2 Hmode2 Hset2].
  rewrite HK in HK2. rewrite Hmode in Hmode2. rewrite Hset in Hset2.
  have HRf := dare_Rf Hsol.
  have Eric k : ric A B Q W p k = p. { elim: k => [//|k IH] /=. by rewrite IH. }
  have [xs [us [H0 Hus Hxs]]] := run_exists_std A B (Kf A B W p) (col_of n xss) (col_of m uss) x.
  have Herr := err_std Hst Hus Hxs.
  have EK j : us j - col_of m uss = Kf A B W p *m (xs j - col_of n xss) by rewrite Hus addrK.
  exists xs, us. split=> //. split.
  { move=> k. rewrite -{1}H0. exact: (loop_std k Sx Su Hset2 Hmode2 HK2 Ex Eu Hus Hxs). }
  split; [|split].
  - move=> Hin k. rewrite -{1}H0.
    have Z : change_weight m tr = 0. { apply/matrixP => i j. by rewrite !mxE Hrt // mul0r mul0rn. }
    apply: (@mpc_follows L n m A B Q p W (col_of n xss) (col_of m uss) HL k hm m0 tr N xs us Rdy Hobj Hxs) => j.
    have EC ws : mpc_cost A B Q p W (change_weight m tr) (col_of n xss) (col_of m uss) N.+1 (before (cv m (m_u0 m0)) us j) (xs j) ws
                 = lq_cost A B Q W p N.+1 (col_of n xss) (col_of m uss) (xs j) ws by rewrite mpc_cost_std.
    have Hopt := @optimal_sp _ n m A B Q W HQ HQp HW HWp p N (col_of n xss) (col_of m uss) (xs j) Hs Hp Hst. rewrite Eric -Hus in Hopt.
    split.
    + case: Hopt => [[vs [U0 Hvs]] Hq]. split.
      * exists vs. split; first exact: U0. move=> ws. rewrite !EC. exact: Hvs.
      * move=> ws Hws. apply: Hq => vs'. rewrite -!EC. exact: Hws.
    + move=> c t up PO. case: (Hin j c t up PO) => vs [Hvs Hina]. exists vs. split; last exact: Hina. move=> ws. rewrite !EC. exact: Hvs.
  - move=> k. rewrite /run_cost. elim: k => [|k IH]; first by rewrite big_ord0 add0r H0.
    rewrite big_ord_recr /= -IH -addrA. congr (_ + _).
    have := run_step Q HW HWp Hs Hp Herr k. by rewrite HRf EK.
  - move=> HQpd.
    have Hdec z : qf (Rf A B Q W p) z <= qf p z by rewrite HRf.
    have [r [c [Hr Hr1 Hc Hb]]] := @converge_run R_archiFieldType _ _ _ _ _ _ HQ HQpd HW HWp _ Hs Hp Hdec _ Herr.
    split; apply: (@converges_bound R_archiFieldType _ _ _ _ _ Hr Hr1 Hc) => j; first exact: (Hb j).1.
    rewrite EK. exact: (Hb j).2.
Qed.
Print Assumptions C105_riccati_loops_coincide.

(** Rate mode: the MPC with the rate penalty and the LQR with the matching delR, starting from the same previous input,
    drive the plant in the same way. *)
Theorem C105_rate_loops_coincide (L : link) hm m0 tr N
    n m (dare : forall k, 'M[R]_k -> 'M[R]_(k,m) -> 'M[R]_k -> 'M[R]_m -> res 'M[R]_k)
    (A : 'M[R]_n) (B : 'M[R]_(n,m)) Q W dR P (xss uss : seq R) tstep (x : 'cV[R]_n) :
  (0 < n)%N -> (0 < m)%N -> symmetric Q -> psd Q -> symmetric W -> psd W -> symmetric P -> psd P ->
  size xss = n -> size uss = m -> col_of n xss = A *m col_of n xss + B *m col_of m uss ->
  mpc_ready (L := L) hm m0 tr N.+1 -> linear_model A B (k_mdl L) ->
  (forall costs, objective_of tr = Some costs -> quadratic_costs Q W P (col_of n xss) (col_of m uss) costs) ->
  (forall a, (a < m)%N -> Rlt 0 (rterm_of tr a)) ->
  dR = diag_mx (\row_(i < m) (rterm_of tr i / MpcHistSpec.scaling_of tr Vu i ^+ 2)) ->
  exists s0 s, LqrModel.set_objective Q W (Some P) (set_rterm dR (lqr_init A B (Some N.+1) tstep)) = Ok s0 /\ LqrModel.setup dare s0 = Ok s /\
    forall calls : seq (lop R_realFieldType n),
      let s1 := lrun s calls in
      let s2 := fst (LqrModel.set_setpoint (Some xss) (Some uss) s1) in
      lu0 s1 = cv m (m_u0 m0) ->
      exists xs us, xs 0%N = x /\
        (forall k, exists s', loop A B s2 x k = Ok (s', xs k, mkseq us k)) /\
        ((forall j c t up, problem_of L tr c ->
            let cost := rate_cost A B Q W dR P N.+1 (col_of n xss) (col_of m uss) (before (lu0 s1) us j) (xs j) in
            exists vs, (forall ws, cost vs <= cost ws) /\ inactive c (problem_params (vec_of (xs j), up, tvp_force tr t, p_force tr t)) A B vs) ->
         forall k, exists m', mpc_loop (L := L) A B m0 x k = Ok (m', xs k, mkseq us k)).
Proof.
  move=> Hn Hm HQ HQp HW HWp HP HPp Sx Su Hst Rdy HL Hobj Hrt EdR.
  have Hd (i : 'I_m) : 0 < rterm_of tr i / MpcHistSpec.scaling_of tr Vu i ^+ 2.
  { apply: divr_gt0; first by apply/RltE; exact: Hrt. apply: exprn_gt0. apply/RltE. exact: (rd_scal Rdy). }
  have [HdR HdRp] : symmetric dR /\ pd dR by rewrite EdR; exact: (diag_weight Hd).
  eexists. eexists. split; first by []. split.
  { rewrite /LqrModel.setup /= /discrete_gain Hm addn_gt0 Hn /=.
    have := @gain_loop_ok _ (n+m) m (A_rated A B) (B_rated B) (Q_rated Q W) dR
      (sym_diag HQ HW) (psd_diag HQp HWp) HdR HdRp N None (Q_rated P W) (sym_diag HP HW) (psd_diag HPp HWp).
    rewrite /= => -> /=. reflexivity. }
  move=> calls s1 s2 Hu0.
  pose proof (run_static calls _ : lstatic s1 = _) as Hstat.
  case: Hstat => HA HB HK Hmode Hset.
  have [_ [Ex Eu]] := set_rate Hset Hmode Sx Su.
  have := set_static (Some xss) (Some uss) s1. rewrite -/s2 => -[_ _ HK2 Hmode2 Hset2].
  rewrite HK in HK2. rewrite Hmode in Hmode2. rewrite Hset in Hset2.
  have Hu2 : lu0 s2 = lu0 s1 by exact: set_u0.
  have [xs [us [H0 Hus Hxs]]] := run_exists_rate A B (Kf (A_rated A B) (B_rated B) dR (ric (A_rated A B) (B_rated B) (Q_rated Q W) dR (Q_rated P W) N))
     (col_mx (col_of n xss) (col_of m uss)) (lu0 s1) x.
  exists xs, us. split=> //. split.
  { move=> k. rewrite -{1}H0. apply: (loop_rate k Sx Su Hset2 Hmode2 HK2 Ex Eu _ Hxs).
    move=> j. rewrite Hu2. exact: Hus. }
  move=> Hin k. rewrite -{1}H0.
  apply: (@mpc_follows L n m A B Q P W (col_of n xss) (col_of m uss) HL k hm m0 tr N xs us Rdy Hobj Hxs) => j.
  have EC ws : mpc_cost A B Q P W (change_weight m tr) (col_of n xss) (col_of m uss) N.+1 (before (cv m (m_u0 m0)) us j) (xs j) ws
               = rate_cost A B Q W dR P N.+1 (col_of n xss) (col_of m uss) (before (lu0 s1) us j) (xs j) ws
                 - qf W (before (lu0 s1) us j - col_of m uss).
  { rewrite Hu0 -mpc_cost_rate addrK EdR. by []. }
  have Hopt := @optimal_rate _ n m A B Q W dR P N (col_of n xss) (col_of m uss) (before (lu0 s1) us j) (xs j) HQ HQp HW HWp HdR HdRp HP HPp Hst.
  rewrite -Hus in Hopt.
  split.
  - case: Hopt => [[vs [U0 Hvs]] Hq]. split.
    + exists vs. split; first exact: U0. move=> ws. rewrite !EC ler_add2r. exact: Hvs.
    + move=> ws Hws. apply: Hq => vs'. have := Hws vs'. by rewrite !EC ler_add2r.
  - move=> c t up PO. case: (Hin j c t up PO) => vs [Hvs Hina]. exists vs. split; last exact: Hina. move=> ws. rewrite !EC ler_add2r. exact: Hvs.
Qed.
Print Assumptions C105_rate_loops_coincide.
