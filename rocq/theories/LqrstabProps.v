(** * C101: the LQR in closed loop with the plant it was designed for (theorems only). *)
From Verif Require Import Base.
From mathcomp Require Import all_ssreflect all_algebra.
From Verif Require Import LqrModel LqrSpec LqrProofs LqrProofs2 LqrProps LqrstabSpec LqrstabProofs.
Set Implicit Arguments.
Unset Strict Implicit.
Unset Printing Implicit Defensive.
Import Order.TTheory GRing.Theory Num.Theory.
Local Open Scope ring_scope.

(** Infinite horizon, standard mode.  Whatever run-time calls were made since setup: after a steady
    state (xss,uss) is set as set point, the loop "u = make_step(x); x = A x + B u" runs for any
    number of steps from any x; the cost it accumulates over k steps plus the weighted remaining
    error is exactly the weighted initial error; and with a definite Q states and inputs converge
    to the set point. *)
Theorem C101_infinite_horizon_loop (F : archiFieldType) n m
    (dare : forall k, 'M[F]_k -> 'M[F]_(k,m) -> 'M[F]_k -> 'M[F]_m -> res 'M[F]_k)
    (A : 'M[F]_n) (B : 'M[F]_(n,m)) Q R p tstep :
  (0 < n)%N -> (0 < m)%N -> symmetric Q -> psd Q -> symmetric R -> pd R ->
  dare n A B Q R = Ok p -> symmetric p -> psd p -> solves_dare A B Q R p ->
  exists s0 s, set_objective Q R None (lqr_init A B None tstep) = Ok s0
    /\ setup dare s0 = Ok s
    /\ forall (calls : seq (lop F n)) xss uss x,
       let s1 := lrun s calls in
       let s2 := fst (set_setpoint (Some xss) (Some uss) s1) in
       size xss = n -> size uss = m ->
       col_of n xss = A *m col_of n xss + B *m col_of m uss ->
       exists xs us, xs 0%N = x
         /\ (forall k, exists s', loop A B s2 x k = Ok (s', xs k, mkseq us k))
         /\ (forall k, xs k.+1 = A *m xs k + B *m us k)
         /\ (forall k, run_cost Q R (col_of n xss) (col_of m uss) xs us k + qf p (xs k - col_of n xss)
                       = qf p (x - col_of n xss))
         /\ (pd Q -> converges_to xs (col_of n xss) /\ converges_to us (col_of m uss)).
Proof.
  move=> Hn Hm HQ HQp HR HRp Hd Hs Hp Hsol. eexists. eexists. split; first by []. split.
  { rewrite /setup /= /discrete_gain Hn Hm /= Hd /= gain_of_ok //=. }
  move=> calls xss uss x s1 s2 Sx Su Hss.
  pose proof (run_static calls _ : lstatic s1 = _) as Hst.
  case: Hst => HA HB HK Hmode Hset.
  have [_ [Ex Eu]] := set_std Hset Hmode Sx Su.
  have := set_static (Some xss) (Some uss) s1. rewrite -/s2 => -[_ _ HK2 Hmode2 Hset2].
  rewrite HK in HK2. rewrite Hmode in Hmode2. rewrite Hset in Hset2.
  have HRf := dare_Rf Hsol.
  have [xs [us [H0 Hus Hxs]]] := run_exists_std A B (Kf A B R p) (col_of n xss) (col_of m uss) x.
  have Herr := err_std Hss Hus Hxs.
  have EK j : us j - col_of m uss = Kf A B R p *m (xs j - col_of n xss) by rewrite Hus addrK.
  exists xs, us. split=> //. split.
  { move=> k. rewrite -{1}H0. exact: (loop_std k Sx Su Hset2 Hmode2 HK2 Ex Eu Hus Hxs). }
  split=> //. split.
  - move=> k. rewrite /run_cost. elim: k => [|k IH]; first by rewrite big_ord0 add0r H0.
    rewrite big_ord_recr /= -IH -addrA. congr (_ + _).
    have := run_step Q HR HRp Hs Hp Herr k. by rewrite HRf EK.
  - move=> HQpd.
    have Hdec z : qf (Rf A B Q R p) z <= qf p z by rewrite HRf.
    have [r [c [Hr Hr1 Hc Hb]]] := converge_run HQ HQpd HR HRp Hs Hp Hdec Herr.
    split; apply: (converges_bound Hr Hr1 Hc) => j; first exact: (Hb j).1.
    rewrite EK. exact: (Hb j).2.
Qed.
Print Assumptions C101_infinite_horizon_loop.

(** Finite horizon, standard mode, with a terminal weight that over-estimates the cost to go: the
    closed loop never pays more than the best open-loop plan predicted at its first step, and
    converges to the set point when Q is definite. *)
Theorem C101_finite_horizon_loop (F : archiFieldType) n m
    (dare : forall k, 'M[F]_k -> 'M[F]_(k,m) -> 'M[F]_k -> 'M[F]_m -> res 'M[F]_k)
    (A : 'M[F]_n) (B : 'M[F]_(n,m)) Q R P N tstep :
  (0 < n)%N -> (0 < m)%N -> symmetric Q -> psd Q -> symmetric R -> pd R -> symmetric P -> psd P ->
  terminal_decrease A B Q R P ->
  exists s0 s, set_objective Q R (Some P) (lqr_init A B (Some N.+1) tstep) = Ok s0
    /\ setup dare s0 = Ok s
    /\ forall (calls : seq (lop F n)) xss uss x,
       let s1 := lrun s calls in
       let s2 := fst (set_setpoint (Some xss) (Some uss) s1) in
       size xss = n -> size uss = m ->
       col_of n xss = A *m col_of n xss + B *m col_of m uss ->
       exists xs us, xs 0%N = x
         /\ (forall k, exists s', loop A B s2 x k = Ok (s', xs k, mkseq us k))
         /\ (forall k, xs k.+1 = A *m xs k + B *m us k)
         /\ (forall k vs, run_cost Q R (col_of n xss) (col_of m uss) xs us k
                          <= lq_cost A B Q R P N.+1 (col_of n xss) (col_of m uss) x vs)
         /\ (pd Q -> converges_to xs (col_of n xss) /\ converges_to us (col_of m uss)).
Proof.
  move=> Hn Hm HQ HQp HR HRp HP HPp Hterm. eexists. eexists. split; first by []. split.
  { rewrite /setup /= /discrete_gain Hn Hm /=.
    have := @gain_loop_ok F n m A B Q R HQ HQp HR HRp N None P HP HPp. rewrite /= => -> /=. reflexivity. }
  move=> calls xss uss x s1 s2 Sx Su Hss.
  pose proof (run_static calls _ : lstatic s1 = _) as Hst.
  case: Hst => HA HB HK Hmode Hset.
  have [_ [Ex Eu]] := set_std Hset Hmode Sx Su.
  have := set_static (Some xss) (Some uss) s1. rewrite -/s2 => -[_ _ HK2 Hmode2 Hset2].
  rewrite HK in HK2. rewrite Hmode in Hmode2. rewrite Hset in Hset2.
  have [Hs Hp] := @ric_sp F n m A B Q R HQ HQp HR HRp P N HP HPp.
  have Hdec := terminal_ric HQ HQp HR HRp N HP HPp Hterm.
  set v := ric A B Q R P N in HK2 Hs Hp Hdec.
  have [xs [us [H0 Hus Hxs]]] := run_exists_std A B (Kf A B R v) (col_of n xss) (col_of m uss) x.
  have Herr := err_std Hss Hus Hxs.
  have EK j : us j - col_of m uss = Kf A B R v *m (xs j - col_of n xss) by rewrite Hus addrK.
  exists xs, us. split=> //. split.
  { move=> k. rewrite -{1}H0. exact: (loop_std k Sx Su Hset2 Hmode2 HK2 Ex Eu Hus Hxs). }
  split=> //. split.
  - move=> k vs. rewrite cost_sp //.
    have := @cost0_lower F n m A B Q R HQ HQp HR HRp P N.+1 (x - col_of n xss) (fun j => vs j - col_of m uss) HP HPp.
    apply: le_trans. rewrite /= -/v -H0.
    apply: le_trans (run_sum HR HRp Hs Hp Hdec Herr k). rewrite /run_cost.
    under eq_bigr => i _ do rewrite EK.
    rewrite ler_addl. by apply: (Rf_psd A B HQp HR HRp Hs Hp).
  - move=> HQpd.
    have [r [c [Hr Hr1 Hc Hb]]] := converge_run HQ HQpd HR HRp Hs Hp Hdec Herr.
    split; apply: (converges_bound Hr Hr1 Hc) => j; first exact: (Hb j).1.
    rewrite EK. exact: (Hb j).2.
Qed.
Print Assumptions C101_finite_horizon_loop.

(** Infinite horizon, input-rate mode: the same with the input changes weighted by delR, starting
    from the input applied last; the state and the input converge to the set point when both Q and
    R are definite. *)
Theorem C101_rate_mode_loop (F : archiFieldType) n m
    (dare : forall k, 'M[F]_k -> 'M[F]_(k,m) -> 'M[F]_k -> 'M[F]_m -> res 'M[F]_k)
    (A : 'M[F]_n) (B : 'M[F]_(n,m)) Q R dR p tstep :
  (0 < n)%N -> (0 < m)%N -> symmetric Q -> psd Q -> symmetric R -> psd R -> symmetric dR -> pd dR ->
  let A' := block_mx A B 0 1%:M in let B' := col_mx B 1%:M in let Q' := block_mx Q 0 0 R in
  dare (n + m)%N A' B' Q' dR = Ok p -> symmetric p -> psd p -> solves_dare A' B' Q' dR p ->
  exists s0 s, set_objective Q R None (set_rterm dR (lqr_init A B None tstep)) = Ok s0
    /\ setup dare s0 = Ok s
    /\ forall (calls : seq (lop F n)) xss uss x,
       let s1 := lrun s calls in
       let s2 := fst (set_setpoint (Some xss) (Some uss) s1) in
       let err a b := col_mx (a - col_of n xss) (b - col_of m uss) in
       size xss = n -> size uss = m ->
       col_of n xss = A *m col_of n xss + B *m col_of m uss ->
       exists xs us, xs 0%N = x
         /\ (forall k, exists s', loop A B s2 x k = Ok (s', xs k, mkseq us k))
         /\ (forall k, xs k.+1 = A *m xs k + B *m us k)
         /\ (forall k, run_rate_cost Q R dR (col_of n xss) (col_of m uss) (lu0 s1) xs us k
                         + qf p (err (xs k) (before (lu0 s1) us k))
                       = qf p (err x (lu0 s1)))
         /\ (pd Q -> pd R -> converges_to xs (col_of n xss) /\ converges_to us (col_of m uss)).
Proof.
  move=> Hn Hm HQ HQp HR HRp HdR HdRp A' B' Q' Hd Hs Hp Hsol.
  have HQ' : symmetric Q' by exact: sym_diag.
  have HQp' : psd Q' by exact: psd_diag.
  eexists. eexists. split; first by []. split.
  { rewrite /setup /= /discrete_gain Hm addn_gt0 Hn /=.
    rewrite -/A' -/B' -/Q' /A_rated /B_rated /Q_rated -/A' -/B' -/Q' Hd /= gain_of_ok //=. }
  move=> calls xss uss x s1 s2 err Sx Su Hss.
  pose proof (run_static calls _ : lstatic s1 = _) as Hst.
  case: Hst => HA HB HK Hmode Hset.
  have [_ [Ex Eu]] := set_rate Hset Hmode Sx Su.
  have := set_static (Some xss) (Some uss) s1. rewrite -/s2 => -[_ _ HK2 Hmode2 Hset2].
  rewrite HK in HK2. rewrite Hmode in Hmode2. rewrite Hset in Hset2.
  have HRf := dare_Rf Hsol.
  have Hu0 : lu0 s2 = lu0 s1 by exact: set_u0.
  have [xs [us [H0 Hus Hxs]]] := run_exists_rate A B (Kf A' B' dR p) (col_mx (col_of n xss) (col_of m uss)) (lu0 s1) x.
  have Herr := err_rate Hss Hus Hxs.
  set z := (fun i => col_mx (xs i) (before (lu0 s1) us i) - col_mx (col_of n xss) (col_of m uss)).
  have Herr' : forall j, z j.+1 = A' *m z j + B' *m (Kf A' B' dR p *m z j) by exact: Herr.
  have Ez j : z j = err (xs j) (before (lu0 s1) us j) by rewrite /z col_sub.
  have EK j : us j - before (lu0 s1) us j = Kf A' B' dR p *m z j by rewrite {1}Hus addr0 addrK.
  have Eq j : qf Q' (z j) = qf Q (xs j - col_of n xss) + qf R (before (lu0 s1) us j - col_of m uss).
  { by rewrite Ez /err qf_diag. }
  exists xs, us. split=> //. split.
  { move=> k. rewrite -{1}H0. apply: (loop_rate k Sx Su Hset2 Hmode2 HK2 Ex Eu _ Hxs).
    move=> j. rewrite Hu0. exact: Hus. }
  split=> //. split.
  - move=> k. rewrite -Ez.
    have -> : err x (lu0 s1) = z 0%N by rewrite Ez /= H0.
    rewrite /run_rate_cost. elim: k => [|k IH]; first by rewrite big_ord0 add0r.
    rewrite big_ord_recr /= -[RHS]IH -addrA. congr (_ + _).
    have := run_step Q' HdR HdRp Hs Hp Herr' k. by rewrite HRf Eq EK.
  - move=> HQpd HRpd.
    have HQpd' : pd Q' by exact: pd_diag.
    have Hdec w : qf (Rf A' B' Q' dR p) w <= qf p w by rewrite HRf.
    have [r [c [Hr Hr1 Hc Hb]]] := converge_run HQ' HQpd' HdR HdRp Hs Hp Hdec Herr'.
    split.
    + apply: (converges_bound Hr Hr1 Hc) => j. apply: le_trans (Hb j).1.
      by rewrite Ez /err sq_col ler_addl sq_ge0.
    + apply: (converges_bound Hr Hr1 Hc) => j. 
      apply: (@le_trans _ _ (r ^+ j.+1 * c)).
      * apply: le_trans (Hb j.+1).1. by rewrite Ez /err sq_col ler_addr sq_ge0.
      * rewrite exprS -mulrA. apply: ler_pimull (ltW Hr1). apply: mulr_ge0 Hc. exact: exprn_ge0.
Qed.
Print Assumptions C101_rate_mode_loop.

(** Refuted for the terminal weight that set_objective chooses when P is left out (P = Q,
    _lqr.py:406-408): for x+ = 2x + u with Q = 1, R = 4 and horizon 1 both weights are definite and every call
    succeeds, but the state of the loop grows without bound. *)
Theorem C101_default_terminal_weight_refuted dare :
  exists (A B Q R : 'M[rat]_1) s0 s,
    pd Q /\ pd R
    /\ set_objective Q R None (lqr_init A B (Some 1%N) 1) = Ok s0 /\ setup dare s0 = Ok s
    /\ let s2 := fst (set_setpoint (Some [:: 0]) (Some [:: 0]) s) in
       forall k, exists s' xk us, loop A B s2 1%:M k = Ok (s', xk, us) /\ 1 + (3%:R / 5%:R) *+ k <= xk 0 0.
Proof.
  have HQ : pd (1%:M : 'M[rat]_1) by exact: pd_id.
  have HR : pd (4%:R%:M : 'M[rat]_1) by apply: pd_scalar; vm_compute.
  exists 2%:R%:M, 1%:M, 1%:M, 4%:R%:M. eexists. eexists.
  split=> //. split=> //. split; first by []. split.
  { rewrite /setup /= /discrete_gain /= (gain_of_ok _ _ HR (pd_psd HQ)) /= (riccati_ok _ _ _ HR (pd_psd HQ)) /=. reflexivity. }
  move=> s2 k.
  have EK : Kf (2%:R%:M : 'M[rat]_1) 1%:M 4%:R%:M 1%:M = (- (2%:R / 5%:R))%:M.
  { rewrite /Kf /Sm trmx1 !mul1mx !mulmx1 sD invmx_s sN -!scalar_mxM. by apply: sc; vm_compute. }
  have Z : col_of 1 [:: (0:rat)] = 0 by apply/colP => i; rewrite ord1 !mxE.
  pose xs j : 'cV[rat]_1 := (((8%:R / 5%:R) ^+ j)%:M).
  pose us j : 'cV[rat]_1 := Kf (2%:R%:M : 'M[rat]_1) 1%:M 4%:R%:M 1%:M *m (xs j - col_of 1 [:: 0]) + col_of 1 [:: 0].
  have Hx j : xs j.+1 = 2%:R%:M *m xs j + 1%:M *m us j.
  { rewrite /us /xs Z subr0 addr0 mul1mx EK -!scalar_mxM sD. apply: sc. rewrite exprS -mulrDl. by congr (_ * _); vm_compute. }
  have H1 : lsetup s2 by [].
  have [s' Hl] := @loop_std _ 1 1 2%:R%:M 1%:M (Kf (2%:R%:M : 'M[rat]_1) 1%:M 4%:R%:M 1%:M) [:: 0] [:: 0] k erefl erefl s2 xs us
     H1 erefl erefl erefl erefl (fun j => erefl) Hx.
  exists s', (xs k), (mkseq us k). split.
  - have E0 : xs 0%N = 1%:M by rewrite /xs expr0. by rewrite -E0.
  - rewrite /xs mxE eqxx mulr1n.
    have -> : (8%:R / 5%:R : rat) = 1 + 3%:R / 5%:R by vm_compute.
    apply: (@bernoulli [archiFieldType of rat]). by vm_compute.
Qed.
Print Assumptions C101_default_terminal_weight_refuted.

(** Non-vacuity: x+ = x + u with Q = 4/3, R = 1 and p = 2 (infinite horizon), P = 3 (finite horizon,
    feedback L = -3/4), and in input-rate mode Q = 2/3, R = 2, delR = 9/2 with p = [[2,1],[1,5]]. *)
Example C101_nonvacuous :
  (pd ((4%:R / 3%:R)%:M : 'M[rat]_1) /\ pd (1%:M : 'M[rat]_1)
   /\ solves_dare (1%:M : 'M[rat]_1) (1%:M : 'M[rat]_1) (4%:R / 3%:R)%:M 1%:M 2%:R%:M)
  /\ terminal_decrease (1%:M : 'M[rat]_1) (1%:M : 'M[rat]_1) (4%:R / 3%:R)%:M 1%:M 3%:R%:M
  /\ (let p : 'M[rat]_(1 + 1) := block_mx 2%:R%:M 1%:M 1%:M 5%:R%:M in
      symmetric p /\ psd p /\
      solves_dare (block_mx 1%:M 1%:M 0 1%:M) (col_mx 1%:M 1%:M : 'M[rat]_(1 + 1, 1))
        (block_mx (2%:R / 3%:R)%:M 0 0 2%:R%:M) (9%:R / 2%:R)%:M p).
Proof.
  split; [|split].
  - split; first by apply: pd_scalar; vm_compute. split; first by apply: pd_scalar; vm_compute.
    rewrite /solves_dare !trmx1 !mul1mx !mulmx1 -raddfD invmx_s -!scalar_mxM -raddfB -raddfD.
    by apply: sc; vm_compute.
  - apply: (@scalar_terminal _ _ _ _ (- (3%:R / 4%:R))). by vm_compute.
  - move=> p. split; [|split].
    + by rewrite /symmetric /p tr_block_mx !tr_scalar_mx.
    + move=> x. rewrite -[x]vsubmxK /qf /p tr_col_mx mul_row_block mul_row_col.
      set a := usubmx x. set b := dsubmx x.
      rewrite !mul_mx_scalar !mulmxDl -!scalemxAl !scale1r.
      rewrite !mxE !big_ord_recl !big_ord0 !mxE !addr0.
      move: (x (lshift 1 ord0) 0) (x (rshift 1 ord0) 0) => s t.
      have -> : 2%:R * (s * s) + t * s + (s * t + 5%:R * (t * t)) = (s + t) ^+ 2 + s ^+ 2 + 4%:R * t ^+ 2.
      { rewrite sqrrD !expr2 [t * s]mulrC mulr2n.
        have -> : 5%:R * (t * t) = t * t + 4%:R * (t * t) by rewrite -{2}[t * t]mul1r -mulrDl.
        have -> : 2%:R * (s * s) = s * s + s * s by rewrite mulr_natl mulr2n.
        move: (s * s) (s * t) (t * t) => u v w. rewrite !addrA. congr (_ + _).
        rewrite -!addrA. congr (u + _). by rewrite [LHS]addrC !addrA. }
      apply: addr_ge0; last by apply: mulr_ge0; [vm_compute | exact: sqr_ge0].
      apply: addr_ge0; exact: sqr_ge0.
    + rewrite /solves_dare /p !tr_block_mx !tr_col_mx !trmx1 !trmx0.
      rewrite !mulmx_block !mul1mx ?mulmx1 ?mul0mx ?mulmx0 ?addr0 ?add0r.
      rewrite !mul_row_block ?mul1mx ?mulmx1 ?mul0mx ?mulmx0 ?addr0 ?add0r.
      rewrite !mul_row_col !mul_block_col ?mul1mx ?mulmx1 ?mul0mx ?mulmx0 ?addr0 ?add0r.
      rewrite !sD invmx_s !mul_col_mx !mul_mx_row -/(block_mx _ _ _ _) opp_block_mx !add_block_mx.
      rewrite -!scalar_mxM s0 !sN !sD.
      by congr block_mx; apply: sc; vm_compute.
Qed.
