(** * C42-C45: properties of the LQR controller (theorems only). *)
From Verif Require Import Base.
From mathcomp Require Import all_ssreflect all_algebra.
From Verif Require Import LqrModel LqrSpec LqrProofs LqrProofs2.
Set Implicit Arguments.
Unset Strict Implicit.
Unset Printing Implicit Defensive.
Import Order.TTheory GRing.Theory Num.Theory.
Local Open Scope ring_scope.

Section C42.
  Variable F : realFieldType.
  Variables n m : nat.
  Variable dare : forall k, 'M[F]_k -> 'M[F]_(k,m) -> 'M[F]_k -> 'M[F]_m -> res 'M[F]_k.

  (** The terminal weight the user asked for: P, or Q when P is left out. *)
  Definition terminal_weight (Q : 'M[F]_n) (oP : option 'M[F]_n) : 'M[F]_n :=
    match oP with Some P => P | None => Q end.

  (** Standard mode: whatever calls were made since setup, after the set point (xss,uss) - a steady
      state of the model - is set, make_step returns the first input of the (unique first input of
      every) cost-minimising input sequence of the finite horizon problem from x. *)
  Definition C42_standard_statement := forall (A : 'M[F]_n) (B : 'M[F]_(n,m)) Q R oP N tstep,
    let P := terminal_weight Q oP in
    (0 < n)%N -> (0 < m)%N ->
    symmetric Q -> psd Q -> symmetric R -> pd R -> symmetric P -> psd P ->
    exists s0 s, set_objective Q R oP (lqr_init A B (Some N.+1) tstep) = Ok s0
      /\ setup dare s0 = Ok s
      /\ forall (calls : seq (lop F n)) xss uss x,
         let s1 := lrun s calls in
         let s2 := fst (set_setpoint (Some xss) (Some uss) s1) in
         size xss = n -> size uss = m ->
         col_of n xss = A *m col_of n xss + B *m col_of m uss ->
         exists u, snd (make_step x s2) = Ok u
           /\ optimal_first_input (lq_cost A B Q R P N.+1 (col_of n xss) (col_of m uss) x) u.

  (** Rate mode: same with the documented cost on inputs and input changes; u_prev is the input
      returned by the previous make_step (the controller's u0). *)
  Definition C42_rate_statement := forall (A : 'M[F]_n) (B : 'M[F]_(n,m)) Q R dR oP N tstep,
    let P := terminal_weight Q oP in
    (0 < n)%N -> (0 < m)%N ->
    symmetric Q -> psd Q -> symmetric R -> psd R -> symmetric dR -> pd dR -> symmetric P -> psd P ->
    exists s0 s, set_objective Q R oP (set_rterm dR (lqr_init A B (Some N.+1) tstep)) = Ok s0
      /\ setup dare s0 = Ok s
      /\ forall (calls : seq (lop F n)) xss uss x,
         let s1 := lrun s calls in
         let s2 := fst (set_setpoint (Some xss) (Some uss) s1) in
         size xss = n -> size uss = m ->
         col_of n xss = A *m col_of n xss + B *m col_of m uss ->
         exists u, snd (make_step x s2) = Ok u
           /\ optimal_first_input
                (rate_cost A B Q R dR P N.+1 (col_of n xss) (col_of m uss) (lu0 s1) x) u.
End C42.

Theorem C42_finite_horizon_optimal F n m dare : @C42_standard_statement F n m dare.
Proof.
  move=> A B Q R oP N ts P Hn Hm HQ HQp HR HRp HP HPp.
  have -> : set_objective Q R oP (lqr_init A B (Some N.+1) ts) = set_objective Q R (Some P) (lqr_init A B (Some N.+1) ts) by rewrite /P; case: (oP).
  eexists. eexists. split; first by []. split.
  { rewrite /setup /= /discrete_gain Hn Hm /=.
    have := @gain_loop_ok F n m A B Q R HQ HQp HR HRp N None P HP HPp. rewrite /= => -> /=. reflexivity. }
  move=> calls xss uss x s1 s2 Sx Su Hss.
  pose proof (run_static calls _ : lstatic s1 = _) as Hst.
  case: Hst => HA HB HK Hmode Hset.
  have [_ [Ex Eu]] := set_std Hset Hmode Sx Su.
  have := set_static (Some xss) (Some uss) s1. rewrite -/s2 => -[_ _ HK2 Hmode2 Hset2].
  exists (Kf A B R (ric A B Q R P N) *m (x - col_of n xss) + col_of m uss). split.
  - apply: step_std => //; by rewrite ?Hset2 ?Hmode2 ?HK2.
  - exact: optimal_sp.
Qed.
Print Assumptions C42_finite_horizon_optimal.

Theorem C42_rate_mode_optimal F n m dare : @C42_rate_statement F n m dare.
Proof.
  move=> A B Q R dR oP N ts P Hn Hm HQ HQp HR HRp HdR HdRp HP HPp.
  have -> : set_objective Q R oP (set_rterm dR (lqr_init A B (Some N.+1) ts)) = set_objective Q R (Some P) (set_rterm dR (lqr_init A B (Some N.+1) ts)) by rewrite /P; case: (oP).
  eexists. eexists. split; first by []. split.
  { rewrite /setup /= /discrete_gain Hm addn_gt0 Hn /=.
    have := @gain_loop_ok F (n+m) m (A_rated A B) (B_rated B) (Q_rated Q R) dR
      (sym_diag HQ HR) (psd_diag HQp HRp) HdR HdRp N None (Q_rated P R) (sym_diag HP HR) (psd_diag HPp HRp).
    rewrite /= => -> /=. reflexivity. }
  move=> calls xss uss x s1 s2 Sx Su Hss.
  pose proof (run_static calls _ : lstatic s1 = _) as Hst.
  case: Hst => HA HB HK Hmode Hset.
  have [_ [Ex Eu]] := set_rate Hset Hmode Sx Su.
  have := set_static (Some xss) (Some uss) s1. rewrite -/s2 => -[_ _ HK2 Hmode2 Hset2].
  eexists. split.
  - apply: step_rate; [by rewrite Hset2 | by rewrite Hmode2 | by rewrite HK2 HK | exact: Ex | exact: Eu | by [] | by []].
  - rewrite set_u0. exact: optimal_rate.
Qed.
Print Assumptions C42_rate_mode_optimal.

(** Non-vacuity of C42: the double integrator with unit weights has all the properties required,
    and (1,0),0 is one of its steady states. *)
Definition ex_A : 'M[rat]_2 := \matrix_(i < 2, j < 2) (if (i <= j)%N then 1 else 0).
Definition ex_B : 'M[rat]_(2,1) := \matrix_(i < 2, j < 1) (if i == 0 then 0 else 1).
Example C42_nonvacuous :
  (symmetric (1%:M : 'M[rat]_2) /\ psd (1%:M : 'M[rat]_2) /\ symmetric (1%:M : 'M[rat]_1) /\ pd (1%:M : 'M[rat]_1))
  /\ col_of 2 [:: 1; 0] = ex_A *m col_of 2 [:: 1; 0] + ex_B *m col_of 1 [:: (0 : rat)].
Proof.
  split.
  - split; first exact: trmx1. split; first exact: (pd_psd (@pd_id _ _)). split; first exact: trmx1. exact: pd_id.
  - apply/colP => i. rewrite !mxE !big_ord_recl !big_ord0 !mxE /=.
    case: i => [[|[|i]] Hi] //=; by rewrite ?mxE /= ?(mulr0, mul1r, mulr1, addr0, mul0r).
Qed.

(** C43: a symmetric positive semidefinite solution p of the algebraic Riccati equation is a fixed
    point: the infinite-horizon controller's gain equals the finite-horizon gain for terminal weight
    p and every horizon; and that gain is optimal for the infinite horizon: the feedback's cost
    over any number of steps is at most x'px, and every input sequence that brings the (p-weighted)
    state to zero has eventually accumulated at least x'px - eps. *)
Theorem C43_infinite_horizon_gain (F : realFieldType) n m (A : 'M[F]_n) (B : 'M[F]_(n,m)) Q R p dare :
  (0 < n)%N -> (0 < m)%N -> symmetric Q -> psd Q -> symmetric R -> pd R -> symmetric p -> psd p ->
  dare A B Q R = Ok p -> riccati_step A B Q R p = Ok p ->
  exists K, (forall P, discrete_gain dare A B Q R P None = Ok K)
    /\ (forall N, discrete_gain dare A B Q R (Some p) (Some N.+1) = Ok K)
    /\ forall x, (exists us, forall k, us k = K *m traj A B x us k)
       /\ (forall us N, (forall k, us k = K *m traj A B x us k) -> lq_cost A B Q R 0 N 0 0 x us <= qf p x)
       /\ (forall us, (forall eps, 0 < eps -> exists N0, forall N, (N0 <= N)%N -> qf p (traj A B x us N) < eps) ->
             forall eps, 0 < eps -> exists N0, forall N, (N0 <= N)%N ->
               qf p x - eps < lq_cost A B Q R 0 N 0 0 x us).
Proof.
  move=> Hn Hm HQ HQp HR HRp Hs Hp Hd Hfix. exists (Kf A B R p). split; [|split].
  - move=> P. by rewrite /discrete_gain Hn Hm /= Hd /= gain_of_ok.
  - move=> N. rewrite /discrete_gain Hn Hm /=.
    have := @gain_loop_ok F n m A B Q R HQ HQp HR HRp N None p Hs Hp. rewrite /= => -> /=.
    by rewrite (fix_ric HRp Hp Hfix).
  - move=> x. split; first exact: feedback_exists. split.
    + move=> us N. exact: running_upper.
    + move=> us. exact: running_lower.
Qed.
Print Assumptions C43_infinite_horizon_gain.

(** Non-vacuity: scalar plant x+ = x + u with q = 4/3, r = 1: p = 2 solves p = q + p - p^2/(p+1). *)
Example C43_nonvacuous :
  exists p : 'M[rat]_1, symmetric p /\ psd p /\ p != 0
    /\ riccati_step (1%:M : 'M[rat]_1) 1%:M (4%:R / 3%:R)%:M 1%:M p = Ok p.
Proof.
  exists 2%:R%:M. split; first exact: tr_scalar_mx. split; [|split].
  - move=> x. rewrite /qf mxE big_ord_recl big_ord0 addr0 !mxE big_ord_recl big_ord0 !mxE eqxx /= addr0.
    rewrite mulrAC -expr2 mulr_ge0 // sqr_ge0 //.
  - apply/negP => /eqP /matrixP /(_ 0 0). by rewrite !mxE.
  - have E : (1%:M : 'M[rat]_1)^T *m 2%:R%:M *m 1%:M + 1%:M = 3%:R%:M.
    { rewrite trmx1 mul1mx mulmx1 -raddfD. by []. }
    have E3 : (3%:R%:M : 'M[rat]_1) \in unitmx by rewrite unitmxE det_scalar1 unitfE.
    rewrite /riccati_step /np_inv E E3 /=.
    rewrite !trmx1 !mul1mx !mulmx1 invmx_scalar.
    congr Ok. apply/matrixP => i j. rewrite !ord1 -!scalar_mxM -raddfD -raddfB. congr (fun_of_matrix _ 0 0).
Qed.

(** C44 (the part that holds).  After any configuration, setup and any run-time calls, setting the
    set point to a steady state (xss,uss) is accepted and the closed loop stays at rest there for any
    number of steps: every input returned is uss and the plant remains at xss.  In rate mode this
    needs the previously applied input to be uss. *)
Theorem C44_setpoint_at_rest_partial (F : realFieldType) n m dare (s0 s : lqr F n m)
    (calls : seq (lop F n)) xss uss (A : 'M[F]_n) (B : 'M[F]_(n,m)) :
  setup dare s0 = Ok s -> size xss = n -> size uss = m ->
  col_of n xss = A *m col_of n xss + B *m col_of m uss ->
  let s1 := lrun s calls in
  let s2 := fst (set_setpoint (Some xss) (Some uss) s1) in
  (lmode s0 = RatePen -> lu0 s1 = col_of m uss) ->
  snd (set_setpoint (Some xss) (Some uss) s1) = Ok tt
  /\ forall k, exists s', loop A B s2 (col_of n xss) k = Ok (s', col_of n xss, nseq k (col_of m uss)).
Proof.
  move=> Hset Sx Su Hss s1 s2 Hu.
  have [H1 [H2 H3]] := setup_shape Hset.
  have := run_static calls s. rewrite -/s1 => -[_ _ HK Hm Hs].
  have := set_static (Some xss) (Some uss) s1. rewrite -/s2 => -[_ _ HK2 Hm2 Hs2].
  case Em: (lmode s) H3 => -[K HKK].
  - have [H4 [H5 H6]] := set_std (etrans Hs H1) (etrans Hm Em) Sx Su. split=> // k.
    by apply: (rest_std k (etrans Hs2 (etrans Hs H1)) (etrans Hm2 (etrans Hm Em)) (etrans HK2 (etrans HK HKK)) H5 H6).
  - have [H4 [H5 H6]] := set_rate (etrans Hs H1) (etrans Hm Em) Sx Su. split=> // k.
    apply: (rest_rate k (etrans Hs2 (etrans Hs H1)) (etrans Hm2 (etrans Hm Em)) (etrans HK2 (etrans HK HKK)) H5 H6) => //.
    rewrite set_u0. apply: Hu. by rewrite -H2.
Qed.
Print Assumptions C44_setpoint_at_rest_partial.

(** C44: in standard mode every sequence of well-sized set-point changes (either part may be left
    out) is accepted and the controller keeps returning inputs. *)
Theorem C44_standard_setpoints_usable_partial (F : realFieldType) n m dare (s0 s : lqr F n m)
    (sps : seq (option (seq F) * option (seq F))) x :
  setup dare s0 = Ok s -> lmode s0 = Standard -> lxss s0 = None -> luss s0 = None ->
  (forall a b, In (a, b) sps -> (if a is Some l then size l = n else True) /\ (if b is Some l then size l = m else True)) ->
  let s1 := lrun s [seq LSet n ab.1 ab.2 | ab <- sps] in
  (forall a b, (if a is Some l then size l = n else True) -> (if b is Some l then size l = m else True) ->
     snd (set_setpoint a b s1) = Ok tt)
  /\ exists u, snd (make_step x s1) = Ok u.
Proof.
  move=> Hset Hm Hx Hu Hsps s1.
  have [H1 [H2 H3]] := setup_shape Hset.
  have [Ex Eu] : lxss s = None /\ luss s = None.
  { move: Hset. rewrite /setup. case: (lQ s0) => [Q|//]. case: (lR s0) => [R|//]. rewrite Hm.
    case: (discrete_gain _ _ _ _ _ _) => [K|//] /= [<-] /=. by rewrite Hx Hu. }
  have Hinv : (lxss s1 = None /\ luss s1 = None) \/
    (exists a b, lxss s1 = Some a /\ luss s1 = Some b /\ size a = n /\ size b = m).
  { rewrite /s1. have : (lxss s = None /\ luss s = None) \/
      (exists a b, lxss s = Some a /\ luss s = Some b /\ size a = n /\ size b = m) by left.
    have : lsetup s by []. have : lmode s = Standard by rewrite H2.
    move: Hsps. clear. elim: sps s => [//|[a b] sps IH] s Hsps Hm Hs Hi.
    rewrite /lrun /=. apply: IH.
    - move=> a' b' Hin. apply: Hsps. by right.
    - by have := set_static a b s => -[_ _ _ -> _].
    - by have := set_static a b s => -[_ _ _ _ ->].
    - right. rewrite /set_setpoint Hs Hm /=. have [] := Hsps a b (or_introl erefl).
      case: Hi => [[Hx Hu]|[a0 [b0 [Hx [Hu [Sx Su]]]]]].
      + rewrite Hx Hu. case: a b {Hsps} => [a|] [b|] Ha Hb; do 2!eexists; (split; first reflexivity);
          (split; first reflexivity); rewrite ?size_nseq; by split.
      + rewrite Hx Hu. case: a b {Hsps} => [a|] [b|] Ha Hb; do 2!eexists; (split; first reflexivity);
          (split; first reflexivity); rewrite ?size_nseq; by split. }
  have := run_static [seq LSet n ab.1 ab.2 | ab <- sps] s. rewrite -/s1 => -[_ _ HK Hm1 Hs].
  have Hs1 : lsetup s1 by rewrite Hs. have Hmm : lmode s1 = Standard by rewrite Hm1 H2.
  rewrite H2 Hm in H3. case: H3 => K HKK. rewrite -HK in HKK.
  split.
  - move=> a b Ha Hb. rewrite /set_setpoint Hs1 Hmm /=.
    case: Hinv => [[Hx' Hu']|[a0 [b0 [Hx' [Hu' [Sx Su]]]]]]; rewrite Hx' Hu'.
    + case: a b Ha Hb => [a|] [b|] Ha Hb; by rewrite ?size_nseq ?Ha ?Hb !eqxx.
    + case: a b Ha Hb => [a|] [b|] Ha Hb; by rewrite ?Ha ?Hb ?Sx ?Su !eqxx.
  - case: Hinv => [[Hx' Hu']|[a0 [b0 [Hx' [Hu' [Sx Su]]]]]].
    + rewrite /make_step Hs1 Hx' Hu' /set_setpoint Hs1 Hmm Hx' Hu' /= !size_nseq !eqxx /= HKK /=. by eexists.
    + eexists. exact: (step_std x Hs1 Hmm HKK Hx' Hu' Sx Su).
Qed.
Print Assumptions C44_standard_setpoints_usable_partial.

(** C44 refuted in input-rate mode: once a set point has been accepted, every later call that
    changes only the input set point (xss left out) is rejected, and after that the controller
    returns no input for any state. *)
Theorem C44_rate_setpoint_refuted (F : realFieldType) n m (s : lqr F n m) xss uss uss' x :
  (0 < m)%N -> lsetup s -> lmode s = RatePen -> size xss = n -> size uss = m -> size uss' = m ->
  let s1 := fst (set_setpoint (Some xss) (Some uss) s) in
  let s2 := fst (set_setpoint None (Some uss') s1) in
  snd (set_setpoint (Some xss) (Some uss) s) = Ok tt
  /\ snd (set_setpoint None (Some uss') s1) = Err ExcAssertion
  /\ snd (make_step x s2) = Err ExcValue.
Proof.
  move=> Hm0 Hs Hm Sx Su Su' s1 s2.
  have [H4 [H5 H6]] := set_rate Hs Hm Sx Su. split=> //.
  have := set_static (Some xss) (Some uss) s. rewrite -/s1 => -[_ _ HK1 Hm1 Hs1].
  have := set_static None (Some uss') s1. rewrite -/s2 => -[_ _ HK2 Hm2 Hs2].
  have Hne : (n + m + m == n + m)%N = false.
  { rewrite -[X in _ == X]addn0 eqn_add2l. by case: (m) Hm0. }
  split.
  - rewrite /set_setpoint Hs1 Hs Hm1 Hm /= H5 /= !size_cat Sx Su Su' Hne /=. by [].
  - have Ex : lxss s2 = Some ((xss ++ uss) ++ uss').
    { by rewrite /s2 /set_setpoint Hs1 Hs Hm1 Hm /= H5. }
    have Eu : luss s2 = Some (nseq m 0) by rewrite /s2 /set_setpoint Hs1 Hs Hm1 Hm.
    rewrite /make_step Hs2 Hs1 Hs Ex /= Hm2 Hm1 Hm Ex Eu.
    case: (lK s2) => [[K|K]|] //. by rewrite !size_cat Sx Su Su' Hne.
Qed.
Print Assumptions C44_rate_setpoint_refuted.

(** C44 refuted in input-rate mode: "uss is not changed if it is not passed" (_lqr.py:444) fails:
    moving only the state set point resets the input set point to zero. *)
Theorem C44_rate_uss_lost_refuted (F : realFieldType) n m (s : lqr F n m) xss uss xss' :
  lsetup s -> lmode s = RatePen -> size xss = n -> size uss = m -> size xss' = n ->
  let s1 := fst (set_setpoint (Some xss) (Some uss) s) in
  let s2 := fst (set_setpoint (Some xss') None s1) in
  snd (set_setpoint (Some xss') None s1) = Ok tt
  /\ s2 = fst (set_setpoint (Some xss') (Some (nseq m 0)) s).
Proof.
  move=> Hs Hm Sx Su Sx' s1 s2.
  have [H4 [H5 H6]] := set_rate Hs Hm Sx Su.
  have := set_static (Some xss) (Some uss) s. rewrite -/s1 => -[_ _ HK1 Hm1 Hs1].
  split.
  - rewrite /set_setpoint Hs1 Hs Hm1 Hm /= H6 !size_cat !size_nseq Sx' !eqxx //.
  - by rewrite /s2 /s1 /set_setpoint Hs /= Hm /=.
Qed.
Print Assumptions C44_rate_uss_lost_refuted.

(** Non-vacuity of the C44 theorems: a controller in rate mode and one in standard mode that are
    set up (scalar plant x+ = x + u, unit weights, horizon 3). *)
Example C44_nonvacuous dare :
  (exists s0 s : lqr [realFieldType of rat] 1 1, setup dare s0 = Ok s /\ lmode s0 = RatePen /\ lsetup s)
  /\ (exists s0 s : lqr [realFieldType of rat] 1 1, setup dare s0 = Ok s /\ lmode s0 = Standard
        /\ lxss s0 = None /\ luss s0 = None).
Proof.
  have I1 : symmetric (1%:M : 'M[rat]_1) by exact: trmx1.
  have I2 : pd (1%:M : 'M[rat]_1) by exact: pd_id.
  have I3 := pd_psd I2.
  split.
  - have [s0 [s [H1 [H2 _]]]] := @C42_rate_mode_optimal [realFieldType of rat] 1 1 dare 1%:M 1%:M 1%:M 1%:M 1%:M None 2%N 1
      isT isT I1 I3 I1 I3 I1 I2 I1 I3.
    exists s0, s. split=> //. split; first by case: H1 => <-. by have [-> _] := setup_shape H2.
  - have [s0 [s [H1 [H2 _]]]] := @C42_finite_horizon_optimal [realFieldType of rat] 1 1 dare 1%:M 1%:M 1%:M 1%:M (Some 1%:M) 2%N 1
      isT isT I1 I3 I1 I2 I1 I3.
    exists s0, s. split=> //. by case: H1 => <-.
Qed.

(** C45: for every input sequence us, the augmented system driven by its changes has the original
    state as first block and the previous input as second block; and for every sequence du of
    changes, it is the original system driven by the accumulated inputs u_prev + du_0 + ... + du_k. *)
Theorem C45_rate_formulation (F : realFieldType) n m (A : 'M[F]_n) (B : 'M[F]_(n,m)) x uprev k :
  (forall us, traj (A_rated A B) (B_rated B) (col_mx x uprev) (fun j => us j - before uprev us j) k
              = col_mx (traj A B x us k) (before uprev us k))
  /\ (forall du, traj (A_rated A B) (B_rated B) (col_mx x uprev) du k
              = col_mx (traj A B x (fun j => uprev + \sum_(i < j.+1) du i) k)
                       (before uprev (fun j => uprev + \sum_(i < j.+1) du i) k)).
Proof. split=> us; [exact: aug_traj | exact: aug_traj']. Qed.
Print Assumptions C45_rate_formulation.
