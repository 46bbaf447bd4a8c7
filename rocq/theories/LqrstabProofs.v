(** * Lemmas for C101: definite forms, the decrease of the cost to go, geometric convergence. *)
From Verif Require Import Base.
From mathcomp Require Import all_ssreflect all_algebra.
From Verif Require Import LqrModel LqrSpec LqrProofs LqrProofs2 LqrstabSpec.
Set Implicit Arguments.
Unset Strict Implicit.
Unset Printing Implicit Defensive.
Import Order.TTheory GRing.Theory Num.Theory.
Local Open Scope ring_scope.

Section Forms.
  Variable F : realFieldType.

  Definition sq k (x : 'cV[F]_k) : F := \sum_i (x i 0) ^+ 2.

  Lemma sq_ge0 k (x : 'cV[F]_k) : 0 <= sq x.
  Proof. apply: sumr_ge0 => i _. exact: sqr_ge0. Qed.

  Lemma sq_coord k (x : 'cV[F]_k) i : (x i 0) ^+ 2 <= sq x.
  Proof.
    rewrite /sq (bigD1 i) //= ler_addl. apply: sumr_ge0 => j _. exact: sqr_ge0.
  Qed.

  Lemma qf_expand k (M : 'M[F]_k) x : qf M x = \sum_i \sum_j x j 0 * M j i * x i 0.
  Proof.
    rewrite /qf mxE. apply: eq_bigr => i _. rewrite mxE big_distrl /=. apply: eq_bigr => j _. by rewrite mxE.
  Qed.

  Lemma abs_prod_le (a b : F) : `|a * b| <= a ^+ 2 + b ^+ 2.
  Proof.
    have H : 0 <= (`|a| - `|b|) ^+ 2 by exact: sqr_ge0.
    have Ha : `|a| ^+ 2 = a ^+ 2 by rewrite real_normK // num_real.
    have Hb : `|b| ^+ 2 = b ^+ 2 by rewrite real_normK // num_real.
    move: H. rewrite sqrrB Ha Hb normrM => H.
    have H2 : `|a| * `|b| *+ 2 <= a ^+ 2 + b ^+ 2 by rewrite -subr_ge0 addrAC.
    apply: le_trans H2. rewrite mulr2n ler_addl. by apply: mulr_ge0.
  Qed.

  Lemma qf_upper k (M : 'M[F]_k) : exists c, 0 < c /\ forall x, qf M x <= c * sq x.
  Proof.
    exists (1 + \sum_i \sum_j `|M j i| *+ 2). split.
    - apply: ltr_paddr => //. apply: sumr_ge0 => i _. apply: sumr_ge0 => j _. by rewrite mulrn_wge0.
    - move=> x. rewrite qf_expand mulrDl mul1r.
      apply: (@le_trans _ _ ((\sum_i \sum_j `|M j i| *+ 2) * sq x)); last by rewrite ler_addr sq_ge0.
      rewrite big_distrl /=. apply: ler_sum => i _. rewrite big_distrl /=. apply: ler_sum => j _.
      apply: le_trans (ler_norm _) _. rewrite mulrAC normrM [_ * `|M j i|]mulrC mulrnAl -mulrnAr.
      apply: (@ler_wpmul2l _ `|M j i|) => //. apply: le_trans (abs_prod_le _ _) _.
      rewrite mulr2n. apply: ler_add; exact: sq_coord.
  Qed.

  Lemma trZ k l (a : F) (x : 'M[F]_(k,l)) : (a *: x)^T = a *: x^T.
  Proof. apply/matrixP => i j. by rewrite !mxE. Qed.

  Lemma qfZ k (M : 'M[F]_k) a x : qf M (a *: x) = a ^+ 2 * qf M x.
  Proof.
    rewrite /qf trZ -!scalemxAl -scalemxAr scalerA mxE. by rewrite expr2.
  Qed.

  Lemma cauchy_schwarz k (M : 'M[F]_k) a b : symmetric M -> pd M ->
    ((a^T *m M *m b) 0 0) ^+ 2 <= qf M a * qf M b.
  Proof.
    move=> HM Hp. case: (altP (b =P 0)) => [->|Hb].
    { by rewrite mulmx0 mxE expr0n /= qf0 mulr0. }
    set c := (a^T *m M *m b) 0 0.
    have Hpos := Hp _ Hb.
    have H : 0 <= qf M (qf M b *: a + (- c) *: b) by exact: (pd_psd Hp).
    have E : qf M (qf M b *: a + (- c) *: b) = qf M b * (qf M a * qf M b - c ^+ 2).
    { rewrite qf_add // !qfZ.
      have -> : ((qf M b *: a)^T *m M *m (- c *: b)) 0 0 = - (qf M b * c ^+ 2).
      { rewrite trZ -!scalemxAl -scalemxAr scalerA mxE -/c. by rewrite mulrN mulNr -mulrA -expr2. }
      rewrite sqrrN mulrBr mulNrn mulr2n. 
      have -> : qf M b ^+ 2 * qf M a = qf M b * (qf M a * qf M b) by rewrite expr2 -mulrA [qf M a * _]mulrC.
      rewrite [c ^+ 2 * _]mulrC. move: (qf M b * (qf M a * qf M b)) (qf M b * c ^+ 2) => p q.
      by rewrite opprD !addrA addrK. }
    move: H. rewrite E pmulr_rge0 // subr_ge0. by [].
  Qed.

  Lemma pd_coercive k (M : 'M[F]_k) : symmetric M -> pd M ->
    exists c, 0 < c /\ forall x, sq x <= c * qf M x.
  Proof.
    move=> HM Hp. have HU := pd_unit Hp.
    pose e (i : 'I_k) : 'cV[F]_k := invmx M *m delta_mx i 0.
    exists (1 + \sum_i qf M (e i)). split.
    - apply: lt_le_trans ltr01 _. rewrite ler_addl. apply: sumr_ge0 => i _. exact: (pd_psd Hp).
    - move=> x. rewrite mulrDl mul1r.
      apply: (@le_trans _ _ ((\sum_i qf M (e i)) * qf M x)); last by rewrite ler_addr (pd_psd Hp).
      rewrite big_distrl /=. apply: ler_sum => i _.
      have E : ((e i)^T *m M *m x) 0 0 = x i 0.
      { rewrite /e trmx_mul trmx_inv HM -!mulmxA [invmx M *m (M *m x)]mulmxA mulVmx // mul1mx trmx_delta.
        rewrite mxE (bigD1 i) //= big1 ?addr0 => [|j Hj].
        - by rewrite mxE !eqxx mul1r.
        - rewrite mxE (negbTE Hj) andbF mul0r //. }
      rewrite -E. exact: cauchy_schwarz.
  Qed.
End Forms.

Section Geometric.
  Variable F : archiFieldType.

  Lemma bernoulli (a : F) k : 0 <= a -> 1 + a *+ k <= (1 + a) ^+ k.
  Proof.
    move=> Ha. elim: k => [|k IH]; first by rewrite mulr0n addr0 expr0.
    rewrite exprSr. have H1 : 0 <= 1 + a by apply: addr_ge0 => //; exact: ler01.
    apply: le_trans (ler_wpmul2r H1 IH). rewrite mulrDr mulr1 mulrSr addrA ler_add2l mulrDl mul1r ler_addl.
    rewrite mulrnAl. apply: mulrn_wge0. exact: mulr_ge0.
  Qed.

  Lemma geometric (r c eps : F) : 0 <= r -> r < 1 -> 0 <= c -> 0 < eps ->
    exists N, forall j, (N <= j)%N -> r ^+ j * c < eps.
  Proof.
    move=> Hr Hr1 Hc He.
    case: (altP (r =P 0)) => [->|Hr0].
    { exists 1%N => j Hj. by rewrite expr0n eqn0Ngt Hj mul0r. }
    have Hrp : 0 < r by rewrite lt_neqAle eq_sym Hr0.
    pose a := r^-1 - 1.
    have Ha : 0 < a by rewrite /a subr_gt0 invf_gt1.
    have Hra : 1 + a = r^-1 by rewrite /a addrC subrK.
    exists (Num.bound (c / (eps * a))) => j Hj.
    have Hb : c / (eps * a) < j%:R.
    { have H0 : 0 <= c / (eps * a) by rewrite divr_ge0 // mulr_ge0 // ltW.
      apply: lt_le_trans (archi_boundP H0) _. by rewrite ler_nat. }
    have Hea : 0 < eps * a by exact: mulr_gt0.
    rewrite ltr_pdivr_mulr // in Hb.
    have H1 : (1 + a) ^+ j * eps > c.
    { apply: lt_le_trans (_ : (1 + a *+ j) * eps <= _); last by rewrite ler_pmul2r // bernoulli // ltW.
      apply: lt_trans Hb _. rewrite -[a *+ j]mulr_natl mulrDl mul1r -[j%:R * a * eps]mulrA [a * eps]mulrC.
      by rewrite ltr_addr. }
    rewrite Hra exprVn mulrC ltr_pdivl_mulr ?exprn_gt0 // in H1. by rewrite mulrC.
  Qed.

  Lemma converges_bound k (e : nat -> 'cV[F]_k) (l : 'cV[F]_k) (r c : F) : 0 <= r -> r < 1 -> 0 <= c ->
    (forall j, sq (e j - l) <= r ^+ j * c) -> converges_to e l.
  Proof.
    move=> Hr Hr1 Hc H i eps He.
    have He2 : 0 < eps ^+ 2 by exact: exprn_gt0.
    case: (geometric Hr Hr1 Hc He2) => N HN. exists N => j Hj.
    have H1 := le_lt_trans (le_trans (sq_coord _ i) (H j)) (HN j Hj).
    rewrite mxE [X in (_ + X) ^+ 2]mxE in H1.
    rewrite -ltr_sqr ?nnegrE ?normr_ge0 ?(ltW He) //.
    by rewrite real_normK ?num_real.
  Qed.
End Geometric.

Section Decrease.
  Variable F : realFieldType.
  Variables n m : nat.
  Variables (A : 'M[F]_n) (B : 'M[F]_(n,m)) (Q : 'M[F]_n) (R : 'M[F]_m).
  Hypothesis HQ : symmetric Q.
  Hypothesis HQp : psd Q.
  Hypothesis HR : symmetric R.
  Hypothesis HRp : pd R.

  (** Riccati steps are monotone. *)
  Lemma Rf_mono p q : symmetric p -> psd p -> symmetric q -> psd q ->
    (forall z, qf p z <= qf q z) -> forall z, qf (Rf A B Q R p) z <= qf (Rf A B Q R q) z.
  Proof.
    move=> Hp Hpp Hq Hqp Hle z.
    have E := square A B Q HR HRp z (Kf A B R q *m z) Hq Hqp. rewrite subrr qf0 addr0 in E.
    rewrite -E. have E2 := square A B Q HR HRp z (Kf A B R q *m z) Hp Hpp.
    apply: (@le_trans _ _ (qf Q z + qf R (Kf A B R q *m z) + qf p (A *m z + B *m (Kf A B R q *m z)))).
    - rewrite E2 ler_addl. exact: (pd_psd (Sm_pd B HRp Hpp)).
    - by rewrite ler_add2l.
  Qed.

  Lemma terminal_Rf P : symmetric P -> psd P -> terminal_decrease A B Q R P ->
    forall z, qf (Rf A B Q R P) z <= qf P z.
  Proof.
    move=> Hs Hp [L HL] z. apply: le_trans (HL z).
    rewrite (square A B Q HR HRp) // ler_addl. exact: (pd_psd (Sm_pd B HRp Hp)).
  Qed.

  Lemma terminal_ric P N : symmetric P -> psd P -> terminal_decrease A B Q R P ->
    forall z, qf (Rf A B Q R (ric A B Q R P N)) z <= qf (ric A B Q R P N) z.
  Proof.
    move=> Hs Hp HL. elim: N => [|N IH]; first exact: terminal_Rf.
    have [H1 H2] := @ric_sp F n m A B Q R HQ HQp HR HRp P N Hs Hp.
    have [H3 H4] := @ric_sp F n m A B Q R HQ HQp HR HRp P N.+1 Hs Hp.
    move=> z. exact: (Rf_mono H3 H4 H1 H2 IH).
  Qed.

  (** A run of the feedback with gain Kf v, where the Riccati step does not increase v. *)
  Variable v : 'M[F]_n.
  Hypothesis Hv : symmetric v.
  Hypothesis Hvp : psd v.
  Hypothesis Hdec : forall z, qf (Rf A B Q R v) z <= qf v z.
  Variable z : nat -> 'cV[F]_n.
  Hypothesis Hz : forall k, z k.+1 = A *m z k + B *m (Kf A B R v *m z k).

  Lemma run_step k :
    qf Q (z k) + qf R (Kf A B R v *m z k) + qf v (z k.+1) = qf (Rf A B Q R v) (z k).
  Proof. rewrite Hz (square A B Q HR HRp) // subrr qf0 addr0 //. Qed.

  Lemma run_dec k :
    qf Q (z k) + qf R (Kf A B R v *m z k) + qf (Rf A B Q R v) (z k.+1) <= qf (Rf A B Q R v) (z k).
  Proof. rewrite -(run_step k) ler_add2l. exact: Hdec. Qed.

  Lemma run_sum k :
    \sum_(j < k) (qf Q (z j) + qf R (Kf A B R v *m z j)) + qf (Rf A B Q R v) (z k)
    <= qf (Rf A B Q R v) (z 0%N).
  Proof.
    elim: k => [|k IH]; first by rewrite big_ord0 add0r.
    apply: le_trans IH. rewrite big_ord_recr /= -addrA ler_add2l. exact: run_dec.
  Qed.

  Lemma Rf_lower w : qf Q w <= qf (Rf A B Q R v) w.
  Proof.
    have E := square A B Q HR HRp w (Kf A B R v *m w) Hv Hvp. rewrite subrr qf0 addr0 in E.
    rewrite -E -addrA ler_addl. apply: addr_ge0 (Hvp _). exact: (pd_psd HRp).
  Qed.

  Lemma Rf_lower_R w : qf R (Kf A B R v *m w) <= qf (Rf A B Q R v) w.
  Proof.
    have E := square A B Q HR HRp w (Kf A B R v *m w) Hv Hvp. rewrite subrr qf0 addr0 in E.
    rewrite -E addrAC ler_addr. apply: addr_ge0 (Hvp _). exact: HQp.
  Qed.

  Lemma run_rate alpha : 0 <= alpha -> alpha <= 1 ->
    (forall w, alpha * qf (Rf A B Q R v) w <= qf Q w) ->
    forall k, qf (Rf A B Q R v) (z k) <= (1 - alpha) ^+ k * qf (Rf A B Q R v) (z 0%N).
  Proof.
    move=> Ha Ha1 HQa. elim=> [|k IH]; first by rewrite expr0 mul1r.
    rewrite exprS -mulrA. 
    apply: (@le_trans _ _ ((1 - alpha) * qf (Rf A B Q R v) (z k))); last first.
    { apply: ler_wpmul2l IH. by rewrite subr_ge0. }
    rewrite mulrBl mul1r ler_subr_addl. apply: le_trans (run_dec k).
    rewrite ler_add2r. apply: le_trans (HQa _) _. rewrite ler_addl. exact: (pd_psd HRp).
  Qed.
End Decrease.

Section Converge.
  Variable F : archiFieldType.
  Variables n m : nat.
  Variables (A : 'M[F]_n) (B : 'M[F]_(n,m)) (Q : 'M[F]_n) (R : 'M[F]_m).
  Hypothesis HQ : symmetric Q.
  Hypothesis HQp : pd Q.
  Hypothesis HR : symmetric R.
  Hypothesis HRp : pd R.
  Variable v : 'M[F]_n.
  Hypothesis Hv : symmetric v.
  Hypothesis Hvp : psd v.
  Hypothesis Hdec : forall z, qf (Rf A B Q R v) z <= qf v z.
  Variable z : nat -> 'cV[F]_n.
  Hypothesis Hz : forall k, z k.+1 = A *m z k + B *m (Kf A B R v *m z k).

  Lemma converge_run : exists r c, [/\ 0 <= r, r < 1, 0 <= c &
    forall k, sq (z k) <= r ^+ k * c /\ sq (Kf A B R v *m z k) <= r ^+ k * c].
  Proof.
    have [c1 [Hc1 H1]] := pd_coercive HQ HQp.
    have [c2 [Hc2 H2]] := qf_upper (Rf A B Q R v).
    have [c3 [Hc3 H3]] := pd_coercive HR HRp.
    have Hc12 : 0 < c1 * c2 + 1 by apply: addr_gt0 => //; exact: mulr_gt0.
    pose alpha := (c1 * c2 + 1)^-1.
    have Ha : 0 < alpha by rewrite /alpha invr_gt0.
    have Ha1 : alpha <= 1 by rewrite /alpha invf_le1 // ler_addr; apply: mulr_ge0; exact: ltW.
    have Hpsd := pd_psd HQp.
    have HQa w : alpha * qf (Rf A B Q R v) w <= qf Q w.
    { rewrite /alpha mulrC ler_pdivr_mulr //. apply: le_trans (H2 w) _.
      apply: (@le_trans _ _ (c2 * (c1 * qf Q w))); first by rewrite ler_pmul2l.
      rewrite mulrA [c2 * c1]mulrC mulrDr mulr1 [qf Q w * _]mulrC ler_addl. exact: Hpsd. }
    have Hrun := run_rate HR HRp Hv Hvp Hdec Hz (ltW Ha) Ha1 HQa.
    set W := qf (Rf A B Q R v) (z 0%N) in Hrun.
    have HW : 0 <= W by apply: le_trans (Rf_lower A B Q HR HRp Hv Hvp _).
    exists (1 - alpha), ((c1 + c3) * W). split.
    - by rewrite subr_ge0.
    - by rewrite ltr_subl_addr ltr_addl.
    - apply: mulr_ge0 => //. apply: addr_ge0; exact: ltW.
    - move=> k.
      have Hr0 : 0 <= (1 - alpha) ^+ k by apply: exprn_ge0; rewrite subr_ge0.
      split.
      + apply: le_trans (H1 _) _. rewrite mulrCA.
        apply: (@le_trans _ _ (c1 * ((1 - alpha) ^+ k * W))).
        * rewrite ler_pmul2l //. apply: le_trans (Rf_lower A B Q HR HRp Hv Hvp _) (Hrun k).
        * apply: ler_wpmul2r; first exact: mulr_ge0. rewrite ler_addl. exact: ltW.
      + apply: le_trans (H3 _) _. rewrite mulrCA.
        apply: (@le_trans _ _ (c3 * ((1 - alpha) ^+ k * W))).
        * rewrite ler_pmul2l //. apply: le_trans (Rf_lower_R A B Hpsd HR HRp Hv Hvp _) (Hrun k).
        * apply: ler_wpmul2r; first exact: mulr_ge0. rewrite ler_addr. exact: ltW.
  Qed.
End Converge.

Section Loop.
  Variable F : realFieldType.
  Variables n m : nat.
  Notation lqr := (@lqr F n m).
  Variables (A : 'M[F]_n) (B : 'M[F]_(n,m)).

  Lemma dare_Rf Q R p : solves_dare A B Q R p -> Rf A B Q R p = p.
  Proof.
    move=> E. rewrite [RHS]E /Rf /Sm [B^T *m p *m B + R]addrC.
    by rewrite !mulmxA [RHS]addrC addrA.
  Qed.

  Lemma loop_std K xss uss k : size xss = n -> size uss = m ->
    forall (s : lqr) (xs : nat -> 'cV[F]_n) (us : nat -> 'cV[F]_m),
    lsetup s -> lmode s = Standard -> lK s = Some (Kstd K) -> lxss s = Some xss -> luss s = Some uss ->
    (forall j, us j = K *m (xs j - col_of n xss) + col_of m uss) ->
    (forall j, xs j.+1 = A *m xs j + B *m us j) ->
    exists s', loop A B s (xs 0%N) k = Ok (s', xs k, mkseq us k).
  Proof.
    move=> Sx Su. elim: k => [|k IH] s xs us Hs Hm HK Hx Hu Hus Hxs; first by exists s.
    have E := step_std (xs 0%N) Hs Hm HK Hx Hu Sx Su. rewrite -Hus in E.
    have := step_static (xs 0%N) s => -[_ _ HK' Hm' Hs'].
    have [Hx' Hu'] := make_step_sp (xs 0%N) Hx Hu.
    have [s' Hl] := IH (fst (make_step (xs 0%N) s)) (fun j => xs j.+1) (fun j => us j.+1)
      (etrans Hs' Hs) (etrans Hm' Hm) (etrans HK' HK) Hx' Hu' (fun j => Hus j.+1) (fun j => Hxs j.+1).
    exists s'. rewrite /= E -Hxs Hl /=. congr (Ok (_, _)).
    by rewrite /mkseq /= -[1%N]/(1 + 0)%N iotaDl -map_comp.
  Qed.

  Lemma before_shift (u0 : 'cV[F]_m) us j : before u0 us j.+1 = before (us 0%N) (fun i => us i.+1) j.
  Proof. by case: j. Qed.

  Lemma loop_rate K xss uss k : size xss = n -> size uss = m ->
    forall (s : lqr) (xs : nat -> 'cV[F]_n) (us : nat -> 'cV[F]_m),
    lsetup s -> lmode s = RatePen -> lK s = Some (Krate K) -> lxss s = Some (xss ++ uss) ->
    luss s = Some (nseq m 0) ->
    (forall j, us j = K *m (col_mx (xs j) (before (lu0 s) us j) - col_mx (col_of n xss) (col_of m uss))
                      + 0 + before (lu0 s) us j) ->
    (forall j, xs j.+1 = A *m xs j + B *m us j) ->
    exists s', loop A B s (xs 0%N) k = Ok (s', xs k, mkseq us k).
  Proof.
    move=> Sx Su. elim: k => [|k IH] s xs us Hs Hm HK Hx Hu Hus Hxs; first by exists s.
    have E := step_rate (xs 0%N) Hs Hm HK Hx Hu Sx Su. rewrite -(Hus 0%N) in E.
    have Hu0 := make_step_u0 E.
    have := step_static (xs 0%N) s => -[_ _ HK' Hm' Hs'].
    have [Hx' Hu'] := make_step_sp (xs 0%N) Hx Hu.
    have Hus' j : us j.+1 = K *m (col_mx (xs j.+1) (before (lu0 (fst (make_step (xs 0%N) s))) (fun i => us i.+1) j)
                       - col_mx (col_of n xss) (col_of m uss)) + 0
                       + before (lu0 (fst (make_step (xs 0%N) s))) (fun i => us i.+1) j.
    { by rewrite Hu0 Hus before_shift. }
    have [s' Hl] := IH (fst (make_step (xs 0%N) s)) (fun j => xs j.+1) (fun j => us j.+1)
      (etrans Hs' Hs) (etrans Hm' Hm) (etrans HK' HK) Hx' Hu' Hus' (fun j => Hxs j.+1).
    exists s'. rewrite /= E -Hxs Hl /=. congr (Ok (_, _)).
    by rewrite /mkseq /= -[1%N]/(1 + 0)%N iotaDl -map_comp.
  Qed.

  (** The runs exist. *)
  Lemma run_exists_std (K : 'M[F]_(m,n)) (xss : 'cV[F]_n) (uss : 'cV[F]_m) x :
    exists xs us, [/\ xs 0%N = x, (forall j, us j = K *m (xs j - xss) + uss)
      & (forall j, xs j.+1 = A *m xs j + B *m us j)].
  Proof.
    pose xs k := iter k (fun x => A *m x + B *m (K *m (x - xss) + uss)) x.
    by exists xs, (fun j => K *m (xs j - xss) + uss).
  Qed.

  Lemma run_exists_rate (K : 'M[F]_(m,n+m)) (ss : 'cV[F]_(n+m)) (u0 : 'cV[F]_m) x :
    exists xs us, [/\ xs 0%N = x,
      (forall j, us j = K *m (col_mx (xs j) (before u0 us j) - ss) + 0 + before u0 us j)
      & (forall j, xs j.+1 = A *m xs j + B *m us j)].
  Proof.
    pose g (q : 'cV[F]_n * 'cV[F]_m) := K *m (col_mx q.1 q.2 - ss) + 0 + q.2.
    pose st k := iter k (fun q => (A *m q.1 + B *m g q, g q)) (x, u0).
    exists (fun k => (st k).1), (fun k => g (st k)).
    have Eb j : before u0 (fun k => g (st k)) j = (st j).2 by case: j.
    split=> // j. by rewrite Eb.
  Qed.

  Lemma err_std (K : 'M[F]_(m,n)) (xss : 'cV[F]_n) (uss : 'cV[F]_m) xs us :
    xss = A *m xss + B *m uss -> (forall j, us j = K *m (xs j - xss) + uss) ->
    (forall j, xs j.+1 = A *m xs j + B *m us j) ->
    forall j, xs j.+1 - xss = A *m (xs j - xss) + B *m (K *m (xs j - xss)).
  Proof.
    move=> Hss Hus Hxs j. rewrite Hxs Hus {2}Hss. set w := K *m _.
    rewrite mulmxDr [A *m (xs j - xss)]mulmxBr opprD.
    move: (A *m xs j) (B *m w) (B *m uss) (A *m xss) => a b c d.
    by rewrite addrACA addrK.
  Qed.

  Lemma err_rate (K : 'M[F]_(m,n+m)) (xss : 'cV[F]_n) (uss u0 : 'cV[F]_m) xs us :
    xss = A *m xss + B *m uss ->
    (forall j, us j = K *m (col_mx (xs j) (before u0 us j) - col_mx xss uss) + 0 + before u0 us j) ->
    (forall j, xs j.+1 = A *m xs j + B *m us j) ->
    forall j, let z i := col_mx (xs i) (before u0 us i) - col_mx xss uss in
      z j.+1 = A_rated A B *m z j + B_rated B *m (K *m z j).
  Proof.
    move=> Hss Hus Hxs j z.
    have Hz : K *m z j = us j - before u0 us j by rewrite Hus addr0 addrK.
    rewrite Hz /z {1}(aug_steady Hss) mulmx0 addr0 [A_rated A B *m (_ - _)]mulmxBr addrAC.
    congr (_ - _).
    rewrite /A_rated /B_rated mul_block_col mul_col_mx add_col_mx mul0mx mul1mx add0r mul1mx.
    congr col_mx.
    - rewrite Hxs -addrA -mulmxDr. by rewrite [before _ _ _ + _]addrC subrK.
    - by rewrite [RHS]addrC subrK.
  Qed.
End Loop.

(** A pointwise bound for the parts of a stacked column. *)
Lemma sq_col (F : realFieldType) a b (x : 'cV[F]_a) (y : 'cV[F]_b) : sq (col_mx x y) = sq x + sq y.
Proof.
  rewrite /sq big_split_ord /=. congr (_ + _); apply: eq_bigr => i _; by rewrite ?col_mxEu ?col_mxEd.
Qed.

Lemma pd_diag (F : realFieldType) a b (M : 'M[F]_a) (N : 'M[F]_b) : pd M -> pd N -> pd (Q_rated M N).
Proof.
  move=> HM HN x. rewrite -[x]vsubmxK qf_diag => Hx.
  case: (altP (usubmx x =P 0)) => [E|Hu].
  - case: (altP (dsubmx x =P 0)) => [E2|Hd].
    + move: Hx. by rewrite E E2 col_mx0 eqxx.
    + rewrite E qf0 add0r. exact: HN.
  - apply: (lt_le_trans (HM _ Hu)). rewrite ler_addl. exact: (pd_psd HN).
Qed.

(** Scalar forms. *)
Lemma qf_scalar (F : realFieldType) (c : F) (x : 'cV[F]_1) : qf (c%:M : 'M[F]_1) x = c * (x 0 0) ^+ 2.
Proof.
  rewrite /qf mxE big_ord_recl big_ord0 addr0 mxE big_ord_recl big_ord0 addr0 !mxE eqxx mulr1n.
  by rewrite [x 0 0 * c]mulrC -mulrA -expr2.
Qed.
Lemma pd_scalar (F : realFieldType) (c : F) : 0 < c -> pd (c%:M : 'M[F]_1).
Proof.
  move=> Hc x Hx. rewrite qf_scalar. apply: mulr_gt0 => //. rewrite exprn_even_gt0 //=.
  apply: contra_neq Hx => E. apply/colP => i. by rewrite ord1 E mxE.
Qed.
Lemma invmx_s (F : realFieldType) (c : F) : invmx (c%:M : 'M[F]_1) = (c^-1)%:M.
Proof. exact: invmx_scalar. Qed.
Lemma sc (F : realFieldType) (a b : F) : a = b -> (a%:M : 'M[F]_1) = b%:M.
Proof. by move=> ->. Qed.

Lemma scalar_terminal (F : realFieldType) (q r P l : F) :
  q + r * l ^+ 2 + P * (1 + l) ^+ 2 <= P -> terminal_decrease (1%:M : 'M[F]_1) (1%:M : 'M[F]_1) q%:M r%:M P%:M.
Proof.
  move=> H. exists (l%:M) => z. rewrite !mul1mx mul_scalar_mx.
  have -> : z + l *: z = (1 + l) *: z by rewrite scalerDl scale1r.
  rewrite !qfZ !qf_scalar. move: ((z 0 0) ^+ 2) (sqr_ge0 (z 0 0)) => w Hw.
  rewrite [l ^+ 2 * _]mulrA [l ^+ 2 * r]mulrC [(1 + l) ^+ 2 * _]mulrA [(1 + l) ^+ 2 * P]mulrC -!mulrDl.
  exact: ler_wpmul2r.
Qed.

Lemma sD (F : realFieldType) (a b : F) : (a%:M : 'M[F]_1) + b%:M = (a + b)%:M.
Proof. by rewrite raddfD. Qed.
Lemma sN (F : realFieldType) (a : F) : - (a%:M : 'M[F]_1) = (- a)%:M.
Proof. by rewrite raddfN. Qed.
Lemma s0 (F : realFieldType) : (0 : 'M[F]_1) = 0%:M.
Proof. by rewrite raddf0. Qed.

