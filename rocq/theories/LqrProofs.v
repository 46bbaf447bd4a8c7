(** * Lemmas on the LQR model. *)
From Verif Require Import Base.
From mathcomp Require Import all_ssreflect all_algebra.
From Verif Require Import LqrModel LqrSpec.
Set Implicit Arguments.
Unset Strict Implicit.
Unset Printing Implicit Defensive.
Import Order.TTheory GRing.Theory Num.Theory.
Local Open Scope ring_scope.

Section QF.
  Variable F : realFieldType.

  Lemma trN a b (M : 'M[F]_(a,b)) : (- M)^T = - M^T.
  Proof. by rewrite linearN. Qed.
  Lemma trD a b (M N : 'M[F]_(a,b)) : (M + N)^T = M^T + N^T.
  Proof. by rewrite linearD. Qed.

  Lemma qf0 k (M : 'M[F]_k) : qf M 0 = 0.
  Proof. by rewrite /qf mulmx0 mxE. Qed.

  Lemma pd_unit k (M : 'M[F]_k) : pd M -> M \in unitmx.
  Proof.
    move=> Hpd. rewrite -unitmx_tr -row_free_unit -kermx_eq0. apply/eqP.
    apply/row_matrixP => i. rewrite row0.
    have Hk : row i (kermx M^T) *m M^T = 0 by rewrite -row_mul mulmx_ker row0.
    case: (altP (row i (kermx M^T) =P 0)) => [//|Hne].
    have Hne' : (row i (kermx M^T))^T != 0.
    { apply: contra_neq Hne => /(congr1 trmx). by rewrite trmxK trmx0. }
    have := Hpd _ Hne'. rewrite /qf trmxK.
    have -> : row i (kermx M^T) *m M *m (row i (kermx M^T))^T = 0.
    { rewrite -mulmxA. have -> : M *m (row i (kermx M^T))^T = (row i (kermx M^T) *m M^T)^T
        by rewrite trmx_mul trmxK.
      by rewrite Hk trmx0 mulmx0. }
    by rewrite mxE ltxx.
  Qed.

  Lemma pd_psd k (M : 'M[F]_k) : pd M -> psd M.
  Proof.
    move=> H x. case: (altP (x =P 0)) => [->|Hx]; first by rewrite qf0.
    exact: ltW (H x Hx).
  Qed.

  Lemma pd_zero k (M : 'M[F]_k) x : pd M -> qf M x <= 0 -> x = 0.
  Proof.
    move=> H Hle. case: (altP (x =P 0)) => [//|Hx].
    by have := lt_le_trans (H x Hx) Hle; rewrite ltxx.
  Qed.

  Lemma qf_D k (M N : 'M[F]_k) x : qf (M + N) x = qf M x + qf N x.
  Proof. by rewrite /qf mulmxDr mulmxDl mxE. Qed.

  Lemma qf_congr k l (M : 'M[F]_k) (B : 'M[F]_(k,l)) x : qf (B^T *m M *m B) x = qf M (B *m x).
  Proof. by rewrite /qf trmx_mul !mulmxA. Qed.

  Lemma mx11_tr (a : 'M[F]_1) : a^T = a.
  Proof. apply/matrixP => i j. by rewrite mxE !ord1. Qed.

  (** expansion of a quadratic form of a sum *)
  Lemma qf_add k (M : 'M[F]_k) x y : symmetric M ->
    qf M (x + y) = qf M x + qf M y + (x^T *m M *m y) 0 0 *+ 2.
  Proof.
    move=> HM. rewrite /qf.
    have -> : (x + y)^T = x^T + y^T by rewrite linearD.
    have Hyx : (y^T *m M *m x) 0 0 = (x^T *m M *m y) 0 0.
    { by rewrite -[in LHS](mx11_tr (y^T *m M *m x)) !trmx_mul trmxK HM mulmxA. }
    rewrite 2!mulmxDl !mulmxDr.
    have mxD (p q : 'M[F]_1) : (p + q) 0 0 = p 0 0 + q 0 0 by rewrite mxE.
    rewrite !mxD Hyx mulr2n.
    move: ((x^T *m M *m x) 0 0) ((y^T *m M *m y) 0 0) ((x^T *m M *m y) 0 0) => a b c.
    by rewrite [c + b]addrC addrACA.
  Qed.
End QF.

Section Riccati.
  Variable F : realFieldType.
  Variables n m : nat.
  Variables (A : 'M[F]_n) (B : 'M[F]_(n,m)) (Q : 'M[F]_n) (R : 'M[F]_m).
  Hypothesis HQ : symmetric Q.
  Hypothesis HQp : psd Q.
  Hypothesis HR : symmetric R.
  Hypothesis HRp : pd R.

  Definition Sm (p : 'M[F]_n) : 'M[F]_m := B^T *m p *m B + R.
  Definition Kf (p : 'M[F]_n) : 'M[F]_(m,n) := - invmx (Sm p) *m B^T *m p *m A.
  Definition Rf (p : 'M[F]_n) : 'M[F]_n :=
    Q + A^T *m p *m A - A^T *m p *m B *m invmx (Sm p) *m B^T *m p *m A.

  Lemma Sm_pd p : psd p -> pd (Sm p).
  Proof.
    move=> Hp x Hx. rewrite /Sm qf_D qf_congr.
    exact: ltr_paddl (Hp _) (HRp Hx).
  Qed.

  Lemma Sm_sym p : symmetric p -> symmetric (Sm p).
  Proof.
    move=> Hp. rewrite /symmetric /Sm trD !trmx_mul trmxK HR Hp mulmxA //.
  Qed.

  Lemma gain_of_ok p : psd p -> gain_of A B R p = Ok (Kf p).
  Proof. move=> Hp. by rewrite /gain_of /np_inv (pd_unit (Sm_pd Hp)). Qed.

  Lemma riccati_ok p : psd p -> riccati_step A B Q R p = Ok (Rf p).
  Proof. move=> Hp. by rewrite /riccati_step /np_inv (pd_unit (Sm_pd Hp)). Qed.

  (** Completing the square. *)
  Lemma square p x u : symmetric p -> psd p ->
    qf Q x + qf R u + qf p (A *m x + B *m u) = qf (Rf p) x + qf (Sm p) (u - Kf p *m x).
  Proof.
    move=> Hs Hp.
    have HS := Sm_sym Hs. have HU := pd_unit (Sm_pd Hp).
    rewrite (qf_add (A *m x) (B *m u) Hs) (qf_add u (- (Kf p *m x)) HS) /Rf.
    have qfN k (M : 'M[F]_k) y : qf M (- y) = qf M y
      by rewrite /qf trN mulNmx mulNmx mulmxN opprK.
    rewrite qfN.
    have E1 : qf (Sm p) u = qf p (B *m u) + qf R u by rewrite /Sm qf_D qf_congr.
    have E2 : qf (Sm p) (Kf p *m x) = qf (A^T *m p *m B *m invmx (Sm p) *m B^T *m p *m A) x.
    { rewrite -qf_congr. congr (qf _ x). rewrite /Kf. 
      have -> : (- invmx (Sm p) *m B^T *m p *m A)^T = - (A^T *m p *m B *m invmx (Sm p)).
      { rewrite !mulNmx trN !trmx_mul trmxK Hs. 
        have -> : (invmx (Sm p))^T = invmx (Sm p) by rewrite trmx_inv HS.
        by rewrite !mulmxA. }
      rewrite !mulNmx mulmxN opprK -[_ *m invmx _ *m Sm p]mulmxA mulVmx // mulmx1.
      by rewrite !mulmxA. }
    have E3 : (u^T *m Sm p *m (- (Kf p *m x))) 0 0 = ((A *m x)^T *m p *m (B *m u)) 0 0.
    { rewrite /Kf !mulNmx opprK !mulmxA -[_ *m Sm p *m invmx _]mulmxA mulmxV // mulmx1.
      rewrite -[in RHS](mx11_tr (_ *m u)) !trmx_mul !trmxK Hs. by rewrite !mulmxA. }
    have qfB k (M N : 'M[F]_k) y : qf (M - N) y = qf M y - qf N y
      by rewrite /qf mulmxBr mulmxBl mxE [X in _ + X]mxE.
    rewrite E1 E2 E3 qfB qf_D qf_congr.
    move: (qf Q x) (qf R u) (qf p (A *m x)) (qf p (B *m u)) (((A *m x)^T *m p *m (B *m u)) 0 0 *+ 2)
      (qf (A^T *m p *m B *m invmx (Sm p) *m B^T *m p *m A) x) => q r a b c d.
    rewrite !addrA. congr (_ + c).
    rewrite [q + a - d + b]addrAC [q + a + b - d + r]addrAC subrK.
    by rewrite [q + r + a]addrAC [q + a + r + b]addrAC.
  Qed.

  Lemma Rf_sym p : symmetric p -> symmetric (Rf p).
  Proof.
    move=> Hs. have HS := Sm_sym Hs.
    rewrite /symmetric /Rf !trD trN !trmx_mul trmxK HQ Hs trmxK !mulmxA trmx_inv HS //.
  Qed.

  Lemma Rf_psd p : symmetric p -> psd p -> psd (Rf p).
  Proof.
    move=> Hs Hp x. have := square x (Kf p *m x) Hs Hp. rewrite subrr qf0 addr0 => <-.
    apply: addr_ge0 (Hp _). apply: addr_ge0 (HQp _) _. exact: pd_psd.
  Qed.

  (** p after j iterations *)
  Fixpoint ric (p : 'M[F]_n) (j : nat) : 'M[F]_n :=
    match j with O => p | S j' => Rf (ric p j') end.

  Lemma ric_shift p j : ric (Rf p) j = Rf (ric p j).
  Proof. by elim: j => [//|j IH] /=; rewrite IH. Qed.

  Lemma ric_sp p j : symmetric p -> psd p -> symmetric (ric p j) /\ psd (ric p j).
  Proof.
    move=> Hs Hp. elim: j => [//|j [IH1 IH2]] /=. split; [exact: Rf_sym|exact: Rf_psd].
  Qed.

  Lemma gain_loop_ok N K p : symmetric p -> psd p ->
    gain_loop A B Q R N.+1 K p = Ok (Some (Kf (ric p N))).
  Proof.
    elim: N K p => [|N IH] K p Hs Hp.
    - by rewrite /= gain_of_ok //= riccati_ok.
    - rewrite [LHS]/= gain_of_ok //= riccati_ok //=.
      have := IH (Some (Kf p)) (Rf p) (Rf_sym Hs) (Rf_psd Hs Hp). rewrite /= => ->.
      by rewrite ric_shift.
  Qed.

  (** one-step unfolding of the cost around the origin *)
  Definition cost0 (P : 'M[F]_n) N x us := lq_cost A B Q R P N 0 0 x us.

  Lemma traj_shift x us k : traj A B x us k.+1 = traj A B (A *m x + B *m us 0%N) (fun j => us j.+1) k.
  Proof. elim: k => [//|k IH]. rewrite [LHS]/= -/(traj A B x us k.+1) IH //. Qed.

  Lemma cost0_rec P N x us :
    cost0 P N.+1 x us = qf Q x + qf R (us 0%N) + cost0 P N (A *m x + B *m us 0%N) (fun j => us j.+1).
  Proof.
    rewrite /cost0 /lq_cost big_ord_recl /= !subr0 -!addrA. do 2!congr (_ + _).
    rewrite -[A *m _ + B *m us N]/(traj A B x us N.+1) traj_shift. congr (_ + _).
    apply: eq_bigr => i _. rewrite /bump /= add1n. by rewrite -[_ + B *m us i]/(traj A B x us i.+1) traj_shift.
  Qed.

  Lemma cost0_lower P N x us : symmetric P -> psd P -> qf (ric P N) x <= cost0 P N x us.
  Proof.
    move=> Hs Hp. elim: N x us => [|N IH] x us.
    - by rewrite /cost0 /lq_cost big_ord0 add0r subr0.
    - rewrite cost0_rec. case: (ric_sp N Hs Hp) => H1 H2.
      apply: le_trans (ler_add (lexx _) (IH _ _)). rewrite square //= ler_addl.
      exact: (pd_psd (Sm_pd H2)).
  Qed.

  (** the optimal input sequence with N steps to go *)
  Fixpoint uopt (P : 'M[F]_n) (N : nat) (x : 'cV[F]_n) (k : nat) : 'cV[F]_m :=
    match N with
    | O => 0
    | S N' => let u := Kf (ric P N') *m x in
              match k with O => u | S k' => uopt P N' (A *m x + B *m u) k' end
    end.

  Lemma cost0_opt P N x : symmetric P -> psd P -> cost0 P N x (uopt P N x) = qf (ric P N) x.
  Proof.
    move=> Hs Hp. elim: N x => [|N IH] x.
    - by rewrite /cost0 /lq_cost big_ord0 add0r subr0.
    - rewrite cost0_rec /= IH. case: (ric_sp N Hs Hp) => H1 H2.
      by rewrite square //= subrr qf0 addr0.
  Qed.

  Lemma cost0_unique P N x us : symmetric P -> psd P ->
    cost0 P N.+1 x us <= qf (ric P N.+1) x -> us 0%N = Kf (ric P N) *m x.
  Proof.
    move=> Hs Hp. case: (ric_sp N Hs Hp) => H1 H2 Hle.
    have H3 : qf Q x + qf R (us 0%N) + qf (ric P N) (A *m x + B *m us 0%N) <= qf (ric P N.+1) x.
    { apply: le_trans Hle. rewrite cost0_rec. apply: ler_add; [exact: lexx|exact: cost0_lower]. }
    move: H3. rewrite square //= ger_addl => H3.
    by apply/subr0_eq/(pd_zero (Sm_pd H2) H3).
  Qed.

  Lemma optimal0 P N x : symmetric P -> psd P ->
    optimal_first_input (fun us => cost0 P N.+1 x us) (Kf (ric P N) *m x).
  Proof.
    move=> Hs Hp. split.
    - exists (uopt P N.+1 x). split => [//|vs]. rewrite cost0_opt //. exact: cost0_lower.
    - move=> us Hmin. apply: cost0_unique => //. have := Hmin (uopt P N.+1 x). by rewrite cost0_opt.
  Qed.

  (** shift to a steady state *)
  Lemma traj_sp xss uss x us k : xss = A *m xss + B *m uss ->
    traj A B x us k - xss = traj A B (x - xss) (fun j => us j - uss) k.
  Proof.
    move=> Hss. elim: k => [//|k IH] /=. rewrite -IH !mulmxBr {1}Hss.
    rewrite !opprD !addrA. congr (_ - _). by rewrite -!addrA; congr (_ + _); rewrite addrC.
  Qed.

  Lemma cost_sp P N xss uss x us : xss = A *m xss + B *m uss ->
    lq_cost A B Q R P N xss uss x us = cost0 P N (x - xss) (fun j => us j - uss).
  Proof.
    move=> Hss. rewrite /cost0 /lq_cost (traj_sp _ _ _ Hss) !subr0. congr (_ + _).
    apply: eq_bigr => i _. by rewrite (traj_sp _ _ _ Hss) !subr0.
  Qed.

  Lemma cost0_ext P N x us vs : us =1 vs -> cost0 P N x us = cost0 P N x vs.
  Proof.
    move=> E. have T k : traj A B x us k = traj A B x vs k by elim: k => [//|k IH] /=; rewrite IH E.
    rewrite /cost0 /lq_cost T. congr (_ + _). apply: eq_bigr => i _. by rewrite T E.
  Qed.

  Lemma optimal_sp P N xss uss x : symmetric P -> psd P -> xss = A *m xss + B *m uss ->
    optimal_first_input (lq_cost A B Q R P N.+1 xss uss x) (Kf (ric P N) *m (x - xss) + uss).
  Proof.
    move=> Hs Hp Hss. case: (optimal0 N (x - xss) Hs Hp) => [[us [E0 Hmin]] Huniq]. split.
    - exists (fun k => us k + uss). split; first by rewrite E0.
      move=> vs. rewrite !cost_sp //.
      rewrite (@cost0_ext P N.+1 (x - xss) _ us); last by move=> j; rewrite addrK.
      exact: Hmin.
    - move=> vs Hv. have := Huniq (fun k => vs k - uss). rewrite cost_sp in Hv => //.
      move=> H. rewrite -H; first by rewrite subrK.
      move=> ws. have := Hv (fun k => ws k + uss). rewrite -!cost_sp // !cost_sp //.
      rewrite [X in _ <= X -> _](@cost0_ext P N.+1 (x - xss) _ ws) //. by move=> j; rewrite addrK.
  Qed.
End Riccati.

