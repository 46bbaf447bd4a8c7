(** * LQR: input-rate formulation and the controller object. *)
From Verif Require Import Base.
From mathcomp Require Import all_ssreflect all_algebra.
From Verif Require Import LqrModel LqrSpec LqrProofs.
Set Implicit Arguments.
Unset Strict Implicit.
Unset Printing Implicit Defensive.
Import Order.TTheory GRing.Theory Num.Theory.
Local Open Scope ring_scope.

Section Rate.
  Variable F : realFieldType.
  Variables n m : nat.
  Variables (A : 'M[F]_n) (B : 'M[F]_(n,m)).

  Definition du_of (uprev : 'cV[F]_m) (us : nat -> 'cV[F]_m) k := us k - before uprev us k.
  Definition us_of (uprev : 'cV[F]_m) (du : nat -> 'cV[F]_m) k := uprev + \sum_(j < k.+1) du j.

  Lemma before_us_of uprev du k : before uprev (us_of uprev du) k = uprev + \sum_(j < k) du j.
  Proof. case: k => [|k] //=. by rewrite big_ord0 addr0. Qed.

  Lemma du_us uprev du : du_of uprev (us_of uprev du) =1 du.
  Proof.
    move=> k. rewrite /du_of before_us_of /us_of big_ord_recr /= addrA addrC addrA [- _ + _]addrC subrr add0r //.
  Qed.

  Lemma us_du uprev us : us_of uprev (du_of uprev us) =1 us.
  Proof.
    move=> k. rewrite /us_of. elim: k => [|k IH].
    - by rewrite big_ord_recr big_ord0 /= add0r /du_of /= addrC subrK.
    - by rewrite big_ord_recr /= addrA IH /du_of /= addrC subrK.
  Qed.

  Lemma aug_traj uprev x us k :
    traj (A_rated A B) (B_rated B) (col_mx x uprev) (du_of uprev us) k
    = col_mx (traj A B x us k) (before uprev us k).
  Proof.
    elim: k => [//|k IH]. rewrite [LHS]/= IH /A_rated /B_rated mul_block_col mul_col_mx add_col_mx.
    rewrite /du_of mulmxBr !mul1mx mul0mx add0r. congr col_mx.
    - by rewrite -addrA; congr (_ + _); rewrite addrC subrK.
    - by rewrite addrC subrK.
  Qed.

  Lemma traj_ext x us vs : us =1 vs -> traj A B x us =1 traj A B x vs.
  Proof. move=> E. by elim=> [//|k IH] /=; rewrite IH E. Qed.

  Lemma before_ext uprev (us vs : nat -> 'cV[F]_m) : us =1 vs -> before uprev us =1 before uprev vs.
  Proof. move=> E [|k] //=. Qed.

  Lemma aug_traj' uprev x du k :
    traj (A_rated A B) (B_rated B) (col_mx x uprev) du k
    = col_mx (traj A B x (us_of uprev du) k) (before uprev (us_of uprev du) k).
  Proof.
    rewrite -aug_traj.
    have T : forall a b, a =1 b ->
      traj (A_rated A B) (B_rated B) (col_mx x uprev) a k = traj (A_rated A B) (B_rated B) (col_mx x uprev) b k.
    { move=> a b E. elim: k => [//|k IH] /=. by rewrite IH E. }
    by rewrite (T _ _ (du_us uprev du)).
  Qed.

  Lemma qf_diag (M : 'M[F]_n) (N : 'M[F]_m) x y : qf (Q_rated M N) (col_mx x y) = qf M x + qf N y.
  Proof.
    rewrite /qf /Q_rated tr_col_mx mul_row_block !mulmx0 addr0 add0r mul_row_col mxE //.
  Qed.

  Lemma sym_diag (M : 'M[F]_n) (N : 'M[F]_m) : symmetric M -> symmetric N -> symmetric (Q_rated M N).
  Proof. move=> HM HN. by rewrite /symmetric /Q_rated tr_block_mx HM HN !trmx0. Qed.

  Lemma psd_diag (M : 'M[F]_n) (N : 'M[F]_m) : psd M -> psd N -> psd (Q_rated M N).
  Proof.
    move=> HM HN x. rewrite -[x]vsubmxK qf_diag. exact: addr_ge0.
  Qed.

  Lemma col_sub (a c : 'cV[F]_n) (b d : 'cV[F]_m) : col_mx a b - col_mx c d = col_mx (a - c) (b - d).
  Proof.
    apply/colP => i. rewrite -[i]splitK.
    have E : forall (p q : 'cV[F]_(n + m)) k, (p - q) k 0 = p k 0 - q k 0 by move=> p q k; rewrite mxE [X in _ + X]mxE.
    rewrite E. have E1 : forall k (p q : 'cV[F]_k) k0, (p - q) k0 0 = p k0 0 - q k0 0 by move=> k p q k0; rewrite mxE [X in _ + X]mxE.
    by case: (split i) => j /=; rewrite ?col_mxEu ?col_mxEd E1.
  Qed.

  Lemma rate_cost_aug Q R dR P N xss uss uprev x us :
    rate_cost A B Q R dR P N xss uss uprev x us
    = lq_cost (A_rated A B) (B_rated B) (Q_rated Q R) dR (Q_rated P R) N
        (col_mx xss uss) 0 (col_mx x uprev) (du_of uprev us).
  Proof.
    rewrite /rate_cost /lq_cost aug_traj col_sub qf_diag. congr (_ + _).
    apply: eq_bigr => i _. by rewrite aug_traj col_sub qf_diag subr0.
  Qed.

  Lemma lq_cost_ext k l (A' : 'M[F]_k) (B' : 'M[F]_(k,l)) Q R P N xss uss x us vs : us =1 vs ->
    lq_cost A' B' Q R P N xss uss x us = lq_cost A' B' Q R P N xss uss x vs.
  Proof.
    move=> E. have T j : traj A' B' x us j = traj A' B' x vs j by elim: j => [//|j IH] /=; rewrite IH E.
    rewrite /lq_cost T. congr (_ + _). apply: eq_bigr => i _. by rewrite T E.
  Qed.

  Lemma aug_steady (xss : 'cV[F]_n) (uss : 'cV[F]_m) : xss = A *m xss + B *m uss ->
    col_mx xss uss = A_rated A B *m col_mx xss uss + B_rated B *m (0 : 'cV[F]_m).
  Proof.
    move=> H. by rewrite /A_rated mul_block_col mulmx0 addr0 mul0mx mul1mx add0r -H.
  Qed.

  Lemma optimal_rate Q R dR P N (xss : 'cV[F]_n) (uss uprev : 'cV[F]_m) (x : 'cV[F]_n) :
    symmetric Q -> psd Q -> symmetric R -> psd R -> symmetric dR -> pd dR -> symmetric P -> psd P ->
    xss = A *m xss + B *m uss ->
    optimal_first_input (rate_cost A B Q R dR P N.+1 xss uss uprev x)
      (Kf (A_rated A B) (B_rated B) dR
          (ric (A_rated A B) (B_rated B) (Q_rated Q R) dR (Q_rated P R) N)
        *m (col_mx x uprev - col_mx xss uss) + 0 + uprev).
  Proof.
    move=> HQ HQp HR HRp HdR HdRp HP HPp Hss.
    have := @optimal_sp F (n + m) m (A_rated A B) (B_rated B) (Q_rated Q R) dR
      (sym_diag HQ HR) (psd_diag HQp HRp) HdR HdRp (Q_rated P R) N (col_mx xss uss) 0 (col_mx x uprev)
      (sym_diag HP HR) (psd_diag HPp HRp) (aug_steady Hss).
    set du0 := (Kf _ _ _ _ *m _ + 0). move=> [[du [E0 Hmin]] Huniq]. split.
    - exists (us_of uprev du). split.
      + by rewrite /us_of big_ord_recr big_ord0 /= add0r E0 addrC.
      + move=> vs. rewrite !rate_cost_aug (lq_cost_ext _ _ _ _ _ _ _ _ _ (du_us uprev du)). exact: Hmin.
    - move=> us Hus. have H0 : du_of uprev us 0%N = du0.
      { apply: Huniq => ws. have := Hus (us_of uprev ws). rewrite !rate_cost_aug.
        by rewrite [X in _ <= X](lq_cost_ext _ _ _ _ _ _ _ _ _ (du_us uprev ws)). }
      by rewrite -H0 /du_of /= subrK.
  Qed.
End Rate.

Section Object.
  Variable F : realFieldType.
  Variables n m : nat.
  Variable dare : forall k, 'M[F]_k -> 'M[F]_(k,m) -> 'M[F]_k -> 'M[F]_m -> res 'M[F]_k.
  Notation lqr := (@lqr F n m).

  (** The calls a user makes at run time. *)
  Inductive lop := LStep of 'cV[F]_n | LSet of option (seq F) & option (seq F).
  Definition lstep (s : lqr) (o : lop) : lqr :=
    match o with
    | LStep x => fst (make_step x s)
    | LSet x u => fst (set_setpoint x u s)
    end.
  Definition lrun (s : lqr) (os : seq lop) : lqr := foldl lstep s os.

  Definition lstatic (s : lqr) := (lA s, lB s, lK s, lmode s, lsetup s).

  Lemma set_static x u s : lstatic (fst (set_setpoint x u s)) = lstatic s.
  Proof. rewrite /set_setpoint. case E: (lsetup s) => //=. by rewrite /lstatic /= E. Qed.

  Lemma step_static x s : lstatic (fst (make_step x s)) = lstatic s.
  Proof.
    rewrite /make_step. case Es: (lsetup s) => //.
    set sr := match lxss s with Some _ => _ | None => _ end.
    have Hsr : lstatic (fst sr) = lstatic s.
    { rewrite /sr. case: (lxss s) => [a|//]; case: (luss s) => [b|] //. exact: set_static. }
    case: (snd sr) => [_|//].
    case: (match lmode _ with Standard => _ | RatePen => _ end) => [u|//]. exact: Hsr.
  Qed.

  Lemma run_static os s : lstatic (lrun s os) = lstatic s.
  Proof.
    elim: os s => [//|o os IH] s. rewrite /lrun /= -/(lrun _ _) IH.
    case: o => [x|x u] /=; [exact: step_static | exact: set_static].
  Qed.

  Lemma set_u0 x u (s : lqr) : lu0 (fst (set_setpoint x u s)) = lu0 s.
  Proof. rewrite /set_setpoint. by case: (lsetup s). Qed.

  Lemma set_std (s : lqr) xss uss : lsetup s -> lmode s = Standard -> size xss = n -> size uss = m ->
    snd (set_setpoint (Some xss) (Some uss) s) = Ok tt
    /\ lxss (fst (set_setpoint (Some xss) (Some uss) s)) = Some xss
    /\ luss (fst (set_setpoint (Some xss) (Some uss) s)) = Some uss.
  Proof. move=> Hs Hm Hx Hu. by rewrite /set_setpoint Hs Hm /= Hx Hu !eqxx. Qed.

  Lemma set_rate (s : lqr) xss uss : lsetup s -> lmode s = RatePen -> size xss = n -> size uss = m ->
    snd (set_setpoint (Some xss) (Some uss) s) = Ok tt
    /\ lxss (fst (set_setpoint (Some xss) (Some uss) s)) = Some (xss ++ uss)
    /\ luss (fst (set_setpoint (Some xss) (Some uss) s)) = Some (nseq m 0).
  Proof. move=> Hs Hm Hx Hu. by rewrite /set_setpoint Hs Hm /= size_cat size_nseq Hx Hu !eqxx. Qed.

  Lemma step_std (s : lqr) x K xss uss : lsetup s -> lmode s = Standard -> lK s = Some (Kstd K) ->
    lxss s = Some xss -> luss s = Some uss -> size xss = n -> size uss = m ->
    snd (make_step x s) = Ok (K *m (x - col_of n xss) + col_of m uss).
  Proof.
    move=> Hs Hm HK Hx Hu Sx Su. by rewrite /make_step Hs Hx /= Hm HK Hx Hu Sx Su !eqxx.
  Qed.

  Lemma col_of_cat a b (l1 l2 : seq F) : size l1 = a -> col_of (a + b) (l1 ++ l2) = col_mx (col_of a l1) (col_of b l2).
  Proof.
    move=> H. apply/colP => i. rewrite [LHS]mxE nth_cat H. case: (splitP i) => j Hj.
    - have -> : i = lshift b j by apply: val_inj. by rewrite col_mxEu [RHS]mxE.
    - have -> : i = rshift a j by apply: val_inj. by rewrite col_mxEd [RHS]mxE /= addKn.
  Qed.

  Lemma col_of_nseq0 a b : col_of a (nseq b (0:F)) = 0.
  Proof. apply/colP => i. rewrite !mxE nth_nseq. by case: ifP. Qed.

  Lemma step_rate (s : lqr) x K xss uss : lsetup s -> lmode s = RatePen -> lK s = Some (Krate K) ->
    lxss s = Some (xss ++ uss) -> luss s = Some (nseq m 0) -> size xss = n -> size uss = m ->
    snd (make_step x s) = Ok (K *m (col_mx x (lu0 s) - col_mx (col_of n xss) (col_of m uss)) + 0 + lu0 s).
  Proof.
    move=> Hs Hm HK Hx Hu Sx Su.
    rewrite /make_step Hs Hx /= Hm HK Hx Hu size_cat size_nseq Sx Su !eqxx /=.
    by rewrite col_of_cat // col_of_nseq0.
  Qed.
End Object.

Section Infinite.
  Variable F : realFieldType.
  Variables n m : nat.
  Variables (A : 'M[F]_n) (B : 'M[F]_(n,m)) (Q : 'M[F]_n) (R : 'M[F]_m).
  Hypothesis HQ : symmetric Q.
  Hypothesis HQp : psd Q.
  Hypothesis HR : symmetric R.
  Hypothesis HRp : pd R.
  Variable p : 'M[F]_n.
  Hypothesis Hs : symmetric p.
  Hypothesis Hp : psd p.
  Hypothesis Hfix : riccati_step A B Q R p = Ok p.

  Lemma fix_Rf : Rf A B Q R p = p.
  Proof. have := Hfix. rewrite riccati_ok //. by case. Qed.

  Lemma fix_ric N : ric A B Q R p N = p.
  Proof. elim: N => [//|N IH] /=. by rewrite IH fix_Rf. Qed.

  Lemma run_split N x us :
    lq_cost A B Q R p N 0 0 x us = lq_cost A B Q R 0 N 0 0 x us + qf p (traj A B x us N).
  Proof.
    rewrite /lq_cost subr0. have -> : qf 0 (traj A B x us N) = 0 by rewrite /qf mulmx0 mul0mx mxE.
    by rewrite addr0.
  Qed.

  Lemma feedback_cost N x us : (forall k, us k = Kf A B R p *m traj A B x us k) ->
    cost0 A B Q R p N x us = qf p x.
  Proof.
    elim: N x us => [|N IH] x us Hfb.
    - by rewrite /cost0 /lq_cost big_ord0 add0r subr0.
    - rewrite cost0_rec IH; last by move=> k; rewrite Hfb traj_shift.
      rewrite square // Hfb /= subrr qf0 addr0 fix_Rf //.
  Qed.

  Fixpoint xcl (x : 'cV[F]_n) (k : nat) : 'cV[F]_n :=
    match k with O => x | S k' => A *m xcl x k' + B *m (Kf A B R p *m xcl x k') end.

  Lemma feedback_exists x : exists us, forall k, us k = Kf A B R p *m traj A B x us k.
  Proof.
    exists (fun k => Kf A B R p *m xcl x k) => k. congr (_ *m _).
    elim: k => [//|k IH] /=. by rewrite -IH.
  Qed.

  Lemma running_upper N x us : (forall k, us k = Kf A B R p *m traj A B x us k) ->
    lq_cost A B Q R 0 N 0 0 x us <= qf p x.
  Proof.
    move=> Hfb. rewrite -(feedback_cost N Hfb) /cost0 run_split ler_addl. exact: Hp.
  Qed.

  Lemma running_lower x us :
    (forall eps, 0 < eps -> exists N0, forall N, (N0 <= N)%N -> qf p (traj A B x us N) < eps) ->
    forall eps, 0 < eps -> exists N0, forall N, (N0 <= N)%N -> qf p x - eps < lq_cost A B Q R 0 N 0 0 x us.
  Proof.
    move=> Hz eps He. case: (Hz eps He) => N0 H0. exists N0 => N HN.
    have H1 := H0 N HN. have := @cost0_lower F n m A B Q R HQ HQp HR HRp p N x us Hs Hp.
    rewrite fix_ric /cost0 run_split => H2. rewrite ltr_subl_addr.
    apply: le_lt_trans H2 _. by rewrite ltr_add2l.
  Qed.
End Infinite.

Section Rest.
  Variable F : realFieldType.
  Variables n m : nat.
  Notation lqr := (@lqr F n m).

  Lemma make_step_u0 x (s : lqr) u : snd (make_step x s) = Ok u -> lu0 (fst (make_step x s)) = u.
  Proof.
    rewrite /make_step. case: (lsetup s) => //.
    set sr := match lxss s with Some _ => _ | None => _ end.
    case: (snd sr) => [_|//].
    case: (match lmode _ with Standard => _ | RatePen => _ end) => [v|//] /=. by case.
  Qed.

  Lemma make_step_sp x (s : lqr) a b : lxss s = Some a -> luss s = Some b ->
    lxss (fst (make_step x s)) = Some a /\ luss (fst (make_step x s)) = Some b.
  Proof.
    move=> Ha Hb. rewrite /make_step. case: (lsetup s) => //. rewrite Ha Hb /=.
    case: (match lmode _ with Standard => _ | RatePen => _ end) => [v|e] /=; by rewrite ?Ha ?Hb.
  Qed.

  (** The plant x+ = A x + B u driven by the controller for k steps. *)
  Fixpoint loop (A : 'M[F]_n) (B : 'M[F]_(n,m)) (s : lqr) (x : 'cV[F]_n) (k : nat) : res (lqr * 'cV[F]_n * seq 'cV[F]_m) :=
    match k with
    | O => Ok (s, x, [::])
    | S k' => match snd (make_step x s) with
              | Ok u => let! r := loop A B (fst (make_step x s)) (A *m x + B *m u) k' in
                        Ok (fst r, u :: snd r)
              | Err e => Err e
              end
    end.

  Lemma rest_std (A : 'M[F]_n) (B : 'M[F]_(n,m)) k (s : lqr) K xss uss : lsetup s -> lmode s = Standard ->
    lK s = Some (Kstd K) -> lxss s = Some xss -> luss s = Some uss -> size xss = n -> size uss = m ->
    col_of n xss = A *m col_of n xss + B *m col_of m uss ->
    exists s', loop A B s (col_of n xss) k = Ok (s', col_of n xss, nseq k (col_of m uss)).
  Proof.
    move=> Hs Hm HK Hx Hu Sx Su Hss. elim: k s Hs Hm HK Hx Hu => [|k IH] s Hs Hm HK Hx Hu; first by exists s.
    have E := step_std (col_of n xss) Hs Hm HK Hx Hu Sx Su. rewrite subrr mulmx0 add0r in E.
    rewrite /= E -Hss.
    have := step_static (col_of n xss) s => -[_ _ HK' Hm' Hs'].
    have [Hx' Hu'] := make_step_sp (col_of n xss) Hx Hu.
    have [s' ->] := IH (fst (make_step (col_of n xss) s)) (etrans Hs' Hs) (etrans Hm' Hm) (etrans HK' HK) Hx' Hu'.
    by exists s'.
  Qed.

  Lemma rest_rate (A : 'M[F]_n) (B : 'M[F]_(n,m)) k (s : lqr) K xss uss : lsetup s -> lmode s = RatePen ->
    lK s = Some (Krate K) -> lxss s = Some (xss ++ uss) -> luss s = Some (nseq m 0) -> size xss = n -> size uss = m ->
    col_of n xss = A *m col_of n xss + B *m col_of m uss -> lu0 s = col_of m uss ->
    exists s', loop A B s (col_of n xss) k = Ok (s', col_of n xss, nseq k (col_of m uss)).
  Proof.
    move=> Hs Hm HK Hx Hu Sx Su Hss Hu0. elim: k s Hs Hm HK Hx Hu Hu0 => [|k IH] s Hs Hm HK Hx Hu Hu0; first by exists s.
    have E := step_rate (col_of n xss) Hs Hm HK Hx Hu Sx Su. rewrite Hu0 subrr mulmx0 !add0r in E.
    have Hu0' := make_step_u0 E.
    rewrite /= E -Hss.
    have := step_static (col_of n xss) s => -[_ _ HK' Hm' Hs'].
    have [Hx' Hu'] := make_step_sp (col_of n xss) Hx Hu.
    have [s' ->] := IH (fst (make_step (col_of n xss) s)) (etrans Hs' Hs) (etrans Hm' Hm) (etrans HK' HK) Hx' Hu' Hu0'.
    by exists s'.
  Qed.

  Lemma setup_shape dare (s0 s : lqr) : setup dare s0 = Ok s ->
    lsetup s /\ lmode s = lmode s0 /\
    match lmode s with Standard => exists K, lK s = Some (Kstd K) | RatePen => exists K, lK s = Some (Krate K) end.
  Proof.
    rewrite /setup. case: (lQ s0) => [Q|//]. case: (lR s0) => [R|//]. case E: (lmode s0).
    - case: (discrete_gain _ _ _ _ _ _) => [K|//] /= [<-] /=. by split=> //; split=> //; rewrite ?E; exists K.
    - case: (lsetup s0) => //. case: (ldelR s0) => [dR|//].
      case: (match lhorizon s0 with Some _ => _ | None => _ end) => [P'|//] /=.
      case: (discrete_gain _ _ _ _ _ _) => [K|//] /= [<-] /=. by split=> //; split=> //; rewrite ?E; exists K.
  Qed.
End Rest.
Lemma pd_id (F : realFieldType) k : pd (1%:M : 'M[F]_k).
Proof.
  move=> x Hx. rewrite /qf mulmx1 mxE.
  have Hge (i : 'I_k) : true -> 0 <= x^T 0 i * x i 0 by move=> _; rewrite mxE -expr2 sqr_ge0.
  rewrite lt_neqAle sumr_ge0 // andbT eq_sym. apply/negP => H.
  move: Hx. case/negP. apply/eqP/colP => i. move: H. rewrite psumr_eq0 // => /allP /(_ i).
  rewrite mem_index_enum => /(_ isT). rewrite /= mxE -expr2 sqrf_eq0 [RHS]mxE. by move/eqP.
Qed.
