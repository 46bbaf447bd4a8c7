(** * Proofs about the estimator on noise-free data: the calls of make_step. *)
From Coq Require Import Reals Lra FunctionalExtensionality.
From Verif Require Import Base TreeModel NlpModel NlpSpec MpcModel MheModel MheSpec MheProofs MheProps MheHistSpec MheHistProofs.
From Verif Require Import MheNlpModel MheNlpSpec MheNlpProofs MheNlpProps HlinkModel HlinkSpec HlinkProofs.
Import List NlpModel.
Local Open Scope R_scope.

Section Run.
  Variable L : hlink.
  Let E := hlink_env L.
  Notation trace := (list (@hcall E * res (option (hX E)))).
  Variables nw nv N : nat.
  Hypothesis CD : q_disc L = Discrete.
  Hypothesis CC : q_nlchk L = false.
  Hypothesis OWN : own_variables L nw nv.
  Variables (stage : vec -> vec -> vec -> vec -> R) (arrival : vec -> vec -> vec -> vec -> vec -> R) (nl : list mnl) (sc : h_scal) (b : h_bounds) (s : hset_ R).
  Hypothesis Cnl : own_constraints L nl.
  Hypothesis Hsc : forall t a, 0 < sc t a.
  Hypothesis Hspe : forall a, sc Vpest a = 1.
  Variables (Px : weight) (Pv Pw Pp : option weight).
  Hypothesis PDx : positive_definite (n_x (q_mdl L)) (w_at Px).
  Hypothesis PDv : definite_weight Pv nv.
  Hypothesis PDw : definite_weight Pw nw.
  Hypothesis PDp : definite_weight Pp (q_npe L).
  Hypothesis HS : forall w v tvp p, stage w v tvp p = weight_term Pv nv v + weight_term Pw nw w.
  Hypothesis HA : forall x xp q qp ps, arrival x xp q qp ps =
     weighted_square (n_x (q_mdl L)) (w_at Px) (fun a => x a - xp a) + weight_term Pp (q_npe L) (fun a => q a - qp a).
  Hypothesis PEN : sane_penalties nl.
  Variables (T : nat) (xs us zs tvs ys : nat -> vec) (pe ps : vec).
  Let p := true_p L pe ps.
  Hypothesis DET : measurement_determines_step L p.
  Hypothesis RUN : plant_run L T xs us zs tvs ys p.
  Hypothesis LIM : run_within L T xs us zs tvs pe ps b nl.
  Hypothesis HN : (1 <= N)%nat.
  Hypothesis REST : (2 <= N)%nat -> agree (n_x (q_mdl L)) (xs 1%nat) (xs 0%nat).
  Variables (t0 dt : R) (tf : R -> list vec) (pf : R -> vec).
  Hypothesis Hs : hs_nhor s = Some N /\ hs_tstep s = Some dt.
  Hypothesis TV : forall n k, (n < T)%nat -> (k < N)%nat -> nth k (tf (t0 + INR n * dt)) vzero = tvs (n + 1 + k - N)%nat.
  Hypothesis PS : forall n, (n < T)%nat -> pf (t0 + INR n * dt) = ps.

  Let pr : @hprob E := @mkHprob h_userobj mnl h_scal R (stage, arrival) nl sc s.
  Let c : mcfg := hlink_cfg L pr b.
  Hypothesis SOL : solves_globally L c.
  Lemma c_N : hN c = N.
  Proof. unfold c, hlink_cfg, pr. cbn. destruct Hs as [Q _]. rewrite Q. reflexivity. Qed.

  (** The window of the n-th step (counted from 0). *)
  Lemma window_run n par : (n < T)%nat -> (forall k, (k < N)%nat -> mY par k = ys (n + 1 + k - N)%nat) ->
    plant_run L N (fun k => xs (n + 1 + k - N)%nat) (fun k => us (n + 1 + k - N)%nat) (fun k => zs (n + 1 + k - N)%nat) (fun k => tvs (n + 1 + k - N)%nat) (mY par) p.
  Proof.
    intros Hn HY. destruct OWN as (O1 & O2 & _). constructor; intros k Hk.
    - destruct (Nat.le_gt_cases N (n + 1 + k)) as [C|C].
      + replace (n + 1 + (k + 1) - N)%nat with (n + 1 + k - N + 1)%nat by lia. apply (run_step _ _ _ _ _ _ _ _ RUN). lia.
      + replace (n + 1 + (k + 1) - N)%nat with 0%nat by lia. replace (n + 1 + k - N)%nat with 0%nat by lia.
        eapply agree_trans; [apply agree_sym; apply REST; lia|]. apply (run_step _ _ _ _ _ _ _ _ RUN 0). lia.
    - apply (run_alg _ _ _ _ _ _ _ _ RUN). lia.
    - rewrite (HY k Hk). destruct (Nat.le_gt_cases N (n + 1 + k)) as [C|C].
      + replace (n + 1 + (k + 1) - N)%nat with (n + 1 + k - N + 1)%nat by lia. apply (run_meas _ _ _ _ _ _ _ _ RUN). lia.
      + replace (n + 1 + (k + 1) - N)%nat with 0%nat by lia. replace (n + 1 + k - N)%nat with 0%nat by lia.
        eapply agree_trans; [apply (run_meas _ _ _ _ _ _ _ _ RUN 0); lia|]. apply O2; [apply REST; lia|apply agree_refl].
  Qed.
  Lemma window_within n : (n < T)%nat ->
    run_within L N (fun k => xs (n + 1 + k - N)%nat) (fun k => us (n + 1 + k - N)%nat) (fun k => zs (n + 1 + k - N)%nat) (fun k => tvs (n + 1 + k - N)%nat) pe ps b nl.
  Proof.
    intros Hn. constructor; intros.
    - apply (in_x _ _ _ _ _ _ _ _ _ _ LIM); [lia|assumption].
    - apply (in_u _ _ _ _ _ _ _ _ _ _ LIM); [lia|assumption].
    - apply (in_z _ _ _ _ _ _ _ _ _ _ LIM); [lia|assumption].
    - apply (in_p _ _ _ _ _ _ _ _ _ _ LIM). assumption.
    - apply (in_nl _ _ _ _ _ _ _ _ _ _ LIM); [lia|assumption].
  Qed.

  (** What holds before the n-th step. *)
  Record right_at (n : nat) (m : @mhe E) (tr : trace) : Prop := mkRight {
    g_inv : hinv m tr; g_inv2 : hinv2 m tr; g_conf : hconf m tr; g_setup : e_setup m = true;
    g_obj : hobjective_of tr = Some (stage, arrival); g_nl : hnlcons_of tr = nl; g_sc : hscaling_of tr = sc; g_b : hbounds_of tr = b;
    g_set : hsettings_of tr = s; g_tf : htvp_force tr = tf; g_pf : hp_force tr = pf; g_uy : huser_y tr = None;
    g_clock : hclock tr = t0 + INR n * dt;
    g_log : map n_y (hlog tr) = map ys (seq 0 n);
    g_x1 : exists ox, e_ox m = Some ox /\ agree (n_x (q_mdl L)) (h_x1 E sc ox) (xs (n + 1 - N)%nat);
    g_pe : agree (q_npe L) (hi_pe (e_it m)) pe }.

  Lemma right_step n m tr m' r : (n < T)%nat -> right_at n m tr -> mhe_step m (Good (ys n)) = (m', r) ->
    exists x, r = Ok x /\ agree (n_x (q_mdl L)) x (xs (n + 1)%nat) /\ right_at (n + 1) m' (tr ++ [(@HStep E (Good (ys n)), Ok (Some x))]).
  Proof.
    intros Hn G ES. destruct G as [I J K S1 G1 G2 G3 G4 G5 G6 G7 G8 G9 G10 (oxp & Eo & Gx) Gp].
    pose proof (step_succeeds m tr (ys n) m' r I J S1 ES) as OKr.
    destruct (mhe_step_cases _ _ _ _ ES) as [(y' & x & tfm & pfm & prm & ob & ox & yf & wy & ox' & lg & lx & st & dtm & [= <-] & -> & KK)|(e & -> & _)]; [|discriminate].
    exists x. split; [reflexivity|].
    pose proof (hmeasured_of _ _ _ _ _ I J (k_y _ _ _ _ _ _ _ _ _ _ _ _ _ _ _ _ KK)) as HM.
    unfold hmeasured in HM. rewrite G8 in HM. destruct HM as (N' & EN & WL & WN). rewrite G5 in EN. destruct Hs as [HsN Hst]. assert (EN' : Some N = Some N') by (rewrite <- HsN; exact EN). injection EN' as <-.
    rewrite G10 in WN. change (map ys (seq 0 n) ++ [ys n]) with (map ys (seq 0 n) ++ map ys [(0 + n)%nat]) in WN. rewrite <- map_app, <- seq_S in WN.
    rewrite map_length, seq_length in WN.
    assert (WY : forall k, (k < N)%nat -> nth k wy vzero = ys (n + 1 + k - N)%nat).
    { intros k Hk. specialize (WN k Hk). rewrite (nth_error_map ys) in WN.
      rewrite (nth_error_nth' (seq 0 (Datatypes.S n)) 0%nat) in WN by (rewrite seq_length; lia). rewrite seq_nth in WN by lia. cbn [option_map plus] in WN.
      apply (nth_error_nth _ _ vzero) in WN. transitivity (ys (Datatypes.S n + k - N)%nat); [exact WN|]. f_equal. lia. }
    destruct (hforce_of m tr tfm pfm I (k_tf _ _ _ _ _ _ _ _ _ _ _ _ _ _ _ _ KK) (k_pf _ _ _ _ _ _ _ _ _ _ _ _ _ _ _ _ KK)) as (F1 & F2 & F3 & _).
    rewrite G6 in F1. rewrite G7 in F2. rewrite G9 in F3. subst tfm pfm.
    destruct (hproblem_of m tr I J K S1) as (pr' & P1 & (P2 & P3 & P4 & P5)). rewrite (k_pr _ _ _ _ _ _ _ _ _ _ _ _ _ _ _ _ KK) in P1. injection P1 as <-.
    rewrite G1 in P2. injection P2 as P2. rewrite G2 in P3. rewrite G3 in P4. rewrite G5 in P5.
    assert (prm = pr) as -> by (destruct prm; cbn in *; subst; reflexivity).
    assert (ob = b) as -> by (rewrite <- G4, <- (n_bnd _ _ K); pose proof (u_ob _ _ J S1); pose proof (k_ob _ _ _ _ _ _ _ _ _ _ _ _ _ _ _ _ KK); congruence).
    pose proof (k_ox _ _ _ _ _ _ _ _ _ _ _ _ _ _ _ _ KK) as Eo'. rewrite Eo in Eo'. injection Eo' as <-.
    assert (SC : hc_scal (e_cfg m) = sc) by (rewrite (n_scal _ _ K); exact G3).
    pose proof (k_S _ _ _ _ _ _ _ _ _ _ _ _ _ _ _ _ KK) as HSol. rewrite SC, <- F3, (PS n Hn) in HSol.
    set (par := hlink_par (mkHpar (h_x1 E sc oxp) (hi_pe (e_it m)) ps (tf (t0 + INR n * dt)) wy)).
    assert (QS : exists pt lg' lx' st', q_solve L c par (snd oxp) (if e_run1 m then e_lam m else None) = (pt, lg', lx', st') /\ ox' = (N, pt)).
    { change ((let '(pt, lg0, lx0, st0) := q_solve L c par (snd oxp) (if e_run1 m then e_lam m else None) in ((horizon_of pr, pt), lg0, lx0, st0)) = (ox', lg, lx, st)) in HSol.
      destruct (q_solve L c par (snd oxp) (if e_run1 m then e_lam m else None)) as [[[pt lg'] lx'] st'] eqn:Q. injection HSol as HSol _ _ _. exists pt, lg', lx', st'.
      split; [reflexivity|]. rewrite <- HSol. f_equal. unfold horizon_of, pr. cbn. rewrite HsN. reflexivity. }
    destruct QS as (pt & lg' & lx' & st' & QS & ->).
    assert (EXM : exists q, minimiser c par q).
    { apply (minimiser_exists L nw nv OWN c) with (Px := Px) (Pv := Pv) (Pw := Pw) (Pp := Pp) (xs := fun k => xs (n + 1 + k - N)%nat) (us := fun k => us (n + 1 + k - N)%nat)
        (zs := fun k => zs (n + 1 + k - N)%nat) (tvs := fun k => tvs (n + 1 + k - N)%nat) (pe := pe) (ps := ps); auto; try reflexivity; try exact CD; try exact CC; try (intros a; apply Hsc);
        rewrite ?c_N.
      - intros k Hk. unfold par. cbn. apply TV; assumption.
      - apply window_run; [exact Hn|]. intros k Hk. unfold par. cbn. apply WY. exact Hk.
      - destruct (window_within n Hn). constructor; auto.
      - unfold par. cbn [hlink_par mXprev hq_xprev]. rewrite Nat.add_0_r. exact Gx. }
    pose proof (SOL par _ _ _ _ _ _ QS EXM) as MIN.
    assert (RT : (forall k, (k <= N)%nat -> agree (n_x (q_mdl L)) (ex c pt k) (xs (n + 1 + k - N)%nat)) /\ agree (q_npe L) (ePe c pt) pe).
    { assert (RR : (forall k, (k <= hN c)%nat -> agree (n_x (q_mdl L)) (ex c pt k) (xs (n + 1 + k - N)%nat)) /\ agree (q_npe L) (ePe c pt) pe); [|rewrite c_N in RR; exact RR].
      apply (minimiser_right L nw nv OWN c) with (par := par) (Px := Px) (Pv := Pv) (Pw := Pw) (Pp := Pp) (xs := fun k => xs (n + 1 + k - N)%nat) (us := fun k => us (n + 1 + k - N)%nat)
        (zs := fun k => zs (n + 1 + k - N)%nat) (tvs := fun k => tvs (n + 1 + k - N)%nat) (pe := pe) (ps := ps); auto; try reflexivity; try exact CD; try exact CC; try (intros a; apply Hsc);
        rewrite ?c_N.
      - intros k Hk. unfold par. cbn. apply TV; assumption.
      - apply window_run; [exact Hn|]. intros k Hk. unfold par. cbn. apply WY. exact Hk.
      - destruct (window_within n Hn). constructor; auto.
      - unfold par. cbn [hlink_par mXprev hq_xprev]. rewrite Nat.add_0_r. exact Gx. }
    destruct RT as [RX RP].
    assert (XE : agree (n_x (q_mdl L)) x (xs (n + 1)%nat)).
    { pose proof (k_x _ _ _ _ _ _ _ _ _ _ _ _ _ _ _ _ KK) as Ex. rewrite SC in Ex. rewrite Ex.
      replace (xs (n + 1)%nat) with (xs (n + 1 + N - N)%nat) by (f_equal; lia). exact (RX N (le_n N)). }
    split; [exact XE|].
    assert (D : do_hcall m (@HStep E (Good (ys n))) = (m', Ok (Some x))) by (cbn [do_hcall]; rewrite ES; reflexivity).
    pose proof (hinv_step _ _ _ _ _ I D) as I'. pose proof (hinv2_step m tr (@HStep E (Good (ys n))) _ _ I J Logic.I D) as J'. pose proof (hconf_step _ _ _ _ _ K D) as K'.
    constructor; auto.
    - exact (k_setup' _ _ _ _ _ _ _ _ _ _ _ _ _ _ _ _ KK).
    - rewrite hobj_snoc. exact G1.
    - rewrite hnl_snoc. exact G2.
    - rewrite hscal_snoc. exact G3.
    - rewrite hbnd_snoc. exact G4.
    - rewrite hset_snoc. exact G5.
    - unfold htvp_force. rewrite htvp_snoc. exact G6.
    - unfold hp_force. rewrite hp_snoc. exact G7.
    - rewrite huy_snoc. exact G8.
    - unfold hclock. rewrite (w_log _ _ I'). cbn [snd fst]. rewrite (k_it _ _ _ _ _ _ _ _ _ _ _ _ _ _ _ _ KK). cbn [hi_t].
      pose proof (k_dt _ _ _ _ _ _ _ _ _ _ _ _ _ _ _ _ KK) as Ed. rewrite (w_set _ _ I), G5 in Ed. assert (Ed' : Some dt = Some dtm) by (rewrite <- Hst; exact Ed). injection Ed' as <-. rewrite <- F3.
      cbn [E hlink_env h_tadd]. rewrite plus_INR. cbn. ring.
    - rewrite hlog_snoc', map_app, G10. cbn [map n_y]. rewrite Nat.add_1_r, seq_S, map_app. reflexivity.
    - exists (N, pt). split; [exact (k_ox' _ _ _ _ _ _ _ _ _ _ _ _ _ _ _ _ KK)|]. replace (xs (n + 1 + 1 - N)%nat) with (xs (n + 1 + 1 - N)%nat) by reflexivity. exact (RX 1%nat HN).
    - rewrite (k_it _ _ _ _ _ _ _ _ _ _ _ _ _ _ _ _ KK), SC. exact RP.
  Qed.

  Lemma right_run m tr : right_at 0 m tr -> forall n, (n <= T)%nat -> exists est m',
    hexec (map (fun j => @HStep E (Good (ys j))) (seq 0 n)) m = (m', map (fun j => (@HStep E (Good (ys j)), Ok (Some (est j)))) (seq 0 n)) /\
    (forall j, (j < n)%nat -> agree (n_x (q_mdl L)) (est j) (xs (j + 1)%nat)) /\
    right_at n m' (tr ++ map (fun j => (@HStep E (Good (ys j)), Ok (Some (est j)))) (seq 0 n)).
  Proof.
    intros G n. induction n as [|n IH]; intros Hn.
    - exists (fun _ => vzero), m. split; [reflexivity|]. split; [intros; lia|]. cbn. rewrite app_nil_r. exact G.
    - destruct IH as (est & m1 & X1 & X2 & X3); [lia|]. destruct (mhe_step m1 (Good (ys n))) as [m2 r] eqn:ES.
      destruct (right_step n m1 _ m2 r ltac:(lia) X3 ES) as (x & -> & Hx & G').
      set (est' := fun j => if (j =? n)%nat then x else est j).
      assert (EQ : map (fun j => (@HStep E (Good (ys j)) : @hcall E, Ok (Some (est' j)) : res (option (hX E)))) (seq 0 n) = map (fun j => (@HStep E (Good (ys j)), Ok (Some (est j)))) (seq 0 n)).
      { apply map_ext_in. intros j Hj. apply in_seq in Hj. unfold est'. destruct (Nat.eqb_spec j n); [lia|reflexivity]. }
      exists est', m2. rewrite seq_S, !map_app, hexec_app, X1. cbn [map plus hexec]. cbn [do_hcall]. rewrite ES.
      assert (LST : est' n = x) by (unfold est'; rewrite Nat.eqb_refl; reflexivity). rewrite LST, EQ. split; [reflexivity|]. split.
      + intros j Hj. unfold est'. destruct (Nat.eqb_spec j n) as [->|]; [exact Hx|]. apply X2. lia.
      + rewrite app_assoc. replace (Datatypes.S n) with (n + 1)%nat by lia. exact G'.
  Qed.
End Run.
