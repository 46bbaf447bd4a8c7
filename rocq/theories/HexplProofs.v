(** * Proofs: points of the estimation problem and explanations in physical units. *)
From Coq Require Import Reals Lra FunctionalExtensionality.
From Verif Require Import Base TreeModel NlpModel NlpSpec MpcModel MheModel MheSpec MheProofs MheProps MheHistSpec MheHistProofs.
From Verif Require Import MheNlpModel MheNlpSpec MheNlpProofs MheNlpProps HlinkModel HlinkSpec HlinkProofs2 HexplSpec.
Import List NlpModel.
Local Open Scope R_scope.

Section Image.
  Variable c : mcfg.
  Hypothesis OK : mcfg_ok c.
  Hypothesis SC : good_scaling c.
  Variable par : mpar.

  (** the physical values of a point, and the point with given physical values *)
  Definition expl_of (pt : mpoint) : explanation :=
    {| st_x := eX c pt; st_z := eZ c pt; st_u := eU c pt; st_w := mW pt; st_v := mV pt; st_e := mE pt; st_p := ePe c pt |}.
  Definition point_of (s : explanation) : mpoint :=
    {| mX := fun k i => vdiv (st_x s k i) (hsx c); mZ := fun k i => vdiv (st_z s k i) (hsz c); mU := fun k => vdiv (st_u s k) (hsu c);
       mW := st_w s; mV := st_v s; mE := st_e s; mPe := vdiv (st_p s) (hspe c) |}.
  Lemma expl_point s : expl_of (point_of s) = s.
  Proof.
    destruct SC as [S1 S2]. destruct s. unfold expl_of, point_of, eX, eZ, eU, ePe, vdiv. cbn. f_equal;
      repeat (apply functional_extensionality; intros ?); match goal with |- _ / ?q * _ = _ => assert (q <> 0) end;
      try (field; assumption); match goal with |- _ ?a <> 0 => destruct (S1 a) as (? & ? & ?); pose proof (S2 a) end; lra.
  Qed.

  Lemma pos : mscal_pos c.
  Proof. destruct SC as [S1 S2]. repeat split; intros a _; try apply S1. rewrite S2. lra. Qed.
  Lemma pnorm : model_p c par = fun pe => all_p c par {| st_x := fun _ _ => vzero; st_z := fun _ _ => vzero; st_u := fun _ => vzero; st_w := fun _ => vzero; st_v := fun _ => vzero; st_e := fun _ => vzero; st_p := pe |}.
  Proof. reflexivity. Qed.

  Lemma follows_iff pt k : est_step c par pt k <-> follows c par (expl_of pt) k.
  Proof.
    unfold est_step, follows. destruct (hdisc c) as [|deg ni h C D] eqn:Q.
    - unfold est_discrete_step, follows_discrete, state_at, ex, agree. rewrite Q. cbn. reflexivity.
    - unfold est_colloc_step, follows_colloc, est_cx, est_cz, state_at, ex, agree. rewrite Q. cbv zeta. change (ncoll (Colloc deg ni h C D)) with ((deg + 1) * ni)%nat.
      split; intros (A1 & A2 & A3 & A4); (split; [|split; [exact A2|split; [exact A3|exact A4]]]).
      + intros i j Hi Hj a Ha. exact (A1 i j a Hi Hj Ha).
      + intros i j a Hi Hj Ha. exact (A1 i j Hi Hj a Ha).
  Qed.
  Lemma slack_iff pt i k n : (k < hN c)%nat -> est_slack c pt i k n = violation c (expl_of pt) i k n.
  Proof.
    intros Hk. unfold est_slack, violation. destruct (mn_soft n); [|reflexivity]. cbn. f_equal. destruct (hsingle c); lia.
  Qed.
  Lemma respects_iff pt k : (k < hN c)%nat -> (est_nl_step c par pt (ePe c pt) k <-> respects c par (expl_of pt) k).
  Proof.
    intros Hk. unfold est_nl_step, respects, est_nl. split; intros H i n Hn; specialize (H i n Hn); cbn zeta in *; destruct (hnlchk c);
      try (intros q Hq; specialize (H q Hq)); rewrite slack_iff in * by exact Hk; exact H.
  Qed.
  Lemma in_bounds_iff pt : mhe_within c pt <-> in_bounds c (expl_of pt).
  Proof.
    rewrite (within_iff c pt pos). unfold est_state_bounds, est_alg_bounds, est_other_bounds, in_bounds. cbn. split.
    - intros (A & B & C & D & E). split; [|split; [|split; [|split]]]; auto.
      intros k a m pen Hk Ha. specialize (E k a Hk). rewrite Ha in E. apply E. apply nth_error_Some. rewrite Ha. discriminate.
    - intros (A & B & C & D & E). split; [|split; [|split; [|split]]]; auto.
      intros k a Hk Ha. destruct (nth_error (m_soft (hnl c)) a) as [[m pen]|] eqn:Q; [eapply E; eauto|]. apply nth_error_None in Q. lia.
  Qed.
  Lemma feasible_explains pt : mhe_feasible c par pt <-> explains c par (expl_of pt).
  Proof.
    unfold mhe_feasible, explains. rewrite in_bounds_iff. destruct (C23_constraints_unit_scaling c par pt OK (proj2 SC)) as (p & E & H). split.
    - intros (W & p' & E' & S). rewrite E in E'. injection E' as <-. apply H in S as (A & B & C). split; [|exact W].
      intros k Hk. split; [apply follows_iff; auto|]. split; [exact (B k Hk)|apply respects_iff; auto].
    - intros (A & W). split; [exact W|]. exists p. split; [exact E|]. apply H. split; [|split]; intros k Hk; destruct (A k Hk) as (A1 & A2 & A3).
      + apply follows_iff. exact A1.
      + exact A2.
      + apply respects_iff; auto.
  Qed.
  Lemma rsum_combine (e : nat -> R) l st : rsum (map (fun ia : nat * (option R * R) => snd (snd ia) * e (fst ia)) (combine (seq st (List.length l)) l)) =
    rsum (map (fun a => match nth_error l (a - st)%nat with Some (_, pen) => pen * e a | None => 0 end) (seq st (List.length l))).
  Proof.
    revert st. induction l as [|[m pen] l IH]; intros st; [reflexivity|]. cbn [List.length seq combine map rsum fold_right fst snd].
    change (rsum ((pen * e st) :: map (fun ia : nat * (option R * R) => snd (snd ia) * e (fst ia)) (combine (seq (Datatypes.S st) (List.length l)) l))
      = rsum (match nth_error ((m, pen) :: l) (st - st) with Some (_, pen) => pen * e st | None => 0 end ::
         map (fun a => match nth_error ((m, pen) :: l) (a - st)%nat with Some (_, pen) => pen * e a | None => 0 end) (seq (Datatypes.S st) (List.length l)))).
    unfold rsum. cbn [fold_right]. fold (rsum (map (fun ia : nat * (option R * R) => snd (snd ia) * e (fst ia)) (combine (seq (Datatypes.S st) (List.length l)) l))).
    rewrite IH, Nat.sub_diag. cbn [nth_error]. f_equal. unfold rsum. f_equal. apply map_ext_in. intros a Ha. apply in_seq in Ha.
    replace (a - st)%nat with (Datatypes.S (a - Datatypes.S st)) by lia. reflexivity.
  Qed.
  Lemma objective_price pt : exists p, mhe_nlp c par pt = Ok p /\ obj p = price c par (expl_of pt).
  Proof.
    destruct (C66_objective_unit_scaling c par pt OK (proj2 SC)) as (p & E & O). exists p. split; [exact E|]. rewrite O. unfold est_cost, price. f_equal.
    unfold total. f_equal. apply map_ext_in. intros k Hk. apply in_seq in Hk. f_equal. unfold slack_penalty. rewrite rsum_combine.
    unfold rsum. f_equal. apply map_ext_in. intros a Ha. rewrite Nat.sub_0_r. replace (Nat.min k ((if hsingle c then 1 else hN c) - 1)) with (if hsingle c then 0 else k)%nat by (destruct (hsingle c); lia). reflexivity.
  Qed.

  Lemma minimiser_cheapest pt : minimiser c par pt <-> cheapest c par (expl_of pt).
  Proof.
    unfold minimiser, cheapest. rewrite feasible_explains. destruct (objective_price pt) as (p & E & O). split.
    - intros [F M]. split; [exact F|]. intros s' F'. rewrite <- (expl_point s') in F' |- *. apply feasible_explains in F'.
      destruct (objective_price (point_of s')) as (p' & E' & O'). rewrite <- O, <- O'. eapply M; eauto.
    - intros [F M]. split; [exact F|]. intros pt' q q' F' E1 E2. rewrite E in E1. injection E1 as <-. destruct (objective_price pt') as (p' & E' & O').
      rewrite E' in E2. injection E2 as <-. rewrite O, O'. apply M. apply feasible_explains. exact F'.
  Qed.
  Lemma minimiser_exists_iff : (exists pt, minimiser c par pt) <-> (exists s, cheapest c par s).
  Proof.
    split; intros [q H].
    - exists (expl_of q). apply minimiser_cheapest. exact H.
    - exists (point_of q). apply minimiser_cheapest. rewrite expl_point. exact H.
  Qed.
End Image.

(** ** The calls of make_step. *)
Section Run.
  Variable L : hlink.
  Let E := hlink_env L.
  Notation trace := (list (@hcall E * res (option (hX E)))).
  Variable N : nat.
  Variables (o : h_userobj) (nl : list mnl) (sc : h_scal) (b : h_bounds) (s : hset_ R).
  Variables (ys : nat -> vec) (t0 dt : R) (tf : R -> list vec) (pf : R -> vec) (uy : option (R -> list vec)) (x0 p0 : vec).
  Hypothesis Hs : hs_nhor s = Some N /\ hs_tstep s = Some dt.
  Let pr : @hprob E := @mkHprob h_userobj mnl h_scal R o nl sc s.
  Let c : mcfg := hlink_cfg L pr b.
  Hypothesis OK : mcfg_ok c.
  Hypothesis SC : good_scaling c.
  Hypothesis SOL : solves_globally L c.

  Definition data_at (j : nat) (xp pp : vec) : mpar :=
    let t := t0 + INR j * dt in
    {| mXprev := xp; mPeprev := pp; mPs := pf t; mTvp := fun k => nth k (tf t) vzero;
       mY := fun k => if (k <? N)%nat then match uy with Some f => nth k (f t) vzero | None => ys (j + 1 + k - N)%nat end else vzero |}.

  Record ready_at (n : nat) (xp pp : vec) (m : @mhe E) (tr : trace) : Prop := mkReady {
    r_inv : hinv m tr; r_inv2 : hinv2 m tr; r_conf : hconf m tr; r_setup : e_setup m = true;
    r_obj : hobjective_of tr = Some o; r_nl : hnlcons_of tr = nl; r_sc : hscaling_of tr = sc; r_b : hbounds_of tr = b;
    r_set : hsettings_of tr = s; r_tf : htvp_force tr = tf; r_pf : hp_force tr = pf; r_uy : huser_y tr = uy;
    r_clock : hclock tr = t0 + INR n * dt;
    r_log : map n_y (hlog tr) = map ys (seq 0 n);
    r_x1 : exists ox, e_ox m = Some ox /\ h_x1 E sc ox = xp;
    r_pe : hi_pe (e_it m) = pp }.

  Lemma ready_step n xp pp m tr m' r : ready_at n xp pp m tr -> mhe_step m (Good (ys n)) = (m', r) ->
    exists x e, r = Ok x /\ x = state_at c e N /\
      ((exists q, cheapest c (data_at n xp pp) q) -> cheapest c (data_at n xp pp) e) /\
      ready_at (n + 1) (state_at c e 1) (st_p e) m' (tr ++ [(@HStep E (Good (ys n)), Ok (Some x))]).
  Proof.
    intros G ES. destruct G as [I J K S1 G1 G2 G3 G4 G5 G6 G7 G8 G9 G10 (oxp & Eo & Gx) Gp].
    pose proof (step_succeeds m tr (ys n) m' r I J S1 ES) as OKr.
    destruct (mhe_step_cases _ _ _ _ ES) as [(y' & x & tfm & pfm & prm & ob & ox & yf & wy & ox' & lg & lx & st & dtm & [= <-] & -> & KK)|(e & -> & _)]; [|discriminate].
    destruct Hs as [HsN Hst].
    destruct (hforce_of m tr tfm pfm I (k_tf _ _ _ _ _ _ _ _ _ _ _ _ _ _ _ _ KK) (k_pf _ _ _ _ _ _ _ _ _ _ _ _ _ _ _ _ KK)) as (F1 & F2 & F3 & _).
    rewrite G6 in F1. rewrite G7 in F2. rewrite G9 in F3. subst tfm pfm.
    pose proof (hmeasured_of _ _ _ _ _ I J (k_y _ _ _ _ _ _ _ _ _ _ _ _ _ _ _ _ KK)) as HM.
    destruct (hproblem_of m tr I J K S1) as (pr' & P1 & (P2 & P3 & P4 & P5)). rewrite (k_pr _ _ _ _ _ _ _ _ _ _ _ _ _ _ _ _ KK) in P1. injection P1 as <-.
    rewrite G1 in P2. injection P2 as P2. rewrite G2 in P3. rewrite G3 in P4. rewrite G5 in P5.
    assert (prm = pr) as -> by (destruct prm; cbn in *; subst; reflexivity).
    assert (WY : forall k, nth k wy vzero = if (k <? N)%nat then match uy with Some f => nth k (f (t0 + INR n * dt)) vzero | None => ys (n + 1 + k - N)%nat end else vzero).
    { assert (WL : length wy = N).
      { pose proof (k_n _ _ _ _ _ _ _ _ _ _ _ _ _ _ _ _ KK) as Q. cbn [hp_set pr] in Q. assert (Q' : Some N = Some (length wy)) by (rewrite <- HsN; exact Q). injection Q' as Q'. symmetry. exact Q'. }
      intros k. destruct (Nat.ltb_spec k N) as [Hk|Hk]; [|apply nth_overflow; rewrite WL; exact Hk].
      unfold hmeasured in HM. rewrite G8 in HM. destruct uy as [f|].
      - rewrite HM. rewrite G9. reflexivity.
      - destruct HM as (N' & EN & _ & WN). rewrite G5 in EN. assert (EN' : Some N = Some N') by (rewrite <- HsN; exact EN). injection EN' as <-.
        rewrite G10 in WN. change (map ys (seq 0 n) ++ [ys n]) with (map ys (seq 0 n) ++ map ys [(0 + n)%nat]) in WN. rewrite <- map_app, <- seq_S in WN.
        rewrite map_length, seq_length in WN. specialize (WN k Hk). rewrite (nth_error_map ys) in WN.
        rewrite (nth_error_nth' (seq 0 (Datatypes.S n)) 0%nat) in WN by (rewrite seq_length; lia). rewrite seq_nth in WN by lia. cbn [option_map plus] in WN.
        apply (nth_error_nth _ _ vzero) in WN. transitivity (ys (Datatypes.S n + k - N)%nat); [exact WN|]. f_equal. lia. }
    assert (ob = b) as -> by (rewrite <- G4, <- (n_bnd _ _ K); pose proof (u_ob _ _ J S1); pose proof (k_ob _ _ _ _ _ _ _ _ _ _ _ _ _ _ _ _ KK); congruence).
    pose proof (k_ox _ _ _ _ _ _ _ _ _ _ _ _ _ _ _ _ KK) as Eo'. rewrite Eo in Eo'. injection Eo' as <-.
    assert (SCe : hc_scal (e_cfg m) = sc) by (rewrite (n_scal _ _ K); exact G3).
    pose proof (k_S _ _ _ _ _ _ _ _ _ _ _ _ _ _ _ _ KK) as HSol. rewrite SCe, <- F3, Gx, Gp in HSol.
    set (par := hlink_par (mkHpar xp pp (pf (t0 + INR n * dt)) (tf (t0 + INR n * dt)) wy)).
    assert (PAR : par = data_at n xp pp).
    { unfold par, hlink_par, data_at. cbn. f_equal. apply functional_extensionality. intros k. apply WY. }
    assert (QS : exists pt lg' lx' st', q_solve L c par (snd oxp) (if e_run1 m then e_lam m else None) = (pt, lg', lx', st') /\ ox' = (N, pt)).
    { change ((let '(pt, lg0, lx0, st0) := q_solve L c par (snd oxp) (if e_run1 m then e_lam m else None) in ((horizon_of pr, pt), lg0, lx0, st0)) = (ox', lg, lx, st)) in HSol.
      destruct (q_solve L c par (snd oxp) (if e_run1 m then e_lam m else None)) as [[[pt lg'] lx'] st'] eqn:Q. injection HSol as HSol _ _ _. exists pt, lg', lx', st'.
      split; [reflexivity|]. rewrite <- HSol. f_equal. unfold horizon_of, pr. cbn. rewrite HsN. reflexivity. }
    destruct QS as (pt & lg' & lx' & st' & QS & ->). rewrite PAR in QS.
    exists x, (expl_of c pt). split; [reflexivity|].
    assert (XE : x = state_at c (expl_of c pt) N).
    { pose proof (k_x _ _ _ _ _ _ _ _ _ _ _ _ _ _ _ _ KK) as Ex. rewrite SCe in Ex. rewrite Ex. reflexivity. }
    split; [exact XE|]. split.
    { intros EX. apply (minimiser_cheapest c OK SC). eapply SOL; [exact QS|]. apply (minimiser_exists_iff c OK SC). exact EX. }
    assert (D : do_hcall m (@HStep E (Good (ys n))) = (m', Ok (Some x))) by (cbn [do_hcall]; rewrite ES; reflexivity).
    pose proof (hinv_step _ _ _ _ _ I D) as I'. pose proof (hinv2_step m tr (@HStep E (Good (ys n))) _ _ I J Logic.I D) as J'. pose proof (hconf_step _ _ _ _ _ K D) as K'.
    constructor; auto.
    - exact (k_setup' _ _ _ _ _ _ _ _ _ _ _ _ _ _ _ _ KK).
    - rewrite hobj_snoc. exact G1.
    - rewrite hnl_snoc. exact G2.
    - rewrite hscal_snoc. exact G3.
    - rewrite hbnd_snoc. exact G4.
    - rewrite hset_snoc. exact G5.
    - unfold htvp_force. rewrite htvp_snoc. exact G6.
    - unfold hp_force. rewrite hp_snoc. exact G7.
    - rewrite huy_snoc. exact G8.
    - unfold hclock. rewrite (w_log _ _ I'). cbn [snd fst]. rewrite (k_it _ _ _ _ _ _ _ _ _ _ _ _ _ _ _ _ KK). cbn [hi_t].
      pose proof (k_dt _ _ _ _ _ _ _ _ _ _ _ _ _ _ _ _ KK) as Ed. rewrite (w_set _ _ I), G5 in Ed. assert (Ed' : Some dt = Some dtm) by (rewrite <- Hst; exact Ed). injection Ed' as <-. rewrite <- F3.
      cbn [E hlink_env h_tadd]. rewrite plus_INR. cbn. ring.
    - rewrite hlog_snoc', map_app, G10. cbn [map n_y]. rewrite Nat.add_1_r, seq_S, map_app. reflexivity.
    - exists (N, pt). split; [exact (k_ox' _ _ _ _ _ _ _ _ _ _ _ _ _ _ _ _ KK)|]. reflexivity.
    - rewrite (k_it _ _ _ _ _ _ _ _ _ _ _ _ _ _ _ _ KK), SCe. reflexivity.
  Qed.

  Lemma ready_run m tr : ready_at 0 x0 p0 m tr -> forall n, exists est e m',
    hexec (map (fun j => @HStep E (Good (ys j))) (seq 0 n)) m = (m', map (fun j => (@HStep E (Good (ys j)), Ok (Some (est j)))) (seq 0 n)) /\
    (forall j, (j < n)%nat -> est j = state_at c (e j) N /\
       ((exists q, cheapest c (data_at j (arrival_x c x0 e j) (arrival_p p0 e j)) q) -> cheapest c (data_at j (arrival_x c x0 e j) (arrival_p p0 e j)) (e j))) /\
    ready_at n (arrival_x c x0 e n) (arrival_p p0 e n) m' (tr ++ map (fun j => (@HStep E (Good (ys j)), Ok (Some (est j)))) (seq 0 n)).
  Proof.
    intros G n. induction n as [|n (est & e & m1 & X1 & X2 & X3)].
    - exists (fun _ => vzero), (fun _ => mkExpl (fun _ _ => vzero) (fun _ _ => vzero) (fun _ => vzero) (fun _ => vzero) (fun _ => vzero) (fun _ => vzero) vzero), m.
      split; [reflexivity|]. split; [intros; lia|]. cbn. rewrite app_nil_r. exact G.
    - destruct (mhe_step m1 (Good (ys n))) as [m2 r] eqn:ES.
      destruct (ready_step n _ _ m1 _ m2 r X3 ES) as (x & q & -> & Hx & Hc & G').
      set (est' := fun j => if (j =? n)%nat then x else est j). set (e' := fun j => if (j =? n)%nat then q else e j).
      assert (EQ : map (fun j => (@HStep E (Good (ys j)) : @hcall E, Ok (Some (est' j)) : res (option (hX E)))) (seq 0 n) = map (fun j => (@HStep E (Good (ys j)), Ok (Some (est j)))) (seq 0 n)).
      { apply map_ext_in. intros j Hj. apply in_seq in Hj. unfold est'. destruct (Nat.eqb_spec j n); [lia|reflexivity]. }
      assert (AX : forall j, (j <= n)%nat -> arrival_x c x0 e' j = arrival_x c x0 e j /\ arrival_p p0 e' j = arrival_p p0 e j).
      { intros [|j] Hj; [split; reflexivity|]. unfold arrival_x, arrival_p, e'. destruct (Nat.eqb_spec j n); [lia|split; reflexivity]. }
      exists est', e', m2. rewrite seq_S, !map_app, hexec_app, X1. cbn [map plus hexec]. cbn [do_hcall]. rewrite ES.
      assert (LST : est' n = x) by (unfold est'; rewrite Nat.eqb_refl; reflexivity). rewrite LST, EQ. split; [reflexivity|]. split.
      + intros j Hj. destruct (AX j) as [-> ->]; [lia|]. unfold est', e'. destruct (Nat.eqb_spec j n) as [->|]; [split; [exact Hx|exact Hc]|]. apply X2. lia.
      + rewrite app_assoc. replace (arrival_x c x0 e' (Datatypes.S n)) with (state_at c q 1) by (cbn; unfold e'; rewrite Nat.eqb_refl; reflexivity).
        replace (arrival_p p0 e' (Datatypes.S n)) with (st_p q) by (cbn; unfold e'; rewrite Nat.eqb_refl; reflexivity).
        replace (Datatypes.S n) with (n + 1)%nat by lia. exact G'.
  Qed.
End Run.
