(** * C103: what make_step of the moving horizon estimator returns: the last state of a cheapest explanation of the
    measurements. *)
From Coq Require Import Reals Lra FunctionalExtensionality.
From Verif Require Import Base TreeModel NlpModel NlpSpec MpcModel MheModel MheSpec MheProofs MheProps MheHistSpec MheHistProofs MheHistProps.
From Verif Require Import MheNlpModel MheNlpSpec MheNlpProofs MheNlpProps HlinkModel HlinkSpec HlinkProofs2 HlinkProps HexplSpec HexplProofs.
Import List NlpModel.
Local Open Scope R_scope.

(** The optimisation problem of a window is feasible exactly when the measurements have an explanation, and has an optimal
    point exactly when they have a cheapest one. *)
Theorem C103_feasible_iff_explanation (c : mcfg) (par : mpar) :
  mcfg_ok c -> good_scaling c ->
  ((exists pt, mhe_feasible c par pt) <-> (exists s, explains c par s)) /\
  ((exists pt, minimiser c par pt) <-> (exists s, cheapest c par s)).
Proof.
  intros OK SC. split; [|apply minimiser_exists_iff; assumption]. split; intros [q H].
  - exists (expl_of c q). apply feasible_explains; assumption.
  - exists (point_of c q). apply feasible_explains; [assumption..|]. rewrite expl_point; assumption.
Qed.
(** Point by point: the physical values of a feasible point are an explanation, the objective is its price, the optimal points
    are the cheapest explanations; the estimate the point stands for is the last state of the explanation. *)
Theorem C103_points_are_explanations (c : mcfg) (par : mpar) (pt : mpoint) (s : explanation) :
  mcfg_ok c -> good_scaling c ->
  (forall k i a, st_x s k i a = mX pt k i a * hsx c a) -> (forall k i a, st_z s k i a = mZ pt k i a * hsz c a) -> (forall k a, st_u s k a = mU pt k a * hsu c a) ->
  st_w s = mW pt -> st_v s = mV pt -> st_e s = mE pt -> (forall a, st_p s a = mPe pt a * hspe c a) ->
  (mhe_feasible c par pt <-> explains c par s) /\ (exists p, mhe_nlp c par pt = Ok p /\ obj p = price c par s) /\
  (minimiser c par pt <-> cheapest c par s) /\ (forall a, returned c pt a = state_at c s (hN c) a).
Proof.
  intros OK SC X Z U W V Ee P. assert (s = expl_of c pt) as ->.
  { destruct s; unfold expl_of, eX, eZ, eU, ePe; cbn in *; subst; f_equal; repeat (apply functional_extensionality; intros ?); auto. }
  split; [apply feasible_explains; assumption|]. split; [apply objective_price; assumption|]. split; [apply minimiser_cheapest; assumption|]. reflexivity.
Qed.
(** The scaling factors do not matter: configurations that differ in them only have the same optimal explanations. *)
Theorem C103_scaling_irrelevant (c c' : mcfg) (par : mpar) :
  mcfg_ok c -> good_scaling c -> good_scaling c' -> same_but_scaling c c' ->
  forall pt, minimiser c par pt ->
  exists pt', minimiser c' par pt' /\ (forall k i a, mX pt' k i a * hsx c' a = mX pt k i a * hsx c a) /\ (forall a, returned c' pt' a = returned c pt a).
Proof.
  intros OK SC SC' SB pt H. assert (CH : forall s, cheapest c par s -> cheapest c' par s).
  { destruct SB as (E1 & E2 & E3). destruct c, c'. cbn in *. injection E1 as -> -> -> -> -> -> -> ->. injection E2 as -> -> -> -> ->. injection E3 as -> -> -> -> -> -> -> ->.
    intros s Hs. exact Hs. }
  assert (OK' : mcfg_ok c').
  { destruct SB as (E1 & E2 & _). destruct OK as (_ & O2 & O3). destruct c, c'. cbn in *. injection E1 as -> -> -> -> -> -> -> ->. injection E2 as -> -> -> -> ->.
    split; [|split; assumption]. intros a _. destruct SC' as [Q _]. destruct (Q a) as (Q1 & _). cbn in *. lra. }
  apply (minimiser_cheapest c OK SC) in H. apply CH in H. rewrite <- (expl_point c' SC' (expl_of c pt)) in H. apply (minimiser_cheapest c' OK' SC') in H.
  exists (point_of c' (expl_of c pt)). split; [exact H|].
  assert (Q : forall k i a, mX (point_of c' (expl_of c pt)) k i a * hsx c' a = mX pt k i a * hsx c a).
  { intros k i a. pose proof (expl_point c' SC' (expl_of c pt)) as Q. apply (f_equal (fun s => st_x s k i a)) in Q. exact Q. }
  split; [exact Q|]. intros a. unfold returned, mXu, vmul, hlast, hnc. rewrite Q.
  destruct SB as (E1 & E2 & _). destruct c, c'. cbn in *. injection E1 as -> -> -> -> -> -> -> ->. injection E2 as -> -> -> -> ->. reflexivity.
Qed.

(** [c] is the problem that the calls of the history define: the options and functions given at construction, the horizon,
    the constraints, the objective, and the scaling factors and bounds set last. *)
Record mhe_problem_of (L : hlink) (tr : list (@hcall (hlink_env L) * res (option vec))) (o : h_userobj) (c : mcfg) : Prop := {
  mp_N : hs_nhor (hsettings_of tr) = Some (hN c);
  mp_fixed : hsingle c = q_single L /\ hchk c = q_chk L /\ hnlchk c = q_nlchk L /\ hmdl c = q_mdl L /\ hny c = q_ny L /\ hnpe c = q_npe L /\
             hmeas c = q_meas L /\ hdisc c = q_disc L /\ psel c = q_psel L;
  mp_nl : hnl c = hnlcons_of tr;
  mp_obj : hstage c = fst o /\ harrival c = snd o;
  mp_scal : hsx c = (hscaling_of tr : h_scal) Vx /\ hsu c = (hscaling_of tr : h_scal) Vu /\ hsz c = (hscaling_of tr : h_scal) Vz /\ hspe c = (hscaling_of tr : h_scal) Vpest;
  mp_x : hxlb c = fst ((hbounds_of tr : h_bounds) Vx) /\ hxub c = snd ((hbounds_of tr : h_bounds) Vx);
  mp_u : hulb c = fst ((hbounds_of tr : h_bounds) Vu) /\ huub c = snd ((hbounds_of tr : h_bounds) Vu);
  mp_z : hzlb c = fst ((hbounds_of tr : h_bounds) Vz) /\ hzub c = snd ((hbounds_of tr : h_bounds) Vz);
  mp_p : hplb c = fst ((hbounds_of tr : h_bounds) Vpest) /\ hpub c = snd ((hbounds_of tr : h_bounds) Vpest) }.
Lemma mhe_problem_after L tr o c : mhe_problem_of L tr o c -> c = problem_after L tr o.
Proof.
  intros [H1 (F1 & F2 & F3 & F4 & F5 & F6 & F7 & F8 & F9) H3 (O1 & O2) (S1 & S2 & S3 & S4) (X1 & X2) (U1 & U2) (Z1 & Z2) (P1 & P2)].
  destruct c. cbn in F1, F2, F3, F4, F5, F6, F7, F8, F9, O1, O2, S1, S2, S3, S4, X1, X2, U1, U2, Z1, Z2, P1, P2, H3, H1.
  subst. unfold problem_after, hlink_cfg. cbn [hp_set hp_scal hp_nl hp_obj]. rewrite H1. reflexivity.
Qed.

(** The situation: after any ordinary history h0 of calls, setup is accepted; scaling factors are positive (1 for estimated
    parameters), and the solver finds an optimal point whenever there is one. *)
Record estimator_ready (L : hlink) (N : nat) (dt : R) (h0 : list (@hcall (hlink_env L))) (tr0 : list (@hcall (hlink_env L) * res (option vec))) (o : h_userobj) (c : mcfg) : Prop := {
  rdy_prob : mhe_problem_of L tr0 o c;
  rdy_hist : exists m0, hexec h0 mhe_init = (m0, tr0) /\ snd (mhe_setup m0) = Ok tt;
  rdy_ord : hordinary tr0;
  rdy_N : hs_nhor (hsettings_of tr0) = Some N; rdy_dt : hs_tstep (hsettings_of tr0) = Some dt; rdy_obj : hobjective_of tr0 = Some o;
  rdy_ok : mcfg_ok c; rdy_sc : good_scaling c;
  rdy_sol : solves_globally L c }.

(** Whatever the measurements, every make_step returns the last state of an explanation e j of the measurements of its
    window, a cheapest one if there is a cheapest one; the arrival cost refers to time 1 of the explanation found in the
    step before. *)
Theorem C103_estimates_are_cheapest_explanations (L : hlink) N dt h0 tr0 o c x0 p0 ys T :
  estimator_ready L N dt h0 tr0 o c ->
  exists m est e,
    hexec (h0 ++ start_calls L x0 p0 ++ step_calls L ys T) mhe_init = (m, tr0 ++ observed L x0 p0 ys est T) /\
    forall j, (j < T)%nat ->
      let data := step_data L tr0 N dt ys j (arrival_x c x0 e j) (arrival_p p0 e j) in
      est j = state_at c (e j) N /\ ((exists s, cheapest c data s) -> cheapest c data (e j)).
Proof.
  intros [HP (m0 & X0 & SU) ORD HN Hdt HO OK SC SOL]. rewrite (mhe_problem_after L tr0 o c HP) in OK, SC, SOL |- *. clear c HP. set (c := problem_after L tr0 o) in *.
  destruct (mhe_setup m0) as [m1 r1] eqn:E1. cbn in SU. subst r1. set (E := hlink_env L) in *.
  assert (OX : exists ox, e_ox m1 = Some ox /\ e_setup m1 = true).
  { clear - E1. unfold mhe_setup in E1. cbv zeta in E1.
    repeat match type of E1 with context [match ?d with _ => _ end] => destruct d; try discriminate end; injection E1 as <-; cbn; eauto. }
  destruct OX as (ox & OX & ST1).
  set (m2 := fst (do_hcall m1 (@HX0 E x0))). set (m3 := fst (do_hcall m2 (@HPe0 E p0))).
  set (ox4 := h_guess E ox x0 (hi_u (e_it m3)) (hi_z (e_it m3)) p0 (hc_scal (e_cfg m3))). set (m4 := e_with_ox (Some ox4) m3).
  assert (X4 : hexec (h0 ++ start_calls L x0 p0) mhe_init = (m4, tr0 ++ map (fun c => (c, Ok None)) (start_calls L x0 p0))).
  { rewrite hexec_app, X0. unfold start_calls. cbn [hexec do_hcall]. rewrite E1.
    cbn [hret]. unfold mhe_guess. cbn [e_setup e_with_it e_ox e_it e_cfg]. rewrite ST1, OX. reflexivity. }
  assert (ORD4 : hordinary (tr0 ++ map (fun c => (c, Ok None)) (start_calls L x0 p0))).
  { set (tr := tr0 : list (@hcall E * res (option (hX E)))). change (hordinary tr) in ORD.
    assert (Q : hordinary ((((tr ++ [(@HSetup E, Ok None)]) ++ [(@HX0 E x0, Ok None)]) ++ [(@HPe0 E p0, Ok None)]) ++ [(@HGuess E, Ok None)])).
    { repeat (apply hordinary_snoc; split; [|exact Logic.I]). exact ORD. }
    rewrite <- !app_assoc in Q. exact Q. }
  destruct (hinv2_reach _ _ _ ORD4 X4) as [I J]. pose proof (hconf_reach _ _ _ X4) as K.
  assert (READY : ready_at L o (hnlcons_of tr0) (hscaling_of tr0) (hbounds_of tr0) (hsettings_of tr0) ys (hclock tr0) dt (htvp_force tr0) (hp_force tr0) (huser_y tr0) 0 x0 p0 m4
     (tr0 ++ map (fun c => (c, Ok None)) (start_calls L x0 p0))).
  { constructor; auto.
    - unfold hobjective_of. rewrite fold_left_app. exact HO.
    - unfold hnlcons_of. rewrite fold_left_app. reflexivity.
    - unfold hscaling_of. rewrite fold_left_app. reflexivity.
    - unfold hbounds_of. rewrite fold_left_app. reflexivity.
    - unfold hsettings_of. rewrite fold_left_app. reflexivity.
    - unfold htvp_force, htvp_of. rewrite fold_left_app. reflexivity.
    - unfold hp_force, hp_of. rewrite fold_left_app. reflexivity.
    - unfold huser_y. rewrite fold_left_app. reflexivity.
    - unfold hclock, hlog_state. rewrite fold_left_app. cbn. destruct (fold_left _ tr0 _) as [[[s x] t] l]. cbn. ring.
    - unfold hlog, hlog_state. rewrite fold_left_app. cbn. destruct (fold_left _ tr0 _) as [[[s x] t] l]. reflexivity.
    - exists ox4. split; [reflexivity|]. apply functional_extensionality. intros a.
      assert (SCE : hc_scal (e_cfg m3) = hscaling_of tr0).
      { pose proof (n_scal _ _ K) as Q. unfold hscaling_of in Q. rewrite fold_left_app in Q. exact Q. }
      unfold ox4. rewrite SCE. change (x0 a / (hscaling_of tr0 : h_scal) Vx a * (hscaling_of tr0 : h_scal) Vx a = x0 a).
      assert (Q : 0 < (hscaling_of tr0 : h_scal) Vx a) by (destruct SC as [Q _]; destruct (Q a) as [Q1 _]; exact Q1).
      revert Q. generalize ((hscaling_of tr0 : h_scal) Vx a : R) (x0 a : R). intros q r Q. field. apply Rgt_not_eq. exact Q. }
  destruct (ready_run L N o (hnlcons_of tr0) (hscaling_of tr0) (hbounds_of tr0) (hsettings_of tr0) ys (hclock tr0) dt (htvp_force tr0) (hp_force tr0) (huser_y tr0) x0 p0
    (conj HN Hdt) OK SC SOL m4 _ READY T) as (est & e & m & X1 & X2 & _).
  subst E. exists m, est, e. split; [|exact X2]. rewrite app_assoc, hexec_app, X4. unfold step_calls. rewrite X1. unfold observed. rewrite app_assoc. reflexivity.
Qed.

(** ** A concrete case: x' = x + w, y = x + v, horizon 1, all weights 1, states scaled by 2.  The cheapest explanation of
    a measurement y after the estimate xp shares the difference equally: a third to the arrival cost, to w and to v. *)
Definition hq_best (xp y : R) : explanation :=
  let d := (y - xp) / 3 in
  {| st_x := fun k _ _ => match k with O => xp + d | _ => xp + 2 * d end; st_z := fun _ _ => vzero; st_u := fun _ => vzero;
     st_w := fun _ _ => d; st_v := fun _ _ => d; st_e := fun _ => vzero; st_p := vzero |}.
Definition hq_link : hlink :=
  {| q_mdl := {| n_x := 1; n_u := 0; n_z := 0; rhs := fun x u z tvp p w => fun _ => x 0%nat + w 0%nat; alg := fun _ _ _ _ _ _ => vzero |};
     q_ny := 1; q_npe := 0; q_meas := fun x u z tvp p v => fun _ => x 0%nat + v 0%nat; q_psel := inr; q_single := false; q_chk := true; q_nlchk := false;
     q_disc := Discrete; q_ntvp := 0; q_npset := 0;
     q_solve := fun c par ws l => (point_of c (hq_best (mXprev par 0%nat) (mY par 0%nat 0%nat)), vzero, vzero, true) |}.
Definition hq_obj : h_userobj :=
  match default_objective 1 1 1 0 hx_one (Some hx_one) None (Some hx_one) with Ok o => o | Err _ => (fun _ _ _ _ => 0, fun _ _ _ _ _ => 0) end.
Definition hq_calls : list (@hcall (hlink_env hq_link)) :=
  [@HParam (hlink_env hq_link) (fun _ => mkHset (Some 1) (Some 1%nat) true false false false); @HObjective (hlink_env hq_link) (Good hq_obj);
   @HScaling (hlink_env hq_link) (fun s t => match t with Vx => fun _ => 2 | _ => s t end)].
Definition hq_trace : list (@hcall (hlink_env hq_link) * res (option vec)) := map (fun c => (c, Ok None)) hq_calls.
Definition hq_cfg : mcfg := problem_after hq_link hq_trace hq_obj.

Lemma hq_good : good_scaling hq_cfg.
Proof. split; [intros a; cbn; repeat split; lra|reflexivity]. Qed.
Lemma hq_ok : mcfg_ok hq_cfg.
Proof. repeat split; [intros a _; cbn; lra|discriminate]. Qed.
Lemma hq_price par s : price hq_cfg par s = (st_x s 0 0 0%nat - mXprev par 0%nat) ^ 2 + st_v s 0%nat 0%nat ^ 2 + st_w s 0%nat 0%nat ^ 2.
Proof.
  destruct (proj1 (C66_default_objective 1 1 1 0 hx_one (Some hx_one) None (Some hx_one))) as (stage & arrival & DO & HS & HA); [repeat split|].
  assert (HO : hq_obj = (stage, arrival)) by (unfold hq_obj; rewrite DO; reflexivity).
  unfold price. change (hstage hq_cfg) with (fst hq_obj). change (harrival hq_cfg) with (snd hq_obj). rewrite HO. cbn [fst snd]. rewrite HA. unfold total at 1.
  cbn. rewrite HS. unfold weight_term, weighted_square, total. cbn. change (state_at hq_cfg s 0 0%nat) with (st_x s 0 0 0%nat). ring.
Qed.
Lemma hq_explains par s : explains hq_cfg par s <->
  st_x s 1 0 0%nat = st_x s 0 0 0%nat + st_w s 0%nat 0%nat /\ st_x s 1 0 0%nat + st_v s 0%nat 0%nat = mY par 0%nat 0%nat.
Proof.
  unfold explains. split.
  - intros [H _]. destruct (H 0%nat) as ((F & _) & M & _); [cbn; lia|]. specialize (F 0%nat ltac:(cbn; lia)). specialize (M 0%nat ltac:(cbn; lia)). cbn in F, M. auto.
  - intros [F M]. split.
    + intros k Hk. cbn in Hk. assert (k = 0%nat) by lia. subst k. split; [|split].
      * split; intros a Ha; cbn in Ha; [|lia]. assert (a = 0%nat) by lia. subst a. exact F.
      * intros a Ha. cbn in Ha. assert (a = 0%nat) by lia. subst a. exact M.
      * intros i n Hn. destruct i; discriminate.
    + split; [|split; [|split; [|split]]]; intros; try (split; exact Logic.I).
      destruct a; discriminate.
Qed.
Lemma hq_cheapest par : cheapest hq_cfg par (hq_best (mXprev par 0%nat) (mY par 0%nat 0%nat)).
Proof.
  split; [apply hq_explains; cbn; split; lra|]. intros s' H. apply hq_explains in H as [H1 H2]. rewrite !hq_price. cbn [hq_best st_x st_v st_w].
  set (p := mXprev par 0%nat) in *. set (y := mY par 0%nat 0%nat) in *. set (a := st_x s' 0 0 0%nat) in *. set (w := st_w s' 0%nat 0%nat) in *. set (v := st_v s' 0%nat 0%nat) in *.
  assert (E : (y - p) / 3 = ((a - p) + w + v) / 3) by lra. rewrite E. clear - p a w v. set (q := a - p). assert (Q : p + (q + w + v) / 3 - p = (q + w + v) / 3) by lra. rewrite Q.
  pose proof (pow2_ge_0 (q - w)). pose proof (pow2_ge_0 (q - v)). pose proof (pow2_ge_0 (w - v)). nra.
Qed.
Lemma hq_solves : solves_globally hq_link hq_cfg.
Proof.
  intros par ws l pt lg lx st H _. cbn in H. injection H as <- _ _ _. apply (minimiser_cheapest hq_cfg hq_ok hq_good). rewrite expl_point by exact hq_good. apply hq_cheapest.
Qed.
Lemma hq_ready : estimator_ready hq_link 1 1 hq_calls hq_trace hq_obj hq_cfg.
Proof.
  constructor; [constructor; repeat split| | | | | | | |]; try exact hq_ok; try exact hq_good; try exact hq_solves; try reflexivity.
  - eexists. split; reflexivity.
  - set (tr := hq_trace : list (@hcall (hlink_env hq_link) * res (option (hX (hlink_env hq_link))))).
    assert (Q : hordinary ((([] ++ [(@HParam (hlink_env hq_link) (fun _ => mkHset (Some 1) (Some 1%nat) true false false false), Ok None)]) ++ [(@HObjective (hlink_env hq_link) (Good hq_obj), Ok None)])
        ++ [(@HScaling (hlink_env hq_link) (fun s t => match t with Vx => fun _ => 2 | _ => s t end), Ok None)])).
    { apply hordinary_snoc. split; [|exact Logic.I]. apply hordinary_snoc. split; [|exact Logic.I]. apply hordinary_snoc. split; [apply hordinary_nil|]. intros H. exfalso. apply H. reflexivity. }
    exact Q.
Qed.
(** From the estimate 0 and the measurements 3 and 8: the estimates are 2 and 6, by the theorem. *)
Example C103_nonvacuous :
  estimator_ready hq_link 1 1 hq_calls hq_trace hq_obj hq_cfg /\
  (forall par, exists s, cheapest hq_cfg par s) /\
  exists m est, hexec (hq_calls ++ start_calls hq_link vzero vzero ++ step_calls hq_link (fun j _ => match j with O => 3 | _ => 8 end) 2) mhe_init
      = (m, hq_trace ++ observed hq_link vzero vzero (fun j _ => match j with O => 3 | _ => 8 end) est 2) /\
    est 0%nat 0%nat = 2 /\ est 1%nat 0%nat = 6.
Proof.
  split; [exact hq_ready|]. split; [intros par; eexists; apply hq_cheapest|].
  set (ys := fun (j : nat) (_ : nat) => match j with O => 3 | _ => 8 end).
  destruct (C103_estimates_are_cheapest_explanations hq_link 1 1 hq_calls hq_trace hq_obj hq_cfg vzero vzero ys 2 hq_ready) as (m & est & e & X & H).
  exists m, est. split; [exact X|].
  assert (U : forall par s, cheapest hq_cfg par s -> st_x s 1 0 0%nat = mXprev par 0%nat + 2 * ((mY par 0%nat 0%nat - mXprev par 0%nat) / 3)).
  { intros par s [F M]. pose proof (M _ (proj1 (hq_cheapest par))) as Q. apply hq_explains in F as [F1 F2]. rewrite !hq_price in Q. cbn [hq_best st_x st_v st_w] in Q.
    set (p := mXprev par 0%nat) in *. set (y := mY par 0%nat 0%nat) in *. set (a := st_x s 0 0 0%nat) in *. set (w := st_w s 0%nat 0%nat) in *. set (v := st_v s 0%nat 0%nat) in *. rewrite F1 in *.
    assert (E : y = p + (a - p) + w + v) by lra. rewrite E in Q. set (q := a - p) in *. assert (A : a = p + q) by (unfold q; lra). rewrite A in *. rewrite E. clear - Q.
    pose proof (pow2_ge_0 (q - w)) as B1. pose proof (pow2_ge_0 (q - v)) as B2. pose proof (pow2_ge_0 (w - v)) as B3.
    assert (S : (q - w) ^ 2 + (q - v) ^ 2 + (w - v) ^ 2 <= 0) by nra. assert (Z1 : (q - w) ^ 2 = 0) by lra. assert (Z2 : (q - v) ^ 2 = 0) by lra.
    assert (q - w = 0) by (apply Rsqr_0_uniq; unfold Rsqr; nra). assert (q - v = 0) by (apply Rsqr_0_uniq; unfold Rsqr; nra). lra. }
  destruct (H 0%nat ltac:(lia)) as [A0 B0]. destruct (H 1%nat ltac:(lia)) as [A1 B1]. cbv zeta in B0, B1.
  specialize (B0 (ex_intro _ _ (hq_cheapest _))). specialize (B1 (ex_intro _ _ (hq_cheapest _))). apply U in B0, B1.
  assert (P0 : est 0%nat 0%nat = 2).
  { rewrite A0. change (st_x (e 0%nat) 1 0 0%nat = 2). rewrite B0. unfold step_data. cbn. unfold vzero. lra. }
  split; [exact P0|]. rewrite A1. change (st_x (e 1%nat) 1 0 0%nat = 6). rewrite B1. rewrite A0 in P0. change (st_x (e 0%nat) 1 0 0%nat = 2) in P0.
  unfold step_data. cbn [mXprev mY]. change (arrival_x hq_cfg vzero e 1) with (st_x (e 0%nat) 1%nat 0%nat). rewrite P0. cbn. lra.
Qed.

Print Assumptions C103_feasible_iff_explanation.
Print Assumptions C103_points_are_explanations.
Print Assumptions C103_scaling_irrelevant.
Print Assumptions C103_estimates_are_cheapest_explanations.
