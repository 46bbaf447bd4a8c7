(** * C102: on noise-free data an estimator that is right stays right, and output feedback is state feedback. *)
From Coq Require Import Reals Lra FunctionalExtensionality.
From Verif Require Import Base TreeModel NlpModel NlpSpec MpcModel MheModel MheSpec MheProofs MheProps MheHistSpec MheHistProofs MheHistProps.
From Verif Require Import MheNlpModel MheNlpSpec MheNlpProofs MheNlpProps HlinkModel HlinkSpec HlinkProofs HlinkProofs2.
Import List NlpModel.
Local Open Scope R_scope.

(** The problem set up after a history. *)
Definition problem_after (L : hlink) (tr : list (@hcall (hlink_env L) * res (option vec))) (o : h_userobj) : mcfg :=
  hlink_cfg L (mkHprob o (hnlcons_of tr) (hscaling_of tr) (hsettings_of tr)) (hbounds_of tr).

(** The situation of C102.  After any ordinary history h0 of calls (tr0), setup is accepted with the default
    objective, positive definite weights and the default measurement window; the model's expressions are
    expressions of its variables, without noise a measurement determines the step it ends, the plant runs for T
    steps without noise inside the limits given to the estimator, and (for horizons above 1, whose first
    windows repeat the oldest measurement) the first of these steps starts at rest; the functions of time-varying and set
    parameters return the plant's values. *)
Record noise_free_situation (L : hlink) (nw nv N T : nat) (h0 : list (@hcall (hlink_env L))) (tr0 : list (@hcall (hlink_env L) * res (option vec)))
  (xs us zs tvs ys : nat -> vec) (pe ps : vec) (Px : weight) (Pv Pw Pp : option weight) (dt : R) : Prop := {
  sit_disc : q_disc L = Discrete; sit_nlchk : q_nlchk L = false; sit_own : own_variables L nw nv;
  sit_hist : exists m0, hexec h0 mhe_init = (m0, tr0) /\ snd (mhe_setup m0) = Ok tt;
  sit_ord : hordinary tr0; sit_meas : huser_y tr0 = None;
  sit_N : hs_nhor (hsettings_of tr0) = Some N; sit_N1 : (1 <= N)%nat; sit_dt : hs_tstep (hsettings_of tr0) = Some dt;
  sit_obj : exists o, hobjective_of tr0 = Some o /\ default_objective (n_x (q_mdl L)) nv nw (q_npe L) Px Pv Pp Pw = Ok o /\ solves_globally L (problem_after L tr0 o);
  sit_Px : w_shape Px = (n_x (q_mdl L), n_x (q_mdl L)) /\ positive_definite (n_x (q_mdl L)) (w_at Px);
  sit_Pv : definite_weight Pv nv; sit_Pw : definite_weight Pw nw; sit_Pp : definite_weight Pp (q_npe L);
  sit_sc : forall t a, 0 < (hscaling_of tr0 : h_scal) t a; sit_spe : forall a, (hscaling_of tr0 : h_scal) Vpest a = 1;
  sit_nl : own_constraints L (hnlcons_of tr0); sit_pen : sane_penalties (hnlcons_of tr0);
  sit_det : measurement_determines_step L (true_p L pe ps);
  sit_run : plant_run L T xs us zs tvs ys (true_p L pe ps);
  sit_lim : run_within L T xs us zs tvs pe ps (hbounds_of tr0) (hnlcons_of tr0);
  sit_rest : (2 <= N)%nat -> agree (n_x (q_mdl L)) (xs 1%nat) (xs 0%nat);
  sit_tv : forall n k, (n < T)%nat -> (k < N)%nat -> nth k (htvp_force tr0 ((hclock tr0 : R) + INR n * dt) : list vec) vzero = tvs (n + 1 + k - N)%nat;
  sit_p : forall n, (n < T)%nat -> (hp_force tr0 ((hclock tr0 : R) + INR n * dt) : vec) = ps }.

(** The calls: setup, the initial estimates, set_initial_guess, and one make_step for each measurement. *)
Definition start_calls (L : hlink) (x0 p0 : vec) : list (@hcall (hlink_env L)) := [HSetup; @HX0 (hlink_env L) x0; @HPe0 (hlink_env L) p0; HGuess].
Definition step_calls (L : hlink) (ys : nat -> vec) (T : nat) : list (@hcall (hlink_env L)) := map (fun j => @HStep (hlink_env L) (Good (ys j))) (seq 0 T).
(** The results observed: no result for the first four, the estimate est j for the j-th step. *)
Definition observed (L : hlink) (x0 p0 : vec) (ys est : nat -> vec) (T : nat) : list (@hcall (hlink_env L) * res (option vec)) :=
  map (fun c => (c, Ok None)) (start_calls L x0 p0) ++ map (fun j => (@HStep (hlink_env L) (Good (ys j)), Ok (Some (est j)))) (seq 0 T).

Section T.
  Variable L : hlink.
  Notation E := (hlink_env L).

  Lemma start_right nw nv N T h0 tr0 xs us zs tvs ys pe ps Px Pv Pw Pp dt x0 p0 :
    noise_free_situation L nw nv N T h0 tr0 xs us zs tvs ys pe ps Px Pv Pw Pp dt ->
    agree (n_x (q_mdl L)) x0 (xs 0%nat) -> agree (q_npe L) p0 pe ->
    exists m stage arrival, hexec (h0 ++ start_calls L x0 p0) mhe_init = (m, tr0 ++ map (fun c => (c, Ok None)) (start_calls L x0 p0)) /\
      default_objective (n_x (q_mdl L)) nv nw (q_npe L) Px Pv Pp Pw = Ok (stage, arrival) /\ solves_globally L (problem_after L tr0 (stage, arrival)) /\
      right_at L N stage arrival (hnlcons_of tr0) (hscaling_of tr0) (hbounds_of tr0) (hsettings_of tr0) xs ys pe (hclock tr0) dt (htvp_force tr0) (hp_force tr0) 0 m
        (tr0 ++ map (fun c => (c, Ok None)) (start_calls L x0 p0)).
  Proof.
    intros S Hx Hp. destruct (sit_hist _ _ _ _ _ _ _ _ _ _ _ _ _ _ _ _ _ _ _ S) as (m0 & X0 & SU).
    destruct (sit_obj _ _ _ _ _ _ _ _ _ _ _ _ _ _ _ _ _ _ _ S) as ([stage arrival] & HO & DO & SOL).
    pose proof (sit_ord _ _ _ _ _ _ _ _ _ _ _ _ _ _ _ _ _ _ _ S) as ORD.
    destruct (mhe_setup m0) as [m1 r1] eqn:E1. cbn in SU. subst r1.
    assert (OX : exists ox, e_ox m1 = Some ox /\ e_setup m1 = true).
    { clear - E1. unfold mhe_setup in E1. cbv zeta in E1.
      repeat match type of E1 with context [match ?d with _ => _ end] => destruct d; try discriminate end; injection E1 as <-; cbn; eauto. }
    destruct OX as (ox & OX & ST1).
    set (m2 := fst (do_hcall m1 (@HX0 E x0))). set (m3 := fst (do_hcall m2 (@HPe0 E p0))).
    set (ox4 := h_guess E ox x0 (hi_u (e_it m3)) (hi_z (e_it m3)) p0 (hc_scal (e_cfg m3))). set (m4 := e_with_ox (Some ox4) m3).
    assert (X4 : hexec (h0 ++ start_calls L x0 p0) mhe_init = (m4, tr0 ++ map (fun c => (c, Ok None)) (start_calls L x0 p0))).
    { rewrite hexec_app, X0. unfold start_calls. cbn [hexec do_hcall]. rewrite E1.
      cbn [hret]. unfold mhe_guess. cbn [e_setup e_with_it e_ox e_it e_cfg]. rewrite ST1, OX. reflexivity. }
    exists m4, stage, arrival. split; [exact X4|]. split; [exact DO|]. split; [exact SOL|].
    assert (ORD4 : hordinary (tr0 ++ map (fun c => (c, Ok None)) (start_calls L x0 p0))).
    { set (tr := tr0 : list (@hcall E * res (option (hX E)))). change (hordinary tr) in ORD.
      assert (Q : hordinary ((((tr ++ [(@HSetup E, Ok None)]) ++ [(@HX0 E x0, Ok None)]) ++ [(@HPe0 E p0, Ok None)]) ++ [(@HGuess E, Ok None)])).
      { repeat (apply hordinary_snoc; split; [|exact Logic.I]). exact ORD. }
      rewrite <- !app_assoc in Q. exact Q. }
    destruct (hinv2_reach _ _ _ ORD4 X4) as [I J]. pose proof (hconf_reach _ _ _ X4) as K.
    assert (CF : hconf m0 tr0) by (eapply hconf_reach; exact X0).
    constructor; auto.
    - unfold hobjective_of. rewrite fold_left_app. exact HO.
    - unfold hnlcons_of. rewrite fold_left_app. reflexivity.
    - unfold hscaling_of. rewrite fold_left_app. reflexivity.
    - unfold hbounds_of. rewrite fold_left_app. reflexivity.
    - unfold hsettings_of. rewrite fold_left_app. reflexivity.
    - unfold htvp_force, htvp_of. rewrite fold_left_app. reflexivity.
    - unfold hp_force, hp_of. rewrite fold_left_app. reflexivity.
    - unfold huser_y. rewrite fold_left_app. exact (sit_meas _ _ _ _ _ _ _ _ _ _ _ _ _ _ _ _ _ _ _ S).
    - unfold hclock, hlog_state. rewrite fold_left_app. cbn. destruct (fold_left _ tr0 _) as [[[s x] t] l]. cbn. ring.
    - unfold hlog, hlog_state. rewrite fold_left_app. cbn. destruct (fold_left _ tr0 _) as [[[s x] t] l]. reflexivity.
    - exists ox4. split; [reflexivity|]. replace (0 + 1 - N)%nat with 0%nat by (pose proof (sit_N1 _ _ _ _ _ _ _ _ _ _ _ _ _ _ _ _ _ _ _ S); lia).
      eapply agree_trans; [|exact Hx]. intros a Ha.
      assert (SC : hc_scal (e_cfg m3) = hscaling_of tr0).
      { pose proof (n_scal _ _ K) as Q. unfold hscaling_of in Q. rewrite fold_left_app in Q. exact Q. }
      unfold ox4. rewrite SC. change (x0 a / (hscaling_of tr0 : h_scal) Vx a * (hscaling_of tr0 : h_scal) Vx a = x0 a).
      pose proof (sit_sc _ _ _ _ _ _ _ _ _ _ _ _ _ _ _ _ _ _ _ S Vx a) as Q. revert Q. generalize ((hscaling_of tr0 : h_scal) Vx a : R) (x0 a : R). intros q r Q. field. apply Rgt_not_eq. exact Q.
  Qed.

  (** Started from the true state and the true parameters, every make_step succeeds and returns the true state, for
      any number of steps; the parameter estimates stay right. *)
  Theorem C102_right_stays_right nw nv N T h0 tr0 xs us zs tvs ys pe ps Px Pv Pw Pp dt x0 p0 :
    noise_free_situation L nw nv N T h0 tr0 xs us zs tvs ys pe ps Px Pv Pw Pp dt ->
    agree (n_x (q_mdl L)) x0 (xs 0%nat) -> agree (q_npe L) p0 pe ->
    exists m est, hexec (h0 ++ start_calls L x0 p0 ++ step_calls L ys T) mhe_init = (m, tr0 ++ observed L x0 p0 ys est T) /\
      (forall j, (j < T)%nat -> agree (n_x (q_mdl L)) (est j) (xs (j + 1)%nat)) /\
      agree (q_npe L) (hi_pe (e_it m)) pe.
  Proof.
    intros S Hx Hp. destruct (start_right _ _ _ _ _ _ _ _ _ _ _ _ _ _ _ _ _ _ x0 p0 S Hx Hp) as (m0 & stage & arrival & X & DO & SOL & G).
    pose proof (sit_Pv _ _ _ _ _ _ _ _ _ _ _ _ _ _ _ _ _ _ _ S) as Dv. pose proof (sit_Pw _ _ _ _ _ _ _ _ _ _ _ _ _ _ _ _ _ _ _ S) as Dw. pose proof (sit_Pp _ _ _ _ _ _ _ _ _ _ _ _ _ _ _ _ _ _ _ S) as Dp.
    destruct (sit_Px _ _ _ _ _ _ _ _ _ _ _ _ _ _ _ _ _ _ _ S) as [Sx Dx].
    assert (FIT : forall P n, definite_weight P n -> weight_fits P n) by (intros [W|] n; cbn; [intros [H _]; exact H|auto]).
    destruct (proj1 (C66_default_objective (n_x (q_mdl L)) nv nw (q_npe L) Px Pv Pp Pw)) as (st' & ar' & DO' & HS & HA); [auto|].
    rewrite DO in DO'. injection DO' as <- <-.
    destruct (right_run L nw nv N (sit_disc _ _ _ _ _ _ _ _ _ _ _ _ _ _ _ _ _ _ _ S) (sit_nlchk _ _ _ _ _ _ _ _ _ _ _ _ _ _ _ _ _ _ _ S) (sit_own _ _ _ _ _ _ _ _ _ _ _ _ _ _ _ _ _ _ _ S) stage arrival _ _ _ _ (sit_nl _ _ _ _ _ _ _ _ _ _ _ _ _ _ _ _ _ _ _ S)
      (sit_sc _ _ _ _ _ _ _ _ _ _ _ _ _ _ _ _ _ _ _ S) (sit_spe _ _ _ _ _ _ _ _ _ _ _ _ _ _ _ _ _ _ _ S) Px Pv Pw Pp Dx Dv Dw Dp HS HA (sit_pen _ _ _ _ _ _ _ _ _ _ _ _ _ _ _ _ _ _ _ S)
      T xs us zs tvs ys pe ps (sit_det _ _ _ _ _ _ _ _ _ _ _ _ _ _ _ _ _ _ _ S) (sit_run _ _ _ _ _ _ _ _ _ _ _ _ _ _ _ _ _ _ _ S) (sit_lim _ _ _ _ _ _ _ _ _ _ _ _ _ _ _ _ _ _ _ S)
      (sit_N1 _ _ _ _ _ _ _ _ _ _ _ _ _ _ _ _ _ _ _ S) (sit_rest _ _ _ _ _ _ _ _ _ _ _ _ _ _ _ _ _ _ _ S) (hclock tr0) dt (htvp_force tr0) (hp_force tr0)
      (conj (sit_N _ _ _ _ _ _ _ _ _ _ _ _ _ _ _ _ _ _ _ S) (sit_dt _ _ _ _ _ _ _ _ _ _ _ _ _ _ _ _ _ _ _ S))
      (sit_tv _ _ _ _ _ _ _ _ _ _ _ _ _ _ _ _ _ _ _ S) (sit_p _ _ _ _ _ _ _ _ _ _ _ _ _ _ _ _ _ _ _ S) SOL m0 _ G T (le_n T)) as (est & m & X1 & X2 & X3).
    exists m, est. split; [|split; [exact X2|exact (g_pe _ _ _ _ _ _ _ _ _ _ _ _ _ _ _ _ _ _ X3)]].
    rewrite app_assoc, hexec_app, X. unfold step_calls. rewrite X1. unfold observed. rewrite app_assoc. reflexivity.
  Qed.

  (** Output feedback is state feedback: whatever controller K chooses the inputs from the estimates it is given (the
      assigned initial one, then those make_step returns; it looks at the states of the model only), the inputs are those
      it would choose from the true states. *)
  Theorem C102_output_feedback nw nv N T h0 tr0 xs us zs tvs ys pe ps Px Pv Pw Pp dt x0 p0 (K : list vec -> vec) m est :
    noise_free_situation L nw nv N T h0 tr0 xs us zs tvs ys pe ps Px Pv Pw Pp dt ->
    agree (n_x (q_mdl L)) x0 (xs 0%nat) -> agree (q_npe L) p0 pe ->
    (forall l l', Forall2 (agree (n_x (q_mdl L))) l l' -> K l = K l') ->
    hexec (h0 ++ start_calls L x0 p0 ++ step_calls L ys T) mhe_init = (m, tr0 ++ observed L x0 p0 ys est T) ->
    (forall j, (j < T)%nat -> us j = K (x0 :: map est (seq 0 j))) ->
    forall j, (j < T)%nat -> us j = K (map xs (seq 0 (j + 1))).
  Proof.
    intros S Hx Hp HK X HU j Hj. destruct (C102_right_stays_right _ _ _ _ _ _ _ _ _ _ _ _ _ _ _ _ _ _ x0 p0 S Hx Hp) as (m' & est' & X' & R & _).
    rewrite X in X'. injection X' as _ X'. apply app_inv_head in X'. unfold observed in X'. apply app_inv_head in X'.
    assert (EQ : forall i, (i < T)%nat -> est i = est' i).
    { intros i Hi. apply (f_equal (fun l => nth_error l i)) in X'. rewrite !nth_error_map, !(nth_error_nth' (seq 0 T) 0%nat), !seq_nth in X' by (rewrite ?seq_length; lia).
      cbn in X'. injection X' as X'. exact X'. }
    rewrite (HU j Hj). apply HK. rewrite Nat.add_1_r. cbn [seq map]. constructor; [exact Hx|].
    rewrite <- seq_shift, map_map. clear - R EQ Hj. assert (G : forall l, (forall i, In i l -> (i < T)%nat) -> Forall2 (agree (n_x (q_mdl L))) (map est l) (map (fun i => xs (Datatypes.S i)) l)).
    { induction l as [|i l IH]; intros H; constructor.
      - rewrite EQ by (apply H; left; reflexivity). replace (Datatypes.S i) with (i + 1)%nat by lia. apply R. apply H. left. reflexivity.
      - apply IH. intros q Hq. apply H. right. exact Hq. }
    apply G. intros i Hi. apply in_seq in Hi. lia.
  Qed.
End T.

(** ** A concrete case: x' = p x + u + w with p estimated; only the input is measured (y = u + v); horizon 2; the plant starts
    at rest at 0 and the input is 1 from the second step on.  The solver below solves this problem. *)
Definition hx_one : weight := mkW (1%nat, 1%nat) (fun _ _ => 1).
Fixpoint hx_states (x0 : vec) (q : R) (u : nat -> vec) (k : nat) : vec :=
  match k with O => x0 | Datatypes.S k => fun _ => q * hx_states x0 q u k 0%nat + u k 0%nat end.
Definition hx_link : hlink :=
  {| q_mdl := {| n_x := 1; n_u := 1; n_z := 0; rhs := fun x u z tvp p w => fun _ => p 0%nat * x 0%nat + u 0%nat + w 0%nat; alg := fun _ _ _ _ _ _ => vzero |};
     q_ny := 1; q_npe := 1; q_meas := fun x u z tvp p v => fun _ => u 0%nat + v 0%nat;
     q_psel := fun i => match i with O => inl 0%nat | _ => inr i end; q_single := false; q_chk := true; q_nlchk := false; q_disc := Discrete; q_ntvp := 0; q_npset := 0;
     q_solve := fun c par ws l => (true_point c (hx_states (mXprev par) (mPeprev par 0%nat) (mY par)) (mY par) (fun _ => vzero) (mPeprev par), vzero, vzero, true) |}.
Definition hx_obj : h_userobj :=
  match default_objective 1 1 1 1 hx_one (Some hx_one) (Some hx_one) (Some hx_one) with Ok o => o | Err _ => (fun _ _ _ _ => 0, fun _ _ _ _ _ => 0) end.
Definition hx_calls : list (@hcall (hlink_env hx_link)) :=
  [@HParam (hlink_env hx_link) (fun _ => mkHset (Some 1) (Some 2%nat) true false false false); @HObjective (hlink_env hx_link) (Good hx_obj)].
Definition hx_trace : list (@hcall (hlink_env hx_link) * res (option vec)) := map (fun c => (c, Ok None)) hx_calls.
Definition hx_us (j : nat) : vec := match j with O => vzero | _ => fun _ => 1 end.

Lemma hx_pd : positive_definite 1 (fun _ _ => 1).
Proof.
  intros v (a & Ha & Hv). assert (a = 0%nat) by lia. subst a. unfold weighted_square, total. cbn. replace (v 0%nat * 1 * v 0%nat + 0 + 0) with (Rsqr (v 0%nat)) by (unfold Rsqr; ring). apply Rsqr_pos_lt. exact Hv.
Qed.
Lemma hx_solves : solves_globally hx_link (problem_after hx_link hx_trace hx_obj).
Proof.
  intros par ws l pt lg lx st H _. cbn [q_solve hx_link] in H. injection H as <- _ _ _.
  set (c := problem_after hx_link hx_trace hx_obj). set (xs := hx_states (mXprev par) (mPeprev par 0%nat) (mY par)).
  assert (DO := proj1 (C66_default_objective 1 1 1 1 hx_one (Some hx_one) (Some hx_one) (Some hx_one))).
  destruct DO as (stage & arrival & DO & HS & HA); [repeat split|].
  assert (HO : hx_obj = (stage, arrival)) by (unfold hx_obj; rewrite DO; reflexivity).
  assert (HSc : hstage c = stage) by (transitivity (fst hx_obj); [reflexivity|rewrite HO; reflexivity]).
  assert (HAc : harrival c = arrival) by (transitivity (snd hx_obj); [reflexivity|rewrite HO; reflexivity]). rewrite <- HAc in HA.
  assert (PS1 : forall v, 0 <= weighted_square 1 (fun _ _ => 1) v) by (intros v; apply pd_nonneg; exact hx_pd).
  destruct (C67_noise_free_data c par xs (mY par) (fun _ => vzero) (mPeprev par) 1 1 (w_at hx_one) (Some hx_one) (Some hx_one) (Some hx_one)) as (F & _ & (q & E & O) & MIN); auto; try reflexivity.
  - split; [intros a _; cbn; lra|]. split; [discriminate|exact I].
  - intros j. reflexivity.
  - repeat split; intros; cbn; lra.
  - intros. cbn. lra.
  - intros. cbn. lra.
  - intros. cbn. lra.
  - intros. rewrite HSc. apply HS.
  - intros P n [[= <- <-]|[[= <- <-]|[[= <- <-]|[]]]]; intros v; apply PS1.
  - intros s [].
  - intros k Hk. split; [|split].
    + intros a Ha. cbn in Ha. unfold xs. rewrite Nat.add_1_r. cbn. unfold model_p, vzero. cbn. ring.
    + intros a Ha. cbn in Ha. lia.
    + intros a Ha. cbn in Ha. assert (a = 0%nat) by lia. subst a. cbn. unfold vzero. ring.
  - intros; split; exact I.
  - intros; split; exact I.
  - intros; split; exact I.
  - intros; split; exact I.
  - intros k n _ [].
  - split; [exact F|]. intros pt' p p' F' E1 E2. rewrite E in E1. injection E1 as <-. rewrite O. eapply MIN; eauto.
Qed.

Lemma hx_situation T : noise_free_situation hx_link 1 1 2 T hx_calls hx_trace (hx_states vzero (1/2) hx_us) hx_us (fun _ => vzero) (fun _ => vzero) hx_us
  (fun _ => 1/2) vzero hx_one (Some hx_one) (Some hx_one) (Some hx_one) 1.
Proof.
  assert (DW : definite_weight (Some hx_one) 1) by (split; [reflexivity|exact hx_pd]).
  constructor; try exact DW; try (match goal with |- q_disc _ = _ => reflexivity | |- q_nlchk _ = _ => reflexivity end).
  - split; [|split].
    + intros x x' u z tvp p w w' Hx Hw. split; intros a Ha; cbn in *; [rewrite (Hx 0%nat), (Hw 0%nat) by lia; reflexivity|lia].
    + intros x x' u z tvp p v v' Hx Hv a Ha. cbn. rewrite (Hv 0%nat) by lia. reflexivity.
    + intros [|i] j H; cbn in H; [injection H as <-; cbn; lia|discriminate].
  - eexists. split; reflexivity.
  - set (tr := hx_trace : list (@hcall (hlink_env hx_link) * res (option (hX (hlink_env hx_link))))).
    assert (Q : hordinary (([] ++ [(@HParam (hlink_env hx_link) (fun _ => mkHset (Some 1) (Some 2%nat) true false false false), Ok None)]) ++ [(@HObjective (hlink_env hx_link) (Good hx_obj), Ok None)])).
    { apply hordinary_snoc. split; [|exact Logic.I]. apply hordinary_snoc. split; [apply hordinary_nil|]. intros H. exfalso. apply H. reflexivity. }
    exact Q.
  - reflexivity.
  - reflexivity.
  - lia.
  - reflexivity.
  - exists hx_obj. split; [reflexivity|]. split; [reflexivity|exact hx_solves].
  - intros t a. exact Rlt_0_1.
  - reflexivity.
  - intros n x x' u z tvp q q' ps [].
  - intros s [].
  - intros x u u' z z' tvp x1 x1' _ _ H a Ha. specialize (H 0%nat ltac:(cbn; lia)). unfold x1, x1' in *. cbn in H. cbn. unfold vzero in *. lra.
  - constructor; intros j Hj a Ha.
    + rewrite Nat.add_1_r. cbn. unfold true_p, vzero. cbn. ring.
    + cbn in Ha. lia.
    + cbn in Ha. assert (a = 0%nat) by lia. subst a. cbn. unfold vzero. ring.
  - constructor; intros; try (split; exact I). match goal with H : In _ _ |- _ => destruct H end.
  - intros _ a Ha. cbn. unfold vzero. ring.
  - intros n k _ Hk. change (nth k ([] : list vec) vzero = vzero). destruct k; reflexivity.
  - intros n _. reflexivity.
Qed.
(** the third true state is not zero: estimates that stay at their initial value would be wrong *)
Example C102_nonvacuous : forall T, exists m est,
  hexec (hx_calls ++ start_calls hx_link vzero (fun _ => 1/2) ++ step_calls hx_link hx_us T) mhe_init = (m, hx_trace ++ observed hx_link vzero (fun _ => 1/2) hx_us est T) /\
  forall j, (j < T)%nat -> est j 0%nat = hx_states vzero (1/2) hx_us (j + 1)%nat 0%nat.
Proof.
  intros T. destruct (C102_right_stays_right hx_link _ _ _ _ _ _ _ _ _ _ _ _ _ _ _ _ _ _ vzero (fun _ => 1/2) (hx_situation T)) as (m & est & X & R & _).
  - intros a Ha. reflexivity.
  - intros a Ha. reflexivity.
  - exists m, est. split; [exact X|]. intros j Hj. apply R; [exact Hj|cbn; lia].
Qed.
Example C102_nonvacuous_moves : hx_states vzero (1/2) hx_us 3 0%nat = 3/2.
Proof. cbn. unfold vzero. lra. Qed.

(** Without rest before the first steps it fails: the same estimator, plant and solver (which does minimise), input 1 from
    the first step on: the first window repeats the measurement of that step, and the estimate is 3/2 instead of 1. *)
Theorem C102_start_without_rest_refuted :
  let us : nat -> vec := fun _ _ => 1 in let xs := hx_states vzero (1/2) us in let p0 : vec := fun _ => 1/2 in
  hs_nhor (hsettings_of hx_trace) = Some 2%nat /\ solves_globally hx_link (problem_after hx_link hx_trace hx_obj) /\
  plant_run hx_link 1 xs us (fun _ => vzero) (fun _ => vzero) us (true_p hx_link p0 vzero) /\
  exists m est, hexec (hx_calls ++ start_calls hx_link (xs 0%nat) p0 ++ step_calls hx_link us 1) mhe_init = (m, hx_trace ++ observed hx_link (xs 0%nat) p0 us est 1) /\
    est 0%nat 0%nat = 3/2 /\ xs 1%nat 0%nat = 1.
Proof.
  intros us xs p0. split; [reflexivity|]. split; [exact hx_solves|]. split; [|].
  - constructor; intros j Hj a Ha.
    + unfold xs. rewrite Nat.add_1_r. cbn. unfold true_p, p0, vzero. cbn. ring.
    + cbn in Ha. lia.
    + cbn in Ha. assert (a = 0%nat) by lia. subst a. cbn. unfold vzero. ring.
  - set (h := hx_calls ++ start_calls hx_link (xs 0%nat) p0 ++ step_calls hx_link us 1).
    set (r := hexec h mhe_init).
    assert (Q : exists v, snd r = hx_trace ++ observed hx_link (xs 0%nat) p0 us (fun _ => v) 1 /\ v 0%nat = 3/2).
    { eexists (fun a => hx_states (fun a => xs 0%nat a / 1 * 1) (p0 0%nat) us 2 a / 1 * 1). split; [lazy; reflexivity|].
      unfold xs, us, p0, vzero. cbn. unfold vzero. field. }
    destruct Q as (v & Q1 & Q2). exists (fst r), (fun _ => v). rewrite <- Q1. split; [apply surjective_pairing|]. split; [exact Q2|].
    unfold xs, us. cbn. unfold vzero. ring.
Qed.

Print Assumptions C102_right_stays_right.
Print Assumptions C102_start_without_rest_refuted.
Print Assumptions C102_output_feedback.
Print Assumptions C102_nonvacuous.
