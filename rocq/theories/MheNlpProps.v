(** * C22, C23, C65, C66, C67: the estimation problem of the moving horizon estimator. *)
From Coq Require Import Reals Lra FunctionalExtensionality.
From Verif Require Import Base TreeModel NlpModel NlpSpec NlpProofs NlpProofs2 NlpProofs3 NlpProofs4 MheNlpModel MheNlpSpec MheNlpProofs.
Import List NlpModel.
Local Open Scope R_scope.

(** ** C22 *)
(** With cons_check_colloc_points (the default): the variable bounds of the problem are exactly the user's bounds, in
    physical units, on every state of the window (x_0 .. x_N, at every collocation point), on all algebraic states,
    inputs, estimated parameters and slacks. *)
Theorem C22_bounds (c : mcfg) (pt : mpoint) :
  mscal_pos c -> hchk c = true ->
  (mhe_within c pt <->
   (forall k i, (k <= hN c)%nat -> (i <= ncoll (hdisc c))%nat -> est_state_bounds c pt k i) /\
   (forall k i, (k < hN c)%nat -> (i < Nat.max (ncoll (hdisc c)) 1)%nat -> est_alg_bounds c pt k i) /\
   est_other_bounds c pt) /\
  (mhe_within c pt -> forall a, (a < n_x (hmdl c))%nat -> inside (hxlb c a) (hxub c a) (returned c pt a)).
Proof.
  intros P H. pose proof (within_iff c pt P) as W. rewrite W. split.
  - split; intros (A & B & C); split; [|split| |split]; auto.
  - intros (A & _ & _) a Ha. apply (A (hN c) (ncoll (hdisc c))); auto.
Qed.
(** Without it: only the states x_1 .. x_(N-1) and the first algebraic state of each interval. *)
Theorem C22_bounds_without_check_partial (c : mcfg) (pt : mpoint) :
  mscal_pos c -> hchk c = false ->
  (mhe_within c pt <->
   (forall k, (1 <= k < hN c)%nat -> est_state_bounds c pt k (ncoll (hdisc c))) /\
   (forall k, (k < hN c)%nat -> est_alg_bounds c pt k 0) /\ est_other_bounds c pt).
Proof.
  intros P H. rewrite (within_iff c pt P). rewrite H. split.
  - intros (A & B & C). split; [|split; [|exact C]].
    + intros k Hk. apply A; [lia|lia|right; auto].
    + intros k Hk. apply B; [lia|lia|right; auto].
  - intros (A & B & C). split; [|split; [|exact C]].
    + intros k i Hk Hi [Q|[Q ->]]; [discriminate|]. apply A. exact Q.
    + intros k i Hk Hi [Q| ->]; [discriminate|]. apply B. exact Hk.
Qed.

(** ** C23, C65: constraints *)
(** The constraints of the problem, exactly.  The measurement equation and the nonlinear constraints are taken at the
    *scaled* parameter estimates ([mPe pt]) and not at the physical ones ([ePe c pt]). *)
Theorem C23_constraints_partial (c : mcfg) (par : mpar) (pt : mpoint) :
  mcfg_ok c ->
  exists p, mhe_nlp c par pt = Ok p /\
    (cons_sat (cons p) (cons_lb p) (cons_ub p) <->
     (forall k, (k < hN c)%nat -> est_step c par pt k) /\
     (forall k, (k < hN c)%nat -> est_meas c par pt (model_p c par (mPe pt)) k) /\
     (forall k, (k < hN c)%nat -> est_nl_step c par pt (mPe pt) k)).
Proof.
  intros Hok. destruct (mhe_sat c Hok par pt) as (p & E & _ & _ & _ & H). exists p. split; [exact E|]. rewrite H.
  assert (Q : p_scaled c par pt = model_p c par (mPe pt)).
  { apply functional_extensionality. intros i. unfold p_scaled, pcat, model_p, vdiv, one. destruct (psel c i); [reflexivity|field]. }
  rewrite Q. split.
  - intros A. repeat split; intros k Hk; destruct (A k Hk) as (A1 & A2 & A3); auto.
  - intros (A & B & C) k Hk. auto.
Qed.
(** With unit scaling of the estimated parameters (in particular when none is estimated) everything is in physical
    units. *)
Theorem C23_constraints_unit_scaling (c : mcfg) (par : mpar) (pt : mpoint) :
  mcfg_ok c -> unit_pe_scaling c ->
  exists p, mhe_nlp c par pt = Ok p /\
    (cons_sat (cons p) (cons_lb p) (cons_ub p) <->
     (forall k, (k < hN c)%nat -> est_step c par pt k) /\
     (forall k, (k < hN c)%nat -> est_meas c par pt (model_p c par (ePe c pt)) k) /\
     (forall k, (k < hN c)%nat -> est_nl_step c par pt (ePe c pt) k)).
Proof.
  intros Hok U. assert (Q : ePe c pt = mPe pt).
  { apply functional_extensionality. intros a. unfold ePe. rewrite U. ring. }
  rewrite Q. apply C23_constraints_partial. exact Hok.
Qed.
(** Every equality constraint has as many bounds as rows. *)
Theorem C23_vectors_aligned (c : mcfg) (par : mpar) (pt : mpoint) :
  mcfg_ok c -> exists p, mhe_nlp c par pt = Ok p /\ List.length (cons_lb p) = List.length (cons p) /\ List.length (cons_ub p) = List.length (cons p).
Proof. intros Hok. destruct (mhe_sat c Hok par pt) as (p & E & _ & L1 & L2 & _). exists p. auto. Qed.
(** Asking for nonlinear constraints at collocation points with a discrete-time model: the problem cannot be built. *)
Theorem C23_discrete_colloc_check_refuted (c : mcfg) (par : mpar) (pt : mpoint) :
  hnlchk c = true -> hdisc c = Discrete -> (1 <= hN c)%nat -> mhe_nlp c par pt = Err ExcUnbound.
Proof.
  intros H1 H2 H3. unfold mhe_nlp. destruct (hN c) as [|n]; [lia|]. cbn [seq mapM]. unfold h_cons at 1, h_step, ifcn, h_nl_blocks, hnc. rewrite H2, H1. reflexivity.
Qed.

(** C65: a feasible point satisfies every nonlinear constraint at x_0 .. x_(N-1), up to its slack, which is between 0 and the
    maximum violation (unit scaling of estimated parameters). *)
Theorem C65_nonlinear_constraints_partial (c : mcfg) (par : mpar) (pt : mpoint) :
  mcfg_ok c -> unit_pe_scaling c -> hnlchk c = false -> mhe_feasible c par pt ->
  forall k i n ub, (k < hN c)%nat -> nth_error (hnl c) i = Some n -> mn_ub n = Some ub ->
    let g := mn_g n (ex c pt k) (eU c pt k) (eZ c pt k 0) (mTvp par k) (ePe c pt) (mPs par) in
    match mn_soft n with
    | None => g <= ub
    | Some (vmax, _) => exists s, 0 <= s /\ le_ub s vmax /\ g <= ub + s
    end.
Proof.
  intros Hok U Hc [W (p & E & S)] k i n ub Hk Hn Hu g. destruct (C23_constraints_unit_scaling c par pt Hok U) as (p' & E' & IFF).
  rewrite E in E'. injection E' as <-. apply IFF in S as (_ & _ & NL). specialize (NL k Hk i n Hn). rewrite Hc in NL.
  unfold est_nl, est_slack in NL. rewrite Hu in NL. cbn in NL. fold g in NL. destruct (mn_soft n) as [[vmax pen]|] eqn:Q; [|lra].
  destruct W as (_ & _ & _ & _ & W). set (kk := Nat.min k ((if hsingle c then 1 else hN c) - 1)) in NL. set (a := List.length (m_soft (firstn i (hnl c)))) in NL.
  assert (NA : nth_error (m_soft (hnl c)) a = Some (vmax, pen)).
  { clear - Hn Q. unfold a. clear a. revert i Hn. induction (hnl c) as [|m l IH]; intros [|i] H; try discriminate.
    - injection H as ->. cbn. rewrite Q. reflexivity.
    - cbn [firstn m_soft flat_map]. cbn in H. rewrite app_length. rewrite nth_error_app2; [|lia].
      replace (_ + _ - _)%nat with (List.length (m_soft (firstn i l))) by (unfold m_soft; lia). apply IH. exact H. }
  assert (HA : (a < List.length (m_soft (hnl c)))%nat) by (apply nth_error_Some; rewrite NA; discriminate).
  assert (HK : (kk < h_neps c)%nat) by (unfold kk, h_neps; destruct (hsingle c); lia).
  destruct (W kk a HK HA) as [W1 W2]. rewrite NA in W2. cbn [fst] in W2. exists (mE pt kk a). repeat split; auto. lra.
Qed.

(** ** C66: objective *)
(** the penalty of the slacks used at step k *)
Definition slack_penalty (c : mcfg) (pt : mpoint) (k : nat) : R :=
  let e := mE pt (Nat.min k ((if hsingle c then 1 else hN c) - 1)) in
  rsum (map (fun ia => snd (snd ia) * e (fst ia)) (combine (seq 0 (List.length (m_soft (hnl c)))) (m_soft (hnl c)))).
Definition est_cost (c : mcfg) (par : mpar) (pt : mpoint) (p : vec) : R :=
  harrival c (ex c pt 0) (mXprev par) (ePe c pt) (mPeprev par) (mPs par)
  + total (hN c) (fun k => hstage c (mW pt k) (mV pt k) (mTvp par k) p + slack_penalty c pt k).

Theorem C66_objective_partial (c : mcfg) (par : mpar) (pt : mpoint) :
  mcfg_ok c -> exists p, mhe_nlp c par pt = Ok p /\ obj p = est_cost c par pt (model_p c par (mPe pt)).
Proof.
  intros Hok. destruct (mhe_sat c Hok par pt) as (p & E & O & _). exists p. split; [exact E|]. rewrite O. unfold h_obj, est_cost, total. f_equal.
  assert (Q : p_scaled c par pt = model_p c par (mPe pt)).
  { apply functional_extensionality. intros i. unfold p_scaled, pcat, model_p, vdiv, one. destruct (psel c i); [reflexivity|field]. }
  rewrite Q. apply rsum_ext. intros k _. f_equal. unfold epsterm, slack_penalty, h_nlc. rewrite soft_close. reflexivity.
Qed.
Theorem C66_objective_unit_scaling (c : mcfg) (par : mpar) (pt : mpoint) :
  mcfg_ok c -> unit_pe_scaling c -> exists p, mhe_nlp c par pt = Ok p /\ obj p = est_cost c par pt (model_p c par (ePe c pt)).
Proof.
  intros Hok U. assert (Q : ePe c pt = mPe pt).
  { apply functional_extensionality. intros a. unfold ePe. rewrite U. ring. }
  rewrite Q. apply C66_objective_partial. exact Hok.
Qed.
(** set_default_objective: accepted exactly with square matrices of the right sizes (None only for an empty vector);
    the costs are the weighted squares. *)
Definition weight_fits (P : option weight) (n : nat) : Prop := match P with None => n = 0%nat | Some P => w_shape P = (n, n) end.
Definition weight_term (P : option weight) (n : nat) (v : vec) : R := match P with None => 0 | Some P => weighted_square n (w_at P) v end.
Lemma shape_is_ok P n : shape_is P n = true <-> w_shape P = (n, n).
Proof. unfold shape_is. destruct (w_shape P) as [a b]. cbn. rewrite andb_true_iff, !Nat.eqb_eq. split; [intros [-> ->]; reflexivity|intros [= -> ->]; auto]. Qed.
Lemma quadf_is P n v : w_shape P = (n, n) -> quadf P v = weighted_square n (w_at P) v.
Proof. intros H. unfold quadf, weighted_square, total. rewrite H. reflexivity. Qed.
Lemma opt_term_ok P n : (exists t, opt_term P n = Ok t /\ (forall v, t v = weight_term P n v) /\ weight_fits P n) \/ (opt_term P n = Err ExcAssertion /\ ~ weight_fits P n).
Proof.
  unfold opt_term, weight_fits, weight_term. destruct P as [P|].
  - destruct (shape_is P n) eqn:Q; cbn.
    + left. eexists. split; [reflexivity|]. apply shape_is_ok in Q. split; [intros; apply quadf_is; exact Q|exact Q].
    + right. split; [reflexivity|]. rewrite <- shape_is_ok. congruence.
  - destruct (Nat.eqb_spec n 0); cbn; [left; eexists; repeat split; auto|right; auto].
Qed.
Theorem C66_default_objective (nx nv nw npe : nat) (Px : weight) (Pv Pp Pw : option weight) :
  (w_shape Px = (nx, nx) /\ weight_fits Pv nv /\ weight_fits Pw nw /\ weight_fits Pp npe ->
   exists stage arrival, default_objective nx nv nw npe Px Pv Pp Pw = Ok (stage, arrival) /\
     (forall w v tvp p, stage w v tvp p = weight_term Pv nv v + weight_term Pw nw w) /\
     (forall x xp pe pep ps, arrival x xp pe pep ps =
        weighted_square nx (w_at Px) (fun a => x a - xp a) + weight_term Pp npe (fun a => pe a - pep a))) /\
  (~ (w_shape Px = (nx, nx) /\ weight_fits Pv nv /\ weight_fits Pw nw /\ weight_fits Pp npe) ->
   default_objective nx nv nw npe Px Pv Pp Pw = Err ExcAssertion).
Proof.
  unfold default_objective. pose proof (shape_is_ok Px nx) as S.
  destruct (opt_term_ok Pv nv) as [(tv & -> & Hv & Fv)|[-> Fv]], (opt_term_ok Pw nw) as [(tw & -> & Hw & Fw)|[-> Fw]], (opt_term_ok Pp npe) as [(tp & -> & Hp & Fp)|[-> Fp]];
    destruct (shape_is Px nx); cbn; split; intros H; try tauto; try reflexivity;
    try (destruct H as (H1 & H2 & H3 & H4); try tauto; try (apply S in H1; discriminate)).
  eexists _, _. split; [reflexivity|]. split; [intros; rewrite Hv, Hw; ring|].
  intros. rewrite Hp. f_equal. apply quadf_is. exact H1.
Qed.

(** ** C67: noise-free data *)
(** The point that holds a given physical trajectory. *)
Definition true_point (c : mcfg) (xs us zs : nat -> vec) (pe : vec) : mpoint :=
  {| mX := fun k _ a => xs k a / hsx c a; mZ := fun k _ a => zs k a / hsz c a; mU := fun k a => us k a / hsu c a;
     mW := fun _ => vzero; mV := fun _ => vzero; mE := fun _ => vzero; mPe := fun a => pe a / hspe c a |}.
Definition positive_semidefinite (n : nat) (P : nat -> nat -> R) : Prop := forall v, 0 <= weighted_square n P v.

Lemma rsum_zero {A} (f : A -> R) l : (forall v, In v l -> f v = 0) -> rsum (map f l) = 0.
Proof. induction l as [|v l IH]; intros H; [reflexivity|]. change (rsum (map f (v :: l))) with (f v + rsum (map f l)). rewrite H by (left; auto). rewrite IH by (intros; apply H; right; auto). ring. Qed.
Lemma weighted_zero n P : weighted_square n P (fun _ => 0) = 0.
Proof. unfold weighted_square, total. apply rsum_zero. intros i _. apply rsum_zero. intros j _. ring. Qed.
Lemma rsum_nonneg l : (forall v, In v l -> 0 <= v) -> 0 <= rsum l.
Proof. induction l as [|v l IH]; intros H; [cbn; lra|]. change (rsum (v :: l)) with (v + rsum l). pose proof (H v (or_introl eq_refl)). assert (0 <= rsum l) by (apply IH; intros; apply H; right; auto). lra. Qed.
(** Data produced without noise by the discrete-time model itself, a full window of it, with the previous estimates
    right: the true trajectory is a solution of the estimation problem with the default objective, at cost 0, which is the
    minimum; the state returned for it is the true one. *)
Theorem C67_noise_free_data (c : mcfg) (par : mpar) (xs us zs : nat -> vec) (pe : vec) nv nw Px Pv Pp Pw :
  mcfg_ok c -> hdisc c = Discrete -> unit_pe_scaling c -> mscal_pos c ->
  (forall a, hsx c a <> 0) -> (forall a, hsu c a <> 0) -> (forall a, hsz c a <> 0) ->
  (* the objective is a default objective with positive semidefinite weights, and penalties are not negative *)
  (forall w v tvp p, hstage c w v tvp p = weight_term Pv nv v + weight_term Pw nw w) ->
  (forall x xp q qp ps, harrival c x xp q qp ps =
     weighted_square (n_x (hmdl c)) Px (fun a => x a - xp a) + weight_term Pp (hnpe c) (fun a => q a - qp a)) ->
  positive_semidefinite (n_x (hmdl c)) Px ->
  (forall P n, In (P, n) [(Pv, nv); (Pw, nw); (Pp, hnpe c)] -> match P with Some P => positive_semidefinite n (w_at P) | None => True end) ->
  (forall s, In s (m_soft (hnl c)) -> 0 <= snd s /\ match fst s with Some m => 0 <= m | None => True end) ->
  (* the trajectory follows the model without noise, and the measurements are those of the model *)
  (forall k, (k < hN c)%nat ->
     agree (n_x (hmdl c)) (xs (k+1)%nat) (rhs (hmdl c) (xs k) (us k) (zs k) (mTvp par k) (model_p c par pe) vzero) /\
     agree (n_z (hmdl c)) (alg (hmdl c) (xs k) (us k) (zs k) (mTvp par k) (model_p c par pe) vzero) vzero /\
     agree (hny c) (mY par k) (hmeas c (xs (k+1)%nat) (us k) (zs k) (mTvp par k) (model_p c par pe) vzero)) ->
  (* it respects the user's bounds and constraints *)
  (forall k a, (k <= hN c)%nat -> (a < n_x (hmdl c))%nat -> inside (hxlb c a) (hxub c a) (xs k a)) ->
  (forall k a, (k < hN c)%nat -> (a < n_z (hmdl c))%nat -> inside (hzlb c a) (hzub c a) (zs k a)) ->
  (forall k a, (k < hN c)%nat -> (a < n_u (hmdl c))%nat -> inside (hulb c a) (huub c a) (us k a)) ->
  (forall a, (a < hnpe c)%nat -> inside (hplb c a) (hpub c a) (pe a)) ->
  (forall k n, (k < hN c)%nat -> In n (hnl c) -> le_ub (mn_g n (xs k) (us k) (zs k) (mTvp par k) pe (mPs par)) (mn_ub n)) ->
  (* the previous estimates are right *)
  mXprev par = xs 0%nat -> mPeprev par = pe ->
  let pt := true_point c xs us zs pe in
  mhe_feasible c par pt /\ returned c pt = xs (hN c) /\
  (exists p, mhe_nlp c par pt = Ok p /\ obj p = 0) /\
  (forall pt' p', mhe_feasible c par pt' -> mhe_nlp c par pt' = Ok p' -> 0 <= obj p').
Proof.
  intros Hok Hd U HP Sx Su Sz HS HA PSx PS Spen TR Bx Bz Bu Bp NL Xp Pp0 pt.
  assert (EX : forall k i, eX c pt k i = xs k) by (intros; apply functional_extensionality; intros a; unfold eX, pt; cbn; field; apply Sx).
  assert (EZ : forall k i, eZ c pt k i = zs k) by (intros; apply functional_extensionality; intros a; unfold eZ, pt; cbn; field; apply Sz).
  assert (EU : forall k, eU c pt k = us k) by (intros; apply functional_extensionality; intros a; unfold eU, pt; cbn; field; apply Su).
  assert (EP : ePe c pt = pe) by (apply functional_extensionality; intros a; unfold ePe, pt; cbn; rewrite U; field).
  assert (Hchk : hnlchk c = false) by (destruct (hnlchk c) eqn:Q; [|reflexivity]; destruct Hok as (_ & H & _); specialize (H Q); contradiction).
  assert (SAT : exists p, mhe_nlp c par pt = Ok p /\ cons_sat (cons p) (cons_lb p) (cons_ub p)).
  { destruct (C23_constraints_unit_scaling c par pt Hok U) as (p & E & IFF). exists p. split; [exact E|]. apply IFF. split; [|split].
    - intros k Hk. destruct (TR k Hk) as (T1 & T2 & _). unfold est_step. rewrite Hd. unfold est_discrete_step, ex. rewrite !EX, EZ, EU, EP. split; [exact T1|]. intros a Ha. apply (T2 a Ha).
    - intros k Hk a Ha. destruct (TR k Hk) as (_ & _ & T3). unfold ex. rewrite EX, EZ, EU, EP. symmetry. apply (T3 a Ha).
    - intros k Hk i n Hn. rewrite Hchk. unfold est_nl, ex, est_slack. rewrite EX, EZ, EU, EP.
      assert (NL' := NL k n Hk (nth_error_In _ _ Hn)).
      replace (match mn_soft n with Some _ => _ | None => 0 end) with 0 by (destruct (mn_soft n); reflexivity). rewrite Rminus_0_r. exact NL'. }
  assert (FE : mhe_feasible c par pt).
  { split; [|exact SAT]. apply (within_iff c pt HP). split; [|split; [|split; [|split]]].
    - intros k i Hk Hi _ a Ha. rewrite EX. auto.
    - intros k i Hk Hi _ a Ha. rewrite EZ. auto.
    - intros k a Hk Ha. rewrite EU. auto.
    - intros a Ha. rewrite EP. auto.
    - intros k a Hk Ha. unfold inside. cbn. split; [unfold vzero; lra|].
      destruct (nth_error (m_soft (hnl c)) a) as [s|] eqn:Q; [|exact I]. apply nth_error_In in Q. destruct (Spen s Q) as [_ H]. destruct (fst s); [exact H|exact I]. }
  assert (PSt : forall P n v, In (P, n) [(Pv, nv); (Pw, nw); (Pp, hnpe c)] -> 0 <= weight_term P n v).
  { intros P n v H. specialize (PS P n H). destruct P as [P|]; cbn; [apply PS|lra]. }
  split; [exact FE|]. split; [change (returned c pt) with (eX c pt (hN c) (ncoll (hdisc c))); apply EX|]. split.
  - destruct (C66_objective_unit_scaling c par pt Hok U) as (p & E & O). exists p. split; [exact E|]. rewrite O. unfold est_cost, ex. rewrite EX, EP, HA, Xp, Pp0.
    assert (Z0 : forall v : vec, (fun a : nat => v a - v a) = (fun _ => 0)) by (intros v; apply functional_extensionality; intros; ring).
    rewrite !Z0, weighted_zero.
    assert (WT : forall P n, weight_term P n (fun _ => 0) = 0) by (intros [P|] n; cbn; [apply weighted_zero|reflexivity]).
    rewrite WT. unfold total. rewrite rsum_zero; [ring|]. intros k _. rewrite HS. cbn [mW mV pt true_point]. unfold vzero. rewrite !WT.
    unfold slack_penalty. rewrite rsum_zero; [ring|]. intros [a s] _. cbn. unfold vzero. ring.
  - intros pt' p' [W' _] E'. destruct (C66_objective_unit_scaling c par pt' Hok U) as (p & E & O). rewrite E' in E. injection E as <-. rewrite O. unfold est_cost. rewrite HA.
    pose proof (PSx (fun a => ex c pt' 0 a - mXprev par a)). pose proof (PSt Pp (hnpe c) (fun a => ePe c pt' a - mPeprev par a) ltac:(cbn; auto)).
    assert (0 <= total (hN c) (fun k => hstage c (mW pt' k) (mV pt' k) (mTvp par k) (model_p c par (ePe c pt')) + slack_penalty c pt' k)); [|lra].
    apply rsum_nonneg. intros v Hv. apply in_map_iff in Hv as (k & <- & Hk). apply in_seq in Hk. rewrite HS.
    pose proof (PSt Pv nv (mV pt' k) ltac:(cbn; auto)). pose proof (PSt Pw nw (mW pt' k) ltac:(cbn; auto)).
    assert (0 <= slack_penalty c pt' k); [|lra]. unfold slack_penalty. apply rsum_nonneg. intros v Hv. apply in_map_iff in Hv as ([a s] & <- & Ha).
    pose proof (in_combine_r _ _ _ _ Ha) as Hs. apply in_combine_l in Ha. apply in_seq in Ha. destruct (Spen s Hs) as [Hpen _]. cbn.
    destruct W' as (_ & _ & _ & _ & W'). destruct (W' (Nat.min k ((if hsingle c then 1 else hN c) - 1)) a) as [W1 _]; [unfold h_neps; destruct (hsingle c); lia|lia|].
    apply Rmult_le_pos; assumption.
Qed.

(** ** Concrete cases.  One state, one estimated parameter p with scaling [sp], x' = x + p + w, y = x + p + v. *)
Definition mx_model : dyn_model := {| n_x := 1; n_u := 0; n_z := 0; rhs := fun x u z tvp p w => fun a => x a + p 0%nat + w a; alg := fun _ _ _ _ _ _ => vzero |}.
Definition mx_cfg (n : nat) (chk : bool) (sp ub : R) (nl : list mnl) : mcfg :=
  {| hN := n; hsingle := false; hchk := chk; hnlchk := false; hmdl := mx_model; hny := 1; hnpe := 1;
     hmeas := fun x u z tvp p v => fun a => x a + p 0%nat + v a;
     hsx := fun _ => 2; hsu := fun _ => 1; hsz := fun _ => 1; hspe := fun _ => sp; hdisc := Discrete; psel := fun i => inl i; hnl := nl;
     hstage := fun w v tvp p => p 0%nat ^ 2 + v 0%nat ^ 2 + w 0%nat ^ 2;
     harrival := fun x xp q qp ps => (x 0%nat - xp 0%nat) ^ 2;
     hxlb := fun _ => Some 0; hxub := fun _ => Some ub; hulb := fun _ => None; huub := fun _ => None; hzlb := fun _ => None; hzub := fun _ => None;
     hplb := fun _ => None; hpub := fun _ => None |}.
Lemma mx_ok n chk sp ub nl : mcfg_ok (mx_cfg n chk sp ub nl).
Proof. split; [intros a _; cbn; lra|]. split; [discriminate|exact I]. Qed.
Lemma mx_pos n chk sp ub nl : 0 < sp -> mscal_pos (mx_cfg n chk sp ub nl).
Proof. intros H. repeat split; cbn; intros; lra. Qed.
(** states 0, q, 2q, ... with physical parameter q = sp * pe, measurements y *)
Definition mx_pt (sp pe : R) (v : R) : mpoint :=
  {| mX := fun k _ _ => INR k * (pe * sp) / 2; mZ := fun _ _ => vzero; mU := fun _ => vzero; mW := fun _ => vzero; mV := fun _ _ => v; mE := fun _ => vzero; mPe := fun _ => pe |}.
Definition mx_par (y : nat -> R) (q : R) : mpar := {| mXprev := vzero; mPeprev := fun _ => q; mPs := vzero; mTvp := fun _ => vzero; mY := fun k _ => y k |}.

Lemma mx_feasible n chk sp pe v ub nl y : 0 < sp -> (chk = true -> forall k, (k <= n)%nat -> 0 <= INR k * (pe * sp) <= ub) ->
  (chk = false -> forall k, (1 <= k < n)%nat -> 0 <= INR k * (pe * sp) <= ub) ->
  (forall k, (k < n)%nat -> y k = INR (k + 1) * (pe * sp) + pe + v) ->
  (forall m, In m nl -> mn_soft m = None /\ forall k, (k < n)%nat -> le_ub (mn_g m (fun _ => INR k * (pe * sp)) vzero vzero vzero (fun _ => pe) vzero) (mn_ub m)) ->
  mhe_feasible (mx_cfg n chk sp ub nl) (mx_par y (pe * sp)) (mx_pt sp pe v).
Proof.
  intros Hsp B1 B2 Hy Hn. set (c := mx_cfg n chk sp ub nl). set (par := mx_par y (pe * sp)). set (pt := mx_pt sp pe v).
  assert (EX : forall k i, eX c pt k i = fun _ => INR k * (pe * sp)) by (intros; apply functional_extensionality; intros; unfold eX; cbn; field).
  assert (EU : forall k, eU c pt k = vzero) by (intros; apply functional_extensionality; intros; unfold eU, vzero; cbn; unfold vzero; ring).
  assert (EZ : forall k i, eZ c pt k i = vzero) by (intros; apply functional_extensionality; intros; unfold eZ, vzero; cbn; unfold vzero; ring).
  split.
  - apply (within_iff c pt (mx_pos n chk sp ub nl Hsp)). split; [|split; [|split; [|split]]].
    + intros k i Hk Hi H a Ha. rewrite EX. unfold inside. cbn. cbn in Hk. destruct chk.
      * apply B1; auto.
      * destruct H as [H|[H _]]; [discriminate|]. apply B2; auto.
    + intros k i Hk Hi _ a Ha. cbn in Ha. lia.
    + intros k a Hk Ha. cbn in Ha. lia.
    + intros a Ha. split; exact I.
    + intros k a Hk Ha. exfalso. assert (Q : m_soft nl = []); [|change (hnl c) with nl in Ha; rewrite Q in Ha; cbn in Ha; lia].
      clear - Hn. induction nl as [|m l IH]; [reflexivity|]. cbn. destruct (Hn m (or_introl eq_refl)) as [-> _]. apply IH. intros; apply Hn; right; auto.
  - destruct (C23_constraints_partial c par pt (mx_ok n chk sp ub nl)) as (p & E & IFF). exists p. split; [exact E|]. apply IFF. split; [|split].
    + intros k Hk. unfold est_step. cbn [hdisc c mx_cfg]. unfold est_discrete_step, ex. rewrite !EX. split.
      * intros a Ha. cbn. unfold model_p, ePe, vzero. cbn. rewrite plus_INR. cbn. ring.
      * intros a Ha. cbn in Ha. lia.
    + intros k Hk a Ha. unfold ex. rewrite EX. cbn. unfold model_p. cbn. rewrite (Hy k Hk). ring.
    + intros k Hk i m Hm. cbn [hnlchk c mx_cfg]. unfold est_nl, ex, est_slack. rewrite EX, EZ, EU. cbn [hnl c mx_cfg] in Hm. apply nth_error_In in Hm.
      destruct (Hn m Hm) as [-> H]. cbn. rewrite Rminus_0_r. apply H. exact Hk.
Qed.

(** C22 does not hold without the collocation check: the returned estimate violates the bounds at a feasible point. *)
Theorem C22_returned_estimate_refuted :
  exists c par pt, mcfg_ok c /\ mscal_pos c /\ hchk c = false /\ mhe_feasible c par pt /\ ~ inside (hxlb c 0) (hxub c 0) (returned c pt 0%nat).
Proof.
  exists (mx_cfg 1 false 1 1 []), (mx_par (fun _ => 4 + 4) (4 * 1)), (mx_pt 1 4 0). split; [apply mx_ok|]. split; [apply mx_pos; lra|]. split; [reflexivity|]. split.
  - apply mx_feasible; try lra; try discriminate; try (intros; lia).
    + intros k Hk. assert (k = 0%nat) by lia. subst. cbn. lra.
    + intros m [].
  - unfold inside, returned, mXu, vmul. cbn. lra.
Qed.
(** C23 does not hold with a scaled estimated parameter: a feasible point with zero noise whose measurement equation is
    violated in physical units. *)
Theorem C23_scaled_parameter_refuted :
  exists c par pt, mcfg_ok c /\ mscal_pos c /\ mhe_feasible c par pt /\ (1 <= hN c)%nat /\ ~ est_meas c par pt (model_p c par (ePe c pt)) 0.
Proof.
  exists (mx_cfg 1 true 2 100 []), (mx_par (fun _ => 2 + 1) (1 * 2)), (mx_pt 2 1 0). split; [apply mx_ok|]. split; [apply mx_pos; lra|]. split.
  - apply mx_feasible; try lra; try discriminate.
    + intros _ k Hk. assert (k = 0 \/ k = 1)%nat as [->| ->] by lia; cbn; lra.
    + intros k Hk. assert (k = 0%nat) by lia. subst. cbn. lra.
    + intros m [].
  - split; [cbn; lia|]. intros H. specialize (H 0%nat ltac:(cbn; lia)). unfold ex, eX, model_p, ePe in H. cbn in H. lra.
Qed.
(** C65: a hard constraint x <= 1 on every state, violated by the returned estimate of a feasible point. *)
Theorem C65_returned_estimate_refuted :
  exists c par pt n ub, mcfg_ok c /\ mscal_pos c /\ unit_pe_scaling c /\ mhe_feasible c par pt /\ In n (hnl c) /\ mn_soft n = None /\ mn_ub n = Some ub /\
    (forall x u z tvp q ps, mn_g n x u z tvp q ps = x 0%nat) /\ ~ returned c pt 0%nat <= ub.
Proof.
  set (n := mkMnl (fun x _ _ _ _ _ => x 0%nat) (Some 1) None).
  exists (mx_cfg 1 true 1 100 [n]), (mx_par (fun _ => 4 + 4) (4 * 1)), (mx_pt 1 4 0), n, 1. split; [apply mx_ok|]. split; [apply mx_pos; lra|]. split; [intros j; reflexivity|]. split.
  - apply mx_feasible; try lra; try discriminate.
    + intros _ k Hk. assert (k = 0 \/ k = 1)%nat as [->| ->] by lia; cbn; lra.
    + intros k Hk. assert (k = 0%nat) by lia. subst. cbn. lra.
    + intros m [<-|[]]. split; [reflexivity|]. intros k Hk. assert (k = 0%nat) by lia. subst. cbn. lra.
  - split; [left; reflexivity|]. repeat split; auto. unfold returned, mXu, vmul. cbn. lra.
Qed.
(** C66: with a scaled estimated parameter the stage cost is not taken at the physical parameter. *)
Theorem C66_scaled_parameter_refuted :
  exists c par pt p, mcfg_ok c /\ mscal_pos c /\ mhe_nlp c par pt = Ok p /\ obj p <> est_cost c par pt (model_p c par (ePe c pt)).
Proof.
  set (c := mx_cfg 1 true 2 100 []). set (par := mx_par (fun _ => 3) 2). set (pt := mx_pt 2 1 0).
  destruct (C66_objective_partial c par pt (mx_ok _ _ _ _ _)) as (p & E & O). exists c, par, pt, p. split; [apply mx_ok|]. split; [apply mx_pos; lra|]. split; [exact E|].
  rewrite O. unfold est_cost, total, slack_penalty, model_p, ePe. cbn. unfold vzero. cbn. lra.
Qed.

Example C22_nonvacuous :
  let c := mx_cfg 2 true 1 5 [] in mscal_pos c /\ hchk c = true /\ mhe_within c (mx_pt 1 2 0) /\ ~ mhe_within c (mx_pt 1 3 0) /\ returned c (mx_pt 1 2 0) 0%nat = 4.
Proof.
  cbv zeta. pose proof (mx_pos 2 true 1 5 [] Rlt_0_1) as P. split; [exact P|]. split; [reflexivity|]. split; [|split].
  - refine (proj1 (mx_feasible 2 true 1 2 0 5 [] (fun k => INR (k + 1) * (2 * 1) + 2 + 0) Rlt_0_1 _ _ _ _)); try discriminate.
    + intros _ k Hk. assert (k = 0 \/ k = 1 \/ k = 2)%nat as [->|[->| ->]] by lia; cbn; lra.
    + intros; reflexivity.
    + intros m [].
  - intros W. pose proof (proj2 (C22_bounds _ _ P eq_refl) W) as W'. clear W. rename W' into W. specialize (W 0%nat ltac:(cbn; lia)). unfold inside, returned, mXu, vmul in W. cbn in W. lra.
  - unfold returned, mXu, vmul. cbn. field.
Qed.
(** C23, C65, C66: a horizon of 2 with a soft constraint is accepted; the problem has a feasible point and an infeasible one. *)
Example C23_nonvacuous :
  let c := mx_cfg 2 true 1 5 [] in mcfg_ok c /\ unit_pe_scaling c /\ mhe_feasible c (mx_par (fun k => INR (k+1) * 2 + 2) 2) (mx_pt 1 2 0) /\
  ~ mhe_feasible c (mx_par (fun k => INR (k+1) * 2 + 3) 2) (mx_pt 1 2 0).
Proof.
  cbv zeta. split; [apply mx_ok|]. split; [intros j; reflexivity|]. split.
  - replace (mx_par (fun k => INR (k+1) * 2 + 2) 2) with (mx_par (fun k => INR (k+1) * 2 + 2) (2 * 1)) by (f_equal; ring).
    apply mx_feasible; try lra; try discriminate.
    + intros _ k Hk. assert (k = 0 \/ k = 1 \/ k = 2)%nat as [->|[->| ->]] by lia; cbn; lra.
    + intros k Hk. ring.
    + intros m [].
  - intros [_ (p & E & S)]. destruct (C23_constraints_partial (mx_cfg 2 true 1 5 []) (mx_par (fun k => INR (k+1) * 2 + 3) 2) (mx_pt 1 2 0) (mx_ok _ _ _ _ _)) as (p' & E' & IFF).
    rewrite E in E'. injection E' as <-. apply IFF in S as (_ & M & _). specialize (M 0%nat ltac:(cbn; lia) 0%nat ltac:(cbn; lia)). unfold ex, eX, model_p in M. cbn in M. lra.
Qed.

(** C65, C66: a hard and a soft constraint on the state, met on the first two states (0 and 2) only with slack. *)
Example C65_nonvacuous :
  let n1 := mkMnl (fun x _ _ _ _ _ => x 0%nat) (Some 2) None in
  let c := mx_cfg 2 true 1 5 [n1] in let par := mx_par (fun k => INR (k+1) * (2 * 1) + 2 + 0) (2 * 1) in
  mcfg_ok c /\ unit_pe_scaling c /\ hnlchk c = false /\ mhe_feasible c par (mx_pt 1 2 0) /\ nth_error (hnl c) 0 = Some n1.
Proof.
  cbv zeta. split; [apply mx_ok|]. split; [intros j; reflexivity|]. split; [reflexivity|]. split; [|reflexivity].
  apply mx_feasible; try lra; try discriminate.
  - intros _ k Hk. assert (k = 0 \/ k = 1 \/ k = 2)%nat as [->|[->| ->]] by lia; cbn; lra.
  - intros k Hk. reflexivity.
  - intros m [<-|[]]. split; [reflexivity|]. intros k Hk. assert (k = 0 \/ k = 1)%nat as [->| ->] by lia; cbn; lra.
Qed.
(** C66: the objective of a window of two steps with measurement errors 3: stage costs 2^2 + 3^2 each, arrival cost 0. *)
Example C66_nonvacuous :
  let c := mx_cfg 2 true 1 5 [] in let par := mx_par (fun k => INR (k+1) * 2 + 5) 2 in
  mcfg_ok c /\ unit_pe_scaling c /\ est_cost c par (mx_pt 1 2 3) (model_p c par (mPe (mx_pt 1 2 3))) = 26.
Proof.
  cbv zeta. split; [apply mx_ok|]. split; [intros j; reflexivity|].
  unfold est_cost, total, slack_penalty, model_p, ePe, ex, eX. cbn. unfold vzero. cbn. lra.
Qed.

(** C67: the hypotheses hold for a two-step window of x' = x + p, y = x + p, with p = 2. *)
Definition nf_cfg : mcfg :=
  {| hN := 2; hsingle := false; hchk := true; hnlchk := false; hmdl := mx_model; hny := 1; hnpe := 1;
     hmeas := fun x u z tvp p v => fun a => x a + p 0%nat + v a;
     hsx := fun _ => 2; hsu := fun _ => 1; hsz := fun _ => 1; hspe := fun _ => 1; hdisc := Discrete; psel := fun i => inl i;
     hnl := [mkMnl (fun x _ _ _ _ _ => x 0%nat) (Some 3) (Some (None, 7))];
     hstage := fun w v tvp p => v 0%nat ^ 2 + w 0%nat ^ 2;
     harrival := fun x xp q qp ps => (x 0%nat - xp 0%nat) ^ 2 + (q 0%nat - qp 0%nat) ^ 2;
     hxlb := fun _ => Some 0; hxub := fun _ => Some 5; hulb := fun _ => None; huub := fun _ => None; hzlb := fun _ => None; hzub := fun _ => None;
     hplb := fun _ => None; hpub := fun _ => None |}.
Example C67_nonvacuous :
  let par := mx_par (fun k => INR (k + 1) * 2 + 2) 2 in
  let pt := true_point nf_cfg (fun k _ => INR k * 2) (fun _ => vzero) (fun _ => vzero) (fun _ => 2) in
  mhe_feasible nf_cfg par pt /\ returned nf_cfg pt = (fun _ => INR 2 * 2) /\ (exists p, mhe_nlp nf_cfg par pt = Ok p /\ obj p = 0) /\
  (forall pt' p', mhe_feasible nf_cfg par pt' -> mhe_nlp nf_cfg par pt' = Ok p' -> 0 <= obj p').
Proof.
  set (W := mkW (1, 1)%nat (fun _ _ => 1)).
  assert (PSD : positive_semidefinite 1 (fun _ _ => 1)). { intros v. unfold weighted_square, total. cbn. pose proof (Rle_0_sqr (v 0%nat)) as H. unfold Rsqr in H. lra. }
  assert (K : forall k, (k <= 2)%nat -> 0 <= INR k * 2 <= 5). { intros k Hk. assert (k = 0 \/ k = 1 \/ k = 2)%nat as [->|[->| ->]] by lia; cbn; lra. }
  apply (C67_noise_free_data nf_cfg (mx_par (fun k => INR (k + 1) * 2 + 2) 2) (fun k _ => INR k * 2) (fun _ => vzero) (fun _ => vzero) (fun _ => 2) 1 1
           (fun _ _ => 1) (Some W) (Some W) (Some W)); try reflexivity.
  - split; [intros a _; cbn; lra|]. split; [discriminate|exact I].
  - intros j. reflexivity.
  - repeat split; cbn; intros; lra.
  - intros a. cbn. lra.
  - intros a. cbn. lra.
  - intros a. cbn. lra.
  - intros w v tvp p. unfold weight_term, weighted_square, total. cbn. ring.
  - intros x xp q qp ps. unfold weight_term, weighted_square, total. cbn. ring.
  - exact PSD.
  - intros P n [[= <- <-]|[[= <- <-]|[[= <- <-]|[]]]]; exact PSD.
  - intros s [<-|[]]. cbn. split; [lra|exact I].
  - intros k Hk. repeat split; intros a Ha; cbn in *; unfold model_p, vzero; cbn; rewrite ?plus_INR; cbn; ring.
  - intros k a Hk Ha. apply K. exact Hk.
  - intros k a Hk Ha. split; exact I.
  - intros k a Hk Ha. split; exact I.
  - intros a Ha. split; exact I.
  - intros k n Hk [<-|[]]. cbn in *. assert (k = 0 \/ k = 1)%nat as [->| ->] by lia; cbn; lra.
  - apply functional_extensionality. intros a. cbn. unfold vzero. ring.
Qed.
Print Assumptions C22_bounds.
Print Assumptions C22_bounds_without_check_partial.
Print Assumptions C23_constraints_partial.
Print Assumptions C23_constraints_unit_scaling.
Print Assumptions C23_vectors_aligned.
Print Assumptions C23_discrete_colloc_check_refuted.
Print Assumptions C65_nonlinear_constraints_partial.
Print Assumptions C66_objective_partial.
Print Assumptions C66_objective_unit_scaling.
Print Assumptions C66_default_objective.
Print Assumptions C67_noise_free_data.
Print Assumptions C22_returned_estimate_refuted.
Print Assumptions C23_scaled_parameter_refuted.
Print Assumptions C65_returned_estimate_refuted.
Print Assumptions C66_scaled_parameter_refuted.
