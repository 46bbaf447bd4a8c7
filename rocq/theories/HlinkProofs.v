(** * Proofs about the estimator on noise-free data: the problem of one window. *)
From Coq Require Import Reals Lra FunctionalExtensionality.
From Verif Require Import Base TreeModel NlpModel NlpSpec MpcModel MheNlpModel MheNlpSpec MheNlpProofs MheNlpProps HlinkModel HlinkSpec.
Import List NlpModel.
Local Open Scope R_scope.

Lemma agree_refl n (v : vec) : agree n v v.
Proof. intros a _. reflexivity. Qed.
Lemma agree_sym n (v w : vec) : agree n v w -> agree n w v.
Proof. intros H a Ha. symmetry. auto. Qed.
Lemma agree_trans n (u v w : vec) : agree n u v -> agree n v w -> agree n u w.
Proof. intros H K a Ha. rewrite H by exact Ha. auto. Qed.

Lemma wsq_zero n P v : agree n v vzero -> weighted_square n P v = 0.
Proof.
  intros H. unfold weighted_square, total. apply rsum_zero. intros i Hi. apply in_seq in Hi. apply rsum_zero. intros j _.
  rewrite (H i) by lia. unfold vzero. ring.
Qed.
Lemma all_or_some n (v : vec) : agree n v vzero \/ exists a, (a < n)%nat /\ v a <> 0.
Proof.
  induction n as [|n [IH|(a & Ha & Hv)]]; [left; intros a Ha; lia| |right; exists a; split; [lia|exact Hv]].
  destruct (Req_dec (v n) 0) as [E|E]; [left|right; exists n; split; [lia|exact E]].
  intros a Ha. destruct (Nat.eq_dec a n) as [->|]; [exact E|]. apply IH. lia.
Qed.
Lemma pd_nonneg n P v : positive_definite n P -> 0 <= weighted_square n P v.
Proof. intros H. destruct (all_or_some n v) as [Z|Z]; [rewrite wsq_zero by exact Z; lra|]. apply H in Z. lra. Qed.
Lemma pd_zero n P v : positive_definite n P -> weighted_square n P v <= 0 -> agree n v vzero.
Proof. intros H Q. destruct (all_or_some n v) as [Z|Z]; [exact Z|]. apply H in Z. lra. Qed.
Lemma dw_nonneg P n v : definite_weight P n -> 0 <= weight_term P n v.
Proof. destruct P as [W|]; cbn; [intros [_ H]; apply pd_nonneg; exact H|lra]. Qed.
Lemma dw_zero P n v : definite_weight P n -> weight_term P n v <= 0 -> agree n v vzero.
Proof. destruct P as [W|]; cbn; [intros [_ H]; apply pd_zero; exact H|intros -> _ a Ha; lia]. Qed.
Lemma dw_psd P n : definite_weight P n -> match P with Some W => positive_semidefinite n (w_at W) | None => True end.
Proof. destruct P as [W|]; cbn; [|auto]. intros [_ H] v. apply pd_nonneg. exact H. Qed.

Lemma total_parts n f : (forall k, (k < n)%nat -> 0 <= f k) -> total n f <= 0 -> forall k, (k < n)%nat -> f k <= 0.
Proof.
  unfold total. intros H Q. assert (G : forall l, (forall k, In k l -> 0 <= f k) -> rsum (map f l) <= 0 -> forall k, In k l -> f k <= 0).
  { clear. induction l as [|j l IH]; intros H Q k Hk; [destruct Hk|]. change (rsum (map f (j :: l))) with (f j + rsum (map f l)) in Q.
    assert (0 <= f j) by (apply H; left; reflexivity).
    assert (0 <= rsum (map f l)) by (apply rsum_nonneg; intros v Hv; apply in_map_iff in Hv as (q & <- & Hq); apply H; right; exact Hq).
    destruct Hk as [<-|Hk]; [lra|]. apply IH; [intros; apply H; right; assumption|lra|exact Hk]. }
  intros k Hk. apply (G (seq 0 n)); [intros q Hq; apply in_seq in Hq; apply H; lia|exact Q|apply in_seq; lia].
Qed.
Lemma total_nonneg n f : (forall k, (k < n)%nat -> 0 <= f k) -> 0 <= total n f.
Proof. intros H. unfold total. apply rsum_nonneg. intros v Hv. apply in_map_iff in Hv as (k & <- & Hk). apply in_seq in Hk. apply H. lia. Qed.

Lemma slack_nonneg c pt k : sane_penalties (hnl c) -> mhe_within c pt -> (k < hN c)%nat -> 0 <= slack_penalty c pt k.
Proof.
  intros Spen W' Hk. unfold slack_penalty. apply rsum_nonneg. intros v Hv. apply in_map_iff in Hv as ([a s] & <- & Ha).
  pose proof (in_combine_r _ _ _ _ Ha) as Hs. apply in_combine_l in Ha. apply in_seq in Ha. destruct (Spen s Hs) as [Hpen _]. cbn.
  destruct W' as (_ & _ & _ & _ & W'). destruct (W' (Nat.min k ((if hsingle c then 1 else hN c) - 1)) a) as [W1 _]; [unfold h_neps; destruct (hsingle c); lia|lia|].
  apply Rmult_le_pos; assumption.
Qed.

(** One window: states xs 0 .. xs N of the truth. *)
Section Window.
  Variable L : hlink.
  Variables nw nv : nat.
  Hypothesis OWN : own_variables L nw nv.
  Variable c : mcfg.
  Hypothesis Cm : hmdl c = q_mdl L.
  Hypothesis Cy : hny c = q_ny L.
  Hypothesis Cn : hnpe c = q_npe L.
  Hypothesis Cme : hmeas c = q_meas L.
  Hypothesis Cps : psel c = q_psel L.
  Hypothesis Cd : hdisc c = Discrete.
  Hypothesis Cnl : own_constraints L (hnl c).
  Hypothesis Cchk : hnlchk c = false.
  Hypothesis Hsx : forall a, 0 < hsx c a.
  Hypothesis Hsu : forall a, 0 < hsu c a.
  Hypothesis Hsz : forall a, 0 < hsz c a.
  Hypothesis Hspe : forall a, hspe c a = 1.
  Variables (Px : weight) (Pv Pw Pp : option weight).
  Hypothesis PDx : positive_definite (n_x (q_mdl L)) (w_at Px).
  Hypothesis PDv : definite_weight Pv nv.
  Hypothesis PDw : definite_weight Pw nw.
  Hypothesis PDp : definite_weight Pp (q_npe L).
  Hypothesis HS : forall w v tvp p, hstage c w v tvp p = weight_term Pv nv v + weight_term Pw nw w.
  Hypothesis HA : forall x xp q qp ps, harrival c x xp q qp ps =
     weighted_square (n_x (q_mdl L)) (w_at Px) (fun a => x a - xp a) + weight_term Pp (q_npe L) (fun a => q a - qp a).
  Hypothesis PEN : sane_penalties (hnl c).
  Variables (par : mpar) (xs us zs tvs : nat -> vec) (pe ps : vec).
  Let p := true_p L pe ps.
  Hypothesis DET : measurement_determines_step L p.
  Hypothesis Hps : mPs par = ps.
  Hypothesis Htv : forall k, (k < hN c)%nat -> mTvp par k = tvs k.
  Hypothesis RUN : plant_run L (hN c) xs us zs tvs (mY par) p.
  Hypothesis LIM : run_within L (hN c) xs us zs tvs pe ps
    (fun t => match t with Vx => (hxlb c, hxub c) | Vu => (hulb c, huub c) | Vz => (hzlb c, hzub c) | Vpest => (hplb c, hpub c) end) (hnl c).
  Hypothesis Hxp : agree (n_x (q_mdl L)) (mXprev par) (xs 0%nat).
  Hypothesis Hpp : agree (q_npe L) (mPeprev par) pe.

  Lemma win_ok : mcfg_ok c.
  Proof. split; [intros a _; specialize (Hsx a); lra|]. split; [rewrite Cchk; discriminate|]. rewrite Cd. exact I. Qed.
  Lemma win_pos : mscal_pos c.
  Proof. repeat split; intros a _; auto. rewrite Hspe. lra. Qed.

  Lemma win_p q : agree (q_npe L) q pe -> model_p c par q = p.
  Proof.
    intros H. apply functional_extensionality. intros i. unfold model_p, p, true_p. rewrite Cps, Hps. destruct (q_psel L i) as [j|j] eqn:E; [|reflexivity].
    apply H. destruct OWN as (_ & _ & O). eapply O; eauto.
  Qed.

  Lemma no_cost_right pt q : mhe_feasible c par pt -> mhe_nlp c par pt = Ok q -> obj q <= 0 ->
    (forall k, (k <= hN c)%nat -> agree (n_x (q_mdl L)) (ex c pt k) (xs k)) /\ agree (q_npe L) (ePe c pt) pe.
  Proof.
    intros [W (q' & E' & SAT)] E Q. rewrite E in E'. injection E' as <-.
    destruct (C66_objective_unit_scaling c par pt win_ok Hspe) as (q' & E' & O). rewrite E in E'. injection E' as <-. rewrite O in Q. clear O. unfold est_cost in Q. rewrite HA in Q.
    pose proof (pd_nonneg _ _ (fun a => ex c pt 0 a - mXprev par a) PDx) as A1. pose proof (dw_nonneg _ _ (fun a => ePe c pt a - mPeprev par a) PDp) as A2.
    assert (A3 : forall k, (k < hN c)%nat -> 0 <= hstage c (mW pt k) (mV pt k) (mTvp par k) (model_p c par (ePe c pt)) + slack_penalty c pt k).
    { intros k Hk. rewrite HS. pose proof (dw_nonneg _ _ (mV pt k) PDv). pose proof (dw_nonneg _ _ (mW pt k) PDw). pose proof (slack_nonneg c pt k PEN W Hk). lra. }
    pose proof (total_nonneg _ _ A3) as A4.
    assert (X0 : agree (n_x (q_mdl L)) (ex c pt 0) (xs 0%nat)).
    { eapply agree_trans; [|exact Hxp]. assert (Z : weighted_square (n_x (q_mdl L)) (w_at Px) (fun a => ex c pt 0 a - mXprev par a) <= 0) by lra.
      apply (pd_zero _ _ _ PDx) in Z. intros a Ha. specialize (Z a Ha). cbn in Z. unfold vzero in Z. lra. }
    assert (P0 : agree (q_npe L) (ePe c pt) pe).
    { eapply agree_trans; [|exact Hpp]. assert (Z : weight_term Pp (q_npe L) (fun a => ePe c pt a - mPeprev par a) <= 0) by lra.
      apply (dw_zero _ _ _ PDp) in Z. intros a Ha. specialize (Z a Ha). cbn in Z. unfold vzero in Z. lra. }
    assert (A5 : forall k, (k < hN c)%nat -> agree nw (mW pt k) vzero /\ agree nv (mV pt k) vzero).
    { intros k Hk. assert (Z : total (hN c) (fun k => hstage c (mW pt k) (mV pt k) (mTvp par k) (model_p c par (ePe c pt)) + slack_penalty c pt k) <= 0) by lra.
      pose proof (total_parts _ _ A3 Z k Hk) as B. cbn beta in B. rewrite HS in B. pose proof (dw_nonneg _ _ (mV pt k) PDv). pose proof (dw_nonneg _ _ (mW pt k) PDw). pose proof (slack_nonneg c pt k PEN W Hk).
      split; [apply (dw_zero _ _ _ PDw)|apply (dw_zero _ _ _ PDv)]; lra. }
    split; [|exact P0].
    destruct (C23_constraints_unit_scaling c par pt win_ok Hspe) as (q' & E' & IFF). rewrite E in E'. injection E' as <-. apply IFF in SAT as (ST & ME & _).
    rewrite (win_p _ P0) in ME. clear IFF Q A1 A2 A3 A4.
    induction k as [|k IH]; intros Hk; [exact X0|].
    assert (Hk' : (k < hN c)%nat) by lia. specialize (IH ltac:(lia)). destruct (A5 k Hk') as [Ww Vv].
    specialize (ST k Hk'). unfold est_step in ST. rewrite Cd in ST. destruct ST as [S1 S2]. rewrite (win_p _ P0), Cm, (Htv k Hk') in S1, S2.
    specialize (ME k Hk'). unfold est_meas in ME. rewrite Cme, Cy, (Htv k Hk') in ME.
    destruct OWN as (O1 & O2 & _). destruct (O1 _ _ (eU c pt k) (eZ c pt k 0) (tvs k) p _ _ IH Ww) as [R1 R2].
    assert (NX : agree (n_x (q_mdl L)) (ex c pt (k+1)) (rhs (q_mdl L) (xs k) (eU c pt k) (eZ c pt k 0) (tvs k) p vzero)) by (eapply agree_trans; [exact S1|exact R1]).
    replace (Datatypes.S k) with (k + 1)%nat by lia. eapply agree_trans; [exact NX|]. eapply agree_trans; [|apply agree_sym; apply (run_step _ _ _ _ _ _ _ _ RUN k Hk')].
    apply (DET (xs k) (eU c pt k) (us k) (eZ c pt k 0) (zs k) (tvs k)).
    - eapply agree_trans; [apply agree_sym; exact R2|]. intros a Ha. apply S2. exact Ha.
    - apply (run_alg _ _ _ _ _ _ _ _ RUN k Hk').
    - eapply agree_trans; [|eapply agree_trans; [|eapply agree_trans; [apply (run_meas _ _ _ _ _ _ _ _ RUN k Hk')|]]].
      + eapply agree_trans; [|apply (O2 (ex c pt (k+1)) (ex c pt (k+1)) (eU c pt k) (eZ c pt k 0) (tvs k) p (mV pt k) (mV pt k) (agree_refl _ _) (agree_refl _ _))].
        apply agree_sym. apply O2; [exact NX|exact Vv].
      + intros a Ha. apply ME. exact Ha.
      + apply O2; [apply (run_step _ _ _ _ _ _ _ _ RUN k Hk')|apply agree_refl].
  Qed.

  Lemma free_solution_exists : exists pt q, mhe_feasible c par pt /\ mhe_nlp c par pt = Ok q /\ obj q = 0 /\
    forall pt' q', mhe_feasible c par pt' -> mhe_nlp c par pt' = Ok q' -> 0 <= obj q'.
  Proof.
    set (xs' := fun k : nat => match k with O => mXprev par | _ => xs k end).
    assert (XA : forall k, agree (n_x (q_mdl L)) (xs' k) (xs k)) by (intros [|k]; [exact Hxp|apply agree_refl]).
    pose proof (win_p _ Hpp) as PP. destruct OWN as (O1 & O2 & _).
    destruct (C67_noise_free_data c par xs' us zs (mPeprev par) nv nw (w_at Px) Pv Pp Pw win_ok Cd Hspe win_pos) as (F & _ & (q & E & O) & MIN); auto.
    - intros a. specialize (Hsx a). lra.
    - intros a. specialize (Hsu a). lra.
    - intros a. specialize (Hsz a). lra.
    - intros. rewrite HA, Cm, Cn. reflexivity.
    - intros v. rewrite Cm. apply pd_nonneg. exact PDx.
    - intros P n [[= <- <-]|[[= <- <-]|[[= <- <-]|[]]]]; apply dw_psd; auto. rewrite Cn. exact PDp.
    - intros k Hk. rewrite PP, Cm, Cy, Cme, (Htv k Hk).
      destruct (O1 _ _ (us k) (zs k) (tvs k) p vzero vzero (XA k) (agree_refl _ _)) as [R1 R2]. split; [|split].
      + eapply agree_trans; [apply XA|]. eapply agree_trans; [apply (run_step _ _ _ _ _ _ _ _ RUN k Hk)|apply agree_sym; exact R1].
      + eapply agree_trans; [exact R2|]. apply (run_alg _ _ _ _ _ _ _ _ RUN k Hk).
      + eapply agree_trans; [apply (run_meas _ _ _ _ _ _ _ _ RUN k Hk)|]. apply O2; [apply agree_sym; apply XA|apply agree_refl].
    - intros k a Hk Ha. rewrite Cm in Ha. rewrite (XA k a Ha). apply (in_x _ _ _ _ _ _ _ _ _ _ LIM k a Hk Ha).
    - intros k a Hk Ha. rewrite Cm in Ha. apply (in_z _ _ _ _ _ _ _ _ _ _ LIM k a Hk Ha).
    - intros k a Hk Ha. rewrite Cm in Ha. apply (in_u _ _ _ _ _ _ _ _ _ _ LIM k a Hk Ha).
    - intros a Ha. rewrite Cn in Ha. rewrite (Hpp a Ha). apply (in_p _ _ _ _ _ _ _ _ _ _ LIM a Ha).
    - intros k n Hk Hn. rewrite Hps, (Htv k Hk), (Cnl n (xs' k) (xs k) (us k) (zs k) (tvs k) (mPeprev par) pe ps Hn (XA k) Hpp).
      apply (in_nl _ _ _ _ _ _ _ _ _ _ LIM k n Hk Hn).
    - exists (true_point c xs' us zs (mPeprev par)), q. auto.
  Qed.

  Theorem minimiser_exists : exists pt, minimiser c par pt.
  Proof. destruct free_solution_exists as (pt & q & F & E & O & MIN). exists pt. split; [exact F|]. intros pt' p1 p2 F' E1 E2. rewrite E in E1. injection E1 as <-. rewrite O. eapply MIN; eauto. Qed.
  Theorem minimiser_right pt : minimiser c par pt ->
    (forall k, (k <= hN c)%nat -> agree (n_x (q_mdl L)) (ex c pt k) (xs k)) /\ agree (q_npe L) (ePe c pt) pe.
  Proof.
    intros [F MN]. destruct free_solution_exists as (pt0 & q0 & F0 & E0 & O0 & _). destruct F as [W (q & E & SAT)].
    apply (no_cost_right pt q); [split; eauto|exact E|]. rewrite <- O0. eapply MN; eauto.
  Qed.
End Window.
