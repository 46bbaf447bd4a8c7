(** * C21, C76: what every estimate is computed from, and when MHE.setup is accepted. *)
From Verif Require Import Base MpcModel MheModel MheSpec MheProofs MheProps MheHistSpec MheHistProofs.
Import List.

Section T.
  Context {E : HEnv}.
  Notation mhe := (@mhe E).
  Notation hcall := (@hcall E).
  Notation trace := (list (hcall * res (option (hX E)))).

  (** ** C21 *)
  (** The estimate returned by a step is a function of the observed history and the measurement passed: it is the last
      state of the solution of the problem defined by the accepted calls, with the bounds assigned last, for
      the measurement window (or the user's measurements), the parameters at the current time, the parameters
      estimated last and the second state of the previous solution (or of what setup and
      set_initial_guess left) as the arrival cost reference, started from that solution and its multipliers. *)
  Theorem C21_history_determines_estimate (h : list hcall) (m : mhe) (tr : trace) (y : hY E) :
    hordinary tr -> hexec h mhe_init = (m, tr) -> hwas_setup tr ->
    exists pr u z pe ox l ys ox' lg lx st,
      hproblem_for tr pr /\ hmeasured tr y ys /\ hwarm tr (u, z, pe) (Some ox) l /\
      h_S E pr (hbounds_of tr) ox l (hparams_for tr pe ox ys) = (ox', lg, lx, st) /\
      snd (mhe_step m (Good y)) = Ok (h_xN E (hscaling_of tr) ox') /\
      exists w', hwarm (tr ++ [(HStep (Good y), Ok (Some (h_xN E (hscaling_of tr) ox')))]) w' (Some ox') (Some (lg, lx)).
  Proof.
    intros Ho He Ws. destruct (hinv2_reach h m tr Ho He) as [I J]. pose proof (hconf_reach h m tr He) as N. pose proof (hwarm_reach h m tr Ho He) as W. unfold hwarm_inv in W.
    assert (S : e_setup m = true) by (apply (w_setup _ _ I); exact Ws).
    destruct (mhe_step m (Good y)) as [m' r] eqn:ES. pose proof (step_succeeds m tr y m' r I J S ES) as OKr.
    destruct (mhe_step_cases _ _ _ _ ES) as [(y' & x & tf & pf & pr & ob & ox & yf & ys & ox' & lg & lx & st & dt & [= <-] & -> & K)|(e & -> & _)]; [|discriminate].
    destruct K. rewrite (n_scal _ _ N) in *.
    destruct (hproblem_of m tr I J N k_set) as (pr' & P1 & P2). rewrite k_pr in P1. injection P1 as <-.
    assert (ob = hbounds_of tr) as -> by (rewrite <- (n_bnd _ _ N); pose proof (u_ob _ _ J k_set); congruence).
    destruct (hforce_of m tr tf pf I k_tf k_pf) as (<- & <- & CK & _). rewrite k_ox in W. rewrite <- CK in k_S.
    pose proof (hmeasured_of _ _ _ _ _ I J k_y) as Hy.
    exists pr, (hi_u (e_it m)), (hi_z (e_it m)), (hi_pe (e_it m)), ox, (if e_run1 m then e_lam m else None), ys, ox', lg, lx, st.
    split; [exact P2|]. split; [exact Hy|]. split; [exact W|]. split; [exact k_S|]. split; [cbn; rewrite k_x; reflexivity|].
    eexists. eapply hwarm_step; eauto.
  Qed.

  (** ** C76 *)
  (** After any history, MHE.setup returns normally exactly when horizon and sampling time are given, an objective was
      accepted, every function the model needs was given, no lower bound exceeds its upper bound, and there is
      a measurement source: the user's function, the setting meas_from_data, or an earlier setup. *)
  Theorem C76_mhe_setup_accepted_iff (h : list hcall) (m : mhe) (tr : trace) :
    hexec h mhe_init = (m, tr) ->
    (snd (mhe_setup m) = Ok tt <->
       hs_nhor (hsettings_of tr) <> None /\ hs_tstep (hsettings_of tr) <> None /\ hobjective_of tr <> None /\
       (0 < h_ntvp E -> htvp_of tr <> None) /\ (0 < h_npset E -> hp_of tr <> None) /\ h_b_bad E (hbounds_of tr) = false /\
       (huser_y tr <> None \/ hs_meas (hsettings_of tr) = true \/ hwas_setup tr)).
  Proof.
    intros He. pose proof (hinv_reach h m tr He) as I. destruct (hconf_reach h m tr He) as [N1 N2 N3 N4 N5 N6 N7].
    rewrite <- (w_set _ _ I), <- N1, <- N4. unfold mhe_setup. cbv zeta.
    destruct (hs_nhor _) as [n|] eqn:Q1; [|split; [discriminate|intros [H _]; congruence]].
    destruct (hs_tstep _) as [dt|] eqn:Q2; [|split; [discriminate|intros (_ & H & _); congruence]].
    destruct (hc_obj _) as [ob|] eqn:Q3; [|split; [discriminate|intros (_ & _ & H & _); congruence]].
    destruct ((match hc_tvpf _ with None => true | _ => false end) && _)%bool eqn:Q4.
    { split; [discriminate|]. intros (_ & _ & _ & H & _). exfalso. apply andb_prop in Q4 as [Q4 Q4']. apply Nat.ltb_lt in Q4'. apply (H Q4'). rewrite <- (N5 Q4'). destruct (hc_tvpf (e_cfg m)); [discriminate|reflexivity]. }
    destruct ((match hc_pf _ with None => true | _ => false end) && _)%bool eqn:Q5.
    { split; [discriminate|]. intros (_ & _ & _ & _ & H & _). exfalso. apply andb_prop in Q5 as [Q5 Q5']. apply Nat.ltb_lt in Q5'. apply (H Q5'). rewrite <- (N6 Q5'). destruct (hc_pf (e_cfg m)); [discriminate|reflexivity]. }
    destruct (h_b_bad _ _) eqn:Q6; [split; [discriminate|intros (_ & _ & _ & _ & _ & H & _); congruence]|].
    assert (T1 : 0 < h_ntvp E -> htvp_of tr <> None).
    { intros L. rewrite <- (N5 L). destruct (hc_tvpf (e_cfg m)); [discriminate|]. cbn [andb] in Q4. apply Nat.ltb_ge in Q4. lia. }
    assert (T2 : 0 < h_npset E -> hp_of tr <> None).
    { intros L. rewrite <- (N6 L). destruct (hc_pf (e_cfg m)); [discriminate|]. cbn [andb] in Q5. apply Nat.ltb_ge in Q5. lia. }
    cbn [e_yf e_with_cfg mhe_fns e_fields e_run1 e_cfg e_it e_data e_lam]. destruct (e_fields m) as [[ff fl] fs].
    pose proof (w_y _ _ I) as Y. pose proof (w_setup _ _ I) as WS.
    destruct (e_yf m) as [|tm|fy] eqn:Q7; [destruct (hs_meas _) eqn:Q8| |]; cbn [snd].
    - split; [intros _|reflexivity]. split; [discriminate|]. split; [discriminate|]. split; [discriminate|]. repeat (split; [auto; fail|]). auto.
    - split; [discriminate|]. intros (_ & _ & _ & _ & _ & _ & [H|[H|H]]); [|discriminate|].
      + destruct (huser_y tr); congruence.
      + apply WS in H. destruct (w_have _ _ I H) as (_ & _ & _ & _ & _ & Q). congruence.
    - split; [intros _|reflexivity]. split; [discriminate|]. split; [discriminate|]. split; [discriminate|]. repeat (split; [auto; fail|]). right; right. apply WS. eapply N7; reflexivity.
    - split; [intros _|reflexivity]. split; [discriminate|]. split; [discriminate|]. split; [discriminate|]. repeat (split; [auto; fail|]). left. destruct (huser_y tr); [discriminate|]. destruct Y as [?|[? ?]]; congruence.
  Qed.
  (** A refused setup changes neither the estimates, the clock, the recorded data, the problem being solved nor the
      measurement source. *)
  Theorem C76_mhe_refused_setup_no_effect (m m' : mhe) e : mhe_setup m = (m', Err e) ->
    e_setup m' = e_setup m /\ e_it m' = e_it m /\ e_data m' = e_data m /\ e_prob m' = e_prob m /\ e_ob m' = e_ob m /\ e_ox m' = e_ox m /\
    e_lam m' = e_lam m /\ e_yf m' = e_yf m /\ hc_set (e_cfg m') = hc_set (e_cfg m).
  Proof.
    unfold mhe_setup. cbv zeta. intros H.
    destruct (hs_nhor _) as [n|]; [|injection H as <- _; auto 12].
    destruct (hs_tstep _) as [dt|]; [|injection H as <- _; auto 12].
    destruct (hc_obj _) as [ob|]; [|injection H as <- _; auto 12].
    destruct ((match hc_tvpf _ with None => true | _ => false end) && _)%bool; [injection H as <- _; auto 12|].
    destruct ((match hc_pf _ with None => true | _ => false end) && _)%bool; [injection H as <- _; auto 12|].
    destruct (h_b_bad _ _); [injection H as <- _; auto 12|].
    cbn [e_yf e_with_cfg mhe_fns e_fields e_run1 e_cfg e_it e_data e_lam] in H. destruct (e_fields m) as [[ff fl] fs].
    destruct (e_yf m) as [|tm|fy] eqn:Q; [destruct (hs_meas _)| |]; try discriminate. injection H as <- _. cbn. rewrite Q. auto 12.
  Qed.
End T.

(** ** Examples *)
(** Four histories of the estimator of MheProps.HEx: complete; without an objective; without a source of
    measurements; with a lower bound above the upper one, then corrected. *)
Definition nosrc (s : @hset HEx.env) : @hset HEx.env := mkHset (Some (2%Z : hTm HEx.env)) (Some 3) false true true true.
Example C76_mhe_nonvacuous :
  let run h := snd (mhe_setup (fst (hexec h (@mhe_init HEx.env)))) in
  run [HSetting (HEx.sets 3); HObjective (Good (tt : hObj HEx.env))] = Ok tt /\
  run [HSetting (HEx.sets 3)] = Err ExcGeneric /\
  run [HSetting nosrc; HObjective (Good (tt : hObj HEx.env))] = Err ExcGeneric /\
  run [HSetting (HEx.sets 3); HObjective (Good (tt : hObj HEx.env)); HBounds (fun _ => (5, 4)%Z : hB HEx.env)] = Err ExcGeneric /\
  run [HSetting (HEx.sets 3); HObjective (Good (tt : hObj HEx.env)); HBounds (fun _ => (5, 4)%Z : hB HEx.env); HSetup; HBounds (fun _ => (3, 4)%Z : hB HEx.env)] = Ok tt.
Proof. cbv zeta. repeat split; vm_compute; reflexivity. Qed.

(** The hypotheses of C21_history_determines_estimate are those of C21_nonvacuous; here a history with a repeated setup,
    changed bounds and an assigned input, and the warm start it defines. *)
Example C21_history_nonvacuous :
  let h := HEx.conf ++ [HEx.step 6; HBounds (fun _ => (-50, 50)%Z : hB HEx.env); HU0 (3%Z : hU HEx.env); HGuess; HEx.step 8] in
  let m := fst (hexec h mhe_init) in let tr := snd (hexec h mhe_init) in
  hordinary tr /\ hwas_setup tr /\ hscaling_of tr = 2%Z /\ hbounds_of tr = (-50, 50)%Z /\ hmeasured tr (10%Z : hY HEx.env) [6; 8; 10]%Z /\
  e_ox m = Some (3, 4)%Z /\ snd (mhe_step m (Good (10%Z : hY HEx.env))) = Ok (10%Z : hX HEx.env).
Proof.
  cbv zeta. set (h := HEx.conf ++ _).
  destruct (hordinaryb_ok (snd (hexec h mhe_init))) as [H1 H2]; [vm_compute; reflexivity|].
  split; [exact H1|]. split; [apply hwas_setupb_ok; vm_compute; reflexivity|]. split; [vm_compute; reflexivity|]. split; [vm_compute; reflexivity|].
  split; [unfold hmeasured; rewrite H2; exists 3; split; [vm_compute; reflexivity|]|split; vm_compute; reflexivity].
  split; [reflexivity|]. intros k Hk. destruct k as [|[|[|k]]]; [vm_compute; reflexivity..|lia].
Qed.

Print Assumptions C21_history_determines_estimate.
Print Assumptions C76_mhe_setup_accepted_iff.
Print Assumptions C76_mhe_refused_setup_no_effect.
