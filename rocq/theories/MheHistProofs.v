(** * Proofs: what every estimate is computed from, read off the history of calls. *)
From Verif Require Import Base MpcModel MheModel MheSpec MheProofs MheHistSpec.
Import List.

Section P.
  Context {E : HEnv}.
  Notation mhe := (@mhe E).
  Notation hcall := (@hcall E).
  Notation trace := (list (hcall * res (option (hX E)))).
  Implicit Types m : mhe.

  Lemma hobj_snoc (tr : trace) e : hobjective_of (tr ++ [e]) = match e with (HObjective (Good x), Ok _) => Some x | _ => hobjective_of tr end.
  Proof. unfold hobjective_of. rewrite fold_left_app. reflexivity. Qed.
  Lemma hnl_snoc (tr : trace) e : hnlcons_of (tr ++ [e]) = match e with (HNlCons n, Ok _) => hnlcons_of tr ++ [n] | _ => hnlcons_of tr end.
  Proof. unfold hnlcons_of. rewrite fold_left_app. reflexivity. Qed.
  Lemma hscal_snoc (tr : trace) e : hscaling_of (tr ++ [e]) = match e with (HScaling g, Ok _) => g (hscaling_of tr) | _ => hscaling_of tr end.
  Proof. unfold hscaling_of. rewrite fold_left_app. reflexivity. Qed.
  Lemma hbnd_snoc (tr : trace) e : hbounds_of (tr ++ [e]) = match e with (HBounds g, Ok _) => g (hbounds_of tr) | _ => hbounds_of tr end.
  Proof. unfold hbounds_of. rewrite fold_left_app. reflexivity. Qed.

  (** ** Configuration: all histories *)
  Record hconf (m : mhe) (tr : trace) : Prop := mkHconf {
    n_obj : hc_obj (e_cfg m) = hobjective_of tr; n_nl : hc_nl (e_cfg m) = hnlcons_of tr;
    n_scal : hc_scal (e_cfg m) = hscaling_of tr; n_bnd : hc_bnd (e_cfg m) = hbounds_of tr;
    n_tvp : 0 < h_ntvp E -> hc_tvpf (e_cfg m) = htvp_of tr; n_p : 0 < h_npset E -> hc_pf (e_cfg m) = hp_of tr;
    n_yd : forall t, e_yf m = YDefault t -> e_setup m = true }.
  Lemma hconf_init : hconf mhe_init [].
  Proof. constructor; try reflexivity. discriminate. Qed.
  Lemma hconf_step m tr c m' o : hconf m tr -> do_hcall m c = (m', o) -> hconf m' (tr ++ [(c, o)]).
  Proof.
    intros [N1 N2 N3 N4 N5 N6 N7] H.
    assert (SAME : (match c, o with (HObjective _ | HNlCons _ | HScaling _ | HBounds _ | HTvp _ | HPfun _), Ok _ => False | _, _ => True end) ->
      e_cfg m' = mkHcfg (hc_set (e_cfg m')) (hc_obj (e_cfg m)) (hc_nl (e_cfg m)) (hc_scal (e_cfg m)) (hc_bnd (e_cfg m)) (hc_tvpf (e_cfg m)) (hc_pf (e_cfg m)) ->
      (forall t, e_yf m' = YDefault t -> e_setup m' = true) -> hconf m' (tr ++ [(c, o)])).
    { intros Hc HE HY. set (s0 := hc_set (e_cfg m')) in HE. clearbody s0. constructor; rewrite ?HE, ?hobj_snoc, ?hnl_snoc, ?hscal_snoc, ?hbnd_snoc, ?htvp_snoc, ?hp_snoc; cbn [hc_obj hc_nl hc_scal hc_bnd hc_tvpf hc_pf];
        destruct c; destruct o; try contradiction; auto; try (destruct o; auto; fail); try (destruct f; auto; fail); try (destruct o0; auto; fail). }
    assert (CF : e_cfg m = mkHcfg (hc_set (e_cfg m)) (hc_obj (e_cfg m)) (hc_nl (e_cfg m)) (hc_scal (e_cfg m)) (hc_bnd (e_cfg m)) (hc_tvpf (e_cfg m)) (hc_pf (e_cfg m))) by (destruct (e_cfg m); reflexivity).
    destruct c; cbn [do_hcall] in H; unfold hret in H.
    - unfold mhe_param in H. destruct (e_setup m) eqn:E0; injection H as <- <-; apply SAME; cbn; auto; intros t Q; specialize (N7 t Q); congruence.
    - injection H as <- <-. apply SAME; cbn; auto.
    - unfold mhe_objective in H. destruct o0 as [ob|]; [destruct (e_setup m) eqn:E0|]; injection H as <- <-; try (apply SAME; cbn; auto; rewrite ?E0; auto; fail).
      constructor; rewrite ?hobj_snoc, ?hnl_snoc, ?hscal_snoc, ?hbnd_snoc, ?htvp_snoc, ?hp_snoc; cbn; auto. intros t Q; specialize (N7 t Q); congruence.
    - unfold mhe_nl_cons in H. destruct (e_setup m) eqn:E0; injection H as <- <-; try (apply SAME; cbn; auto; rewrite ?E0; auto; fail).
      constructor; rewrite ?hobj_snoc, ?hnl_snoc, ?hscal_snoc, ?hbnd_snoc, ?htvp_snoc, ?hp_snoc; cbn; auto; [congruence|intros t Q; specialize (N7 t Q); congruence].
    - unfold mhe_scaling in H. destruct (e_setup m) eqn:E0; injection H as <- <-; try (apply SAME; cbn; auto; rewrite ?E0; auto; fail).
      constructor; rewrite ?hobj_snoc, ?hnl_snoc, ?hscal_snoc, ?hbnd_snoc, ?htvp_snoc, ?hp_snoc; cbn; auto; [congruence|intros t Q; specialize (N7 t Q); congruence].
    - unfold mhe_bounds in H. cbv zeta in H. injection H as <- <-.
      constructor; rewrite ?hobj_snoc, ?hnl_snoc, ?hscal_snoc, ?hbnd_snoc, ?htvp_snoc, ?hp_snoc; destruct (e_setup m) eqn:E0; cbn; rewrite ?E0; auto; try congruence.
    - unfold mhe_tvp in H. destruct f as [f|]; injection H as <- <-; try (apply SAME; cbn; auto; fail).
      constructor; rewrite ?hobj_snoc, ?hnl_snoc, ?hscal_snoc, ?hbnd_snoc, ?htvp_snoc, ?hp_snoc; cbn; auto.
    - unfold mhe_p in H. destruct f as [f|]; injection H as <- <-; try (apply SAME; cbn; auto; fail).
      constructor; rewrite ?hobj_snoc, ?hnl_snoc, ?hscal_snoc, ?hbnd_snoc, ?htvp_snoc, ?hp_snoc; cbn; auto.
    - unfold mhe_y in H. destruct (hs_nhor _) as [n|]; [destruct (Nat.eqb _ _)|]; injection H as <- <-; apply SAME; cbn; auto; discriminate.
    - unfold mhe_setup in H. cbv zeta in H.
      destruct (hs_nhor _) as [n|] eqn:Q1; [|injection H as <- <-; apply SAME; auto].
      destruct (hs_tstep _) as [dt|] eqn:Q2; [|injection H as <- <-; apply SAME; auto].
      destruct (hc_obj _) as [ob|] eqn:Q3; [|injection H as <- <-; apply SAME; auto].
      destruct ((match hc_tvpf _ with None => true | _ => false end) && _)%bool eqn:Q4; [injection H as <- <-; apply SAME; auto|].
      destruct ((match hc_pf _ with None => true | _ => false end) && _)%bool eqn:Q5; [injection H as <- <-; apply SAME; auto|].
      destruct (h_b_bad _ _) eqn:Q6; [injection H as <- <-; apply SAME; auto|].
      assert (T1 : 0 < h_ntvp E -> Some (match hc_tvpf (e_cfg m) with Some f => f | None => h_tvp_dummy E end) = htvp_of tr).
      { intros L. rewrite <- (N5 L). destruct (hc_tvpf (e_cfg m)); [reflexivity|]. cbn [andb] in Q4. apply Nat.ltb_ge in Q4. lia. }
      assert (T2 : 0 < h_npset E -> Some (match hc_pf (e_cfg m) with Some f => f | None => h_p_dummy E end) = hp_of tr).
      { intros L. rewrite <- (N6 L). destruct (hc_pf (e_cfg m)); [reflexivity|]. cbn [andb] in Q5. apply Nat.ltb_ge in Q5. lia. }
      cbn [e_yf e_with_cfg mhe_fns e_fields e_run1 e_cfg e_it e_data e_lam] in H.
      destruct (e_fields m) as [[ff fl] fs].
      destruct (e_yf m) as [|tm|fy] eqn:Q7; [destruct (hs_meas _) eqn:Q8| |]; injection H as <- <-;
        constructor; rewrite ?hobj_snoc, ?hnl_snoc, ?hscal_snoc, ?hbnd_snoc, ?htvp_snoc, ?hp_snoc; cbn; auto; try congruence.
    - unfold mhe_guess in H. destruct (e_setup m) eqn:E0; [destruct (e_ox m) eqn:E1|]; injection H as <- <-; apply SAME; cbn; auto; rewrite ?E0; auto.
    - destruct (mhe_step m y) as [m1 r] eqn:ES.
      destruct (mhe_step_cases _ _ _ _ ES) as [(y' & x & tf & pf & pr & ob & ox & yf & ys & ox' & lg & lx & st & dt & -> & -> & K)|(e & -> & F & _)]; injection H as <- <-.
      + destruct K. apply SAME; auto. rewrite k_cfg. exact CF.
      + destruct F. apply SAME; auto; [rewrite f_cfg; exact CF|]. intros t Q. rewrite f_setup. rewrite Q in f_yf. destruct (e_yf m) eqn:Q'; try contradiction. eapply N7; reflexivity.
    - injection H as <- <-. apply SAME; cbn; auto.
    - injection H as <- <-. apply SAME; cbn; auto.
    - injection H as <- <-. apply SAME; cbn; auto.
    - injection H as <- <-. apply SAME; cbn; auto.
    - injection H as <- <-. apply SAME; cbn; auto.
    - injection H as <- <-. apply SAME; cbn; auto.
  Qed.
  Theorem hconf_reach h m tr : hexec h mhe_init = (m, tr) -> hconf m tr.
  Proof. intros H. apply (hexec_ind hconf mhe_init hconf_init) with (h := h); auto. intros; eapply hconf_step; eauto. Qed.

  (** ** Ordinary histories: problem, measurements and warm start *)
  Lemma hproblem_of m tr : hinv m tr -> hinv2 m tr -> hconf m tr -> e_setup m = true ->
    exists pr, e_prob m = Some pr /\ hproblem_for tr pr.
  Proof.
    intros I J N W. destruct (u_prob _ _ J W) as (o & P1 & P2 & _). eexists. split; [exact P2|]. unfold hproblem_for. cbn.
    rewrite <- (n_obj _ _ N), <- (n_nl _ _ N), <- (n_scal _ _ N), <- (w_set _ _ I). auto.
  Qed.
  Lemma hmeasured_of m tr y yf ys : hinv m tr -> hinv2 m tr -> measure (e_with_data (add_dy (e_data m) y) m) = Ok (yf, ys) -> hmeasured tr y ys.
  Proof.
    intros I J H. unfold hmeasured. pose proof (w_y _ _ I) as Y. unfold measure in H. cbn [e_yf e_with_data e_cfg e_data e_it d_y add_dy] in H.
    destruct (huser_y tr) as [f|].
    - rewrite Y in H. injection H as _ <-. unfold hclock. rewrite (w_log _ _ I). reflexivity.
    - destruct Y as [Y|[t Y]]; rewrite Y in H; [discriminate|]. destruct (u_yd _ _ J t Y) as [_ NH]. rewrite NH in H.
      destruct (y_default_window (length t) t (d_y (e_data m) ++ [y]) eq_refl) as (w & Q1 & Q2); [destruct (d_y (e_data m)); discriminate|].
      rewrite Q1 in H. cbn in H. injection H as _ <-. exists (length t). rewrite <- (w_set _ _ I), <- (u_y _ _ J). auto.
  Qed.
  Lemma hforce_of m tr tf pf : hinv m tr -> hc_tvpf (e_cfg m) = Some tf -> hc_pf (e_cfg m) = Some pf ->
    htvp_force tr = tf /\ hp_force tr = pf /\ hclock tr = hi_t (e_it m) /\ estimate tr = hi_x (e_it m).
  Proof.
    intros I H1 H2. unfold htvp_force, hp_force, hclock, estimate. rewrite (w_log _ _ I). pose proof (w_t _ _ I) as A. pose proof (w_p _ _ I) as B. unfold hagree in A, B.
    split; [destruct (htvp_of tr); [congruence|]; destruct A; congruence|]. split; [destruct (hp_of tr); [congruence|]; destruct B; congruence|]. auto.
  Qed.

  Definition hwarm_inv (m : mhe) (tr : trace) : Prop :=
    hwarm tr (hi_u (e_it m), hi_z (e_it m), hi_pe (e_it m)) (e_ox m) (if e_run1 m then e_lam m else None).
  Lemma hwarm_step_inv m tr c m' o : hinv m tr -> hinv2 m tr -> hconf m tr -> hwarm_inv m tr -> do_hcall m c = (m', o) -> hwarm_inv m' (tr ++ [(c, o)]).
  Proof.
    intros I J N H D. unfold hwarm_inv in *.
    destruct c; cbn [do_hcall] in D; unfold hret in D;
      try (injection D as <- <-; cbn; apply hwarm_other; [exact H|exact Logic.I]).
    - unfold mhe_param in D. destruct (e_setup m); injection D as <- <-; apply hwarm_other; try exact Logic.I; exact H.
    - unfold mhe_objective in D. destruct o0; [destruct (e_setup m)|]; injection D as <- <-; apply hwarm_other; try exact Logic.I; exact H.
    - unfold mhe_nl_cons in D. destruct (e_setup m); injection D as <- <-; apply hwarm_other; try exact Logic.I; exact H.
    - unfold mhe_scaling in D. destruct (e_setup m); injection D as <- <-; apply hwarm_other; try exact Logic.I; exact H.
    - unfold mhe_bounds in D. cbv zeta in D. destruct (e_setup m); injection D as <- <-; apply hwarm_other; try exact Logic.I; exact H.
    - unfold mhe_tvp in D. destruct f; injection D as <- <-; apply hwarm_other; try exact Logic.I; exact H.
    - unfold mhe_p in D. destruct f; injection D as <- <-; apply hwarm_other; try exact Logic.I; exact H.
    - unfold mhe_y in D. destruct (hs_nhor _); [destruct (Nat.eqb _ _)|]; injection D as <- <-; apply hwarm_other; try exact Logic.I; exact H.
    - unfold mhe_setup in D. cbv zeta in D.
      destruct (hs_nhor _) as [n|] eqn:Q1; [|injection D as <- <-; apply hwarm_other; try exact Logic.I; exact H].
      destruct (hs_tstep _) as [dt|] eqn:Q2; [|injection D as <- <-; apply hwarm_other; try exact Logic.I; exact H].
      destruct (hc_obj _) as [ob|] eqn:Q3; [|injection D as <- <-; apply hwarm_other; try exact Logic.I; exact H].
      destruct ((match hc_tvpf _ with None => true | _ => false end) && _)%bool eqn:Q4; [injection D as <- <-; apply hwarm_other; try exact Logic.I; exact H|].
      destruct ((match hc_pf _ with None => true | _ => false end) && _)%bool eqn:Q5; [injection D as <- <-; apply hwarm_other; try exact Logic.I; exact H|].
      destruct (h_b_bad _ _) eqn:Q6; [injection D as <- <-; apply hwarm_other; try exact Logic.I; exact H|].
      assert (HP : hproblem_for tr (mkHprob ob (hc_nl (e_cfg m)) (hc_scal (e_cfg m)) (hc_set (e_cfg m)))).
      { unfold hproblem_for. cbn. rewrite <- (n_obj _ _ N), <- (n_nl _ _ N), <- (n_scal _ _ N), <- (w_set _ _ I). auto. }
      cbn [e_yf e_with_cfg mhe_fns e_fields e_run1 e_cfg e_it e_data e_lam] in D.
      destruct (e_fields m) as [[ff fl] fs].
      destruct (e_yf m) as [|tm|fy] eqn:Q7; [destruct (hs_meas _) eqn:Q8| |]; injection D as <- <-; cbn;
        first [eapply hwarm_setup; [exact H|exact HP]|apply hwarm_other; try exact Logic.I; exact H].
    - unfold mhe_guess in D. destruct (e_setup m) eqn:E0; [destruct (e_ox m) as [ox|] eqn:E1|]; injection D as <- <-;
        try (apply hwarm_other; try exact Logic.I; rewrite ?E1; exact H).
      cbn. replace (hi_x (e_it m)) with (estimate tr) by (unfold estimate; rewrite (w_log _ _ I); reflexivity). rewrite (n_scal _ _ N). apply hwarm_guess. exact H.
    - destruct (mhe_step m y) as [m1 r] eqn:ES.
      destruct (mhe_step_cases _ _ _ _ ES) as [(y' & x & tf & pf & pr & ob & ox & yf & ys & ox' & lg & lx & st & dt & -> & -> & K)|(e & -> & F & W)]; injection D as <- <-.
      + destruct K. rewrite k_ox', k_run, k_lam', k_it. cbn [hi_u hi_z hi_pe]. subst x. rewrite (n_scal _ _ N) in *.
        destruct (hproblem_of m tr I J N k_set) as (pr' & P1 & P2). rewrite k_pr in P1. injection P1 as <-.
        assert (ob = hbounds_of tr) as -> by (rewrite <- (n_bnd _ _ N); pose proof (u_ob _ _ J k_set); congruence).
        destruct (hforce_of m tr tf pf I k_tf k_pf) as (<- & <- & CK & _). rewrite k_ox in H. rewrite <- CK in k_S.
        eapply hwarm_step; eauto. eapply hmeasured_of; eauto.
      + destruct y as [y|].
        * destruct (e_setup m) eqn:E0; [pose proof (step_succeeds m tr y m1 (Err e) I J E0 ES); discriminate|].
          unfold mhe_step in ES. rewrite E0 in ES. injection ES as <- <-. apply hwarm_other; [exact H|exact Logic.I].
        * assert (m1 = m) as -> by (unfold mhe_step in ES; destruct (e_setup m); injection ES as <- _; reflexivity). apply hwarm_other; [exact H|exact Logic.I].
    - injection D as <- <-. cbn. eapply hwarm_u. exact H.
    - injection D as <- <-. cbn. eapply hwarm_z. exact H.
    - injection D as <- <-. cbn. eapply hwarm_pe. exact H.
  Qed.
  Theorem hwarm_reach h m tr : hordinary tr -> hexec h mhe_init = (m, tr) -> hwarm_inv m tr.
  Proof.
    revert m tr. induction h as [|c h IH] using rev_ind; intros m tr Ho H.
    - cbn in H. injection H as <- <-. constructor.
    - rewrite hexec_snoc in H. destruct (hexec h mhe_init) as [m1 t1] eqn:E1. destruct (do_hcall m1 c) as [m2 o] eqn:E2. injection H as <- <-.
      apply hordinary_snoc in Ho as [Ho _]. destruct (hinv2_reach h m1 t1 Ho E1) as [I J].
      eapply hwarm_step_inv; eauto. eapply hconf_reach; eauto.
  Qed.
End P.
