(** * C39-C41, C61: the simulator and the closed loop. *)
From Verif Require Import Base MpcModel MpcSpec MpcProofs MpcProps SimModel SimSpec SimProofs.
Import List.

Section T.
  Context {E : SEnv}.
  Notation sim := (@sim E).
  Notation scall := (@scall E).
  Notation trace := (list (scall * res (option (sY E)))).

  (** ** C39 *)
  (** After any ordinary history with a successful setup, any number of steps with valid arguments: none raises, the
      object follows the model's trajectory with the sampling time given by the user and the parameter functions in
      force, evaluated at the clock, each call returns the measurement of its step, and the rows appended are
      those of the trajectory. *)
  Theorem C39_steps_follow_model (h : list scall) (s : sim) (tr : trace) (cs : list scall) (l : list (sU E * sV E * sW E)) (s' : sim) (tr' : trace) :
    sordinary tr -> sexec h sim_init = (s, tr) -> swas_setup tr ->
    Forall2 step_with cs l -> sexec cs s = (s', tr') ->
    exists dt rows,
      stime_step tr = Some dt /\
      trajectory (stvp_force tr) (sp_force tr) dt (sclock tr) (c_x0 s) (c_simz s) l rows (c_t0 s') (c_x0 s') (c_simz s') /\
      map snd tr' = map (fun r => Ok (Some (snd r))) rows /\
      q_x (c_data s') = q_x (c_data s) ++ map (fun r => fst (fst (fst r))) rows /\
      q_u (c_data s') = q_u (c_data s) ++ map (fun r => snd (fst (fst r))) rows /\
      q_time (c_data s') = q_time (c_data s) ++ map (fun r => snd (fst r)) rows /\
      q_y (c_data s') = q_y (c_data s) ++ map snd rows.
  Proof.
    intros Ho He Hs Hc Hx. destruct (sinv2_reach h s tr Ho He) as [I J].
    assert (CK : sclock tr = c_t0 s) by (unfold sclock; rewrite (v_ck _ _ I); reflexivity). rewrite CK.
    destruct (run_steps cs l Hc s tr s' tr' I J (proj2 (v_setup _ _ I) Hs) Hx) as (dt & rows & D1 & D2 & D3 & []).
    exists dt, rows. auto 10.
  Qed.
  (** A step with an argument of the wrong type or size, or before setup, raises and changes nothing. *)
  Theorem C39_bad_step_no_effect (h : list scall) (s : sim) (tr : trace) u v w :
    sordinary tr -> sexec h sim_init = (s, tr) ->
    (~ swas_setup tr \/ given_u u = None \/ given (s_v_zero E) v = None \/ given (s_w_zero E) w = None) ->
    exists e, sim_step s u v w = (s, Err e).
  Proof.
    intros Ho He Hb. destruct (sinv2_reach h s tr Ho He) as [I J]. destruct (sim_step s u v w) as [s' r] eqn:ES.
    destruct (sim_step_cases _ _ _ _ _ _ ES) as [(u0 & v0 & w0 & tf & pf & dt & GU & GV & GW & G & _)|(e & -> & [->|(u0 & v0 & w0 & tf & pf & GU & G & DT & _)])]; [exfalso|eauto|exfalso].
    - destruct Hb as [Hb|[Hb|[Hb|Hb]]]; try congruence. apply Hb, (v_setup _ _ I), G.
    - destruct (j2_dt _ _ J (g_set _ _ _ _ _ _ _ G)). congruence.
  Qed.

  (** ** C76 *)
  Lemma needed_functions (h : list scall) (s : sim) (tr : trace) : sexec h sim_init = (s, tr) ->
    (0 < s_ntvp E -> c_tvpf s = stvp_of tr) /\ (0 < s_np E -> c_pf s = sp_of tr).
  Proof.
    revert s tr. induction h as [|c h IH] using rev_ind; intros s tr H.
    - cbn in H. injection H as <- <-. split; reflexivity.
    - rewrite sexec_snoc in H. destruct (sexec h sim_init) as [s1 t1] eqn:E1. destruct (do_scall s1 c) as [s2 o] eqn:E2. injection H as <- <-.
      destruct (IH s1 t1 eq_refl) as [T P]. rewrite stvp_snoc, sp_snoc. clear IH E1.
      destruct c; cbn [do_scall] in E2.
      + unfold sim_set_param in E2. destruct (c_setup s1); cbn in E2; injection E2 as <- <-; auto.
      + injection E2 as <- <-; auto.
      + destruct f as [f|]; cbn in E2; injection E2 as <- <-; auto.
      + destruct f as [f|]; cbn in E2; injection E2 as <- <-; auto.
      + unfold sim_setup in E2.
        destruct (c_tvpf s1) as [tf|] eqn:Q1; destruct (c_pf s1) as [pf|] eqn:Q2; cbn [andb] in E2.
        * destruct (c_tstep _) in E2; injection E2 as <- <-; cbn; auto.
        * destruct (Nat.ltb 0 (s_np E)) eqn:N; [injection E2 as <- <-; rewrite Q1, Q2; auto|]. apply Nat.ltb_ge in N.
          destruct (c_tstep _) in E2; injection E2 as <- <-; cbn; (split; [auto|lia]).
        * destruct (Nat.ltb 0 (s_ntvp E)) eqn:N; [injection E2 as <- <-; rewrite Q1, Q2; auto|]. apply Nat.ltb_ge in N.
          destruct (c_tstep _) in E2; injection E2 as <- <-; cbn; (split; [lia|auto]).
        * destruct (Nat.ltb 0 (s_ntvp E)) eqn:N; [injection E2 as <- <-; rewrite Q1, Q2; auto|]. apply Nat.ltb_ge in N.
          destruct (Nat.ltb 0 (s_np E)) eqn:N2; [injection E2 as <- <-; rewrite Q1, Q2; auto|]. apply Nat.ltb_ge in N2.
          destruct (c_tstep _) in E2; injection E2 as <- <-; cbn; (split; lia).
      + unfold sim_guess in E2. destruct (c_setup s1); cbn in E2; injection E2 as <- <-; auto.
      + unfold sim_init_alg in E2. destruct (c_pf s1) as [pf|] eqn:Q1; [destruct (c_tvpf s1) as [tf|] eqn:Q2|].
        * unfold sim_guess in E2. cbn [c_setup sim_attrs] in E2. destruct (c_setup s1); injection E2 as <- <-; cbn; rewrite ?Q1, ?Q2; auto.
        * injection E2 as <- <-. rewrite Q1, Q2. auto.
        * injection E2 as <- <-. rewrite Q1. auto.
      + destruct (sim_step s1 u v w) as [s' [y|e]] eqn:ES; injection E2 as <- <-;
        destruct (sim_step_cases _ _ _ _ _ _ ES) as [(u0 & v0 & w0 & tf & pf & dt & GU & GV & GW & G & _)|(e' & _ & [->|(u0 & v0 & w0 & tf & pf & GU & G & DT & _)])];
          auto; destruct G; rewrite ?g_tf', ?g_pf'; split; intros; try congruence; intuition congruence.
      + injection E2 as <- <-; auto.
      + destruct x; injection E2 as <- <-; auto.
      + destruct z; injection E2 as <- <-; auto.
      + destruct t; injection E2 as <- <-; auto.
  Qed.

  (** Simulator.setup returns normally exactly when the sampling time is given and every function the model needs. *)
  Theorem C76_simulator_setup_accepted_iff (h : list scall) (s : sim) (tr : trace) :
    sexec h sim_init = (s, tr) ->
    (snd (sim_setup s) = Ok tt <->
       stime_step tr <> None /\ (0 < s_ntvp E -> stvp_of tr <> None) /\ (0 < s_np E -> sp_of tr <> None)).
  Proof.
    intros H. destruct (needed_functions h s tr H) as [T P]. pose proof (sinv_reach h s tr H) as I. rewrite <- (v_ts _ _ I).
    unfold sim_setup. split.
    - destruct (match c_tvpf s with None => true | _ => false end && _)%bool eqn:Q1; [discriminate|].
      destruct (match c_pf s with None => true | _ => false end && _)%bool eqn:Q2; [discriminate|].
      change (c_tstep (sim_fns ?a ?b s)) with (c_tstep s). destruct (c_tstep s) eqn:Q3; [|discriminate]. intros _.
      split; [discriminate|]. split; intros N.
      + rewrite <- (T N). destruct (c_tvpf s); [discriminate|]. cbn [andb] in Q1. apply Nat.ltb_ge in Q1. lia.
      + rewrite <- (P N). destruct (c_pf s); [discriminate|]. cbn [andb] in Q2. apply Nat.ltb_ge in Q2. lia.
    - intros (H1 & H2 & H3).
      replace (match c_tvpf s with None => true | _ => false end && _)%bool with false.
      2:{ symmetry. destruct (c_tvpf s) eqn:Q; [reflexivity|]. cbn [andb]. apply Nat.ltb_ge. destruct (s_ntvp E) eqn:N; [lia|]. exfalso. apply H2; [lia|]. symmetry. apply T. lia. }
      replace (match c_pf s with None => true | _ => false end && _)%bool with false.
      2:{ symmetry. destruct (c_pf s) eqn:Q; [reflexivity|]. cbn [andb]. apply Nat.ltb_ge. destruct (s_np E) eqn:N; [lia|]. exfalso. apply H3; [lia|]. symmetry. apply P. lia. }
      change (c_tstep (sim_fns ?a ?b s)) with (c_tstep s). destruct (c_tstep s); [reflexivity|congruence].
  Qed.
  (** A refused setup leaves state, clock and data alone, and the simulator refuses to step as before. *)
  Theorem C76_refused_setup_no_effect (s s' : sim) e : sim_setup s = (s', Err e) ->
    c_setup s' = c_setup s /\ c_tstep s' = c_tstep s /\ c_x0 s' = c_x0 s /\ c_z0 s' = c_z0 s /\ c_u0 s' = c_u0 s /\ c_t0 s' = c_t0 s /\
    c_simz s' = c_simz s /\ c_data s' = c_data s.
  Proof.
    unfold sim_setup. destruct (_ && _)%bool; [intros [= <- _]; auto 10|]. destruct (_ && _)%bool; [intros [= <- _]; auto 10|].
    change (c_tstep (sim_fns ?a ?b s)) with (c_tstep s). destruct (c_tstep s) eqn:Q; [discriminate|]. intros [= <- _]. cbn. rewrite Q. auto 10.
  Qed.

  (** ** C40 *)
  Theorem C40_rows_and_times (h : list scall) (s : sim) (tr : trace) :
    sordinary tr -> sexec h sim_init = (s, tr) ->
    same_rows (c_data s) (length (slog tr)) /\
    q_time (c_data s) = map snd (slog tr) /\
    map Some (q_u (c_data s)) = map (fun e => given_u (fst e)) (slog tr) /\
    c_t0 s = sclock tr.
  Proof.
    intros Ho He. destruct (sinv2_reach h s tr Ho He) as [I J]. split; [apply J|]. split; [apply J|]. split; [apply J|].
    unfold sclock. rewrite (v_ck _ _ I). reflexivity.
  Qed.
  (** A reset, wherever in the history, then n steps: n rows in every field, at times 0, dt, 2 dt, ... *)
  Theorem C40_after_reset (h : list scall) (s : sim) (tr : trace) (cs : list scall) l s1 s2 o tr2 :
    sordinary tr -> sexec h sim_init = (s, tr) -> swas_setup tr -> do_scall s SReset = (s1, o) ->
    Forall2 step_with cs l -> sexec cs s1 = (s2, tr2) ->
    o = Ok None /\ c_x0 s1 = c_x0 s /\ c_z0 s1 = c_z0 s /\ c_u0 s1 = c_u0 s /\ c_simz s1 = c_simz s /\ same_rows (c_data s1) 0 /\
    exists dt, stime_step tr = Some dt /\ same_rows (c_data s2) (length l) /\ q_time (c_data s2) = ticks dt (s_t_zero E) (length l) /\
      q_u (c_data s2) = map (fun e => fst (fst e)) l.
  Proof.
    intros Ho He Hs Hr Hc Hx. pose proof Hr as Hr'. cbn in Hr'. injection Hr' as <- <-.
    repeat (split; [reflexivity|]). split; [repeat split|].
    destruct (sinv2_reach h s tr Ho He) as [I J].
    assert (I1 : sinv (sim_reset s) (tr ++ [(SReset, Ok None)])) by (eapply sinv_step; eauto; reflexivity).
    assert (J1 : sinv2 (sim_reset s) (tr ++ [(SReset, Ok None)])) by (eapply sinv2_step; eauto; first [exact Logic.I|reflexivity]).
    assert (S1 : c_setup (sim_reset s) = true) by (apply (v_setup _ _ I); exact Hs).
    destruct (run_steps cs l Hc _ _ s2 tr2 I1 J1 S1 Hx) as (dt & rows & D1 & D2 & D3 & [A1 A2 A3 A4]).
    exists dt. rewrite sts_snoc in D1. cbn in D1. split; [exact D1|].
    assert (HX : sexec (h ++ SReset :: cs) sim_init = (s2, tr ++ (SReset, Ok None) :: tr2)).
    { rewrite sexec_app, He. cbn [sexec do_scall]. rewrite Hx. reflexivity. }
    assert (HO : sordinary (tr ++ (SReset, Ok None) :: tr2)).
    { apply sordinary_app; [exact Ho|]. intros t o [Q|Q]; [discriminate Q|]. eapply (steps_no_setting cs l); eauto. }
    destruct (sinv2_reach _ _ _ HO HX) as [_ J2].
    rewrite (trajectory_times _ _ _ _ _ _ _ _ _ _ _ D2) in A3. rewrite (trajectory_inputs _ _ _ _ _ _ _ _ _ _ _ D2) in A2.
    cbn in A2, A3. split; [|split; [exact A3|exact A2]].
    pose proof (j2_r _ _ J2) as R. replace (length (slog (tr ++ (SReset, Ok None) :: tr2))) with (length l) in R; [exact R|].
    destruct R as (_ & R & _). rewrite <- R, A2, map_length. reflexivity.
  Qed.

  (** ** C61 *)
  (** After a reset the first row's auxiliary value belongs to that row; every later row's value is computed with the
      input and the parameters of the row before. *)
  Theorem C61_aux_rows_partial (h : list scall) (s : sim) (tr : trace) (cs : list scall) l s2 tr2 :
    sordinary tr -> sexec h sim_init = (s, tr) -> swas_setup tr ->
    Forall2 step_with cs l -> sexec cs (sim_reset s) = (s2, tr2) ->
    exists rows, full_rows no_srows (c_data s2) rows /\ length rows = length l /\
      match rows with [] => True | r :: rest => own_aux r /\ lagged_from r rest end /\
      ((forall x z u u' tv tv' p p', s_aux E x u z tv p = s_aux E x u' z tv' p') -> Forall own_aux rows).
  Proof.
    intros Ho He Hs Hc Hx.
    destruct (sinv2_reach h s tr Ho He) as [I J].
    assert (I1 : sinv (sim_reset s) (tr ++ [(SReset, Ok None)])) by (eapply sinv_step; eauto; reflexivity).
    assert (J1 : sinv2 (sim_reset s) (tr ++ [(SReset, Ok None)])) by (eapply sinv2_step; eauto; first [exact Logic.I|reflexivity]).
    assert (S1 : c_setup (sim_reset s) = true) by (apply (v_setup _ _ I); exact Hs).
    destruct (run_rows cs l Hc _ _ s2 tr2 I1 J1 S1 Hx) as (rows & FR & LN & CH).
    exists rows. split; [exact FR|]. split; [exact LN|].
    destruct rows as [|r rest]; [split; [exact Logic.I|constructor]|]. cbn [c_first sim_reset] in CH. destruct CH as (C1 & _ & _ & C4).
    split; [split; assumption|]. intros Hi. constructor; [exact C1|]. clear - C4 Hi. revert r C4. induction rest as [|q rest IH]; intros r C4; [constructor|].
    destruct C4 as [H1 H2]. constructor; [|eapply IH; eauto]. unfold own_aux. rewrite H1. apply Hi.
  Qed.
End T.

(** ** C41 *)
Section Closed.
  Context {E : Env} {F : SEnv}.
  Variable toU : tU E -> sU F.
  Variable toX : sY F -> tX E.
  Variable xx : sX F -> tX E.          (* the state as the controller sees it *)
  Variable tt_ : sTm F -> tTm E.       (* time as the controller sees it *)

  Theorem C41_closed_loop (n : nat) (hm : list (@call E)) (m : @mpc E) tr (hs : list (@scall F)) (s : @sim F) str :
    (* the two objects: any ordinary history containing a successful setup *)
    ordinary tr -> exec hm mpc_init = (m, tr) -> was_setup tr ->
    sordinary str -> sexec hs sim_init = (s, str) -> swas_setup str ->
    (* same clock and sampling time *)
    (forall a b, tt_ (s_tadd F a b) = tadd E (tt_ a) (tt_ b)) ->
    tt_ (sclock str) = clock tr -> option_map tt_ (stime_step str) = s_tstep (settings_of tr) ->
    (* the model has no measurement equation of its own: the measurement is the state *)
    (forall x u z tv p, toX (s_meas F x u z tv p (s_v_zero F)) = xx x) ->
    exists m' s' xs us ts dt,
      (* the loop, started with the simulator's state, runs through *)
      loop toU toX n m s (xx (c_x0 s)) = (m', s', Ok (xx (c_x0 s'))) /\
      length xs = n /\ length us = n /\ length ts = n /\
      (* both recorded the same states, inputs and times *)
      r_x (m_data m') = r_x (m_data m) ++ map xx xs /\ q_x (c_data s') = q_x (c_data s) ++ xs /\
      r_u (m_data m') = r_u (m_data m) ++ us /\ q_u (c_data s') = q_u (c_data s) ++ map toU us /\
      r_time (m_data m') = r_time (m_data m) ++ map tt_ ts /\ q_time (c_data s') = q_time (c_data s) ++ ts /\
      (* and these are a run of the model under the controller's inputs *)
      stime_step str = Some dt /\
      exists rows, trajectory (stvp_force str) (sp_force str) dt (sclock str) (c_x0 s) (c_simz s)
                     (map (fun u => (toU u, s_v_zero F, s_w_zero F)) us) rows (c_t0 s') (c_x0 s') (c_simz s') /\
                   map (fun r => fst (fst (fst r))) rows = xs.
  Proof.
    intros Om Em Wm Os Es Ws Htt Hck Hdt Hme. revert hm m tr hs s str Om Em Wm Os Es Ws Hck Hdt.
    induction n as [|n IH]; intros hm m tr hs s str Om Em Wm Os Es Ws Hck Hdt.
    - destruct (sinv2_reach hs s str Os Es) as [I J].
      destruct (j2_dt _ _ J (proj2 (v_setup _ _ I) Ws)) as [_ D]. pose proof (v_ts _ _ I) as TS.
      destruct (c_tstep s) as [dt|] eqn:CT; [|congruence].
      assert (CK : sclock str = c_t0 s) by (unfold sclock; rewrite (v_ck _ _ I); reflexivity).
      exists m, s, [], [], [], dt. cbn [loop map length]. rewrite !app_nil_r.
      repeat (split; [auto; fail|]). exists []. rewrite CK. split; [constructor|reflexivity].
    - destruct (C14_ordinary_histories hm m tr Om Em) as (_ & _ & _ & _ & _ & Hok).
      destruct (Hok Wm (xx (c_x0 s))) as (m1 & u & ES).
      pose proof (C14_step_protocol hm m tr (xx (c_x0 s)) m1 u Em ES) as SP1.
      destruct SP1 as (pr & obs & ox & ox' & lg & lx & st & dtm & _ & _ & _ & _ & _ & Hd & Ht & _ & _ & _ & _ & Rx & Ru & Rt & _).
      destruct (sinv2_reach hs s str Os Es) as [I J].
      assert (CS : c_setup s = true) by (apply (v_setup _ _ I); exact Ws).
      destruct (sim_step_ok s str (Some (Good (toU u))) None None (toU u) (s_v_zero F) (s_w_zero F) I J CS eq_refl eq_refl eq_refl)
        as (s1 & dt & SS & G & T1 & T2 & T3 & T4 & TR).
      set (y := s_meas F (c_x0 s1) (toU u) (c_simz s1) (stvp_force str (c_t0 s)) (sp_force str (c_t0 s)) (s_v_zero F)) in *.
      set (em := (KStep (Good (xx (c_x0 s))), Ok (Some u)) : @call E * res (option (tU E))).
      set (es := (SStep (Some (Good (toU u))) None None, Ok (Some y)) : @scall F * res (option (sY F))).
      assert (X1 : exec (hm ++ [fst em]) mpc_init = (m1, tr ++ [em])).
      { rewrite exec_snoc, Em. cbn [fst em do_call]. rewrite ES. reflexivity. }
      assert (X2 : sexec (hs ++ [fst es]) sim_init = (s1, str ++ [es])).
      { rewrite sexec_snoc, Es. cbn [fst es do_scall]. rewrite SS. reflexivity. }
      assert (CKm : clock tr = m_t0 m) by (unfold clock; rewrite (i_c _ _ (inv1_reach _ _ _ Em)); reflexivity).
      assert (CKm1 : clock (tr ++ [em]) = m_t0 m1) by (unfold clock; rewrite (i_c _ _ (inv1_reach _ _ _ X1)); reflexivity).
      assert (SETm : settings_of (tr ++ [em]) = settings_of tr) by (unfold settings_of; rewrite fold_left_app; reflexivity).
      assert (CKs : sclock str = c_t0 s) by (unfold sclock; rewrite (v_ck _ _ I); reflexivity).
      destruct (sinv2_reach (hs ++ [fst es]) s1 (str ++ [es])) as [I1 J1]; [apply sordinary_snoc; split; [exact Os|discriminate]|exact X2|].
      assert (CKs1 : sclock (str ++ [es]) = c_t0 s1) by (unfold sclock; rewrite (v_ck _ _ I1); reflexivity).
      assert (TSs : stime_step (str ++ [es]) = stime_step str) by (rewrite sts_snoc; reflexivity).
      assert (DT : stime_step str = Some dt) by (rewrite <- (v_ts _ _ I); exact T1).
      assert (Hxy : toX y = xx (c_x0 s1)) by apply Hme.
      destruct (IH (hm ++ [fst em]) m1 (tr ++ [em]) (hs ++ [fst es]) s1 (str ++ [es])) as (m' & s' & xs & us & ts & dt' & L & N1 & N2 & N3 & R1 & R2 & R3 & R4 & R5 & R6 & R7 & rows & TJ & RX).
      + apply ordinary_snoc. split; [exact Om|exact Logic.I].
      + exact X1.
      + apply was_setup_snoc. auto.
      + apply sordinary_snoc. split; [exact Os|discriminate].
      + exact X2.
      + apply swas_snoc. auto.
      + rewrite CKs1, CKm1, T3, Ht, Htt, <- CKs, Hck. f_equal. rewrite DT, Hd in Hdt. cbn in Hdt. congruence.
      + rewrite TSs, SETm. exact Hdt.
      + assert (dt' = dt) by congruence. subst dt'.
        exists m', s', (c_x0 s :: xs), (u :: us), (sclock str :: ts), dt.
        destruct G as [_ _ _ _ [Q1 Q2 Q3 Q4 Q5 Q6 Q7 Q8] _ _ _ _ _ _ _ _].
        split; [cbn [loop]; rewrite ES, SS, Hxy; exact L|].
        split; [cbn; congruence|]. split; [cbn; congruence|]. split; [cbn; congruence|].
        split; [rewrite R1, Rx, <- app_assoc; reflexivity|]. split; [rewrite R2, Q1, <- app_assoc; reflexivity|].
        split; [rewrite R3, Ru, <- app_assoc; reflexivity|]. split; [rewrite R4, Q2, <- app_assoc; reflexivity|].
        split; [rewrite R5, Rt, <- app_assoc, <- Hck; reflexivity|]. split; [rewrite R6, Q8, <- app_assoc, CKs; reflexivity|].
        split; [exact DT|].
        assert (F1 : stvp_force (str ++ [es]) = stvp_force str) by (unfold stvp_force; rewrite stvp_snoc; reflexivity).
        assert (F2 : sp_force (str ++ [es]) = sp_force str) by (unfold sp_force; rewrite sp_snoc; reflexivity).
        rewrite F1, F2, CKs1, T3 in TJ.
        eexists. split; [cbn [map]; rewrite CKs; econstructor; [exact TR|exact TJ]|]. cbn. rewrite RX. reflexivity.
  Qed.

  (** Whatever the two objects are: the loop makes exactly these calls, stops at the first exception, and reports it. *)
  Theorem C41_loop_calls (n : nat) (m m' : @mpc E) (s s' : @sim F) x r :
    loop toU toX n m s x = (m', s', r) ->
    exists hm hs tm ts, exec hm m = (m', tm) /\ sexec hs s = (s', ts) /\ loop_trace toU toX x n tm ts r.
  Proof.
    revert m s x. induction n as [|n IH]; intros m s x H; cbn [loop] in H.
    - injection H as <- <- <-. exists [], [], [], []. split; [reflexivity|]. split; [reflexivity|constructor].
    - destruct (make_step m (Good x)) as [m1 [u|e]] eqn:ES.
      + destruct (sim_step s (Some (Good (toU u))) None None) as [s1 [y|e]] eqn:SS.
        * destruct (IH _ _ _ H) as (hm & hs & tm & ts & H1 & H2 & H3).
          exists (KStep (Good x) :: hm), (SStep (Some (Good (toU u))) None None :: hs). eexists. eexists.
          split; [cbn [exec do_call]; rewrite ES, H1; reflexivity|]. split; [cbn [sexec do_scall]; rewrite SS, H2; reflexivity|]. constructor. exact H3.
        * injection H as <- <- <-. exists [KStep (Good x)], [SStep (Some (Good (toU u))) None None]. eexists. eexists.
          split; [cbn [exec do_call]; rewrite ES; reflexivity|]. split; [cbn [sexec do_scall]; rewrite SS; reflexivity|]. constructor.
      + injection H as <- <- <-. exists [KStep (Good x)], []. eexists. eexists.
        split; [cbn [exec do_call]; rewrite ES; reflexivity|]. split; [reflexivity|]. constructor.
  Qed.
End Closed.

(** ** Concrete models over the integers. *)
Module SEx.
  Local Open Scope Z_scope.
  (** Discrete time with one algebraic variable: x' = x + u + z + w with z = x - u + tvp; auxiliary x + 10 u. *)
  Definition dae : SEnv := mkSEnv Z Z Z Z unit Z Z Z Z Z
    true false false 1 0 Z.add 0 0 0 0 0 0 0
    (fun x u z tv _ w => x + u + z + w) (fun _ x u tv _ _ => x - u + tv)
    (fun d x z _ _ _ _ => (x, z)) (fun x u z tv _ => x + 10 * u) (fun x u z tv _ v => x + v)
    (fun _ x u tv _ => x - u + tv) (fun _ => 0) (fun _ => tt).
  (** Continuous time, dx/dt = u: x' = x + d u over an interval of length d. *)
  Definition ode : SEnv := mkSEnv Z Z unit unit unit unit Z Z Z Z
    false false true 0 0 Z.add 0 0 0 tt tt 0 0
    (fun x u _ _ _ _ => x) (fun z _ _ _ _ _ => z)
    (fun d x z u _ _ _ => (x + d * u, z)) (fun x u z tv _ => x + 10 * u) (fun x u z tv _ v => x + v)
    (fun z _ _ _ _ => z) (fun _ => tt) (fun _ => tt).

  Notation su E v := (Some (Good (v%Z : sU E)) : option (arg (sU E))).
  Definition dae_conf : list (@scall dae) :=
    [SSetting (Some (2 : sTm dae)); STvp (Good (fun t : Z => t) : arg (sTm dae -> sTV dae)); SX0 (Good (3 : sX dae)); SSetup; SGuess].
  Definition dae_steps : list (@scall dae) :=
    [SStep (su dae 5) None None; SStep (su dae 1) (Some (Good (7 : sV dae))) (Some (Good (4 : sW dae)))].
  Definition ode_conf : list (@scall ode) := [SParam (2 : sTm ode); SX0 (Good (3 : sX ode)); SSetup].
End SEx.

Section SHelpers.
  Context {E : SEnv}.
  Notation trace := (list (@scall E * res (option (sY E)))).
  Definition swas_setupb (tr : trace) : bool := existsb (fun e => match e with (SSetup, Ok _) => true | _ => false end) tr.
  Lemma swas_setupb_ok tr : swas_setupb tr = true -> swas_setup tr.
  Proof. unfold swas_setupb. rewrite existsb_exists. intros ([c o] & Hin & H). destruct c; try discriminate; destruct o as [v|]; try discriminate; exists v; auto. Qed.
  Lemma sall_ok (tr : trace) : forallb (fun e => is_ok (snd e)) tr = true -> forall c o, In (c, o) tr -> is_ok o = true.
  Proof. rewrite forallb_forall. intros H c o Hin. exact (H (c, o) Hin). Qed.
End SHelpers.

Example C39_nonvacuous :
  let s := fst (sexec SEx.dae_conf sim_init) in let tr := snd (sexec SEx.dae_conf sim_init) in
  sordinary tr /\ swas_setup tr /\ Forall2 step_with SEx.dae_steps [(5, 0, 0); (1, 7, 4)]%Z /\
  q_x (c_data (fst (sexec SEx.dae_steps s))) = [3; 6]%Z /\ q_y (c_data (fst (sexec SEx.dae_steps s))) = [6; 25]%Z /\
  q_time (c_data (fst (sexec SEx.dae_steps s))) = [0; 2]%Z /\ c_x0 (fst (sexec SEx.dae_steps s)) = 18%Z.
Proof.
  cbv zeta. split; [apply sordinaryb_ok; vm_compute; reflexivity|]. split; [apply swas_setupb_ok; vm_compute; reflexivity|].
  split; [repeat constructor|]. repeat split; vm_compute; reflexivity.
Qed.

(** C61: the same session; after a reset the two steps record two rows, the first with its own auxiliary value. *)
Example C61_nonvacuous :
  let s := fst (sexec SEx.dae_conf sim_init) in let tr := snd (sexec SEx.dae_conf sim_init) in
  sordinary tr /\ swas_setup tr /\ Forall2 step_with SEx.dae_steps [(5, 0, 0); (1, 7, 4)]%Z /\
  q_aux (c_data (fst (sexec SEx.dae_steps (sim_reset s)))) = [53; 56]%Z.
Proof.
  cbv zeta. split; [apply sordinaryb_ok; vm_compute; reflexivity|]. split; [apply swas_setupb_ok; vm_compute; reflexivity|].
  split; [repeat constructor|]. vm_compute; reflexivity.
Qed.

(** Assigning settings.t_step after setup is accepted; the clock then advances by the new value while the model is
    integrated over the old interval. *)
Theorem C39_setting_after_setup_refuted :
  exists (h : list (@scall SEx.ode)) s tr u s' y dt,
    sexec h sim_init = (s, tr) /\ (forall c o, In (c, o) tr -> is_ok o = true) /\ swas_setup tr /\ stime_step tr = Some dt /\
    sim_step s (Some (Good u)) None None = (s', Ok y) /\ c_t0 s' = s_tadd SEx.ode (c_t0 s) dt /\
    forall z', ~ transition dt u (stvp_force tr (sclock tr)) (sp_force tr (sclock tr)) tt (c_x0 s) (c_simz s) (c_x0 s') z'.
Proof.
  set (h := SEx.ode_conf ++ [SSetting (Some (5%Z : sTm SEx.ode))]).
  exists h, (fst (sexec h sim_init)), (snd (sexec h sim_init)), (1%Z : sU SEx.ode).
  exists (fst (sim_step (fst (sexec h sim_init)) (Some (Good (1%Z : sU SEx.ode))) None None)), (5%Z : sY SEx.ode), (5%Z : sTm SEx.ode).
  split; [apply surjective_pairing|]. split; [apply sall_ok; vm_compute; reflexivity|]. split; [apply swas_setupb_ok; vm_compute; reflexivity|].
  split; [vm_compute; reflexivity|]. split; [apply pair_snd; vm_compute; reflexivity|]. split; [vm_compute; reflexivity|].
  intros z' H. inversion H as [? ? Hd|? ? ? Hd|x z x' zz Hd Hi]; try discriminate Hd. vm_compute in Hi. discriminate Hi.
Qed.
(** With settings.t_step set to None after setup a step raises, but the state and the rows have changed and
    the clock has not. *)
Theorem C39_raising_step_has_effects_refuted :
  exists (h : list (@scall SEx.ode)) s tr u s' e,
    sexec h sim_init = (s, tr) /\ (forall c o, In (c, o) tr -> is_ok o = true) /\ swas_setup tr /\
    sim_step s (Some (Good u)) None None = (s', Err e) /\ c_x0 s' <> c_x0 s /\ length (q_x (c_data s')) = length (q_x (c_data s)) + 1 /\ c_t0 s' = c_t0 s.
Proof.
  set (h := SEx.ode_conf ++ [SSetting None]).
  exists h, (fst (sexec h sim_init)), (snd (sexec h sim_init)), (1%Z : sU SEx.ode).
  exists (fst (sim_step (fst (sexec h sim_init)) (Some (Good (1%Z : sU SEx.ode))) None None)), ExcType.
  split; [apply surjective_pairing|]. split; [apply sall_ok; vm_compute; reflexivity|]. split; [apply swas_setupb_ok; vm_compute; reflexivity|].
  split; [apply pair_snd; vm_compute; reflexivity|]. split; [vm_compute; discriminate|]. split; vm_compute; reflexivity.
Qed.

(** Complete; without the function of the time-varying parameter the model needs; without the sampling time. *)
Example C76_simulator_nonvacuous :
  let run h := snd (sim_setup (fst (sexec h (@sim_init SEx.dae)))) in
  let ts := SSetting (Some (2%Z : sTm SEx.dae)) in let tv := STvp (Good (fun t : Z => t) : arg (sTm SEx.dae -> sTV SEx.dae)) in
  run [ts; tv] = Ok tt /\ is_ok (run [ts]) = false /\ is_ok (run [tv]) = false /\ run [ts; SSetup; tv] = Ok tt.
Proof. cbv zeta. repeat split; vm_compute; reflexivity. Qed.

Example C40_nonvacuous :
  let h := SEx.dae_conf ++ SEx.dae_steps in
  let s := fst (sexec h sim_init) in
  sordinary (snd (sexec h sim_init)) /\ swas_setup (snd (sexec h sim_init)) /\ length (q_x (c_data s)) = 2 /\
  let s2 := fst (sexec SEx.dae_steps (sim_reset s)) in
  q_time (c_data s2) = [0; 2]%Z /\ q_x (c_data s2) = [18; 36]%Z.
Proof.
  cbv zeta. split; [apply sordinaryb_ok; vm_compute; reflexivity|]. split; [apply swas_setupb_ok; vm_compute; reflexivity|]. repeat split; vm_compute; reflexivity.
Qed.

(** Rows whose auxiliary value is not that of the row: the input changes between two steps. *)
Theorem C61_aux_refuted :
  exists (h : list (@scall SEx.dae)) s tr rows,
    sordinary tr /\ sexec h sim_init = (s, tr) /\ (forall c o, In (c, o) tr -> is_ok o = true) /\
    full_rows no_srows (c_data s) rows /\ ~ Forall own_aux rows.
Proof.
  set (h := SEx.dae_conf ++ SEx.dae_steps).
  exists h, (fst (sexec h sim_init)), (snd (sexec h sim_init)).
  exists [@mkRow SEx.dae 3%Z 5%Z 0%Z 0%Z tt 53%Z; @mkRow SEx.dae 6%Z 1%Z (-2)%Z 2%Z tt 56%Z].
  split; [apply sordinaryb_ok; vm_compute; reflexivity|]. split; [apply surjective_pairing|]. split; [apply sall_ok; vm_compute; reflexivity|].
  split; [repeat split; vm_compute; reflexivity|]. intros H. inversion H as [|? ? _ H2]; subst. inversion H2 as [|? ? H3 _]; subst. vm_compute in H3. discriminate H3.
Qed.
(** Discrete-time model with algebraic variables: the algebraic value recorded in a row does not solve the algebraic
    equation z = x - u + tvp for that row, not even in the first one. *)
Theorem C61_algebraic_refuted :
  exists (h : list (@scall SEx.dae)) s tr rows,
    sordinary tr /\ sexec h sim_init = (s, tr) /\ (forall c o, In (c, o) tr -> is_ok o = true) /\
    full_rows no_srows (c_data s) rows /\ length rows = 2 /\ Forall (fun r => w_z r <> s_root SEx.dae 0%Z (w_x r) (w_u r) (w_tv r) (w_p r) 0%Z) rows.
Proof.
  set (h := SEx.dae_conf ++ SEx.dae_steps).
  exists h, (fst (sexec h sim_init)), (snd (sexec h sim_init)).
  exists [@mkRow SEx.dae 3%Z 5%Z 0%Z 0%Z tt 53%Z; @mkRow SEx.dae 6%Z 1%Z (-2)%Z 2%Z tt 56%Z].
  split; [apply sordinaryb_ok; vm_compute; reflexivity|]. split; [apply surjective_pairing|]. split; [apply sall_ok; vm_compute; reflexivity|].
  split; [repeat split; vm_compute; reflexivity|]. split; [reflexivity|]. repeat constructor; vm_compute; discriminate.
Qed.

(** C41: the controller of MpcProps.Ex with the integrator model. *)
Example C41_nonvacuous :
  let hm := [KParam (fun s : @settings Ex.env => mkSet (Some 2%Z) (Some 10) (s_term s) (s_full s) (s_lagr s) (s_stats s)); Ex.ok_obj; Ex.tvp2; KSetup] in
  let m := fst (exec hm mpc_init) in let tr := snd (exec hm mpc_init) in
  let s := fst (sexec SEx.ode_conf sim_init) in let str := snd (sexec SEx.ode_conf sim_init) in
  let id1 := (fun v => v) : tU Ex.env -> sU SEx.ode in let id2 := (fun v => v) : sY SEx.ode -> tX Ex.env in
  ordinary tr /\ was_setup tr /\ sordinary str /\ swas_setup str /\ sclock str = clock tr /\ stime_step str = s_tstep (settings_of tr) /\
  r_x (m_data (fst (fst (loop id1 id2 3 m s 3%Z)))) = [3; 9; 29]%Z /\
  q_x (c_data (snd (fst (loop id1 id2 3 m s 3%Z)))) = [3; 9; 29]%Z /\
  r_u (m_data (fst (fst (loop id1 id2 3 m s 3%Z)))) = [3; 10; 27]%Z /\
  q_time (c_data (snd (fst (loop id1 id2 3 m s 3%Z)))) = [0; 2; 4]%Z.
Proof.
  cbv zeta. split; [apply ordinaryb_ok; vm_compute; reflexivity|]. split; [apply was_setupb_ok; vm_compute; reflexivity|]. split; [apply sordinaryb_ok; vm_compute; reflexivity|].
  split; [apply swas_setupb_ok; vm_compute; reflexivity|]. repeat split; vm_compute; reflexivity.
Qed.

Print Assumptions C39_steps_follow_model.
Print Assumptions C39_bad_step_no_effect.
Print Assumptions C39_setting_after_setup_refuted.
Print Assumptions C39_raising_step_has_effects_refuted.
Print Assumptions C40_rows_and_times.
Print Assumptions C40_after_reset.
Print Assumptions C41_closed_loop.
Print Assumptions C61_aux_rows_partial.
Print Assumptions C61_aux_refuted.
Print Assumptions C61_algebraic_refuted.
Print Assumptions C41_loop_calls.
Print Assumptions C76_simulator_setup_accepted_iff.
Print Assumptions C76_refused_setup_no_effect.
