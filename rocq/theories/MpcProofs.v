(** * Proofs about the MPC life cycle. *)
From Verif Require Import Base MpcModel MpcSpec.
Import List.

Ltac brk H := repeat match type of H with
  | context [match ?x with _ => _ end] => let Q := fresh "Q" in destruct x eqn:Q; try discriminate H; cbn [bind] in H
  | context [if ?x then _ else _] => let Q := fresh "Q" in destruct x eqn:Q; try discriminate H; cbn [bind] in H
  end.

Section P.
  Context {E : Env}.
  Notation mpc := (@mpc E).
  Notation call := (@call E).
  Notation trace := (list (call * res (option (tU E)))).
  Implicit Types m : mpc.

  Lemma exec_app h1 h2 m : exec (h1 ++ h2) m = let (m1, t1) := exec h1 m in let (m2, t2) := exec h2 m1 in (m2, t1 ++ t2).
  Proof.
    revert m. induction h1 as [|c h IH]; intros m; cbn [exec app].
    - destruct (exec h2 m); reflexivity.
    - destruct (do_call m c) as [m1 o]. rewrite IH. destruct (exec h m1) as [m2 t2]. destruct (exec h2 m2). reflexivity.
  Qed.

  Lemma exec_snoc h c m : exec (h ++ [c]) m =
    let (m1, tr) := exec h m in let (m2, o) := do_call m1 c in (m2, tr ++ [(c, o)]).
  Proof.
    rewrite exec_app. destruct (exec h m) as [m1 tr]. cbn [exec]. destruct (do_call m1 c) as [m2 o]. reflexivity.
  Qed.

  Lemma exec_ind (Q : mpc -> trace -> Prop) (ok : call -> Prop) m0 :
    Q m0 [] ->
    (forall m tr c m' o, Q m tr -> ok c -> do_call m c = (m', o) -> Q m' (tr ++ [(c, o)])) ->
    forall h m tr, Forall ok h -> exec h m0 = (m, tr) -> Q m tr.
  Proof.
    intros H0 Hs h. induction h as [|c h IH] using rev_ind; intros m tr Hok He.
    - cbn in He. injection He as <- <-. exact H0.
    - apply Forall_app in Hok as [Hok1 Hok2]. inversion Hok2; subst.
      rewrite exec_snoc in He. destruct (exec h m0) as [m1 t1] eqn:E1. destruct (do_call m1 c) as [m2 o] eqn:E2.
      injection He as <- <-. eapply Hs; eauto.
  Qed.

  Lemma exec_length h m : length (snd (exec h m)) = length h.
  Proof.
    revert m. induction h as [|c h IH]; intros m; [reflexivity|]. cbn [exec]. destruct (do_call m c) as [m1 o].
    specialize (IH m1). destruct (exec h m1). cbn in *. lia.
  Qed.

  (** ** make_step *)
  Inductive stepped (m : mpc) (x : tX E) (m' : mpc) (u : tU E) : Prop :=
  | stepped_i tf pf pr obs ox dt ox' lg lx st d z
      (Hset : m_setup m = true)
      (Htf : m_tvpf m = Some tf) (Hpf : m_pf m = Some pf) (Hpr : m_prob m = Some pr) (Hob : m_ob m = Some obs) (Hox : m_ox m = Some ox)
      (Hdt : s_tstep (m_set m) = Some dt)
      (HS : S E pr obs ox (if m_run1 m then m_lam m else None) (x, m_u0 m, tf (m_t0 m), pf (m_t0 m)) = (ox', lg, lx, st))
      (Hu : u = scale_u E (m_scal m Vu) (ox_u E ox'))
      (Hz : z = scale_z E (m_scal m Vz) (ox_z E ox'))
      (Hd : d = mkRows (r_x (m_data m) ++ [x]) (r_u (m_data m) ++ [u]) (r_z (m_data m) ++ [z])
                  (r_tvp (m_data m) ++ [tv_now E (tf (m_t0 m))]) (r_p (m_data m) ++ [p_nom E (pf (m_t0 m))])
                  (r_time (m_data m) ++ [m_t0 m]) (r_aux (m_data m) ++ [aux_of E pr ox' (x, m_u0 m, tf (m_t0 m), pf (m_t0 m))])
                  (r_optp (m_data m) ++ [(x, m_u0 m, tf (m_t0 m), pf (m_t0 m))])
                  (if s_full (m_set m) then r_full (m_data m) ++ [(ox', aux_of E pr ox' (x, m_u0 m, tf (m_t0 m), pf (m_t0 m)))] else r_full (m_data m))
                  (if s_lagr (m_set m) then r_lam (m_data m) ++ [lg] else r_lam (m_data m))
                  (if s_stats (m_set m) then r_stats (m_data m) ++ [st] else r_stats (m_data m)))
      (Hf : (s_full (m_set m) = true -> fst (fst (m_fields m)) = true) /\
            (s_lagr (m_set m) = true -> snd (fst (m_fields m)) = true) /\
            (s_stats (m_set m) = true -> snd (m_fields m) = true))
      (Hm : m' = with_iter x u z (tadd E (m_t0 m) dt) (with_data d (with_sol ox' (lg, lx) m))).

  Inductive failed_step (m m' : mpc) : Prop :=
  | fs_same (H : m' = m)
  | fs_mid ox' lg lx d (H : m' = with_data d (with_sol ox' (lg, lx) m)) (Hset : m_setup m = true)
           (Hbad : s_tstep (m_set m) = None \/ (s_full (m_set m) = true /\ fst (fst (m_fields m)) = false) \/
                   (s_lagr (m_set m) = true /\ snd (fst (m_fields m)) = false) \/ (s_stats (m_set m) = true /\ snd (m_fields m) = false)).

  Lemma make_step_cases m a m' r : make_step m a = (m', r) ->
    (exists x u, a = Good x /\ r = Ok u /\ stepped m x m' u) \/ (exists e, r = Err e /\ failed_step m m').
  Proof.
    unfold make_step. intros H.
    destruct (m_setup m) eqn:E0; [|injection H as <- <-; right; eexists; split; [reflexivity|constructor; reflexivity]].
    destruct a as [x|]; [|injection H as <- <-; right; eexists; split; [reflexivity|constructor; reflexivity]].
    destruct (m_tvpf m) as [tf|] eqn:E1; [|injection H as <- <-; right; eexists; split; [reflexivity|constructor; reflexivity]].
    destruct (m_pf m) as [pf|] eqn:E2; [|injection H as <- <-; right; eexists; split; [reflexivity|constructor; reflexivity]].
    destruct (m_prob m) as [pr|] eqn:E3; [|injection H as <- <-; right; eexists; split; [reflexivity|constructor; reflexivity]].
    destruct (m_ob m) as [obs|] eqn:E4; [|injection H as <- <-; right; eexists; split; [reflexivity|constructor; reflexivity]].
    destruct (m_ox m) as [ox|] eqn:E5; [|injection H as <- <-; right; eexists; split; [reflexivity|constructor; reflexivity]].
    cbv zeta in H.
    destruct (S E pr obs ox (if m_run1 m then m_lam m else None) (x, m_u0 m, tf (m_t0 m), pf (m_t0 m))) as [[[ox' lg] lx] st] eqn:E6.
    destruct (m_fields m) as [[ff fl] fs] eqn:E7.
    unfold optional_row in H.
    destruct (s_full (m_set m)) eqn:F1; [destruct ff eqn:G1|];
    (destruct (s_lagr (m_set m)) eqn:F2; [destruct fl eqn:G2|]);
    (destruct (s_stats (m_set m)) eqn:F3; [destruct fs eqn:G3|]);
    (destruct (s_tstep (m_set m)) as [dt|] eqn:F4);
    injection H as <- <-;
    try (right; eexists; split; [reflexivity|]; eapply fs_mid; [reflexivity|exact E0|]; rewrite ?E7, ?F1, ?F2, ?F3, ?F4; cbn; tauto);
    (left; exists x; eexists; split; [reflexivity|]; split; [reflexivity|];
     econstructor; eauto; rewrite ?E7, ?F1, ?F2, ?F3; cbn; auto; repeat split; congruence).
  Qed.

  (** ** prepare, create *)
  Inductive prepared_ok (m m' : mpc) : Prop :=
  | prep_i tlb tub o dt nh
      (Hdt : s_tstep (m_set m) = Some dt) (Hnh : s_nhor (m_set m) = Some nh) (Ho : m_obj m = Some o)
      (Hcv : check_validity (with_slack (m_slack m || existsb (is_soft E) (m_nl m)) m) = Ok (tlb, tub))
      (Hm : m' = let m1 := mkMpc true (m_setup m) (m_run1 m) (m_set m) (m_obj m) (m_rt m) (m_nl m) (m_scal m) (m_store m) tlb tub
                   (Some (match m_tvpf m with Some f => f | None => tvp_dummy E end))
                   (Some (match m_pf m with Some f => f | None => p_dummy E end))
                   (m_x0 m) (m_u0 m) (m_z0 m) (m_t0 m) (m_slack m || existsb (is_soft E) (m_nl m))
                   (Some (mkProb o (m_rt m) (m_nl m) (m_scal m) (m_set m), m_slack m)) (m_prob m) (m_ob m)
                   (Some (ox_init E (mkProb o (m_rt m) (m_nl m) (m_scal m) (m_set m)))) (m_lam m) (m_fields m) (m_data m)
                 in with_ob (Some (snapshot m1)) m1).

  Lemma prepare_cases m m' r : prepare m = (m', r) ->
    (r = Ok tt /\ prepared_ok m m') \/
    (exists e, r = Err e /\ (m' = m \/ m' = with_slack (m_slack m || existsb (is_soft E) (m_nl m)) m)).
  Proof.
    unfold prepare. intros H.
    destruct (s_tstep (m_set m)) as [dt|] eqn:E1; [|injection H as <- <-; right; eauto].
    destruct (s_nhor (m_set m)) as [nh|] eqn:E2; [|injection H as <- <-; right; eauto].
    cbv zeta in H. destruct (check_validity _) as [[tlb tub]|e] eqn:E3; [|injection H as <- <-; right; eauto].
    cbn [m_obj with_slack] in H. destruct (m_obj m) as [o|] eqn:E4; [|injection H as <- <-; right; eauto].
    injection H as <- <-. left. split; [reflexivity|]. econstructor; eauto. cbn. rewrite E4. reflexivity.
  Qed.

  Inductive created_ok (m m' : mpc) : Prop :=
  | cr_i pr (Hp : m_pend m = Some (pr, false))
      (Hm : m' = mkMpc (m_prepared m) true (m_run1 m) (m_set m) (m_obj m) (m_rt m) (m_nl m) (m_scal m) (m_store m) (m_tlb m) (m_tub m)
           (m_tvpf m) (m_pf m) (m_x0 m) (m_u0 m) (m_z0 m) (m_t0 m) (m_slack m) (m_pend m) (Some pr) (m_ob m) (m_ox m) (m_lam m)
           (fst (fst (m_fields m)) || s_full (m_set m), snd (fst (m_fields m)) || s_lagr (m_set m), snd (m_fields m) || s_stats (m_set m)) no_rows).

  Lemma create_cases m m' r : create m = (m', r) -> (r = Ok tt /\ created_ok m m') \/ (exists e, r = Err e /\ m' = m).
  Proof.
    unfold create. destruct (m_pend m) as [[pr [|]]|] eqn:E1; intros H; try (injection H as <- <-; right; eauto).
    destruct (m_fields m) as [[ff fl] fs] eqn:E2. injection H as <- <-. left. split; [reflexivity|].
    econstructor; eauto. rewrite E1, E2. reflexivity.
  Qed.

  Lemma setup_cases m m' r : setup m = (m', r) ->
    (r = Ok tt /\ exists m1, prepared_ok m m1 /\ created_ok m1 m') \/
    (exists e, r = Err e /\ (m' = m \/ m' = with_slack (m_slack m || existsb (is_soft E) (m_nl m)) m \/ prepared_ok m m')).
  Proof.
    unfold setup. destruct (prepare m) as [m1 r1] eqn:E1. intros H.
    destruct (prepare_cases _ _ _ E1) as [[-> P]|(e & -> & P)].
    - destruct (create_cases _ _ _ H) as [[-> C]|(e & -> & ->)]; [left; eauto|right; exists e; auto].
    - injection H as <- <-. right. exists e. tauto.
  Qed.

  (** ** Invariant 1: the object agrees with the observed history *)
  Definition agree {A} (user : option A) (dummy : A) (m_f : option A) : Prop :=
    match user with Some f => m_f = Some f | None => m_f = None \/ m_f = Some dummy end.
  Lemma agree_dummy {A} (user : option A) d (f : option A) : agree user d f -> agree user d (Some (match f with Some g => g | None => d end)).
  Proof. unfold agree. destruct user as [g|]; [intros ->; reflexivity|intros [->| ->]; auto]. Qed.
  Record inv1 (m : mpc) (tr : trace) : Prop := mkInv1 {
    i_u : m_u0 m = prev_input tr;
    i_s : m_set m = settings_of tr;
    i_c : fst (clock_log tr) = (m_set m, m_t0 m);
    i_o : m_obj m = objective_of tr;
    i_n : m_nl m = nlcons_of tr;
    i_t : agree (tvp_of tr) (tvp_dummy E) (m_tvpf m);
    i_p : agree (p_of tr) (p_dummy E) (m_pf m);
    i_prep : m_prepared m = true <-> m_pend m <> None;
    i_have : m_pend m <> None -> m_ob m <> None /\ m_ox m <> None /\ m_tvpf m <> None /\ m_pf m <> None;
    i_prob : m_prob m <> None -> m_pend m <> None;
    i_set : m_setup m = true <-> m_prob m <> None }.

  Ltac folds := unfold prev_input, settings_of, clock_log, objective_of, nlcons_of, tvp_of, p_of; rewrite !fold_left_app; cbn [fold_left].

  Lemma inv1_init : inv1 mpc_init [].
  Proof. constructor; cbn; auto; try tauto; try (split; intros; discriminate || tauto); intros H; tauto. Qed.

  Lemma clock_log_snoc (tr : trace) e s t l : clock_log tr = (s, t, l) ->
    clock_log (tr ++ [e]) = match e with
      | (KParam f, Ok _) => (f s, t, l)
      | (KSetting f, Ok _) => (f s, t, l)
      | (KStep (Good x), Ok (Some u)) => (s, tick s t, l ++ [(x, u, t)])
      | (KReset, Ok _) => (s, t_zero E, [])
      | (KSetup, Ok _) => (s, t, [])
      | (KCreate, Ok _) => (s, t, [])
      | (KT0 (Good t'), Ok _) => (s, t', l)
      | _ => (s, t, l)
      end.
  Proof. intros H. unfold clock_log in *. rewrite fold_left_app. cbn [fold_left]. rewrite H. reflexivity. Qed.

  Lemma inv1_same m tr m' c o : inv1 m tr ->
    m_u0 m' = prev_input (tr ++ [(c, o)]) -> m_set m' = settings_of (tr ++ [(c, o)]) -> fst (clock_log (tr ++ [(c, o)])) = (m_set m', m_t0 m') ->
    m_obj m' = objective_of (tr ++ [(c, o)]) -> m_nl m' = nlcons_of (tr ++ [(c, o)]) ->
    agree (tvp_of (tr ++ [(c, o)])) (tvp_dummy E) (m_tvpf m') -> agree (p_of (tr ++ [(c, o)])) (p_dummy E) (m_pf m') ->
    (m_prepared m' = m_prepared m) -> m_pend m' = m_pend m -> m_prob m' = m_prob m -> m_setup m' = m_setup m ->
    (m_pend m <> None -> m_ob m' <> None /\ m_ox m' <> None /\ m_tvpf m' <> None /\ m_pf m' <> None) ->
    inv1 m' (tr ++ [(c, o)]).
  Proof.
    intros [Iu Is Ic Io In It Ip Iprep Ihave Iprob Iset] G1 G2 G3 G4 G5 G6 G7 G8 G9 G10 G11 G12.
    constructor; rewrite ?G8, ?G9, ?G10, ?G11; auto.
  Qed.

  Lemma inv1_step m tr c m' o : inv1 m tr -> do_call m c = (m', o) -> inv1 m' (tr ++ [(c, o)]).
  Proof.
    intros I H. pose proof I as J. destruct J as [Iu Is Ic Io In It Ip Iprep Ihave Iprob Iset].
    destruct (clock_log tr) as [[s0 t0] l0] eqn:CL. cbn in Ic. injection Ic as -> ->.
    destruct c; cbn [do_call] in H.
    - (* bounds *)
      unfold set_bounds in H. destruct (has_bounds t); cbn [ret] in H;
        [destruct (resolve E t i) as [pos|] eqn:E1; cbn [bind] in H; [destruct (spread pos v) as [w|] eqn:E2; cbn [bind] in H|]|];
        cbn [ret] in H; injection H as <- <-; eapply inv1_same; try exact I; try (destruct (m_prepared m); reflexivity);
        try (folds; destruct (m_prepared m); assumption); try (destruct (m_prepared m); cbn [m_set m_t0 with_ob with_store]; erewrite clock_log_snoc by eassumption; reflexivity);
        try (intros Hp; specialize (Ihave Hp); destruct (m_prepared m); cbn; intuition congruence).
      destruct (m_prepared m) eqn:EP; cbn; congruence.
    - (* terminal *)
      unfold set_terminal in H. destruct (resolve E Vx i) as [pos|] eqn:E1; cbn [bind] in H; [destruct (spread pos v) as [w|] eqn:E2; cbn [bind] in H|];
        cbn [ret] in H; injection H as <- <-; eapply inv1_same; try exact I; try reflexivity;
        try (folds; assumption); try (erewrite clock_log_snoc by eassumption; reflexivity); exact Ihave.
    - (* scaling *)
      unfold set_scaling in H. destruct (m_setup m) eqn:E0; [|destruct (has_bounds t); [destruct (resolve E t i) as [pos|] eqn:E1; cbn [bind] in H;
        [destruct (match v with [v0] => Ok (map (fun p => (p, v0)) pos) | _ => if (length v =? length pos)%nat then Ok (combine pos v) else Err ExcGeneric end) as [w|] eqn:E2; cbn [bind] in H|]|]];
        cbn [ret] in H; injection H as <- <-; eapply inv1_same; try exact I; try reflexivity;
        try (folds; assumption); try (erewrite clock_log_snoc by eassumption; reflexivity); exact Ihave.
    - (* set_param *)
      unfold set_param in H. destruct (m_setup m) eqn:E0; cbn [ret] in H; injection H as <- <-; eapply inv1_same; try exact I; try reflexivity;
        try (folds; cbn; try congruence; assumption); try (erewrite clock_log_snoc by eassumption; reflexivity); try exact Ihave.
      all: folds; cbn; rewrite Is; reflexivity.
    - (* setting *)
      unfold set_setting in H. cbn [ret] in H; injection H as <- <-; eapply inv1_same; try exact I; try reflexivity;
        try (folds; cbn; try congruence; assumption); try (erewrite clock_log_snoc by eassumption; reflexivity); try exact Ihave.
      all: folds; cbn; rewrite Is; reflexivity.
    - (* objective *)
      unfold set_objective in H. brk H; cbn [ret] in H; injection H as <- <-; eapply inv1_same; try exact I; try reflexivity;
        try (folds; cbn; try congruence; assumption); try (erewrite clock_log_snoc by eassumption; reflexivity); try exact Ihave.
      all: folds; reflexivity.
    - (* rterm *)
      unfold set_rterm in H. brk H; cbn [retu] in H; injection H as <- <-; eapply inv1_same; try exact I; try reflexivity;
        try (folds; cbn; try congruence; assumption); try (erewrite clock_log_snoc by eassumption; reflexivity); try exact Ihave.
    - (* nl_cons *)
      unfold set_nl_cons in H. brk H; cbn [ret] in H; injection H as <- <-; eapply inv1_same; try exact I; try reflexivity;
        try (folds; cbn; try congruence; assumption); try (erewrite clock_log_snoc by eassumption; reflexivity); try exact Ihave.
      all: folds; cbn; rewrite In; reflexivity.
    - (* tvp *)
      unfold set_tvp_fun in H. brk H; cbn [ret] in H; injection H as <- <-; eapply inv1_same; try exact I; try reflexivity;
        try (folds; cbn; try congruence; assumption); try (erewrite clock_log_snoc by eassumption; reflexivity); try exact Ihave.
      all: solve [folds; reflexivity | intros Hp; specialize (Ihave Hp); cbn; intuition congruence].
    - (* p *)
      unfold set_p_fun in H. brk H; cbn [ret] in H; injection H as <- <-; eapply inv1_same; try exact I; try reflexivity;
        try (folds; cbn; try congruence; assumption); try (erewrite clock_log_snoc by eassumption; reflexivity); try exact Ihave.
      all: solve [folds; reflexivity | intros Hp; specialize (Ihave Hp); cbn; intuition congruence].
    - (* setup *)
      destruct (setup m) as [m2 r2] eqn:ES.
      destruct (setup_cases _ _ _ ES) as [[-> (m1 & [tlb tub o' dt nh Hdt Hnh Ho Hcv ->] & [pr Hp ->])]|(e & -> & D)];
        cbn [retu] in H; injection H as <- <-.
      + cbn in Hp. injection Hp as <-.
        constructor; cbn; try (folds; cbn; assumption); try (erewrite clock_log_snoc by eassumption; reflexivity); try (split; congruence); try (intros; repeat split; congruence).
        * apply agree_dummy. folds. exact It.
        * apply agree_dummy. folds. exact Ip.
      + destruct D as [->|[->|[tlb tub o' dt nh Hdt Hnh Ho Hcv ->]]];
          try (eapply inv1_same; try exact I; try reflexivity; try (folds; assumption); try (erewrite clock_log_snoc by eassumption; reflexivity); exact Ihave).
        constructor; cbn; try (folds; cbn; assumption); try (erewrite clock_log_snoc by eassumption; reflexivity); try (split; congruence); try (intros; repeat split; congruence); try assumption.
        * apply agree_dummy. folds. exact It.
        * apply agree_dummy. folds. exact Ip.
    - (* prepare *)
      destruct (prepare m) as [m2 r2] eqn:ES.
      destruct (prepare_cases _ _ _ ES) as [[-> [tlb tub o' dt nh Hdt Hnh Ho Hcv ->]]|(e & -> & D)];
        cbn [retu] in H; injection H as <- <-.
      + constructor; cbn; try (folds; cbn; assumption); try (erewrite clock_log_snoc by eassumption; reflexivity); try (split; congruence); try (intros; repeat split; congruence); try assumption.
        * apply agree_dummy. folds. exact It.
        * apply agree_dummy. folds. exact Ip.
      + destruct D as [->| ->];
          try (eapply inv1_same; try exact I; try reflexivity; try (folds; assumption); try (erewrite clock_log_snoc by eassumption; reflexivity); exact Ihave).
    - (* create *)
      destruct (create m) as [m2 r2] eqn:ES.
      destruct (create_cases _ _ _ ES) as [[-> [pr Hp ->]]|(e & -> & ->)]; cbn [retu] in H; injection H as <- <-.
      + constructor; cbn; try (folds; cbn; assumption); try (erewrite clock_log_snoc by eassumption; reflexivity); try assumption; try (intros; congruence).
        split; congruence.
      + eapply inv1_same; try exact I; try reflexivity; try (folds; assumption); try (erewrite clock_log_snoc by eassumption; reflexivity); exact Ihave.
    - (* guess *)
      unfold set_initial_guess in H. brk H; cbn [ret] in H; injection H as <- <-; eapply inv1_same; try exact I; try reflexivity;
        try (folds; cbn; try congruence; assumption); try (erewrite clock_log_snoc by eassumption; reflexivity); try exact Ihave.
      all: solve [folds; cbn; congruence | folds; reflexivity | intros Hp; specialize (Ihave Hp); cbn; intuition congruence].
    - (* step *)
      destruct (make_step m x) as [m2 r2] eqn:ES.
      destruct (make_step_cases _ _ _ _ ES) as [(x' & u & -> & -> & [])|(e & -> & F)].
      + injection H as <- <-. subst m2. eapply inv1_same; try exact I; try reflexivity; try (folds; cbn; assumption).
        * folds. reflexivity.
        * erewrite clock_log_snoc by eassumption. cbn. unfold tick. rewrite Hdt. reflexivity.
        * intros Hp. specialize (Ihave Hp). cbn. intuition congruence.
      + injection H as <- <-. assert (C : clock_log (tr ++ [(KStep x, Err e)]) = clock_log tr)
          by (rewrite CL; erewrite clock_log_snoc by eassumption; destruct x; reflexivity).
        destruct F as [->|? ? ? ? -> ? ?]; eapply inv1_same; try exact I; try reflexivity; try (folds; cbn; assumption); try (rewrite C, CL; reflexivity);
          try exact Ihave.
        all: try solve [folds; reflexivity | folds; cbn; destruct x; assumption | etransitivity; [apply f_equal; exact C|rewrite CL; reflexivity] | intros Hp; specialize (Ihave Hp); cbn; intuition congruence].
    - (* reset *)
      injection H as <- <-. eapply inv1_same; try exact I; try reflexivity; try (folds; cbn; assumption); try (erewrite clock_log_snoc by eassumption; reflexivity); exact Ihave.
    - (* x0 *)
      destruct x; cbn in H; injection H as <- <-; eapply inv1_same; try exact I; try reflexivity; try (folds; cbn; assumption); try (erewrite clock_log_snoc by eassumption; reflexivity); exact Ihave.
    - (* u0 *)
      destruct u; cbn in H; injection H as <- <-; eapply inv1_same; try exact I; try reflexivity; try (folds; cbn; assumption); try (erewrite clock_log_snoc by eassumption; reflexivity); try exact Ihave.
      all: folds; reflexivity.
    - (* t0 *)
      destruct t; cbn in H; injection H as <- <-; eapply inv1_same; try exact I; try reflexivity; try (folds; cbn; assumption); try (erewrite clock_log_snoc by eassumption; reflexivity); exact Ihave.
  Qed.

  Theorem inv1_reach h m tr : exec h mpc_init = (m, tr) -> inv1 m tr.
  Proof.
    intros H. refine (exec_ind inv1 (fun _ => True) mpc_init inv1_init _ h m tr _ H).
    - intros; eapply inv1_step; eauto.
    - apply Forall_forall. auto.
  Qed.

  (** ** Invariant 2: ordinary histories *)
  Definition aligned (m : mpc) (n : nat) : Prop :=
    length (r_z (m_data m)) = n /\ length (r_tvp (m_data m)) = n /\ length (r_p (m_data m)) = n /\
    length (r_aux (m_data m)) = n /\ length (r_optp (m_data m)) = n /\
    length (r_full (m_data m)) = (if s_full (m_set m) then n else 0) /\
    length (r_lam (m_data m)) = (if s_lagr (m_set m) then n else 0) /\
    length (r_stats (m_data m)) = (if s_stats (m_set m) then n else 0).
  Record inv2 (m : mpc) (tr : trace) : Prop := mkInv2 {
    j_x : r_x (m_data m) = map (fun e => fst (fst e)) (log tr);
    j_u : r_u (m_data m) = map (fun e => snd (fst e)) (log tr);
    j_t : r_time (m_data m) = map snd (log tr);
    j_al : aligned m (length (log tr));
    j_new : m_setup m = false -> m_data m = no_rows /\ log tr = [];
    j_tstep : m_setup m = true -> s_tstep (m_set m) <> None;
    j_nhor : m_setup m = true -> s_nhor (m_set m) <> None;
    j_f : m_setup m = true -> (s_full (m_set m) = true -> fst (fst (m_fields m)) = true) /\
            (s_lagr (m_set m) = true -> snd (fst (m_fields m)) = true) /\
            (s_stats (m_set m) = true -> snd (m_fields m) = true);
    j_prob : m_setup m = true -> exists o, m_obj m = Some o /\ m_prob m = Some (mkProb o (m_rt m) (m_nl m) (m_scal m) (m_set m)) }.

  Lemma inv2_init : inv2 mpc_init [].
  Proof. constructor; cbn; auto; try discriminate. unfold aligned. cbn. auto 10. Qed.

  Lemma log_snoc (tr : trace) e : log (tr ++ [e]) = match e with
      | (KStep (Good x), Ok (Some u)) => log tr ++ [(x, u, clock tr)]
      | (KReset, Ok _) => []
      | (KSetup, Ok _) => []
      | (KCreate, Ok _) => []
      | _ => log tr
      end.
  Proof.
    unfold log, clock. destruct (clock_log tr) as [[s t] l] eqn:CL. rewrite (clock_log_snoc _ _ _ _ _ CL).
    destruct e as [[] [[]|]]; try reflexivity; destruct x || destruct t0; reflexivity.
  Qed.

  (** calls that touch neither the rows nor the problem configuration *)
  Lemma inv2_same m tr m' c o : inv2 m tr -> log (tr ++ [(c, o)]) = log tr ->
    m_data m' = m_data m -> m_setup m' = m_setup m -> m_fields m' = m_fields m ->
    (m_setup m = true -> m_set m' = m_set m /\ m_obj m' = m_obj m /\ m_rt m' = m_rt m /\ m_nl m' = m_nl m /\ m_scal m' = m_scal m /\ m_prob m' = m_prob m) ->
    inv2 m' (tr ++ [(c, o)]).
  Proof.
    intros [Jx Ju Jt Jal Jnew Jts Jnh Jf Jp] HL HD HS HF HC.
    assert (HL' : log (tr ++ [(c, o)] : trace) = log tr) by exact HL.
    destruct (m_setup m) eqn:ES.
    - destruct (HC eq_refl) as (C1 & C2 & C3 & C4 & C5 & C6).
      constructor; unfold aligned; rewrite ?HL, ?HD, ?HS, ?HF, ?C1, ?C2, ?C3, ?C4, ?C5, ?C6; auto.
    - destruct (Jnew eq_refl) as [D L].
      constructor; unfold aligned; rewrite ?HL, ?HD, ?HS, ?HF, ?L, ?D; auto; try discriminate.
      cbn. destruct (s_full (m_set m')), (s_lagr (m_set m')), (s_stats (m_set m')); auto 10.
  Qed.

  Lemma inv2_step m tr c m' o : inv1 m tr -> inv2 m tr -> (match c with KSetting _ => m_setup m = false | KPrepare | KCreate => False | _ => True end) ->
    do_call m c = (m', o) -> inv2 m' (tr ++ [(c, o)]).
  Proof.
    intros I J Ord H.
    destruct c; cbn [do_call] in H; try contradiction.
    - unfold set_bounds in H. destruct (has_bounds t); cbn [ret] in H;
        [destruct (resolve E t i) as [pos|] eqn:E1; cbn [bind] in H; [destruct (spread pos v) as [w|] eqn:E2; cbn [bind] in H|]|];
        cbn [ret] in H; injection H as <- <-; eapply inv2_same; try exact J; try (apply log_snoc);
        try (destruct (m_prepared m); cbn; auto 10; fail).
    - unfold set_terminal in H. destruct (resolve E Vx i) as [pos|] eqn:E1; cbn [bind] in H; [destruct (spread pos v) as [w|] eqn:E2; cbn [bind] in H|];
        cbn [ret] in H; injection H as <- <-; eapply inv2_same; try exact J; try (apply log_snoc); cbn; auto 10.
    - unfold set_scaling in H. destruct (m_setup m) eqn:E0;
        [|destruct (has_bounds t); [destruct (resolve E t i) as [pos|] eqn:E1; cbn [bind] in H;
        [destruct (match v with [v0] => Ok (map (fun p => (p, v0)) pos) | _ => if (length v =? length pos)%nat then Ok (combine pos v) else Err ExcGeneric end) as [w|] eqn:E2; cbn [bind] in H|]|]];
        cbn [ret] in H; injection H as <- <-; eapply inv2_same; try exact J; try (apply log_snoc); cbn; auto 10; congruence.
    - unfold set_param in H. destruct (m_setup m) eqn:E0; cbn [ret] in H; injection H as <- <-; eapply inv2_same; try exact J; try (apply log_snoc); cbn; auto 10; congruence.
    - unfold set_setting in H. cbn [ret] in H; injection H as <- <-; eapply inv2_same; try exact J; try (apply log_snoc); cbn; auto 10; congruence.
    - unfold set_objective in H. brk H; cbn [ret] in H; injection H as <- <-; eapply inv2_same; try exact J; try (apply log_snoc); cbn; auto 10; congruence.
    - unfold set_rterm in H. brk H; cbn [retu] in H; injection H as <- <-; eapply inv2_same; try exact J; try (apply log_snoc); cbn; auto 10; congruence.
    - unfold set_nl_cons in H. brk H; cbn [ret] in H; injection H as <- <-; eapply inv2_same; try exact J; try (apply log_snoc); cbn; auto 10; congruence.
    - unfold set_tvp_fun in H. brk H; cbn [ret] in H; injection H as <- <-; eapply inv2_same; try exact J; try (apply log_snoc); cbn; auto 10; congruence.
    - unfold set_p_fun in H. brk H; cbn [ret] in H; injection H as <- <-; eapply inv2_same; try exact J; try (apply log_snoc); cbn; auto 10; congruence.
    - destruct (setup m) as [m2 r2] eqn:ES.
      destruct (setup_cases _ _ _ ES) as [[-> (m1 & [tlb tub o' dt nh Hdt Hnh Ho Hcv ->] & [pr Hp ->])]|(e & -> & D)];
        cbn [retu] in H; injection H as <- <-.
      + cbn in Hp. injection Hp as <- Hsl.
        assert (L : log (tr ++ [(KSetup, Ok None)] : trace) = []) by apply log_snoc.
        constructor; cbn; try discriminate; try (rewrite L; reflexivity).
        * unfold aligned. rewrite L. cbn. destruct (s_full (m_set m)), (s_lagr (m_set m)), (s_stats (m_set m)); auto 10.
        * intros _; congruence.
        * intros _; congruence.
        * intros _. repeat split; intros ->; apply orb_true_r.
        * intros _. exists o'. auto.
      + destruct D as [->|[->|[tlb tub o' dt nh Hdt Hnh Ho Hcv ->]]];
          (eapply inv2_same; try exact J; try (apply log_snoc); cbn; auto 10).
    - unfold set_initial_guess in H. brk H; cbn [ret] in H; injection H as <- <-; eapply inv2_same; try exact J; try (apply log_snoc); cbn; auto 10; congruence.
    - destruct (make_step m x) as [m2 r2] eqn:ES.
      destruct (make_step_cases _ _ _ _ ES) as [(x' & u & -> & -> & [])|(e & -> & F)].
      + injection H as <- <-. destruct J as [Jx Ju Jt (A1 & A2 & A3 & A4 & A5 & A6 & A7 & A8) Jnew Jts Jnh Jf Jp].
        assert (L : log (tr ++ [(KStep (Good x'), Ok (Some u))] : trace) = log tr ++ [(x', u, clock tr)]) by apply log_snoc.
        assert (CK : clock tr = m_t0 m) by (unfold clock; rewrite (i_c _ _ I); reflexivity).
        subst m2 d. constructor; cbn; rewrite ?L, ?map_app, ?Jx, ?Ju, ?Jt, ?CK; try reflexivity; auto.
        * unfold aligned. cbn. rewrite ?app_length. cbn.
          destruct (s_full (m_set m)), (s_lagr (m_set m)), (s_stats (m_set m)); rewrite ?app_length; cbn; lia.
        * congruence.
      + injection H as <- <-.
        assert (L : log (tr ++ [(KStep x, Err e)] : trace) = log tr) by (rewrite log_snoc; destruct x; reflexivity).
        destruct F as [->|ox' lg lx d -> Hset Hbad]; [eapply inv2_same; try exact J; try exact L; cbn; auto 10|].
        (* cannot happen in an ordinary history *)
        exfalso. rename Hset into St.
        destruct (j_f _ _ J St) as (F1 & F2 & F3). pose proof (j_tstep _ _ J St).
        destruct Hbad as [B|[[B1 B2]|[[B1 B2]|[B1 B2]]]]; [contradiction|rewrite (F1 B1) in B2|rewrite (F2 B1) in B2|rewrite (F3 B1) in B2]; discriminate.
    - injection H as <- <-. assert (L : log (tr ++ [(KReset, Ok None)] : trace) = []) by apply log_snoc.
      destruct J as [Jx Ju Jt Jal Jnew Jts Jnh Jf Jp].
      constructor; cbn; try (rewrite L; reflexivity); auto.
      unfold aligned. rewrite L. cbn. destruct (s_full (m_set m)), (s_lagr (m_set m)), (s_stats (m_set m)); auto 10.
    - destruct x; cbn in H; injection H as <- <-; eapply inv2_same; try exact J; try (apply log_snoc); cbn; auto 10.
    - destruct u; cbn in H; injection H as <- <-; eapply inv2_same; try exact J; try (apply log_snoc); cbn; auto 10.
    - destruct t; cbn in H; injection H as <- <-; eapply inv2_same; try exact J; try (apply log_snoc); cbn; auto 10.
  Qed.

  (** ** Invariant 3: functions that are needed, and left-over slack symbols *)
  Definition lo_state (tr : trace) := fold_left (fun (st : @settings E * list (tNl E) * bool) (e : call * res (option (tU E))) =>
      let '(s, l, b) := st in
      match e with
      | (KParam f, Ok _) => (f s, l, b)
      | (KSetting f, Ok _) => (f s, l, b)
      | (KNlCons c, Ok _) => (s, l ++ [c], b)
      | (KSetup, _) | (KPrepare, _) =>
          (s, l, match s_tstep s, s_nhor s with Some _, Some _ => b || existsb (is_soft E) l | _, _ => b end)
      | _ => st
      end) tr (settings_init, [], false).
  Record inv3 (m : mpc) (tr : trace) : Prop := mkInv3 {
    k_t : 0 < n_tvp E -> m_tvpf m = tvp_of tr;
    k_p : 0 < n_p E -> m_pf m = p_of tr;
    k_l : lo_state tr = (m_set m, m_nl m, m_slack m);
    k_s : m_setup m = true <-> was_setup tr }.

  Lemma was_setup_snoc (tr : trace) e : was_setup (tr ++ [e]) <-> was_setup tr \/ (exists v, e = (KSetup, Ok v) \/ e = (KCreate, Ok v)).
  Proof.
    unfold was_setup. split.
    - intros [v [H|H]]; apply in_app_or in H; cbn in H; intuition eauto.
    - intros [[v [H|H]]|[v [->| ->]]]; exists v; rewrite !in_app_iff; cbn; auto.
  Qed.

  Lemma check_validity_needs m tlb tub : check_validity m = Ok (tlb, tub) ->
    (m_tvpf m = None -> n_tvp E = 0) /\ (m_pf m = None -> n_p E = 0).
  Proof.
    unfold check_validity. destruct (m_obj m); [|discriminate].
    destruct (m_tvpf m), (m_pf m); cbn [andb]; intros H; split; intros; try discriminate.
    - destruct (0 <? n_p E)%nat eqn:Q; [discriminate|]. apply Nat.ltb_ge in Q. lia.
    - destruct (0 <? n_tvp E)%nat eqn:Q; [discriminate|]. apply Nat.ltb_ge in Q. lia.
    - destruct (0 <? n_tvp E)%nat eqn:Q; [discriminate|]. apply Nat.ltb_ge in Q. lia.
    - destruct (0 <? n_tvp E)%nat eqn:Q; [discriminate|]. destruct (0 <? n_p E)%nat eqn:Q2; [discriminate|]. apply Nat.ltb_ge in Q2. lia.
  Qed.

  Lemma prep_slack m m' r : prepare m = (m', r) ->
    m_slack m' = match s_tstep (m_set m), s_nhor (m_set m) with Some _, Some _ => m_slack m || existsb (is_soft E) (m_nl m) | _, _ => m_slack m end.
  Proof.
    unfold prepare. destruct (s_tstep (m_set m)); [|intros [= <- <-]; reflexivity]. destruct (s_nhor (m_set m)); [|intros [= <- <-]; reflexivity].
    cbv zeta. destruct (check_validity _) as [[]|]; [|intros [= <- <-]; reflexivity].
    cbn [m_obj with_slack]. destruct (m_obj m); intros [= <- <-]; reflexivity.
  Qed.
  Lemma prep_keeps m m' r : prepare m = (m', r) -> m_set m' = m_set m /\ m_nl m' = m_nl m /\ m_setup m' = m_setup m /\
    (0 < n_tvp E -> m_tvpf m' = m_tvpf m) /\ (0 < n_p E -> m_pf m' = m_pf m).
  Proof.
    intros H. destruct (prepare_cases _ _ _ H) as [[-> [tlb tub o' dt nh Hdt Hnh Ho Hcv ->]]|(e & -> & [->| ->])]; cbn; auto 10.
    apply check_validity_needs in Hcv as [C1 C2]. cbn in C1, C2. repeat split; auto; intros Hn.
    - destruct (m_tvpf m); [reflexivity|]. specialize (C1 eq_refl). lia.
    - destruct (m_pf m); [reflexivity|]. specialize (C2 eq_refl). lia.
  Qed.
  Lemma create_keeps m m' r : create m = (m', r) -> m_set m' = m_set m /\ m_nl m' = m_nl m /\ m_slack m' = m_slack m /\
    m_tvpf m' = m_tvpf m /\ m_pf m' = m_pf m /\ (m_setup m' = true <-> m_setup m = true \/ r = Ok tt).
  Proof.
    intros H. destruct (create_cases _ _ _ H) as [[-> [pr Hp ->]]|(e & -> & ->)]; cbn; repeat split; auto; intros; intuition congruence.
  Qed.

  Lemma lo_snoc (tr : trace) e s l b : lo_state tr = (s, l, b) -> lo_state (tr ++ [e]) =
      match e with
      | (KParam f, Ok _) => (f s, l, b)
      | (KSetting f, Ok _) => (f s, l, b)
      | (KNlCons c, Ok _) => (s, l ++ [c], b)
      | (KSetup, _) | (KPrepare, _) =>
          (s, l, match s_tstep s, s_nhor s with Some _, Some _ => b || existsb (is_soft E) l | _, _ => b end)
      | _ => (s, l, b)
      end.
  Proof. unfold lo_state. rewrite fold_left_app. cbn [fold_left]. intros ->. reflexivity. Qed.

  Lemma inv3_same m tr m' c o : inv3 m tr ->
    (forall v, c = KSetup -> o <> Ok v) -> (forall v, c = KCreate -> o <> Ok v) ->
    (0 < n_tvp E -> m_tvpf m' = tvp_of (tr ++ [(c, o)])) -> (0 < n_p E -> m_pf m' = p_of (tr ++ [(c, o)])) ->
    lo_state (tr ++ [(c, o)]) = (m_set m', m_nl m', m_slack m') -> m_setup m' = m_setup m -> inv3 m' (tr ++ [(c, o)]).
  Proof.
    intros [Kt Kp Kl Ks] H1 H2 H3 H4 H5 H6. constructor; auto.
    rewrite H6, Ks, was_setup_snoc. split; [auto|]. intros [W|[v [Q|Q]]]; [exact W| |]; injection Q as -> ->; exfalso; [eapply H1|eapply H2]; reflexivity.
  Qed.

  Lemma inv3_step m tr c m' o : inv1 m tr -> inv3 m tr -> do_call m c = (m', o) -> inv3 m' (tr ++ [(c, o)]).
  Proof.
    intros I K H. pose proof K as [Kt Kp Kl Ks].
    assert (T0 : (forall f, c <> KTvp (Good f)) -> tvp_of (tr ++ [(c, o)]) = tvp_of tr).
    { intros N. folds. destruct c; try reflexivity. destruct f as [f|]; [|reflexivity]. exfalso. eapply N. reflexivity. }
    assert (P0 : (forall f, c <> KP (Good f)) -> p_of (tr ++ [(c, o)]) = p_of tr).
    { intros N. folds. destruct c; try reflexivity. destruct f as [f|]; [|reflexivity]. exfalso. eapply N. reflexivity. }
    destruct c; cbn [do_call] in H.
    all: try (rewrite T0 in * by congruence); try (rewrite P0 in * by congruence).
    - unfold set_bounds in H. destruct (has_bounds t); cbn [ret] in H;
        [destruct (resolve E t i) as [pos|] eqn:E1; cbn [bind] in H; [destruct (spread pos v) as [w|] eqn:E2; cbn [bind] in H|]|];
        cbn [ret] in H; injection H as <- <-; eapply inv3_same; try exact K; try discriminate; try (rewrite ?T0, ?P0 by discriminate);
        try (destruct (m_prepared m); cbn; auto; fail); erewrite lo_snoc by eassumption; destruct (m_prepared m); reflexivity.
    - unfold set_terminal in H. destruct (resolve E Vx i) as [pos|] eqn:E1; cbn [bind] in H; [destruct (spread pos v) as [w|] eqn:E2; cbn [bind] in H|];
        cbn [ret] in H; injection H as <- <-; eapply inv3_same; try exact K; try discriminate; rewrite ?T0, ?P0 by discriminate; cbn; auto; erewrite lo_snoc by eassumption; reflexivity.
    - unfold set_scaling in H. destruct (m_setup m) eqn:E0;
        [|destruct (has_bounds t); [destruct (resolve E t i) as [pos|] eqn:E1; cbn [bind] in H;
        [destruct (match v with [v0] => Ok (map (fun p => (p, v0)) pos) | _ => if (length v =? length pos)%nat then Ok (combine pos v) else Err ExcGeneric end) as [w|] eqn:E2; cbn [bind] in H|]|]];
        cbn [ret] in H; injection H as <- <-; eapply inv3_same; try exact K; try discriminate; rewrite ?T0, ?P0 by discriminate; cbn; auto; erewrite lo_snoc by eassumption; reflexivity.
    - unfold set_param in H. destruct (m_setup m) eqn:E0; cbn [ret] in H; injection H as <- <-; eapply inv3_same; try exact K; try discriminate; rewrite ?T0, ?P0 by discriminate; cbn; auto; erewrite lo_snoc by eassumption; reflexivity.
    - unfold set_setting in H. cbn [ret] in H; injection H as <- <-; eapply inv3_same; try exact K; try discriminate; rewrite ?T0, ?P0 by discriminate; cbn; auto; erewrite lo_snoc by eassumption; reflexivity.
    - unfold set_objective in H. brk H; cbn [ret] in H; injection H as <- <-; eapply inv3_same; try exact K; try discriminate; rewrite ?T0, ?P0 by discriminate; cbn; auto; erewrite lo_snoc by eassumption; reflexivity.
    - unfold set_rterm in H. brk H; cbn [retu] in H; injection H as <- <-; eapply inv3_same; try exact K; try discriminate; rewrite ?T0, ?P0 by discriminate; cbn; auto; erewrite lo_snoc by eassumption; reflexivity.
    - unfold set_nl_cons in H. brk H; cbn [ret] in H; injection H as <- <-; eapply inv3_same; try exact K; try discriminate; rewrite ?T0, ?P0 by discriminate; cbn; auto; erewrite lo_snoc by eassumption; reflexivity.
    - unfold set_tvp_fun in H. destruct f as [f|]; cbn [ret] in H; injection H as <- <-; eapply inv3_same; try exact K; try discriminate; rewrite ?T0, ?P0 by discriminate; cbn; auto;
        try (erewrite lo_snoc by eassumption; reflexivity). intros _. folds. reflexivity.
    - unfold set_p_fun in H. destruct f as [f|]; cbn [ret] in H; injection H as <- <-; eapply inv3_same; try exact K; try discriminate; rewrite ?T0, ?P0 by discriminate; cbn; auto;
        try (erewrite lo_snoc by eassumption; reflexivity). intros _. folds. reflexivity.
    - (* setup *)
      unfold setup in H. destruct (prepare m) as [m1 r1] eqn:EP.
      pose proof (prep_slack _ _ _ EP) as PS. pose proof (prep_keeps _ _ _ EP) as (G1 & G2 & G3 & G4 & G5).
      destruct r1 as [[]|e].
      + destruct (create m1) as [m2 r2] eqn:EC. pose proof (create_keeps _ _ _ EC) as (D1 & D2 & D3 & D4 & D5 & D6).
        assert (m' = m2 /\ o = match r2 with Ok _ => Ok None | Err e => Err e end) as [-> ->] by (destruct r2 as [[]|]; cbn in H; injection H as <- <-; auto).
        constructor.
        * intros Hn. rewrite T0 by discriminate. rewrite D4, G4 by assumption. auto.
        * intros Hn. rewrite P0 by discriminate. rewrite D5, G5 by assumption. auto.
        * erewrite lo_snoc by eassumption. rewrite D1, D2, D3, G1, G2, PS. reflexivity.
        * rewrite D6, G3, Ks, was_setup_snoc. destruct r2 as [[]|e2]; split; intros [W|W]; auto; try discriminate.
          -- right. exists None. auto.
          -- destruct W as [v [W|W]]; discriminate.
      + cbn in H. injection H as <- <-. eapply inv3_same; try exact K; try discriminate; rewrite ?T0, ?P0 by discriminate.
        * intros Hn. rewrite G4 by assumption. auto.
        * intros Hn. rewrite G5 by assumption. auto.
        * erewrite lo_snoc by eassumption. rewrite G1, G2, PS. reflexivity.
        * exact G3.
    - (* prepare *)
      destruct (prepare m) as [m1 r1] eqn:EP.
      pose proof (prep_slack _ _ _ EP) as PS. pose proof (prep_keeps _ _ _ EP) as (G1 & G2 & G3 & G4 & G5).
      assert (m' = m1 /\ o = match r1 with Ok _ => Ok None | Err e => Err e end) as [-> ->] by (destruct r1 as [[]|]; cbn in H; injection H as <- <-; auto).
      eapply inv3_same; try exact K; try discriminate; rewrite ?T0, ?P0 by discriminate.
      * intros Hn. rewrite G4 by assumption. auto.
      * intros Hn. rewrite G5 by assumption. auto.
      * erewrite lo_snoc by eassumption. rewrite G1, G2, PS. reflexivity.
      * exact G3.
    - (* create *)
      destruct (create m) as [m2 r2] eqn:EC. pose proof (create_keeps _ _ _ EC) as (D1 & D2 & D3 & D4 & D5 & D6).
      assert (m' = m2 /\ o = match r2 with Ok _ => Ok None | Err e => Err e end) as [-> ->] by (destruct r2 as [[]|]; cbn in H; injection H as <- <-; auto).
      constructor.
      * intros Hn. rewrite T0 by discriminate. rewrite D4. auto.
      * intros Hn. rewrite P0 by discriminate. rewrite D5. auto.
      * erewrite lo_snoc by eassumption. rewrite D1, D2, D3. reflexivity.
      * rewrite D6, Ks, was_setup_snoc. destruct r2 as [[]|e2]; split; intros [W|W]; auto; try discriminate.
        -- right. exists None. auto.
        -- destruct W as [v [W|W]]; discriminate.
    - unfold set_initial_guess in H. brk H; cbn [ret] in H; injection H as <- <-; eapply inv3_same; try exact K; try discriminate; rewrite ?T0, ?P0 by discriminate; cbn; auto; erewrite lo_snoc by eassumption; reflexivity.
    - destruct (make_step m x) as [m2 r2] eqn:ES.
      destruct (make_step_cases _ _ _ _ ES) as [(x' & u & -> & -> & [])|(e & -> & F)].
      + injection H as <- <-. subst m2. eapply inv3_same; try exact K; try discriminate; rewrite ?T0, ?P0 by discriminate; cbn; auto; erewrite lo_snoc by eassumption; reflexivity.
      + injection H as <- <-. destruct F as [->|? ? ? ? -> ? ?]; eapply inv3_same; try exact K; try discriminate; rewrite ?T0, ?P0 by discriminate; cbn; auto; erewrite lo_snoc by eassumption; reflexivity.
    - injection H as <- <-. eapply inv3_same; try exact K; try discriminate; rewrite ?T0, ?P0 by discriminate; cbn; auto; erewrite lo_snoc by eassumption; reflexivity.
    - destruct x; cbn in H; injection H as <- <-; eapply inv3_same; try exact K; try discriminate; rewrite ?T0, ?P0 by discriminate; cbn; auto; erewrite lo_snoc by eassumption; reflexivity.
    - destruct u; cbn in H; injection H as <- <-; eapply inv3_same; try exact K; try discriminate; rewrite ?T0, ?P0 by discriminate; cbn; auto; erewrite lo_snoc by eassumption; reflexivity.
    - destruct t; cbn in H; injection H as <- <-; eapply inv3_same; try exact K; try discriminate; rewrite ?T0, ?P0 by discriminate; cbn; auto; erewrite lo_snoc by eassumption; reflexivity.
  Qed.

  Theorem inv3_reach h m tr : exec h mpc_init = (m, tr) -> inv1 m tr /\ inv3 m tr.
  Proof.
    intros H. refine (exec_ind (fun m tr => inv1 m tr /\ inv3 m tr) (fun _ => True) mpc_init (conj inv1_init _) _ h m tr _ H).
    - constructor; cbn; auto. split; [discriminate|]. intros [v [[]|[]]].
    - intros m0 tr0 c m' o [I J] Hc Hd. split; [eapply inv1_step; eauto|eapply inv3_step; eauto].
    - apply Forall_forall. auto.
  Qed.

  (** ** Ordinary histories *)
  Lemma ordinary_snoc (tr : trace) e : ordinary (tr ++ [e]) <-> ordinary tr /\ allowed tr (fst e).
  Proof.
    unfold ordinary. split.
    - intros H. split.
      + intros b c o a ->. apply (H b c o (a ++ [e])). rewrite <- app_assoc. reflexivity.
      + destruct e as [c o]. apply (H tr c o []). reflexivity.
    - intros [H1 H2] b c o a Q. destruct a as [|x a] using rev_ind.
      + apply app_inj_tail in Q as [-> ->]. exact H2.
      + rewrite app_comm_cons, app_assoc in Q. apply app_inj_tail in Q as [-> _]. eapply H1; reflexivity.
  Qed.
  Lemma ordinary_nil : ordinary ([] : trace).
  Proof. intros b c o a Q. destruct b; discriminate. Qed.

  Theorem inv2_reach h m tr : ordinary tr -> exec h mpc_init = (m, tr) -> inv1 m tr /\ inv2 m tr.
  Proof.
    intros Ho H.
    enough (G : inv1 m tr /\ inv3 m tr /\ (ordinary tr -> inv2 m tr)) by (split; [apply G|apply G, Ho]).
    refine (exec_ind (fun m tr => inv1 m tr /\ inv3 m tr /\ (ordinary tr -> inv2 m tr)) (fun _ => True) mpc_init _ _ h m tr _ H).
    - destruct (inv3_reach [] mpc_init [] eq_refl) as [A B]. split; [exact A|]. split; [exact B|]. intros _. apply inv2_init.
    - intros m0 tr0 c m' o (I & K & J) _ Hd. split; [eapply inv1_step; eauto|]. split; [eapply inv3_step; eauto|].
      intros O. apply ordinary_snoc in O as [O1 O2]. eapply inv2_step; eauto.
      destruct c; cbn in O2; auto. destruct (m_setup m0) eqn:Q; [|reflexivity]. exfalso. apply O2, (k_s _ _ K), Q.
    - apply Forall_forall. auto.
  Qed.
  
  (** A computable version, for examples. *)
  Fixpoint ordinaryb (b : bool) (tr : trace) : bool :=
    match tr with
    | [] => true
    | (c, o) :: r =>
        (match c with KSetting _ => negb b | KPrepare | KCreate => false | KRterm kws n => Nat.leb (length kws) n | _ => true end) &&
        ordinaryb (b || match c, o with KSetup, Ok _ => true | KCreate, Ok _ => true | _, _ => false end) r
    end.
  Lemma ordinaryb_ok (tr : trace) : ordinaryb false tr = true -> ordinary tr.
  Proof.
    assert (G : forall tr pre b, (was_setup pre -> b = true) -> ordinary pre -> ordinaryb b tr = true -> ordinary (pre ++ tr)).
    { clear tr. induction tr as [|[c o] tr IH]; intros pre b Hb Hp H; [rewrite app_nil_r; exact Hp|].
      cbn [ordinaryb] in H. apply andb_prop in H as [H1 H2].
      change ((c, o) :: tr) with ([(c, o)] ++ tr). rewrite app_assoc. eapply IH; [|apply ordinary_snoc; split; [exact Hp|]|exact H2].
      - rewrite was_setup_snoc. intros [W|(v & [W|W])]; [rewrite (Hb W); reflexivity|injection W as -> ->; apply orb_true_r|injection W as -> ->; apply orb_true_r].
      - cbn [fst]. destruct c; cbn; try exact Logic.I; try discriminate H1.
        + intros W. rewrite (Hb W) in H1. discriminate H1.
        + apply Nat.leb_le. exact H1. }
    intros H. apply (G tr [] false); [|apply ordinary_nil|exact H]. intros (v & [[]|[]]).
  Qed.
End P.
