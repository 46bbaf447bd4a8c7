(** * Proofs about the simulator. *)
From Verif Require Import Base MpcModel SimModel SimSpec.
Import List.

Section P.
  Context {E : SEnv}.
  Notation sim := (@sim E).
  Notation scall := (@scall E).
  Notation trace := (list (scall * res (option (sY E)))).
  Implicit Types s : sim.

  Lemma sexec_app h1 h2 s : sexec (h1 ++ h2) s = let (s1, t1) := sexec h1 s in let (s2, t2) := sexec h2 s1 in (s2, t1 ++ t2).
  Proof.
    revert s. induction h1 as [|c h IH]; intros s; cbn [sexec app].
    - destruct (sexec h2 s); reflexivity.
    - destruct (do_scall s c) as [s1 o]. rewrite IH. destruct (sexec h s1) as [s2 t2]. destruct (sexec h2 s2). reflexivity.
  Qed.
  Lemma sexec_snoc h c s : sexec (h ++ [c]) s =
    let (s1, tr) := sexec h s in let (s2, o) := do_scall s1 c in (s2, tr ++ [(c, o)]).
  Proof. rewrite sexec_app. destruct (sexec h s) as [s1 tr]. cbn [sexec]. destruct (do_scall s1 c) as [s2 o]. reflexivity. Qed.
  Lemma sexec_ind (Q : sim -> trace -> Prop) (ok : scall -> Prop) s0 :
    Q s0 [] ->
    (forall s tr c s' o, Q s tr -> ok c -> do_scall s c = (s', o) -> Q s' (tr ++ [(c, o)])) ->
    forall h s tr, Forall ok h -> sexec h s0 = (s, tr) -> Q s tr.
  Proof.
    intros H0 Hs h. induction h as [|c h IH] using rev_ind; intros s tr Hok He.
    - cbn in He. injection He as <- <-. exact H0.
    - apply Forall_app in Hok as [Hok1 Hok2]. inversion Hok2; subst.
      rewrite sexec_snoc in He. destruct (sexec h s0) as [s1 t1] eqn:E1. destruct (do_scall s1 c) as [s2 o] eqn:E2.
      injection He as <- <-. eapply Hs; eauto.
  Qed.

  (** ** make_step *)
  Record step_rows (d d' : @srows E) x u z tv p y aux t : Prop := mkStepRows {
    sr_x : q_x d' = q_x d ++ [x]; sr_u : q_u d' = q_u d ++ [u]; sr_z : q_z d' = q_z d ++ [z]; sr_tvp : q_tvp d' = q_tvp d ++ [tv];
    sr_p : q_p d' = q_p d ++ [p]; sr_y : q_y d' = q_y d ++ [y]; sr_aux : q_aux d' = q_aux d ++ [aux]; sr_t : q_time d' = q_time d ++ [t] }.

  (** The part of a step that is common to its success and its failure for want of a sampling time. *)
  Record went (s s' : sim) u v w tf pf : Prop := mkWent {
    g_set : c_setup s = true; g_tf : c_tvpf s = Some tf; g_pf : c_pf s = Some pf;
    g_sim : simulate (c_dt s) (c_x0 s) (c_simz s) u (tf (c_t0 s)) (pf (c_t0 s)) w = (c_x0 s', c_simz s');
    g_rows : step_rows (c_data s) (c_data s') (c_x0 s) u (c_simz s) (tf (c_t0 s)) (pf (c_t0 s))
               (s_meas E (c_x0 s') u (c_simz s') (tf (c_t0 s)) (pf (c_t0 s)) v)
               (if c_first s then s_aux E (c_x0 s) u (c_simz s) (tf (c_t0 s)) (pf (c_t0 s)) else c_simaux s) (c_t0 s);
    g_aux : c_simaux s' = s_aux E (c_x0 s') u (c_simz s') (tf (c_t0 s)) (pf (c_t0 s));
    g_u0 : c_u0 s' = u; g_z0 : c_z0 s' = c_simz s;
    g_k1 : c_setup s' = true; g_k2 : c_tstep s' = c_tstep s; g_k3 : c_dt s' = c_dt s; g_k4 : c_tvpf s' = c_tvpf s; g_k5 : c_pf s' = c_pf s }.

  Lemma sim_step_cases s u v w s' r : sim_step s u v w = (s', r) ->
    (exists u0 v0 w0 tf pf dt, given_u u = Some u0 /\ given (s_v_zero E) v = Some v0 /\ given (s_w_zero E) w = Some w0 /\
       went s s' u0 v0 w0 tf pf /\ c_tstep s = Some dt /\ c_t0 s' = s_tadd E (c_t0 s) dt /\ c_first s' = false /\
       r = Ok (s_meas E (c_x0 s') u0 (c_simz s') (tf (c_t0 s)) (pf (c_t0 s)) v0)) \/
    (exists e, r = Err e /\ (s' = s \/
       (exists u0 v0 w0 tf pf, given_u u = Some u0 /\ went s s' u0 v0 w0 tf pf /\ c_tstep s = None /\ c_t0 s' = c_t0 s /\ c_first s' = c_first s))).
  Proof.
    unfold sim_step. intros H.
    assert (HU : (exists u0, given_u u = Some u0 /\ (match u with None => if s_nu0 E then Ok (s_u_zero E) else Err ExcAssertion | Some (Good u) => Ok u | Some Bad => Err ExcAssertion end) = Ok u0)
               \/ exists e, (match u with None => if s_nu0 E then Ok (s_u_zero E) else Err ExcAssertion | Some (Good u) => Ok u | Some Bad => Err ExcAssertion end) = Err e).
    { unfold given_u. destruct u as [[u|]|]; [left|right|destruct (s_nu0 E); [left|right]]; eauto. }
    destruct HU as [(u0 & GU & HU)|[e HU]]; rewrite HU in H; [|injection H as <- <-; right; eauto].
    destruct (c_setup s) eqn:E0; [|injection H as <- <-; right; eauto].
    assert (NW : (exists w0, given (s_w_zero E) w = Some w0 /\ noise w (s_w_zero E) = Ok w0) \/ exists e, noise w (s_w_zero E) = Err e).
    { unfold given, noise. destruct w as [[w|]|]; [left|right|left]; eauto. }
    destruct NW as [(w0 & GW & NW)|[e NW]]; rewrite NW in H; [|injection H as <- <-; right; eauto].
    assert (NV : (exists v0, given (s_v_zero E) v = Some v0 /\ noise v (s_v_zero E) = Ok v0) \/ exists e, noise v (s_v_zero E) = Err e).
    { unfold given, noise. destruct v as [[v|]|]; [left|right|left]; eauto. }
    destruct NV as [(v0 & GV & NV)|[e NV]]; rewrite NV in H; [|injection H as <- <-; right; eauto].
    destruct (c_tvpf s) as [tf|] eqn:E1; [|injection H as <- <-; right; eauto].
    destruct (c_pf s) as [pf|] eqn:E2; [|injection H as <- <-; right; eauto].
    cbv zeta in H. destruct (simulate _ _ _ _ _ _ _) as [x' z'] eqn:E3.
    destruct (c_tstep s) as [dt|] eqn:E4; injection H as <- <-.
    - left. exists u0, v0, w0, tf, pf, dt. repeat (split; [eassumption|]).
      split; [|repeat split; auto].
      constructor; auto; try (constructor; reflexivity).
    - right. eexists. split; [reflexivity|]. right. exists u0, v0, w0, tf, pf. repeat (split; [eassumption|]).
      split; [|repeat split; auto].
      constructor; auto; try (constructor; reflexivity).
  Qed.

  Lemma simulate_transition dt x z u tv p w x' z' :
    simulate (Some dt) x z u tv p w = (x', z') -> @transition E dt u tv p w x z x' z'.
  Proof.
    unfold simulate. destruct (s_discrete E) eqn:ED.
    - destruct (s_nz0 E) eqn:EZ; intros [= <- <-]; [apply tr_discrete|eapply tr_discrete_dae]; auto.
    - intros H. eapply tr_continuous; auto.
  Qed.

  (** ** Invariant *)
  Definition sagree {A} (user : option A) (dummy : A) (f : option A) : Prop :=
    match user with Some g => f = Some g | None => f = None \/ f = Some dummy end.

  Record sinv (s : sim) (tr : trace) : Prop := mkSinv {
    v_ts : c_tstep s = stime_step tr;
    v_ck : fst (slog_state tr) = (c_tstep s, c_t0 s);
    v_t : sagree (stvp_of tr) (s_tvp_dummy E) (c_tvpf s);
    v_p : sagree (sp_of tr) (s_p_dummy E) (c_pf s);
    v_setup : c_setup s = true <-> swas_setup tr;
    v_have : c_setup s = true -> c_tvpf s <> None /\ c_pf s <> None /\ c_dt s <> None }.

  Lemma swas_snoc (tr : trace) e : swas_setup (tr ++ [e]) <-> swas_setup tr \/ (exists v, e = (SSetup, Ok v)).
  Proof.
    unfold swas_setup. setoid_rewrite in_app_iff. split.
    - intros (v & [H|[H|[]]]); eauto.
    - intros [(v & H)|(v & ->)]; exists v; [auto|right; left; reflexivity].
  Qed.
  Lemma slog_snoc (tr : trace) e dt t l : slog_state tr = (dt, t, l) ->
    slog_state (tr ++ [e]) = match e with
      | (SParam d, Ok _) => (Some d, t, l)
      | (SSetting d, Ok _) => (d, t, l)
      | (SStep u _ _, Ok _) => (dt, match dt with Some d => s_tadd E t d | None => t end, l ++ [(u, t)])
      | (SReset, Ok _) => (dt, s_t_zero E, [])
      | (ST0 (Good t'), Ok _) => (dt, t', l)
      | _ => (dt, t, l)
      end.
  Proof. intros H. unfold slog_state in *. rewrite fold_left_app. cbn [fold_left]. rewrite H. reflexivity. Qed.
  Lemma sts_snoc (tr : trace) e : stime_step (tr ++ [e]) = match e with (SParam t, Ok _) => Some t | (SSetting t, Ok _) => t | _ => stime_step tr end.
  Proof. unfold stime_step. rewrite fold_left_app. reflexivity. Qed.
  Lemma stvp_snoc (tr : trace) e : stvp_of (tr ++ [e]) = match e with (STvp (Good f), Ok _) => Some f | _ => stvp_of tr end.
  Proof. unfold stvp_of. rewrite fold_left_app. reflexivity. Qed.
  Lemma sp_snoc (tr : trace) e : sp_of (tr ++ [e]) = match e with (SP (Good f), Ok _) => Some f | _ => sp_of tr end.
  Proof. unfold sp_of. rewrite fold_left_app. reflexivity. Qed.

  Lemma sinv_init : sinv sim_init [].
  Proof.
    constructor; cbn; auto; try discriminate.
    split; [discriminate|]. intros (v & []).
  Qed.

  Lemma sagree_dummy {A} (user : option A) d (f : option A) : sagree user d f -> sagree user d (Some (match f with Some g => g | None => d end)).
  Proof. unfold sagree. destruct user as [g|]; [intros ->; reflexivity|intros [->| ->]; auto]. Qed.

  Lemma sinv_same s tr s' c o : sinv s tr -> stime_step (tr ++ [(c, o)]) = c_tstep s' -> fst (slog_state (tr ++ [(c, o)])) = (c_tstep s', c_t0 s') ->
    stvp_of (tr ++ [(c, o)]) = stvp_of tr -> sp_of (tr ++ [(c, o)]) = sp_of tr -> (swas_setup (tr ++ [(c, o)]) <-> swas_setup tr) ->
    c_tvpf s' = c_tvpf s -> c_pf s' = c_pf s -> c_setup s' = c_setup s -> c_dt s' = c_dt s -> sinv s' (tr ++ [(c, o)]).
  Proof.
    intros [V1 V2 V3 V4 V5 V6] H1 H2 H3 H4 H5 H6 H7 H8 H9.
    constructor; rewrite ?H3, ?H4, ?H5, ?H6, ?H7, ?H8, ?H9; auto.
  Qed.

  Lemma sinv_step s tr c s' o : sinv s tr -> do_scall s c = (s', o) -> sinv s' (tr ++ [(c, o)]).
  Proof.
    intros I H. pose proof I as [V1 V2 V3 V4 V5 V6].
    destruct (slog_state tr) as [[dt0 t0] l0] eqn:SL. cbn in V2. injection V2 as -> ->.
    assert (NS : forall o', (forall v, (c, o') <> (SSetup, Ok v)) -> swas_setup (tr ++ [(c, o')]) <-> swas_setup tr).
    { intros o' Hn. rewrite swas_snoc. split; [intros [?|[v Hv]]; [assumption|exfalso; eapply Hn; eauto]|auto]. }
    destruct c; cbn [do_scall] in H.
    - unfold sim_set_param in H. destruct (c_setup s) eqn:E0; cbn [sret] in H; injection H as <- <-.
      + eapply sinv_same; try exact I; try reflexivity; rewrite ?sts_snoc, ?stvp_snoc, ?sp_snoc; auto; [erewrite slog_snoc by eassumption; reflexivity|apply NS; discriminate].
      + eapply sinv_same; try exact I; try reflexivity; rewrite ?sts_snoc, ?stvp_snoc, ?sp_snoc; auto; [erewrite slog_snoc by eassumption; reflexivity|apply NS; discriminate].
    - injection H as <- <-.
      eapply sinv_same; try exact I; try reflexivity; rewrite ?sts_snoc, ?stvp_snoc, ?sp_snoc; auto; [erewrite slog_snoc by eassumption; reflexivity|apply NS; discriminate].
    - unfold sim_set_tvp in H. destruct f as [f|]; cbn [sret] in H; injection H as <- <-.
      + constructor; rewrite ?sts_snoc, ?stvp_snoc, ?sp_snoc; cbn; auto; [erewrite slog_snoc by eassumption; reflexivity|rewrite V5; symmetry; apply NS; discriminate|].
        intros Q. apply V6 in Q. intuition discriminate.
      + eapply sinv_same; try exact I; try reflexivity; rewrite ?sts_snoc, ?stvp_snoc, ?sp_snoc; auto; [erewrite slog_snoc by eassumption; reflexivity|apply NS; discriminate].
    - unfold sim_set_p in H. destruct f as [f|]; cbn [sret] in H; injection H as <- <-.
      + constructor; rewrite ?sts_snoc, ?stvp_snoc, ?sp_snoc; cbn; auto; [erewrite slog_snoc by eassumption; reflexivity|rewrite V5; symmetry; apply NS; discriminate|].
        intros Q. apply V6 in Q. intuition discriminate.
      + eapply sinv_same; try exact I; try reflexivity; rewrite ?sts_snoc, ?stvp_snoc, ?sp_snoc; auto; [erewrite slog_snoc by eassumption; reflexivity|apply NS; discriminate].
    - unfold sim_setup in H.
      destruct ((match c_tvpf s with None => true | _ => false end) && _)%bool eqn:Q1;
        [injection H as <- <-; eapply sinv_same; try exact I; try reflexivity; rewrite ?sts_snoc, ?stvp_snoc, ?sp_snoc; auto; [erewrite slog_snoc by eassumption; reflexivity|apply NS; discriminate]|].
      destruct ((match c_pf s with None => true | _ => false end) && _)%bool eqn:Q2;
        [injection H as <- <-; eapply sinv_same; try exact I; try reflexivity; rewrite ?sts_snoc, ?stvp_snoc, ?sp_snoc; auto; [erewrite slog_snoc by eassumption; reflexivity|apply NS; discriminate]|].
      cbv zeta in H. cbn [c_tstep sim_fns] in H. destruct (c_tstep s) as [dt|] eqn:Q3; injection H as <- <-.
      + constructor; rewrite ?sts_snoc, ?stvp_snoc, ?sp_snoc; cbn; auto; try (erewrite slog_snoc by eassumption; cbn; congruence); try (apply sagree_dummy; assumption).
        * split; [intros _; apply swas_snoc; eauto|reflexivity].
        * intros _. repeat split; discriminate.
      + constructor; rewrite ?sts_snoc, ?stvp_snoc, ?sp_snoc; cbn; auto; try (erewrite slog_snoc by eassumption; cbn; congruence); try (apply sagree_dummy; assumption);
          try congruence.
        * rewrite V5. symmetry. apply NS. discriminate.
        * intros Q. apply V6 in Q. intuition discriminate.
    - unfold sim_guess in H. destruct (c_setup s) eqn:E0; cbn [sret] in H; injection H as <- <-;
      eapply sinv_same; try exact I; try reflexivity; rewrite ?sts_snoc, ?stvp_snoc, ?sp_snoc; auto; try (erewrite slog_snoc by eassumption; reflexivity); try (apply NS; discriminate).
      
    - unfold sim_init_alg in H.
      destruct (c_pf s) as [pf|] eqn:Q1; [destruct (c_tvpf s) as [tf|] eqn:Q2|];
        [cbv zeta in H; unfold sim_guess in H; cbn [c_setup sim_attrs] in H; destruct (c_setup s) eqn:E0| |]; cbv zeta in H; injection H as <- <-;
      eapply sinv_same; try exact I; try reflexivity; rewrite ?sts_snoc, ?stvp_snoc, ?sp_snoc; auto; try (erewrite slog_snoc by eassumption; reflexivity); try (apply NS; discriminate).
    - destruct (sim_step s u v w) as [s1 r] eqn:ES.
      destruct (sim_step_cases _ _ _ _ _ _ ES) as [(u0 & v0 & w0 & tf & pf & dt & GU & GV & GW & G & DT & TT & F & ->)|(e & -> & [->|(u0 & v0 & w0 & tf & pf & GU & G & DT & TT & F)])];
        injection H as <- <-; eapply sinv_same; try exact I; rewrite ?sts_snoc, ?stvp_snoc, ?sp_snoc; auto;
        try (erewrite slog_snoc by eassumption); try destruct G; cbn; try congruence; try (apply NS; discriminate).
      rewrite DT. congruence.
    - injection H as <- <-. eapply sinv_same; try exact I; try reflexivity; rewrite ?sts_snoc, ?stvp_snoc, ?sp_snoc; auto; try (erewrite slog_snoc by eassumption; reflexivity); try (apply NS; discriminate).
    - destruct x as [x|]; injection H as <- <-; eapply sinv_same; try exact I; try reflexivity; rewrite ?sts_snoc, ?stvp_snoc, ?sp_snoc; auto; try (erewrite slog_snoc by eassumption; reflexivity); try (apply NS; discriminate).
    - destruct z as [z|]; injection H as <- <-; eapply sinv_same; try exact I; try reflexivity; rewrite ?sts_snoc, ?stvp_snoc, ?sp_snoc; auto; try (erewrite slog_snoc by eassumption; reflexivity); try (apply NS; discriminate).
    - destruct t as [t|]; injection H as <- <-; eapply sinv_same; try exact I; try reflexivity; rewrite ?sts_snoc, ?stvp_snoc, ?sp_snoc; auto; try (erewrite slog_snoc by eassumption; reflexivity); try (apply NS; discriminate).
  Qed.

  Theorem sinv_reach h s tr : sexec h sim_init = (s, tr) -> sinv s tr.
  Proof.
    intros H. apply (sexec_ind sinv (fun _ => True) sim_init sinv_init) with (h := h); auto.
    - intros; eapply sinv_step; eauto.
    - apply Forall_forall; auto.
  Qed.

  (** ** Ordinary histories *)
  Record sinv2 (s : sim) (tr : trace) : Prop := mkSinv2 {
    j2_dt : c_setup s = true -> c_dt s = c_tstep s /\ c_tstep s <> None;
    j2_u : map Some (q_u (c_data s)) = map (fun e => given_u (fst e)) (slog tr);
    j2_t : q_time (c_data s) = map snd (slog tr);
    j2_r : same_rows (c_data s) (length (slog tr)) }.

  Lemma slog_snoc' (tr : trace) e : slog (tr ++ [e]) = match e with
      | (SStep u _ _, Ok _) => slog tr ++ [(u, sclock tr)]
      | (SReset, Ok _) => []
      | _ => slog tr
      end.
  Proof.
    unfold slog, sclock. destruct (slog_state tr) as [[dt t] l] eqn:Q. rewrite (slog_snoc tr e dt t l Q).
    destruct e as [c o]; destruct c, o as [y|]; cbn; try reflexivity; try (destruct t0; reflexivity).
  Qed.

  Lemma sinv2_init : sinv2 sim_init [].
  Proof. constructor; cbn; auto; try discriminate. repeat split. Qed.

  Lemma sinv2_same s tr s' c o : sinv2 s tr -> slog (tr ++ [(c, o)]) = slog tr -> c_data s' = c_data s ->
    c_setup s' = c_setup s -> (c_setup s = true -> c_dt s' = c_tstep s' /\ c_tstep s' <> None) -> sinv2 s' (tr ++ [(c, o)]).
  Proof. intros [W1 W2 W3 W4] H1 H2 H3 H4. constructor; rewrite ?H1, ?H2, ?H3; auto. Qed.

  Lemma sinv2_step s tr c s' o : sinv s tr -> sinv2 s tr -> (match c with SSetting _ => c_setup s = false | _ => True end) -> do_scall s c = (s', o) -> sinv2 s' (tr ++ [(c, o)]).
  Proof.
    intros I J Ho H. pose proof J as [W1 W2 W3 W4].
    assert (CK : sclock tr = c_t0 s) by (unfold sclock; rewrite (v_ck _ _ I); reflexivity).
    destruct c; cbn [do_scall] in H.
    - unfold sim_set_param in H. destruct (c_setup s) eqn:E0; cbn [sret] in H; injection H as <- <-;
        eapply sinv2_same; try exact J; rewrite ?slog_snoc'; cbn; auto; congruence.
    - injection H as <- <-. eapply sinv2_same; try exact J; rewrite ?slog_snoc'; cbn; auto; congruence.
    - unfold sim_set_tvp in H. destruct f; cbn [sret] in H; injection H as <- <-; eapply sinv2_same; try exact J; rewrite ?slog_snoc'; cbn; auto.
    - unfold sim_set_p in H. destruct f; cbn [sret] in H; injection H as <- <-; eapply sinv2_same; try exact J; rewrite ?slog_snoc'; cbn; auto.
    - unfold sim_setup in H.
      destruct ((match c_tvpf s with None => true | _ => false end) && _)%bool eqn:Q1; [injection H as <- <-; eapply sinv2_same; try exact J; rewrite ?slog_snoc'; cbn; auto|].
      destruct ((match c_pf s with None => true | _ => false end) && _)%bool eqn:Q2; [injection H as <- <-; eapply sinv2_same; try exact J; rewrite ?slog_snoc'; cbn; auto|].
      cbv zeta in H. cbn [c_tstep sim_fns] in H. destruct (c_tstep s) as [dt|] eqn:Q3; injection H as <- <-.
      + constructor; rewrite ?slog_snoc'; cbn; auto. intros _. split; congruence.
      + eapply sinv2_same; try exact J; rewrite ?slog_snoc'; cbn; auto. rewrite ?Q3. exact W1.
    - unfold sim_guess in H. destruct (c_setup s) eqn:E0; cbn [sret] in H; injection H as <- <-; eapply sinv2_same; try exact J; rewrite ?slog_snoc'; cbn; auto; congruence.
    - unfold sim_init_alg in H.
      destruct (c_pf s) as [pf|] eqn:Q1; [destruct (c_tvpf s) as [tf|] eqn:Q2|];
        [cbv zeta in H; unfold sim_guess in H; cbn [c_setup sim_attrs] in H; destruct (c_setup s) eqn:E0| |]; cbv zeta in H; injection H as <- <-;
        eapply sinv2_same; try exact J; rewrite ?slog_snoc'; cbn; auto; congruence.
    - destruct (sim_step s u v w) as [s1 r] eqn:ES.
      destruct (sim_step_cases _ _ _ _ _ _ ES) as [(u0 & v0 & w0 & tf & pf & dt & GU & GV & GW & G & DT & TT & F & ->)|(e & -> & [->|(u0 & v0 & w0 & tf & pf & GU & G & DT & TT & F)])];
        injection H as <- <-.
      + destruct G as [G1 G2 G3 G4 [R1 R2 R3 R4 R5 R6 R7 R8] G6 G7 G8 G9 G10 G11 G12 G13].
        constructor; rewrite ?slog_snoc'.
        * intros _. rewrite G10, G11. apply W1, G1.
        * rewrite R2, !map_app, W2. cbn. rewrite GU. reflexivity.
        * rewrite R8, map_app, W3. cbn. rewrite CK. reflexivity.
        * unfold same_rows in *. rewrite R1, R2, R3, R4, R5, R6, R7, R8, !app_length. cbn. intuition lia.
      + eapply sinv2_same; try exact J; rewrite ?slog_snoc'; cbn; auto.
      + exfalso. destruct (W1 (g_set _ _ _ _ _ _ _ G)). congruence.
    - injection H as <- <-. constructor; rewrite ?slog_snoc'; cbn; auto. repeat split.
    - destruct x; injection H as <- <-; eapply sinv2_same; try exact J; rewrite ?slog_snoc'; cbn; auto.
    - destruct z; injection H as <- <-; eapply sinv2_same; try exact J; rewrite ?slog_snoc'; cbn; auto.
    - destruct t; injection H as <- <-; eapply sinv2_same; try exact J; rewrite ?slog_snoc'; cbn; auto.
  Qed.

  Lemma sordinary_snoc (tr : trace) e : sordinary (tr ++ [e]) <-> sordinary tr /\ (forall t, fst e = SSetting t -> ~ swas_setup tr).
  Proof.
    unfold sordinary. split.
    - intros H. split.
      + intros b c o a ->. apply (H b c o (a ++ [e])). rewrite <- app_assoc. reflexivity.
      + destruct e as [c o]. cbn. intros t ->. apply (H tr t o []). reflexivity.
    - intros [H1 H2] b t o a Q. destruct a as [|x a] using rev_ind.
      + apply app_inj_tail in Q as [-> ->]. eapply H2; reflexivity.
      + rewrite app_comm_cons, app_assoc in Q. apply app_inj_tail in Q as [-> _]. eapply H1; reflexivity.
  Qed.
  Lemma sordinary_nil : sordinary ([] : trace).
  Proof. intros b c o a Q. destruct b; discriminate. Qed.
  (** Calls other than assignments to the settings object. *)
  Lemma sordinary_app (tr tr' : trace) : sordinary tr -> (forall t o, ~ In (SSetting t, o) tr') -> sordinary (tr ++ tr').
  Proof.
    revert tr. induction tr' as [|e tr' IH]; intros tr H1 H2; [rewrite app_nil_r; exact H1|].
    change (e :: tr') with ([e] ++ tr'). rewrite app_assoc. apply IH.
    - apply sordinary_snoc. split; [exact H1|]. intros t Q. destruct e as [c o]. cbn in Q. subst c. exfalso. eapply H2. left. reflexivity.
    - intros t o Q. eapply H2. right. exact Q.
  Qed.

  Theorem sinv2_reach h s tr : sordinary tr -> sexec h sim_init = (s, tr) -> sinv s tr /\ sinv2 s tr.
  Proof.
    intros Ho H.
    enough (G : sinv s tr /\ (sordinary tr -> sinv2 s tr)) by (split; [apply G|apply G, Ho]).
    apply (sexec_ind (fun s tr => sinv s tr /\ (sordinary tr -> sinv2 s tr)) (fun _ => True) sim_init) with (h := h); auto.
    - split; [apply sinv_init|intros _; apply sinv2_init].
    - intros s0 t0 c s' o [A B] _ D. split; [eapply sinv_step; eauto|]. intros O. apply sordinary_snoc in O as [O1 O2].
      eapply sinv2_step; eauto. destruct c; auto. destruct (c_setup s0) eqn:Q; [|reflexivity]. exfalso. eapply O2; [reflexivity|]. apply (v_setup _ _ A), Q.
    - apply Forall_forall. auto.
  Qed.
  (** A computable version, for examples. *)
  Fixpoint sordinaryb (b : bool) (tr : trace) : bool :=
    match tr with
    | [] => true
    | (c, o) :: r => (match c with SSetting _ => negb b | _ => true end) && sordinaryb (b || match c, o with SSetup, Ok _ => true | _, _ => false end) r
    end.
  Lemma sordinaryb_ok (tr : trace) : sordinaryb false tr = true -> sordinary tr.
  Proof.
    assert (G : forall tr pre b, (swas_setup pre -> b = true) -> sordinary pre -> sordinaryb b tr = true -> sordinary (pre ++ tr)).
    { clear tr. induction tr as [|[c o] tr IH]; intros pre b Hb Hp H; [rewrite app_nil_r; exact Hp|].
      cbn [sordinaryb] in H. apply andb_prop in H as [H1 H2].
      change ((c, o) :: tr) with ([(c, o)] ++ tr). rewrite app_assoc. eapply IH; [|apply sordinary_snoc; split; [exact Hp|]|exact H2].
      - rewrite swas_snoc. intros [W|(v & W)]; [rewrite (Hb W); reflexivity|injection W as -> ->; apply orb_true_r].
      - cbn [fst]. intros t -> W. rewrite (Hb W) in H1. discriminate H1. }
    intros H. apply (G tr [] false); [|apply sordinary_nil|exact H]. intros (v & []).
  Qed.
  Lemma steps_no_setting cs l s s' tr' : Forall2 step_with cs l -> sexec cs s = (s', tr') -> forall t o, ~ In (SSetting t, o) tr'.
  Proof.
    intros H. revert s s' tr'. induction H as [|c e cs l Hc Hl IH]; intros s s' tr' He t o; cbn [sexec] in He.
    - injection He as <- <-. intros [].
    - destruct (do_scall s c) as [s1 o1]. destruct (sexec cs s1) as [s2 t2] eqn:E2. injection He as <- <-.
      intros [Q|Q]; [injection Q as -> ->; exact Hc|]. eapply IH; eauto.
  Qed.

  (** A step of a set-up simulator with valid arguments returns normally. *)
  Lemma sim_step_ok s tr u v w u0 v0 w0 : sinv s tr -> sinv2 s tr -> c_setup s = true ->
    given_u u = Some u0 -> given (s_v_zero E) v = Some v0 -> given (s_w_zero E) w = Some w0 ->
    exists s' dt, sim_step s u v w = (s', Ok (s_meas E (c_x0 s') u0 (c_simz s') (stvp_force tr (c_t0 s)) (sp_force tr (c_t0 s)) v0)) /\
      went s s' u0 v0 w0 (stvp_force tr) (sp_force tr) /\ c_tstep s = Some dt /\ c_dt s = Some dt /\ c_t0 s' = s_tadd E (c_t0 s) dt /\ c_first s' = false /\
      transition dt u0 (stvp_force tr (c_t0 s)) (sp_force tr (c_t0 s)) w0 (c_x0 s) (c_simz s) (c_x0 s') (c_simz s').
  Proof.
    intros I J Hs GU GV GW. destruct (sim_step s u v w) as [s' r] eqn:ES.
    destruct (j2_dt _ _ J Hs) as [D1 D2]. destruct (v_have _ _ I Hs) as (D3 & D4 & D5).
    assert (ST : forall tf, c_tvpf s = Some tf -> tf = stvp_force tr).
    { intros tf Ht. unfold stvp_force. pose proof (v_t _ _ I) as A. unfold sagree in A. destruct (stvp_of tr); [congruence|]. destruct A; congruence. }
    assert (SPf : forall pf, c_pf s = Some pf -> pf = sp_force tr).
    { intros tf Ht. unfold sp_force. pose proof (v_p _ _ I) as A. unfold sagree in A. destruct (sp_of tr); [congruence|]. destruct A; congruence. }
    destruct (sim_step_cases _ _ _ _ _ _ ES) as [(u1 & v1 & w1 & tf & pf & dt & GU1 & GV1 & GW1 & G & DT & TT & F & ->)|(e & -> & [->|(u1 & v1 & w1 & tf & pf & GU1 & G & DT & TT & F)])].
    - rewrite GU1 in GU; injection GU as ->. rewrite GV1 in GV; injection GV as ->. rewrite GW1 in GW; injection GW as ->.
      rewrite <- (ST tf) by apply G. rewrite <- (SPf pf) by apply G.
      exists s', dt. repeat (split; [auto; fail|]). split; [congruence|]. repeat (split; [auto; fail|]).
      eapply simulate_transition. replace (Some dt) with (c_dt s) by congruence. apply G.
    - exfalso. unfold sim_step in ES. rewrite Hs in ES.
      assert (HU : (match u with None => if s_nu0 E then Ok (s_u_zero E) else Err ExcAssertion | Some (Good u) => Ok u | Some Bad => Err ExcAssertion end) = Ok u0).
      { unfold given_u in GU. destruct u as [[u|]|]; try congruence. destruct (s_nu0 E); congruence. }
      rewrite HU in ES.
      assert (HW : noise w (s_w_zero E) = Ok w0) by (unfold given, noise in *; destruct w as [[w|]|]; congruence).
      assert (HV : noise v (s_v_zero E) = Ok v0) by (unfold given, noise in *; destruct v as [[v|]|]; congruence).
      rewrite HW, HV in ES. destruct (c_tvpf s); [|congruence]. destruct (c_pf s); [|congruence].
      cbv zeta in ES. destruct (simulate _ _ _ _ _ _ _) as [x' z']. destruct (c_tstep s); congruence.
    - congruence.
  Qed.

  (** A run of steps. *)
  Record appended (d d' : @srows E) (rows : list (sX E * sU E * sTm E * sY E)) : Prop := mkApp {
    ap_x : q_x d' = q_x d ++ map (fun r => fst (fst (fst r))) rows;
    ap_u : q_u d' = q_u d ++ map (fun r => snd (fst (fst r))) rows;
    ap_t : q_time d' = q_time d ++ map (fun r => snd (fst r)) rows;
    ap_y : q_y d' = q_y d ++ map snd rows }.

  Lemma run_steps cs l : Forall2 step_with cs l -> forall s tr s' tr',
    sinv s tr -> sinv2 s tr -> c_setup s = true -> sexec cs s = (s', tr') ->
    exists dt rows, stime_step tr = Some dt /\
      trajectory (stvp_force tr) (sp_force tr) dt (c_t0 s) (c_x0 s) (c_simz s) l rows (c_t0 s') (c_x0 s') (c_simz s') /\
      map snd tr' = map (fun r => Ok (Some (snd r))) rows /\ appended (c_data s) (c_data s') rows.
  Proof.
    induction 1 as [|c [[u0 v0] w0] cs l Hc Hl IH]; intros s tr s' tr' I J Hs He.
    - cbn in He. injection He as <- <-. destruct (j2_dt _ _ J Hs) as [_ D]. rewrite <- (v_ts _ _ I). destruct (c_tstep s) as [dt|]; [|congruence].
      exists dt, []. split; [reflexivity|]. split; [constructor|]. split; [reflexivity|]. constructor; cbn; rewrite ?app_nil_r; reflexivity.
    - destruct c; try destruct Hc. destruct H0 as [GV GW]. cbn [fst snd] in *.
      destruct (sim_step_ok s tr u v w u0 v0 w0 I J Hs H GV GW) as (s1 & dt & ES & G & T1 & T2 & T3 & T4 & TR).
      cbn [sexec do_scall] in He. rewrite ES in He. cbn beta iota in He.
      destruct (sexec cs s1) as [s2 tr2] eqn:E2. injection He as <- <-.
      set (e := (SStep u v w, Ok (Some (s_meas E (c_x0 s1) u0 (c_simz s1) (stvp_force tr (c_t0 s)) (sp_force tr (c_t0 s)) v0))) : scall * res (option (sY E))).
      assert (DC : do_scall s (SStep u v w) = (s1, snd e)) by (cbn; rewrite ES; reflexivity).
      assert (I1 : sinv s1 (tr ++ [e])) by (eapply sinv_step; eauto).
      assert (J1 : sinv2 s1 (tr ++ [e])) by (eapply sinv2_step; eauto; exact Logic.I).
      destruct (IH s1 (tr ++ [e]) s2 tr2 I1 J1 (g_k1 _ _ _ _ _ _ _ G) E2) as (dt' & rows & D1 & D2 & D3 & D4).
      rewrite sts_snoc in D1. cbn in D1. assert (dt' = dt) by (rewrite <- (v_ts _ _ I) in D1; congruence). subst dt'.
      assert (F1 : stvp_force (tr ++ [e]) = stvp_force tr) by (unfold stvp_force; rewrite stvp_snoc; reflexivity).
      assert (F2 : sp_force (tr ++ [e]) = sp_force tr) by (unfold sp_force; rewrite sp_snoc; reflexivity).
      rewrite F1, F2, T3 in D2.
      exists dt, ((c_x0 s, u0, c_t0 s, s_meas E (c_x0 s1) u0 (c_simz s1) (stvp_force tr (c_t0 s)) (sp_force tr (c_t0 s)) v0) :: rows).
      split; [exact D1|]. split; [econstructor; eauto|]. split; [cbn; rewrite D3; reflexivity|].
      destruct G as [_ _ _ _ [R1 R2 R3 R4 R5 R6 R7 R8] _ _ _ _ _ _ _ _]. destruct D4 as [A1 A2 A3 A4].
      constructor; [rewrite A1, R1|rewrite A2, R2|rewrite A3, R8|rewrite A4, R6]; rewrite <- app_assoc; reflexivity.
  Qed.

  Lemma run_rows cs l : Forall2 step_with cs l -> forall s tr s' tr',
    sinv s tr -> sinv2 s tr -> c_setup s = true -> sexec cs s = (s', tr') ->
    exists rows, full_rows (c_data s) (c_data s') rows /\ length rows = length l /\
      (match rows with
       | [] => True
       | r :: rest => (w_aux r = if c_first s then s_aux E (w_x r) (w_u r) (w_z r) (w_tv r) (w_p r) else c_simaux s) /\ w_x r = c_x0 s /\ w_z r = c_simz s /\ lagged_from r rest
       end).
  Proof.
    induction 1 as [|c [[u0 v0] w0] cs l Hc Hl IH]; intros s tr s' tr' I J Hs He.
    - cbn in He. injection He as <- <-. exists []. unfold full_rows. cbn. rewrite !app_nil_r. auto 10.
    - destruct c; try destruct Hc. destruct H0 as [GV GW]. cbn [fst snd] in *.
      destruct (sim_step_ok s tr u v w u0 v0 w0 I J Hs H GV GW) as (s1 & dt & ES & G & T1 & T2 & T3 & T4 & TR).
      cbn [sexec do_scall] in He. rewrite ES in He. cbn beta iota in He.
      destruct (sexec cs s1) as [s2 tr2] eqn:E2. injection He as <- <-.
      set (e := (SStep u v w, Ok (Some (s_meas E (c_x0 s1) u0 (c_simz s1) (stvp_force tr (c_t0 s)) (sp_force tr (c_t0 s)) v0))) : scall * res (option (sY E))).
      assert (DC : do_scall s (SStep u v w) = (s1, snd e)) by (cbn; rewrite ES; reflexivity).
      assert (I1 : sinv s1 (tr ++ [e])) by (eapply sinv_step; eauto).
      assert (J1 : sinv2 s1 (tr ++ [e])) by (eapply sinv2_step; eauto; exact Logic.I).
      destruct (IH s1 (tr ++ [e]) s2 tr2 I1 J1 (g_k1 _ _ _ _ _ _ _ G) E2) as (rows & FR & LN & CH).
      destruct G as [_ _ _ _ [R1 R2 R3 R4 R5 R6 R7 R8] GA _ _ _ _ _ _ _].
      set (r := mkRow (c_x0 s) u0 (c_simz s) (stvp_force tr (c_t0 s)) (sp_force tr (c_t0 s))
                 (if c_first s then s_aux E (c_x0 s) u0 (c_simz s) (stvp_force tr (c_t0 s)) (sp_force tr (c_t0 s)) else c_simaux s)).
      exists (r :: rows). split; [|split].
      + destruct FR as (A1 & A2 & A3 & A4 & A5 & A6). unfold full_rows.
        rewrite A1, A2, A3, A4, A5, A6, R1, R2, R3, R4, R5, R7, <- !app_assoc. cbn. auto 10.
      + cbn. congruence.
      + split; [reflexivity|]. split; [reflexivity|]. split; [reflexivity|].
        destruct rows as [|r1 rest]; [exact Logic.I|]. destruct CH as (C1 & C2 & C3 & C4). cbn [lagged_from]. split; [|exact C4].
        rewrite T4 in C1. unfold lagged_aux. rewrite C1, C2, C3, GA. reflexivity.
  Qed.

  Lemma trajectory_times tf pf dt t x z l rows t' x' z' : @trajectory E tf pf dt t x z l rows t' x' z' ->
    map (fun r => snd (fst r)) rows = ticks dt t (length l).
  Proof. induction 1; cbn; congruence. Qed.
  Lemma trajectory_inputs tf pf dt t x z l rows t' x' z' : @trajectory E tf pf dt t x z l rows t' x' z' ->
    map (fun r => snd (fst (fst r))) rows = map (fun e => fst (fst e)) l.
  Proof. induction 1; cbn; congruence. Qed.
End P.
