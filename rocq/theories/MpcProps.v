(** * C14-C18, C62: the MPC life cycle. *)
From Verif Require Import Base MpcModel MpcSpec MpcProofs.
Import List.

Section T.
  Context {E : Env}.
  Notation mpc := (@mpc E).
  Notation call := (@call E).
  Notation trace := (list (call * res (option (tU E)))).

  (** ** C14 *)
  (** Any history of calls whatsoever (accepted or not), then a step that returns normally. *)
  Theorem C14_step_protocol (h : list call) (m : mpc) (tr : trace) (x : tX E) (m' : mpc) (u : tU E) :
    exec h mpc_init = (m, tr) -> make_step m (Good x) = (m', Ok u) ->
    exists pr obs ox ox' lg lx st dt,
      (* the problem, the bounds and the warm start in force *)
      m_prob m = Some pr /\ m_ob m = Some obs /\ m_ox m = Some ox /\
      (* solved for x, the previously applied input, and the parameters at the current time *)
      S E pr obs ox (if m_run1 m then m_lam m else None)
        (x, prev_input tr, tvp_force tr (clock tr), p_force tr (clock tr)) = (ox', lg, lx, st) /\
      (* the input returned is the first input of the solution, unscaled *)
      u = scale_u E (m_scal m Vu) (ox_u E ox') /\
      (* time advances by the sampling time *)
      s_tstep (settings_of tr) = Some dt /\ m_t0 m' = tadd E (clock tr) dt /\
      (* the solution is the next warm start; the input is remembered *)
      m_ox m' = Some ox' /\ m_lam m' = Some (lg, lx) /\ m_u0 m' = u /\ m_x0 m' = x /\
      (* one row per stored field *)
      r_x (m_data m') = r_x (m_data m) ++ [x] /\ r_u (m_data m') = r_u (m_data m) ++ [u] /\
      r_time (m_data m') = r_time (m_data m) ++ [clock tr] /\
      r_z (m_data m') = r_z (m_data m) ++ [scale_z E (m_scal m Vz) (ox_z E ox')] /\
      r_tvp (m_data m') = r_tvp (m_data m) ++ [tv_now E (tvp_force tr (clock tr))] /\
      r_p (m_data m') = r_p (m_data m) ++ [p_nom E (p_force tr (clock tr))] /\
      r_optp (m_data m') = r_optp (m_data m) ++ [(x, prev_input tr, tvp_force tr (clock tr), p_force tr (clock tr))] /\
      length (r_aux (m_data m')) = length (r_aux (m_data m)) + 1 /\
      length (r_full (m_data m')) = length (r_full (m_data m)) + (if s_full (settings_of tr) then 1 else 0) /\
      length (r_lam (m_data m')) = length (r_lam (m_data m)) + (if s_lagr (settings_of tr) then 1 else 0) /\
      length (r_stats (m_data m')) = length (r_stats (m_data m)) + (if s_stats (settings_of tr) then 1 else 0).
  Proof.
    intros Hh Hs. pose proof (inv1_reach h m tr Hh) as I.
    destruct (make_step_cases _ _ _ _ Hs) as [(x' & u' & Hx & Hu' & [])|(e & Q & _)]; [|discriminate].
    injection Hx as <-. injection Hu' as <-.
    assert (CK : clock tr = m_t0 m) by (unfold clock; rewrite (i_c _ _ I); reflexivity).
    assert (TF : tvp_force tr = tf).
    { unfold tvp_force. pose proof (i_t _ _ I) as A. unfold agree in A. destruct (tvp_of tr); [congruence|]. destruct A; congruence. }
    assert (PF : p_force tr = pf).
    { unfold p_force. pose proof (i_p _ _ I) as A. unfold agree in A. destruct (p_of tr); [congruence|]. destruct A; congruence. }
    exists pr, obs, ox, ox', lg, lx, st, dt. rewrite CK, TF, PF, <- (i_u _ _ I), <- (i_s _ _ I).
    subst m' d z. cbn.
    repeat (split; [auto; fail|]); rewrite ?app_length; cbn.
    repeat (split; [auto; fail|]).
    destruct (s_full (m_set m)), (s_lagr (m_set m)), (s_stats (m_set m)); rewrite ?app_length; cbn; repeat split; lia.
  Qed.

  (** Ordinary histories (one setup call, settings not assigned after it, valid rate penalties): the whole record, not only one step;
      the input is unscaled with the factors the problem was built with; a step with a state of the
      right size always returns normally once setup has. *)
  Theorem C14_ordinary_histories (h : list call) (m : mpc) (tr : trace) :
    ordinary tr -> exec h mpc_init = (m, tr) ->
    r_x (m_data m) = map (fun e => fst (fst e)) (log tr) /\
    r_u (m_data m) = map (fun e => snd (fst e)) (log tr) /\
    r_time (m_data m) = map snd (log tr) /\
    (length (r_z (m_data m)) = length (log tr) /\ length (r_tvp (m_data m)) = length (log tr) /\ length (r_p (m_data m)) = length (log tr) /\
     length (r_aux (m_data m)) = length (log tr) /\ length (r_optp (m_data m)) = length (log tr) /\
     length (r_full (m_data m)) = (if s_full (settings_of tr) then length (log tr) else 0) /\
     length (r_lam (m_data m)) = (if s_lagr (settings_of tr) then length (log tr) else 0) /\
     length (r_stats (m_data m)) = (if s_stats (settings_of tr) then length (log tr) else 0)) /\
    (forall pr, m_setup m = true -> m_prob m = Some pr -> pr_scal pr = m_scal m) /\
    (was_setup tr -> forall x, exists m' u, make_step m (Good x) = (m', Ok u)).
  Proof.
    intros Ho He. destruct (inv2_reach h m tr Ho He) as [I J]. destruct (inv3_reach h m tr He) as [_ K].
    repeat split; try apply J; try (rewrite <- (i_s _ _ I); apply (j_al _ _ J)); try apply (j_al _ _ J).
    - intros pr Hs Hp. destruct (j_prob _ _ J Hs) as (o & _ & Hq). rewrite Hp in Hq. injection Hq as ->. reflexivity.
    - intros W x. apply (k_s _ _ K) in W. destruct (make_step m (Good x)) as [m' [u|e]] eqn:ES; [eauto|exfalso].
      destruct (make_step_cases _ _ _ _ ES) as [(x' & u' & _ & Q & _)|(e' & _ & F)]; [discriminate|].
      assert (HP : m_prob m <> None) by (apply (i_set _ _ I); exact W).
      pose proof (i_prob _ _ I HP) as HQ. pose proof (i_have _ _ I HQ) as (H1 & H2 & H3 & H4).
      destruct F as [->|ox' lg lx d -> Hset Hbad].
      + unfold make_step in ES. rewrite W in ES.
        destruct (m_tvpf m); [|congruence]. destruct (m_pf m); [|congruence]. destruct (m_prob m); [|congruence]. destruct (m_ob m); [|congruence]. destruct (m_ox m); [|congruence].
        cbv zeta in ES. destruct (S _ _ _ _ _ _) as [[[ox' lg] lx] st]. destruct (m_fields m) as [[ff fl] fs] eqn:EF.
        destruct (j_f _ _ J W) as (F1 & F2 & F3). pose proof (j_tstep _ _ J W) as TS. rewrite EF in F1, F2, F3. cbn in F1, F2, F3.
        unfold optional_row in ES.
        destruct (s_full (m_set m)); [rewrite F1 in ES by reflexivity|]; (destruct (s_lagr (m_set m)); [rewrite F2 in ES by reflexivity|]);
        (destruct (s_stats (m_set m)); [rewrite F3 in ES by reflexivity|]); (destruct (s_tstep (m_set m)); [discriminate|congruence]).
      + destruct (j_f _ _ J Hset) as (F1 & F2 & F3). pose proof (j_tstep _ _ J Hset).
        destruct Hbad as [B|[[B1 B2]|[[B1 B2]|[B1 B2]]]]; [contradiction|rewrite (F1 B1) in B2|rewrite (F2 B1) in B2|rewrite (F3 B1) in B2]; discriminate.
  Qed.

  (** ** C15 *)
  Lemma ext_gtb_le (a b : ext (tR E)) : ext_gtb a b = false <-> ext_le a b.
  Proof. destruct a, b; cbn; try tauto; try (split; [discriminate|tauto]); try (split; [reflexivity|tauto]). rewrite negb_false_iff. tauto. Qed.

  Lemma existsb_false {A} (f : A -> bool) l : existsb f l = false <-> forall x, In x l -> f x = false.
  Proof.
    induction l as [|y l IH]; cbn; [split; [intros _ x []|reflexivity]|].
    rewrite orb_false_iff, IH. split.
    - intros [H1 H2] x [<-|H]; auto.
    - intros H. split; auto.
  Qed.

  Lemma bounds_bad_iff (m : mpc) : bounds_bad m = false <->
    forall t p, In t [Vx; Vu; Vz] -> p < n_of E t -> ext_le (m_store m (Alb t) p) (m_store m (Aub t) p).
  Proof.
    unfold bounds_bad. rewrite existsb_false. split.
    - intros H t p Ht Hp. specialize (H t Ht). rewrite existsb_false in H. apply ext_gtb_le, H, in_seq. lia.
    - intros H t Ht. apply existsb_false. intros p Hp. apply in_seq in Hp. apply ext_gtb_le, H; auto. lia.
  Qed.

  (** Every entry of a structure can be addressed, and nothing else. *)
  Definition addressable : Prop := forall t p, In t [Vx; Vu; Vz] -> (p < n_of E t <-> exists i pos, resolve E t i = Ok pos /\ In p pos).
  (** Read through the API, no lower bound exceeds its upper bound. *)
  Definition bounds_ordered (m : mpc) : Prop :=
    forall t i lo up, get_bounds m Lower t i = Ok lo -> get_bounds m Upper t i = Ok up -> Forall2 ext_le lo up.
  Lemma bounds_ordered_iff (m : mpc) : addressable ->
    (bounds_ordered m <-> forall t p, In t [Vx; Vu; Vz] -> p < n_of E t -> ext_le (m_store m (Alb t) p) (m_store m (Aub t) p)).
  Proof.
    intros A. split.
    - intros B t p Ht Hp. apply (A t p Ht) in Hp as (i & pos & HR & Hin).
      assert (HB : has_bounds t = true) by (destruct Ht as [<-|[<-|[<-|[]]]]; reflexivity).
      specialize (B t i (map (m_store m (Alb t)) pos) (map (m_store m (Aub t)) pos)). unfold get_bounds in B. rewrite HB, HR in B. specialize (B eq_refl eq_refl).
      clear -B Hin. induction pos as [|q pos IH]; [destruct Hin|]. cbn in B. inversion B; subst. destruct Hin as [<-|Hin]; auto.
    - intros B t i lo up. unfold get_bounds. destruct (has_bounds t) eqn:HB; [|discriminate]. destruct (resolve E t i) as [pos|] eqn:HR; [|discriminate].
      cbn [bind]. intros [= <-] [= <-].
      assert (Ht : In t [Vx; Vu; Vz]) by (destruct t; cbn; auto; discriminate).
      assert (G : forall p, In p pos -> ext_le (m_store m (Alb t) p) (m_store m (Aub t) p)) by (intros p Hp; apply B; [exact Ht|]; apply (A t p Ht); eauto).
      clear -G. induction pos as [|q pos IH]; cbn; constructor; [apply G; left; reflexivity|]. apply IH. intros p Hp. apply G. right. exact Hp.
  Qed.

  (** [setup] returns normally exactly when ... *)
  Theorem C15_setup_accepted_iff (h : list call) (m : mpc) (tr : trace) :
    addressable -> exec h mpc_init = (m, tr) ->
    (snd (setup m) = Ok tt <->
       s_tstep (settings_of tr) <> None /\ s_nhor (settings_of tr) <> None /\
       objective_of tr <> None /\
       (0 < n_tvp E -> tvp_of tr <> None) /\ (0 < n_p E -> p_of tr <> None) /\
       bounds_ordered m /\
       leftover tr = false).
  Proof.
    intros Ad He. rewrite (bounds_ordered_iff m Ad). destruct (inv3_reach h m tr He) as [I K].
    rewrite <- (i_s _ _ I), <- (i_o _ _ I), <- bounds_bad_iff.
    assert (LO : leftover tr = m_slack m) by (change (snd (lo_state tr) = m_slack m); rewrite (k_l _ _ K); reflexivity).
    rewrite LO. clear LO.
    unfold setup, prepare. split.
    - destruct (s_tstep (m_set m)); [|discriminate]. destruct (s_nhor (m_set m)); [|discriminate].
      cbv zeta. unfold check_validity. cbn [m_obj m_tvpf m_pf m_store m_set m_tub m_tlb with_slack].
      destruct (m_obj m) as [o|]; [|discriminate].
      destruct ((match m_tvpf m with None => true | _ => false end) && _)%bool eqn:Q1; [discriminate|].
      destruct ((match m_pf m with None => true | _ => false end) && _)%bool eqn:Q2; [discriminate|].
      change (bounds_bad (with_slack (m_slack m || existsb (is_soft E) (m_nl m)) m)) with (bounds_bad m).
      destruct (bounds_bad m) eqn:Q3; [discriminate|].
      unfold create. cbn [m_pend with_ob]. destruct (m_slack m) eqn:Q4; [discriminate|].
      intros _. repeat split; try congruence.
      + intros Hn. rewrite <- (k_t _ _ K Hn). destruct (m_tvpf m); [discriminate|]. cbn [andb] in Q1. apply Nat.ltb_ge in Q1. lia.
      + intros Hn. rewrite <- (k_p _ _ K Hn). destruct (m_pf m); [discriminate|]. cbn [andb] in Q2. apply Nat.ltb_ge in Q2. lia.
    - intros (H1 & H2 & H3 & H4 & H5 & H6 & H7).
      destruct (s_tstep (m_set m)); [|congruence]. destruct (s_nhor (m_set m)); [|congruence].
      cbv zeta. unfold check_validity. cbn [m_obj m_tvpf m_pf m_store m_set m_tub m_tlb with_slack].
      destruct (m_obj m) as [o|]; [|congruence].
      assert (Q1 : ((match m_tvpf m with None => true | _ => false end) && (0 <? n_tvp E)%nat)%bool = false).
      { destruct (m_tvpf m) eqn:Q; [reflexivity|]. cbn [andb]. apply Nat.ltb_ge. destruct (n_tvp E) eqn:N; [lia|]. exfalso. apply H4; [lia|]. rewrite <- (k_t _ _ K); [exact Q|lia]. }
      assert (Q2 : ((match m_pf m with None => true | _ => false end) && (0 <? n_p E)%nat)%bool = false).
      { destruct (m_pf m) eqn:Q; [reflexivity|]. cbn [andb]. apply Nat.ltb_ge. destruct (n_p E) eqn:N; [lia|]. exfalso. apply H5; [lia|]. rewrite <- (k_p _ _ K); [exact Q|lia]. }
      rewrite Q1, Q2.
      change (bounds_bad (with_slack (m_slack m || existsb (is_soft E) (m_nl m)) m)) with (bounds_bad m).
      rewrite H6. unfold create. cbn. rewrite H7. cbn. destruct (m_fields m) as [[] ?]. reflexivity.
  Qed.

  (** A step before a successful setup raises and changes nothing. *)
  Theorem C15_no_step_before_setup (h : list call) (m : mpc) (tr : trace) a :
    exec h mpc_init = (m, tr) -> ~ was_setup tr -> make_step m a = (m, Err ExcAssertion).
  Proof.
    intros He W. destruct (inv3_reach h m tr He) as [I K]. unfold make_step. destruct (m_setup m) eqn:Q; [|reflexivity].
    exfalso. apply W, (k_s _ _ K), Q.
  Qed.

  (** ** C16 *)
  (** calls that define the problem *)
  Definition defines (c : call) : Prop :=
    match c with KScaling _ _ _ | KParam _ | KObjective _ _ _ | KRterm _ _ | KNlCons _ => True | _ => False end.
  Theorem C16_definition_frozen_partial (h : list call) (m : mpc) (tr : trace) (c : call) :
    exec h mpc_init = (m, tr) -> was_setup tr -> defines c -> exists e, do_call m c = (m, Err e).
  Proof.
    intros He W D. destruct (inv3_reach h m tr He) as [I K]. apply (k_s _ _ K) in W.
    destruct c; try destruct D; cbn [do_call]; unfold set_scaling, set_param, set_objective, set_rterm, set_nl_cons; rewrite W; cbn; eauto.
    destruct mt as [[[]|]|]; cbn; eauto; destruct lt as [[[]|]|]; cbn; eauto.
  Qed.

  (** No call but a new setup changes the problem the solver was created for. *)
  Theorem C16_problem_unchanged (h : list call) (m : mpc) (tr : trace) (c : call) (m' : mpc) o :
    exec h mpc_init = (m, tr) -> do_call m c = (m', o) -> c <> KSetup -> c <> KCreate -> m_prob m' = m_prob m.
  Proof.
    intros _ H N1 N2. destruct c; cbn [do_call] in H; try congruence.
    - unfold set_bounds in H. destruct (has_bounds t); [destruct (resolve E t i); cbn in H; [destruct (spread _ v); cbn in H|]|]; injection H as <- _; destruct (m_prepared m); reflexivity.
    - unfold set_terminal in H. destruct (resolve E Vx i); cbn in H; [destruct (spread _ v); cbn in H|]; injection H as <- _; reflexivity.
    - unfold set_scaling in H. destruct (m_setup m); [|destruct (has_bounds t); [destruct (resolve E t i) as [pos|]; cbn [bind] in H;
        [destruct (match v with [v0] => Ok (map (fun p => (p, v0)) pos) | _ => if (length v =? length pos)%nat then Ok (combine pos v) else Err ExcGeneric end) as [w|]|]|]];
        cbn in H; injection H as <- _; reflexivity.
    - unfold set_param in H. destruct (m_setup m); cbn in H; injection H as <- _; reflexivity.
    - injection H as <- _; reflexivity.
    - unfold set_objective in H. brk H; cbn [ret] in H; injection H as <- _; reflexivity.
    - unfold set_rterm in H. brk H; cbn [retu] in H; injection H as <- _; reflexivity.
    - unfold set_nl_cons in H. brk H; cbn [ret] in H; injection H as <- _; reflexivity.
    - unfold set_tvp_fun in H. brk H; cbn [ret] in H; injection H as <- _; reflexivity.
    - unfold set_p_fun in H. brk H; cbn [ret] in H; injection H as <- _; reflexivity.
    - destruct (prepare m) as [m1 r] eqn:EP. destruct (prepare_cases _ _ _ EP) as [[-> [? ? ? ? ? ? ? ? ? ->]]|(e & -> & [->| ->])]; injection H as <- _; reflexivity.
    - unfold set_initial_guess in H. brk H; cbn [ret] in H; injection H as <- _; reflexivity.
    - destruct (make_step m x) as [m1 r] eqn:ES. destruct (make_step_cases _ _ _ _ ES) as [(x' & u & -> & -> & [])|(e & -> & F)].
      + injection H as <- _. subst m1. reflexivity.
      + destruct F as [->|? ? ? ? -> ? ?]; injection H as <- _; reflexivity.
    - injection H as <- _; reflexivity.
    - destruct x; cbn in H; injection H as <- _; reflexivity.
    - destruct u; cbn in H; injection H as <- _; reflexivity.
    - destruct t; cbn in H; injection H as <- _; reflexivity.
  Qed.

  (** ** C18: bounds and scaling *)
  Lemma vtype_eqb_eq s t : vtype_eqb s t = true <-> s = t.
  Proof. destruct s, t; cbn; split; congruence. Qed.
  Lemma addr_eqb_eq a b : addr_eqb a b = true <-> a = b.
  Proof.
    destruct a, b; cbn; try (split; congruence); rewrite vtype_eqb_eq; split; congruence.
  Qed.

  Lemma put_other (a : addr) w (s : addr -> nat -> ext (tR E)) b q : b <> a -> put a w s b q = s b q.
  Proof.
    intros N. unfold put. revert s. induction w as [|[p v] w IH]; intros s; [reflexivity|]. cbn [fold_left]. rewrite IH.
    destruct (addr_eqb a b) eqn:Q; [apply addr_eqb_eq in Q; congruence|reflexivity].
  Qed.
  Lemma put_notin (a : addr) w (s : addr -> nat -> ext (tR E)) b q : ~ In q (map fst w) -> put a w s b q = s b q.
  Proof.
    unfold put. revert s. induction w as [|[p v] w IH]; intros s N; [reflexivity|]. cbn [fold_left]. cbn in N. rewrite IH by tauto.
    cbn. destruct (Nat.eqb_spec p q); [tauto|]. rewrite andb_false_r. reflexivity.
  Qed.
  Lemma put_in (a : addr) w (s : addr -> nat -> ext (tR E)) q v : NoDup (map fst w) -> In (q, v) w -> put a w s a q = v.
  Proof.
    unfold put. revert s. induction w as [|[p v'] w IH]; intros s ND Hin; [destruct Hin|]. cbn in ND. inversion ND; subst.
    destruct Hin as [Q|Hin].
    - injection Q as -> ->. cbn [fold_left]. change (put a w ((fun b q0 => if addr_eqb a b && (fst (q, v) =? q0)%nat then snd (q, v) else s b q0)) a q = v).
      rewrite put_notin by assumption. cbn. rewrite Nat.eqb_refl, (proj2 (addr_eqb_eq a a) eq_refl). reflexivity.
    - cbn [fold_left]. apply IH; assumption.
  Qed.

  Lemma spread_spec (pos : list nat) (vals : list (ext (tR E))) w : spread pos vals = Ok w ->
    map fst w = pos /\ (map snd w = vals \/ exists v, vals = [v] /\ map snd w = map (fun _ => v) pos).
  Proof.
    unfold spread. assert (G : (if (length vals =? length pos)%nat then Ok (combine pos vals) else Err ExcGeneric) = Ok w -> map fst w = pos /\ map snd w = vals).
    { destruct (Nat.eqb_spec (length vals) (length pos)) as [L|]; [|discriminate]. intros [= <-]. clear -L. revert vals L.
      induction pos as [|p pos IH]; intros [|v vals] L; try discriminate; [auto|]. cbn in *. destruct (IH vals) as [A B]; [lia|]. rewrite A, B. auto. }
    destruct vals as [|v [|v2 vals]].
    - intros H. apply G in H as [A B]. auto.
    - intros [= <-]. rewrite !map_map. cbn. rewrite map_id. split; [reflexivity|]. right. exists v. auto.
    - intros H. apply G in H as [A B]. auto.
  Qed.

  Lemma put_reads (a : addr) pos w (s : addr -> nat -> ext (tR E)) : NoDup pos -> map fst w = pos -> map (put a w s a) pos = map snd w.
  Proof.
    intros ND <-. rewrite map_map. apply map_ext_in. intros [p v] Hin. cbn. apply put_in; assumption.
  Qed.

  Theorem C18_bounds_read_back (m m' : mpc) s t i vals :
    (forall t i pos, resolve E t i = Ok pos -> NoDup pos) ->
    set_bounds m s t i vals = Ok m' ->
    exists pos, resolve E t i = Ok pos /\
      (* exactly this bound reads back as set *)
      (get_bounds m' s t i = Ok vals \/ exists v, vals = [v] /\ get_bounds m' s t i = Ok (map (fun _ => v) pos)) /\
      (* every other side, variable type and disjoint index reads as before *)
      (forall s' t' j, (s', t') <> (s, t) -> get_bounds m' s' t' j = get_bounds m s' t' j) /\
      (forall j pos', resolve E t j = Ok pos' -> (forall p, In p pos -> ~ In p pos') -> get_bounds m' s t j = get_bounds m s t j) /\
      (forall t' j, get_scaling m' t' j = get_scaling m t' j).
  Proof.
    intros ND H. unfold set_bounds in H. destruct (has_bounds t) eqn:HB; [|discriminate].
    destruct (resolve E t i) as [pos|] eqn:HR; [|discriminate]. cbn [bind] in H.
    destruct (spread pos vals) as [w|] eqn:HW; [|discriminate]. cbn [bind] in H.
    apply spread_spec in HW as [W1 W2]. pose proof (ND _ _ _ HR) as NDp.
    assert (St : m_store m' = put (saddr s t) w (m_store m)) by (injection H as <-; destruct (m_prepared m); reflexivity).
    assert (Sc : m_scal m' = m_scal m) by (injection H as <-; destruct (m_prepared m); reflexivity).
    exists pos. split; [reflexivity|]. split; [|split; [|split]].
    - unfold get_bounds. rewrite HB, HR. cbn [bind]. rewrite St, (put_reads _ _ _ _ NDp W1).
      destruct W2 as [->|(v & -> & ->)]; [auto|right; eauto].
    - intros s' t' j N. unfold get_bounds. destruct (has_bounds t'); [|reflexivity]. destruct (resolve E t' j); [|reflexivity]. cbn [bind]. f_equal.
      apply map_ext. intros q. rewrite St. apply put_other. destruct s, s'; cbn; congruence.
    - intros j pos' Hj Dis. unfold get_bounds. rewrite HB, Hj. cbn [bind]. f_equal. apply map_ext_in. intros q Hq. rewrite St. apply put_notin.
      rewrite W1. intros Hin. exact (Dis q Hin Hq).
    - intros t' j. unfold get_scaling. rewrite Sc. reflexivity.
  Qed.

  (** ** C16: bounds set after setup are those of the next solve *)
  Lemma ob_kept (c : call) (m m' : mpc) o : do_call m c = (m', o) ->
    (forall s t i v, c <> KBounds s t i v) -> c <> KSetup -> c <> KPrepare -> m_ob m' = m_ob m.
  Proof.
    intros H N1 N2 N3. destruct c; cbn [do_call] in H; try congruence.
    - unfold set_terminal in H. destruct (resolve E Vx i); cbn in H; [destruct (spread _ v); cbn in H|]; injection H as <- _; reflexivity.
    - unfold set_scaling in H. destruct (m_setup m); [|destruct (has_bounds t); [destruct (resolve E t i) as [pos|]; cbn [bind] in H;
        [destruct (match v with [v0] => Ok (map (fun p => (p, v0)) pos) | _ => if (length v =? length pos)%nat then Ok (combine pos v) else Err ExcGeneric end) as [w|]|]|]];
        cbn in H; injection H as <- _; reflexivity.
    - unfold set_param in H. destruct (m_setup m); cbn in H; injection H as <- _; reflexivity.
    - injection H as <- _; reflexivity.
    - unfold set_objective in H. brk H; cbn [ret] in H; injection H as <- _; reflexivity.
    - unfold set_rterm in H. brk H; cbn [retu] in H; injection H as <- _; reflexivity.
    - unfold set_nl_cons in H. brk H; cbn [ret] in H; injection H as <- _; reflexivity.
    - unfold set_tvp_fun in H. brk H; cbn [ret] in H; injection H as <- _; reflexivity.
    - unfold set_p_fun in H. brk H; cbn [ret] in H; injection H as <- _; reflexivity.
    - destruct (create m) as [m1 r] eqn:EC. destruct (create_cases _ _ _ EC) as [[-> [? ? ->]]|(e & -> & ->)]; injection H as <- _; reflexivity.
    - unfold set_initial_guess in H. brk H; cbn [ret] in H; injection H as <- _; reflexivity.
    - destruct (make_step m x) as [m1 r] eqn:ES. destruct (make_step_cases _ _ _ _ ES) as [(x' & u & -> & -> & [])|(e & -> & F)].
      + injection H as <- _. subst m1. reflexivity.
      + destruct F as [->|? ? ? ? -> ? ?]; injection H as <- _; reflexivity.
    - injection H as <- _; reflexivity.
    - destruct x; cbn in H; injection H as <- _; reflexivity.
    - destruct u; cbn in H; injection H as <- _; reflexivity.
    - destruct t; cbn in H; injection H as <- _; reflexivity.
  Qed.

  (** Set a bound after setup, then any calls that are neither setup nor another assignment of a bound: the
      bounds handed to the solver at the next step hold the values set, and for every variable what the
      getter returned right after the assignment. *)
  Theorem C16_bounds_take_effect (h : list call) (m : mpc) (tr : trace) s t i vals m1 (h2 : list call) m2 tr2 :
    exec h mpc_init = (m, tr) -> was_setup tr ->
    set_bounds m s t i vals = Ok m1 ->
    Forall (fun c => (forall s t i v, c <> KBounds s t i v) /\ c <> KSetup /\ c <> KPrepare) h2 ->
    exec h2 m1 = (m2, tr2) ->
    exists obs, m_ob m2 = Some obs /\
      forall s' t' j pos, has_bounds t' = true -> resolve E t' j = Ok pos -> get_bounds m1 s' t' j = Ok (map (ob obs s' t') pos).
  Proof.
    intros He W Hs Hf Hx. destruct (inv3_reach h m tr He) as [I K]. apply (k_s _ _ K) in W.
    assert (PR : m_prepared m = true) by (apply (i_prep _ _ I), (i_prob _ _ I), (i_set _ _ I), W).
    assert (O1 : m_ob m1 = Some (snapshot m1)).
    { unfold set_bounds in Hs. destruct (has_bounds t); [|discriminate]. destruct (resolve E t i); [|discriminate]. cbn [bind] in Hs.
      destruct (spread _ vals); [|discriminate]. cbn [bind] in Hs. rewrite PR in Hs. injection Hs as <-. reflexivity. }
    assert (O2 : m_ob m2 = m_ob m1).
    { clear -Hf Hx. revert m1 m2 tr2 Hx. induction Hf as [|c h2 (N1 & N2 & N3) Hf IH]; intros m1 m2 tr2 Hx; cbn [exec] in Hx.
      - injection Hx as <- _. reflexivity.
      - destruct (do_call m1 c) as [m1' o] eqn:Q. destruct (exec h2 m1') as [m2' t2'] eqn:Q2. injection Hx as <- _.
        rewrite (IH _ _ _ Q2). eapply ob_kept; eauto. }
    exists (snapshot m1). split; [congruence|]. intros s' t' j pos HB HR. unfold get_bounds. rewrite HB, HR. reflexivity.
  Qed.

  Lemma scal_put (t : vtype) w (s : vtype -> nat -> tR E) :
    let s' := fold_left (fun s pv => fun u q => if vtype_eqb t u && Nat.eqb (fst pv) q then snd pv else s u q) w s in
    (forall u q, u <> t \/ ~ In q (map fst w) -> s' u q = s u q) /\
    (NoDup (map fst w) -> forall q v, In (q, v) w -> s' t q = v).
  Proof.
    revert s. induction w as [|[p v'] w IH]; intros s; cbn [fold_left]; [split; [reflexivity|intros _ q v []]|].
    destruct (IH (fun u q => if vtype_eqb t u && (fst (p, v') =? q)%nat then snd (p, v') else s u q)) as [A B]. split.
    - intros u q H. rewrite A by (cbn in H; tauto). cbn. destruct (vtype_eqb t u) eqn:Q1; [|reflexivity]. apply vtype_eqb_eq in Q1 as <-.
      destruct (Nat.eqb_spec p q); [|reflexivity]. subst. cbn in H. tauto.
    - intros ND q v [Q|Hin]; cbn in ND; inversion ND; subst.
      + injection Q as -> ->. rewrite A by auto. cbn. rewrite Nat.eqb_refl, (proj2 (vtype_eqb_eq t t) eq_refl). reflexivity.
      + apply B; assumption.
  Qed.

  Theorem C18_scaling_read_back (m m' : mpc) t i vals :
    (forall t i pos, resolve E t i = Ok pos -> NoDup pos) ->
    set_scaling m t i vals = Ok m' ->
    exists pos, resolve E t i = Ok pos /\
      (get_scaling m' t i = Ok vals \/ exists v, vals = [v] /\ get_scaling m' t i = Ok (map (fun _ => v) pos)) /\
      (forall t' j, t' <> t -> get_scaling m' t' j = get_scaling m t' j) /\
      (forall j pos', resolve E t j = Ok pos' -> (forall p, In p pos -> ~ In p pos') -> get_scaling m' t j = get_scaling m t j) /\
      (forall s t' j, get_bounds m' s t' j = get_bounds m s t' j).
  Proof.
    intros ND H. unfold set_scaling in H. destruct (m_setup m) eqn:E0; [discriminate|]. destruct (has_bounds t) eqn:HB; [|discriminate].
    destruct (resolve E t i) as [pos|] eqn:HR; [|discriminate]. cbn [bind] in H.
    set (ww := match vals with [v0] => Ok (map (fun p => (p, v0)) pos) | _ => if (length vals =? length pos)%nat then Ok (combine pos vals) else Err ExcGeneric end) in H.
    destruct ww as [w|] eqn:HW; [|discriminate]. cbn [bind] in H. subst ww.
    assert (W12 : map fst w = pos /\ (map snd w = vals \/ exists v, vals = [v] /\ map snd w = map (fun _ => v) pos)).
    { assert (G : (if (length vals =? length pos)%nat then Ok (combine pos vals) else Err ExcGeneric) = Ok w -> map fst w = pos /\ map snd w = vals).
      { destruct (Nat.eqb_spec (length vals) (length pos)) as [L|]; [|discriminate]. intros [= <-]. clear -L. revert vals L.
        induction pos as [|p pos IH]; intros [|v vals] L; try discriminate; [auto|]. cbn in *. destruct (IH vals) as [A B]; [lia|]. rewrite A, B. auto. }
      destruct vals as [|v [|v2 vals]].
      - apply G in HW as [A B]. auto.
      - injection HW as <-. rewrite !map_map. cbn. rewrite map_id. split; [reflexivity|]. right. exists v. auto.
      - apply G in HW as [A B]. auto. }
    destruct W12 as [W1 W2]. pose proof (ND _ _ _ HR) as NDp. injection H as <-.
    destruct (scal_put t w (m_scal m)) as [A B]. cbv zeta in A, B.
    exists pos. split; [reflexivity|]. split; [|split; [|split]].
    - unfold get_scaling. rewrite HB, HR. cbn [bind m_scal with_cfg].
      assert (Q : map (fold_left (fun s pv => fun u q => if vtype_eqb t u && Nat.eqb (fst pv) q then snd pv else s u q) w (m_scal m) t) pos = map snd w).
      { rewrite <- W1. rewrite map_map. apply map_ext_in. intros [p v] Hin. cbn [fst snd]. apply B; [rewrite W1; exact NDp|exact Hin]. }
      rewrite Q. destruct W2 as [->|(v & -> & ->)]; [auto|right; eauto].
    - intros t' j N. unfold get_scaling. destruct (has_bounds t'); [|reflexivity]. destruct (resolve E t' j); [|reflexivity]. cbn [bind m_scal with_cfg]. f_equal.
      apply map_ext. intros q. apply A. auto.
    - intros j pos' Hj Dis. unfold get_scaling. rewrite HB, Hj. cbn [bind m_scal with_cfg]. f_equal. apply map_ext_in. intros q Hq. apply A.
      right. rewrite W1. intros Hin. exact (Dis q Hin Hq).
    - reflexivity.
  Qed.

  (** ** C17: what the terminal-bound getter returns *)
  (** It returns the state bound, whatever terminal bounds were set. *)
  Theorem C17_terminal_getter_returns_state_bound (m : mpc) s i : get_terminal m s i = get_bounds m s Vx i.
  Proof. reflexivity. Qed.

  (** Terminal bounds set after setup change nothing in what is handed to the solver. *)
  Theorem C16_terminal_after_setup_ignored (m m' : mpc) s i vals : set_terminal m s i vals = Ok m' -> m_ob m' = m_ob m.
  Proof. unfold set_terminal. destruct (resolve E Vx i); [|discriminate]. cbn [bind]. destruct (spread _ vals); [|discriminate]. intros [= <-]. reflexivity. Qed.

  (** ** C62: calling setup again *)
  Theorem C62_setup_again_partial (h : list call) (m : mpc) (tr : trace) :
    addressable -> ordinary tr -> exec h mpc_init = (m, tr) -> was_setup tr ->
    leftover tr = false ->
    bounds_ordered m ->
    exists m', setup m = (m', Ok tt) /\ m_setup m' = true /\ m_data m' = no_rows /\ m_t0 m' = m_t0 m /\ m_x0 m' = m_x0 m /\ m_u0 m' = m_u0 m /\
      m_prob m' = m_prob m /\ (forall pr, m_prob m' = Some pr -> m_ox m' = Some (ox_init E pr)) /\
      (exists obs, m_ob m' = Some obs /\ forall s t i pos, has_bounds t = true -> resolve E t i = Ok pos -> get_bounds m s t i = Ok (map (ob obs s t) pos)).
  Proof.
    intros Ad Ho He W L B. destruct (inv2_reach h m tr Ho He) as [I J]. destruct (inv3_reach h m tr He) as [_ K].
    assert (WS := W). apply (k_s _ _ K) in WS.
    destruct (setup m) as [m' r] eqn:ES.
    assert (HP : m_pend m <> None) by (apply (i_prob _ _ I), (i_set _ _ I), WS).
    destruct (i_have _ _ I HP) as (_ & _ & HT & HQ).
    assert (r = Ok tt).
    { change r with (snd (m', r)). rewrite <- ES. apply (C15_setup_accepted_iff h m tr Ad He).
      destruct (j_prob _ _ J WS) as (o & Ho' & _).
      rewrite <- (i_s _ _ I), <- (i_o _ _ I). repeat split; auto.
      - apply (j_tstep _ _ J WS).
      - apply (j_nhor _ _ J WS).
      - congruence.
      - intros Hn. rewrite <- (k_t _ _ K Hn). exact HT.
      - intros Hn. rewrite <- (k_p _ _ K Hn). exact HQ. }
    subst r. exists m'. split; [reflexivity|].
    destruct (setup_cases _ _ _ ES) as [[_ (m1 & [tlb tub o' dt nh Hdt Hnh Ho' Hcv ->] & [pr Hp ->])]|(e & Q & _)]; [|discriminate].
    cbn in Hp. injection Hp as <- Hsl. cbn.
    destruct (j_prob _ _ J WS) as (o & Ho2 & HP2). rewrite Ho' in Ho2. injection Ho2 as <-.
    repeat split; auto.
    - intros pr Hpr. injection Hpr as <-. reflexivity.
    - eexists. split; [reflexivity|]. intros s t i pos HB HR. unfold get_bounds. rewrite HB, HR. reflexivity.
  Qed.
End T.

(** ** A concrete controller: numbers are integers, two states, one input, no algebraic variable, one tvp, no
    uncertain parameter; the "solver" returns the scaled input (x - previous input + tvp) / scaling, clipped
    from above by the input's upper bound. *)
Module Ex.
  Local Open Scope Z_scope.
  Definition n_of (t : vtype) : nat := match t with Vx => 2 | Vu => 1 | _ => 0 end.
  Definition resolve (t : vtype) (i : nat) : res (list nat) :=
    if Nat.eqb i 99 then Ok (seq 0 (n_of t)) else if Nat.ltb i (n_of t) then Ok [i] else Err ExcAssertion.
  Definition solve (pr : problem_ Z unit Z bool Z) (o : obounds_ Z) (ox : Z) (l : option (unit * unit)) (par : Z * Z * Z * unit)
      : Z * unit * unit * bool :=
    let '(x, u, tv, _) := par in
    let v := (x - u + tv) / pr_scal pr Vu 0%nat in
    (match ob o Upper Vu 0%nat with Fin b => Z.min v (b / pr_scal pr Vu 0%nat) | _ => v end, tt, tt, true).
  Definition env : Env := mkEnv Z nat Z Z unit Z Z unit unit unit Z unit Z bool Z unit unit bool
    Z.leb 1 resolve n_of 1 0 Z.add 0 0 0 tt (fun t => t) (fun p => p) 0
    (fun r kws => fold_left (fun _ kw => snd kw) kws r)
    (fun _ => 0) (fun o _ u _ _ => u) solve (fun o => o) (fun _ => tt) (fun _ _ _ => tt)
    (fun sc u => sc 0%nat * u) (fun _ z => z) (fun _ => 0) (fun _ => tt) (fun b => b).

  Notation st0 f := (@KParam env (fun s => f s)).
  Definition base : @settings env -> @settings env := fun s => mkSet (Some 1) (Some 10%nat) (s_term s) (s_full s) (s_lagr s) (s_stats s).
  Definition ok_obj : @call env := KObjective (Some (Good tt)) (Some (Good tt)) (tt : tObj env).
  Definition tvp2 : @call env := KTvp (Good (fun t : Z => 2 * t) : arg (tTm env -> tTVh env)).
  (** a usual session: configure, two steps, a bound, a step, reset, a step *)
  Definition session : list (@call env) :=
    [KSetting base; ok_obj; KRterm [("u"%string, 1 : tR env)] 1; tvp2;
     KBounds Upper Vu (0%nat : tInd env) [Fin (50 : tR env)]; KScaling Vu (0%nat : tInd env) [2 : tR env]; KSetup; KGuess;
     KStep (Good (10 : tX env)); KStep (Good (7 : tX env)); KBounds Upper Vu (0%nat : tInd env) [Fin (4 : tR env)]; KStep (Good (100 : tX env)); KReset;
     KStep (Good (5 : tX env))].
End Ex.

(** Small computable versions, used only to discharge the examples. *)
Section Helpers.
  Context {E : Env}.
  Notation trace := (list (@call E * res (option (tU E)))).
  Definition was_setupb (tr : trace) : bool := existsb (fun e => match e with (KSetup, Ok _) => true | (KCreate, Ok _) => true | _ => false end) tr.
  Lemma was_setupb_ok tr : was_setupb tr = true -> was_setup tr.
  Proof.
    unfold was_setupb. rewrite existsb_exists. intros ([c o] & Hin & H). destruct c; try discriminate; destruct o as [v|]; try discriminate; exists v; auto.
  Qed.
  Lemma all_ok (tr : trace) : forallb (fun e => is_ok (snd e)) tr = true -> forall c o, In (c, o) tr -> is_ok o = true.
  Proof. rewrite forallb_forall. intros H c o Hin. exact (H (c, o) Hin). Qed.
  Lemma pair_snd {A B} (p : A * B) b : snd p = b -> p = (fst p, b).
  Proof. intros <-. apply surjective_pairing. Qed.
  Lemma bounds_ok_b (m : @mpc E) : @addressable E -> bounds_bad m = false -> bounds_ordered m.
  Proof. intros A H. apply bounds_ordered_iff; [exact A|]. apply bounds_bad_iff, H. Qed.
  Definition okmap {A} (r : res A) (d : A) : A := match r with Ok a => a | Err _ => d end.
  Lemma okmap_ok {A} (r : res A) d : is_ok r = true -> r = Ok (okmap r d).
  Proof. destruct r; [reflexivity|discriminate]. Qed.
End Helpers.

Lemma Ex_addressable : @addressable Ex.env.
Proof.
  intros t p Ht. cbn. split.
  - intros Hp. exists (99 : tInd Ex.env), (seq 0 (Ex.n_of t)). split; [reflexivity|]. apply in_seq. lia.
  - intros (i & pos & HR & Hin). unfold Ex.resolve in HR. destruct (Nat.eqb i 99); [injection HR as <-; apply in_seq in Hin; lia|].
    destruct (Nat.ltb i (Ex.n_of t)) eqn:Q; [|discriminate]. injection HR as <-. destruct Hin as [<-|[]]. apply Nat.ltb_lt, Q.
Qed.

Example C14_nonvacuous :
  let m := fst (exec Ex.session mpc_init) in let tr := snd (exec Ex.session mpc_init) in
  ordinary tr /\
  map snd (skipn 8 tr) = [Ok (Some 10%Z : option (tU Ex.env)); Ok (Some (-2)%Z); Ok None; Ok (Some 4%Z); Ok None; Ok (Some 0%Z)] /\
  log tr = [(5, 0, 0)%Z] /\ was_setup tr /\ clock tr = 1%Z.
Proof.
  cbv zeta. split; [apply ordinaryb_ok; vm_compute; reflexivity|].
  split; [vm_compute; reflexivity|]. split; [vm_compute; reflexivity|].
  split; [apply was_setupb_ok; vm_compute; reflexivity|vm_compute; reflexivity].
Qed.

(** prepare_nlp, then a scaling factor, then create_nlp: the scaling call is accepted, the problem keeps the old
    factor, and the input returned is not the unscaled input of the solution. *)
Theorem C14_manual_route_refuted :
  exists (h : list (@call Ex.env)) m tr x m' u pr ox',
    exec h mpc_init = (m, tr) /\ (forall c o, In (c, o) tr -> is_ok o = true) /\
    make_step m (Good x) = (m', Ok u) /\ m_prob m = Some pr /\ m_ox m' = Some ox' /\
    u <> scale_u Ex.env (pr_scal pr Vu) (ox_u Ex.env ox').
Proof.
  set (h := [KParam Ex.base; Ex.ok_obj; Ex.tvp2; KPrepare; KScaling Vu (0 : tInd Ex.env) [3%Z : tR Ex.env]; KCreate]).
  exists h, (fst (exec h mpc_init)), (snd (exec h mpc_init)), (10%Z : tX Ex.env).
  exists (fst (make_step (fst (exec h mpc_init)) (Good (10%Z : tX Ex.env)))), (30%Z : tU Ex.env).
  exists (mkProb (tt : tObj Ex.env) (0%Z : tRt Ex.env) ([] : list (tNl Ex.env)) (fun _ _ => 1%Z : tR Ex.env) (Ex.base settings_init)), (10%Z : tOX Ex.env).
  split; [apply surjective_pairing|]. split; [apply all_ok; vm_compute; reflexivity|].
  split; [apply pair_snd; vm_compute; reflexivity|]. split; [vm_compute; reflexivity|]. split; [vm_compute; reflexivity|]. vm_compute. discriminate.
Qed.

(** A settings attribute changed after setup (accepted): the next step solves the problem, appends to some of
    the fields, raises, and does not advance the clock; the fields have different numbers of rows from then on. *)
Theorem C14_setting_after_setup_refuted :
  exists (h : list (@call Ex.env)) m tr x m' e,
    exec h mpc_init = (m, tr) /\ (forall c o, In (c, o) tr -> is_ok o = true) /\ was_setup tr /\
    make_step m (Good x) = (m', Err e) /\ m_t0 m' = m_t0 m /\
    length (r_x (m_data m')) = length (r_x (m_data m)) + 1 /\ length (r_lam (m_data m')) = length (r_lam (m_data m)).
Proof.
  set (h := [KParam Ex.base; Ex.ok_obj; Ex.tvp2; KSetup; KSetting (fun s : @settings Ex.env => mkSet (s_tstep s) (s_nhor s) (s_term s) true (s_lagr s) (s_stats s))]).
  exists h, (fst (exec h mpc_init)), (snd (exec h mpc_init)), (10%Z : tX Ex.env).
  exists (fst (make_step (fst (exec h mpc_init)) (Good (10%Z : tX Ex.env)))), ExcAssertion.
  split; [apply surjective_pairing|]. split; [apply all_ok; vm_compute; reflexivity|].
  split; [apply was_setupb_ok; vm_compute; reflexivity|]. split; [apply pair_snd; vm_compute; reflexivity|].
  split; [vm_compute; reflexivity|]. split; vm_compute; reflexivity.
Qed.

(** C15: a configuration that is accepted, and ways to be refused. *)
Example C15_nonvacuous :
  @addressable Ex.env /\
  let mk h := snd (setup (fst (exec h (@mpc_init Ex.env)))) in
  mk [KParam Ex.base; Ex.ok_obj; Ex.tvp2] = Ok tt /\
  mk [Ex.ok_obj; Ex.tvp2] <> Ok tt /\
  mk [KParam Ex.base; Ex.tvp2] <> Ok tt /\
  mk [KParam Ex.base; Ex.ok_obj] <> Ok tt /\
  mk [KParam Ex.base; Ex.ok_obj; Ex.tvp2; KBounds Lower Vx (1 : tInd Ex.env) [Fin (3%Z : tR Ex.env)]; KBounds Upper Vx (1 : tInd Ex.env) [Fin (2%Z : tR Ex.env)]] <> Ok tt /\
  mk [KParam Ex.base; Ex.ok_obj; Ex.tvp2; KBounds Lower Vx (1 : tInd Ex.env) [Fin (2%Z : tR Ex.env)]; KBounds Upper Vx (1 : tInd Ex.env) [Fin (2%Z : tR Ex.env)]] = Ok tt.
Proof. split; [exact Ex_addressable|]. cbv zeta. repeat split; (vm_compute; reflexivity) || (vm_compute; discriminate). Qed.

(** C16: the settings object can be changed after setup: the sampling time by which the clock advances is no
    longer the one the problem was built with. *)
Theorem C16_settings_not_frozen_refuted :
  exists (h : list (@call Ex.env)) m tr f m' x pr,
    exec h mpc_init = (m, tr) /\ was_setup tr /\ do_call m (KSetting f) = (m', Ok None) /\
    m_prob m' = Some pr /\ s_tstep (pr_set pr) = Some 1%Z /\ is_ok (snd (make_step m' (Good x))) = true /\
    m_t0 (fst (make_step m' (Good x))) = (m_t0 m' + 5)%Z.
Proof.
  set (h := [KParam Ex.base; Ex.ok_obj; Ex.tvp2; KSetup]).
  set (f := fun s : @settings Ex.env => mkSet (Some (5%Z : tTm Ex.env)) (s_nhor s) (s_term s) (s_full s) (s_lagr s) (s_stats s)).
  exists h, (fst (exec h mpc_init)), (snd (exec h mpc_init)), f, (fst (do_call (fst (exec h mpc_init)) (KSetting f))), (10%Z : tX Ex.env).
  exists (mkProb (tt : tObj Ex.env) (0%Z : tRt Ex.env) ([] : list (tNl Ex.env)) (fun _ _ => 1%Z : tR Ex.env) (Ex.base settings_init)).
  split; [apply surjective_pairing|]. split; [apply was_setupb_ok; vm_compute; reflexivity|]. split; [apply pair_snd; vm_compute; reflexivity|].
  split; [vm_compute; reflexivity|]. split; [vm_compute; reflexivity|]. split; vm_compute; reflexivity.
Qed.

Example C16_nonvacuous :
  let m := fst (exec Ex.session mpc_init) in let tr := snd (exec Ex.session mpc_init) in
  was_setup tr /\ is_ok (snd (do_call m (KNlCons (true : tNl Ex.env)))) = false /\
  let m1 := okmap (set_bounds m Upper Vu (0 : tInd Ex.env) [Fin (3%Z : tR Ex.env)]) m in
  is_ok (set_bounds m Upper Vu (0 : tInd Ex.env) [Fin (3%Z : tR Ex.env)]) = true /\
  snd (make_step m1 (Good (100%Z : tX Ex.env))) = Ok (2%Z : tU Ex.env) /\
  snd (make_step m (Good (100%Z : tX Ex.env))) = Ok (4%Z : tU Ex.env).
Proof.
  cbv zeta. split; [apply was_setupb_ok; vm_compute; reflexivity|]. split; [vm_compute; reflexivity|]. split; [vm_compute; reflexivity|].
  split; vm_compute; reflexivity.
Qed.

(** Terminal bounds set after setup are accepted but not handed to the solver. *)
Theorem C16_terminal_bounds_refuted :
  exists (h : list (@call Ex.env)) m tr m',
    exec h mpc_init = (m, tr) /\ was_setup tr /\ s_term (settings_of tr) = true /\
    set_terminal m Upper (0 : tInd Ex.env) [Fin (3%Z : tR Ex.env)] = Ok m' /\
    option_map (fun o => ob_term o Upper 0) (m_ob m') = Some (Fin 9%Z).
Proof.
  set (h := [KParam Ex.base; KParam (fun s : @settings Ex.env => mkSet (s_tstep s) (s_nhor s) true (s_full s) (s_lagr s) (s_stats s)); Ex.ok_obj; Ex.tvp2;
          KTerminal Upper (0 : tInd Ex.env) [Fin (9%Z : tR Ex.env)]; KSetup]).
  exists h, (fst (exec h mpc_init)), (snd (exec h mpc_init)).
  exists (okmap (set_terminal (fst (exec h mpc_init)) Upper (0 : tInd Ex.env) [Fin (3%Z : tR Ex.env)]) (fst (exec h mpc_init))).
  split; [apply surjective_pairing|]. split; [apply was_setupb_ok; vm_compute; reflexivity|]. split; [vm_compute; reflexivity|].
  split; [apply okmap_ok; vm_compute; reflexivity|]. vm_compute. reflexivity.
Qed.

(** C17: what is set is not what is read. *)
Theorem C17_terminal_bounds_refuted :
  exists (m' : @mpc Ex.env) v, set_terminal mpc_init Lower (0 : tInd Ex.env) [Fin v] = Ok m' /\ get_terminal m' Lower (0 : tInd Ex.env) <> Ok [Fin v].
Proof.
  exists (okmap (set_terminal mpc_init Lower (0 : tInd Ex.env) [Fin (7%Z : tR Ex.env)]) mpc_init), (7%Z : tR Ex.env).
  split; [apply okmap_ok; vm_compute; reflexivity|]. vm_compute. discriminate.
Qed.

(** C18: after a setup with use_terminal_bounds and no terminal bounds given, the terminal structures are the
    state-bound structures: assigning a terminal bound changes the state bound. *)
Theorem C18_terminal_alias_refuted :
  exists (h : list (@call Ex.env)) m tr m' v,
    exec h mpc_init = (m, tr) /\ set_terminal m Upper (0 : tInd Ex.env) [Fin v] = Ok m' /\
    get_bounds m' Upper Vx (0 : tInd Ex.env) <> get_bounds m Upper Vx (0 : tInd Ex.env).
Proof.
  set (h := [KParam Ex.base; KParam (fun s : @settings Ex.env => mkSet (s_tstep s) (s_nhor s) true (s_full s) (s_lagr s) (s_stats s)); Ex.ok_obj; Ex.tvp2;
          KBounds Upper Vx (0 : tInd Ex.env) [Fin (9%Z : tR Ex.env)]; KSetup]).
  exists h, (fst (exec h mpc_init)), (snd (exec h mpc_init)).
  exists (okmap (set_terminal (fst (exec h mpc_init)) Upper (0 : tInd Ex.env) [Fin (3%Z : tR Ex.env)]) (fst (exec h mpc_init))), (3%Z : tR Ex.env).
  split; [apply surjective_pairing|]. split; [apply okmap_ok; vm_compute; reflexivity|]. vm_compute. discriminate.
Qed.

Example C18_nonvacuous :
  (forall t i pos, resolve Ex.env t i = Ok pos -> NoDup pos) /\
  let m' := okmap (set_bounds (@mpc_init Ex.env) Upper Vx (99 : tInd Ex.env) [Fin (3%Z : tR Ex.env); PInf]) mpc_init in
  get_bounds m' Upper Vx (1 : tInd Ex.env) = Ok [PInf] /\ get_bounds m' Upper Vx (0 : tInd Ex.env) = Ok [Fin (3%Z : tR Ex.env)].
Proof.
  split.
  - intros t i pos. cbn. unfold Ex.resolve. destruct (Nat.eqb i 99); [intros [= <-]; apply seq_NoDup|]. destruct (Nat.ltb i _); [|discriminate].
    intros [= <-]. repeat constructor. intros [].
  - split; vm_compute; reflexivity.
Qed.

(** C62: with a soft constraint the second setup raises (as does a setup after a failed one), although nothing
    was changed in between. *)
Theorem C62_setup_again_refuted :
  exists (h : list (@call Ex.env)) m tr,
    exec h mpc_init = (m, tr) /\ (forall c o, In (c, o) tr -> is_ok o = true) /\ ordinary tr /\ was_setup tr /\
    is_ok (snd (setup m)) = false /\ m_setup (fst (setup m)) = true /\ m_ox (fst (setup m)) <> m_ox m.
Proof.
  set (h := [KParam Ex.base; Ex.ok_obj; Ex.tvp2; KNlCons (true : tNl Ex.env); KSetup; KStep (Good (10%Z : tX Ex.env))]).
  exists h, (fst (exec h mpc_init)), (snd (exec h mpc_init)).
  split; [apply surjective_pairing|]. split; [apply all_ok; vm_compute; reflexivity|].
  split; [apply ordinaryb_ok; vm_compute; reflexivity|]. split; [apply was_setupb_ok; vm_compute; reflexivity|]. split; [vm_compute; reflexivity|].
  split; [vm_compute; reflexivity|]. vm_compute. discriminate.
Qed.
Theorem C62_setup_after_failed_setup_refuted :
  exists (h : list (@call Ex.env)) m tr,
    exec h mpc_init = (m, tr) /\ s_tstep (settings_of tr) <> None /\ s_nhor (settings_of tr) <> None /\ objective_of tr <> None /\ tvp_of tr <> None /\
    bounds_ordered m /\ snd (setup m) <> Ok tt.
Proof.
  set (h := [KParam Ex.base; Ex.tvp2; KNlCons (true : tNl Ex.env); KSetup; Ex.ok_obj]).
  exists h, (fst (exec h mpc_init)), (snd (exec h mpc_init)).
  split; [apply surjective_pairing|]. split; [vm_compute; discriminate|]. split; [vm_compute; discriminate|]. split; [vm_compute; discriminate|].
  split; [vm_compute; discriminate|]. split; [apply bounds_ok_b; [exact Ex_addressable|vm_compute; reflexivity]|vm_compute; discriminate].
Qed.
Example C62_nonvacuous :
  let m := fst (exec Ex.session mpc_init) in let tr := snd (exec Ex.session mpc_init) in
  ordinary tr /\ was_setup tr /\ leftover tr = false /\ bounds_ordered m /\ snd (setup m) = Ok tt.
Proof.
  cbv zeta. split; [apply ordinaryb_ok; vm_compute; reflexivity|]. split; [apply was_setupb_ok; vm_compute; reflexivity|].
  split; [vm_compute; reflexivity|]. split; [apply bounds_ok_b; [exact Ex_addressable|]|]; vm_compute; reflexivity.
Qed.

Print Assumptions C14_step_protocol.
Print Assumptions C14_ordinary_histories.
Print Assumptions C14_manual_route_refuted.
Print Assumptions C14_setting_after_setup_refuted.
Print Assumptions C15_setup_accepted_iff.
Print Assumptions C15_no_step_before_setup.
Print Assumptions C16_definition_frozen_partial.
Print Assumptions C16_problem_unchanged.
Print Assumptions C16_bounds_take_effect.
Print Assumptions C16_settings_not_frozen_refuted.
Print Assumptions C17_terminal_bounds_refuted.
Print Assumptions C18_bounds_read_back.
Print Assumptions C18_scaling_read_back.
Print Assumptions C62_setup_again_partial.
