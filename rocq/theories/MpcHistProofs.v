(** * Proofs: the controller agrees with the reading of the history in MpcHistSpec.v. *)
From Verif Require Import Base MpcModel MpcSpec MpcProofs MpcProps MpcHistSpec.
Import List.

Section P.
  Context {E : Env}.
  Hypothesis ND : forall t i pos, resolve E t i = Ok pos -> NoDup pos.
  Notation mpc := (@mpc E).
  Notation call := (@call E).
  Notation trace := (list (call * res (option (tU E)))).
  Implicit Types m : mpc.

  (** ** Assignments *)
  Lemma index_cases q l : (index_of q l = None /\ ~ In q l) \/ (exists k, index_of q l = Some k /\ nth_error l k = Some q).
  Proof.
    induction l as [|p l IH]; cbn; [left; tauto|]. destruct (Nat.eq_dec p q) as [->|N]; [right; exists 0; auto|].
    destruct IH as [[-> H]|(k & -> & H)]; [left; cbn; tauto|right; exists (Datatypes.S k); auto].
  Qed.

  Lemma spread_assign (s : addr -> nat -> ext (tR E)) a t i pos v w q : resolve E t i = Ok pos -> spread pos v = Ok w ->
    put a w s a q = assign t i v (s a) q.
  Proof.
    intros HR HS. pose proof (ND _ _ _ HR) as HN. unfold assign. rewrite HR.
    assert (G : v = v /\ length v = length pos /\ w = combine pos v \/ exists e, v = [e] /\ w = map (fun p => (p, e)) pos).
    { unfold spread in HS. destruct v as [|e [|e2 v]]; [| |].
      - destruct (Nat.eqb_spec (length (@nil (ext (tR E)))) (length pos)); [|discriminate]. injection HS as <-. auto.
      - injection HS as <-. right. eauto.
      - destruct (Nat.eqb_spec (length (e :: e2 :: v)) (length pos)); [|discriminate]. injection HS as <-. auto. }
    assert (F : map fst w = pos).
    { destruct G as [(_ & L & ->)|(e & -> & ->)].
      - clear -L. revert v L. induction pos as [|p pos IH]; intros [|e v] L; try discriminate; [reflexivity|]. cbn in *. rewrite IH; [reflexivity|lia].
      - rewrite map_map. apply map_id. }
    destruct (index_cases q pos) as [[-> H]|(k & -> & H)].
    - apply put_notin. rewrite F. exact H.
    - apply put_in; [rewrite F; exact HN|].
      destruct G as [(_ & L & ->)|(e & -> & ->)].
      + assert (K : k < length v) by (rewrite L; apply nth_error_Some; congruence).
        assert (In (q, nth k v (s a q)) (combine pos v)).
        { rewrite <- (nth_error_nth _ _ q H) at 1. rewrite <- (combine_nth pos v k q (s a q)) by auto. apply nth_In. rewrite combine_length. lia. }
        destruct v as [|e [|e2 v]]; auto. cbn in K. assert (k = 0) by lia. subst. exact H0.
      + apply in_map_iff. exists q. split; [reflexivity|]. eapply nth_error_In; eauto.
  Qed.

  Lemma scal_assign (s : vtype -> nat -> tR E) t i pos v w q u : resolve E t i = Ok pos ->
    (match v with [e] => Ok (map (fun p => (p, e)) pos) | _ => if (length v =? length pos)%nat then Ok (combine pos v) else Err ExcGeneric end) = Ok w ->
    fold_left (fun s pv => fun u q => if vtype_eqb t u && Nat.eqb (fst pv) q then snd pv else s u q) w s u q =
    if vtype_dec u t then assign t i v (s t) q else s u q.
  Proof.
    intros HR HS. pose proof (ND _ _ _ HR) as HN. destruct (scal_put t w s) as [A B].
    destruct (vtype_dec u t) as [->|N]; [|apply A; auto].
    unfold assign. rewrite HR.
    assert (G : v = v /\ length v = length pos /\ w = combine pos v \/ exists e, v = [e] /\ w = map (fun p => (p, e)) pos).
    { destruct v as [|e [|e2 v]]; [| |].
      - destruct (Nat.eqb_spec (length (@nil (tR E))) (length pos)); [|discriminate]. injection HS as <-. auto.
      - injection HS as <-. right. eauto.
      - destruct (Nat.eqb_spec (length (e :: e2 :: v)) (length pos)); [|discriminate]. injection HS as <-. auto. }
    assert (F : map fst w = pos).
    { destruct G as [(_ & L & ->)|(e & -> & ->)].
      - clear -L. revert v L. induction pos as [|p pos IH]; intros [|e v] L; try discriminate; [reflexivity|]. cbn in *. rewrite IH; [reflexivity|lia].
      - rewrite map_map. apply map_id. }
    destruct (index_cases q pos) as [[-> H]|(k & -> & H)].
    - apply A. right. rewrite F. exact H.
    - apply B; [rewrite F; exact HN|].
      destruct G as [(_ & L & ->)|(e & -> & ->)].
      + assert (K : k < length v) by (rewrite L; apply nth_error_Some; congruence).
        assert (In (q, nth k v (s t q)) (combine pos v)).
        { rewrite <- (nth_error_nth _ _ q H) at 1. rewrite <- (combine_nth pos v k q (s t q)) by auto. apply nth_In. rewrite combine_length. lia. }
        destruct v as [|e [|e2 v]]; auto. cbn in K. assert (k = 0) by lia. subst. exact H0.
      + apply in_map_iff. exists q. split; [reflexivity|]. eapply nth_error_In; eauto.
  Qed.

  Lemma assign_ext {V} t i (v : list V) f g q : f q = g q -> @assign E V t i v f q = assign t i v g q.
  Proof. intros H. unfold assign. destruct (resolve E t i); [|exact H]. destruct (index_of q _); [|exact H]. destruct v as [|e1 [|e2 v]]; rewrite ?H; reflexivity. Qed.

  (** ** Reading one more entry *)
  Ltac snoc := rewrite fold_left_app; reflexivity.
  Lemma bound_snoc (tr : trace) e s t : bound_of (tr ++ [e]) s t =
    match e with (KBounds s' t' i v, Ok _) => if side_dec s s' then if vtype_dec t t' then assign t i v (bound_of tr s t) else bound_of tr s t else bound_of tr s t | _ => bound_of tr s t end.
  Proof. unfold bound_of. snoc. Qed.
  Lemma terminal_snoc (tr : trace) e s : terminal_of (tr ++ [e]) s =
    match e with (KTerminal s' i v, Ok _) => if side_dec s s' then assign Vx i v (terminal_of tr s) else terminal_of tr s | _ => terminal_of tr s end.
  Proof. unfold terminal_of. snoc. Qed.
  Lemma scaling_snoc (tr : trace) e t : scaling_of (tr ++ [e]) t =
    match e with (KScaling t' i v, Ok _) => if vtype_dec t t' then assign t i v (scaling_of tr t) else scaling_of tr t | _ => scaling_of tr t end.
  Proof. unfold scaling_of. snoc. Qed.
  Lemma rterm_snoc (tr : trace) e : rterm_of (tr ++ [e]) = match e with (KRterm kws _, Ok _) => rt_update E (rterm_of tr) kws | _ => rterm_of tr end.
  Proof. unfold rterm_of. snoc. Qed.
  Lemma x_snoc (tr : trace) e : x_of (tr ++ [e]) = match e with (KStep (Good x'), Ok _) => x' | (KX0 (Good x'), Ok _) => x' | _ => x_of tr end.
  Proof. unfold x_of. snoc. Qed.
  Lemma settings_snoc (tr : trace) e : settings_of (tr ++ [e]) = match e with (KParam f, Ok _) => f (settings_of tr) | (KSetting f, Ok _) => f (settings_of tr) | _ => settings_of tr end.
  Proof. unfold settings_of. snoc. Qed.

  Lemma regular_snoc (tr : trace) e : regular (tr ++ [e]) -> regular tr /\ allowed tr (fst e) /\
    match fst e with KTerminal _ _ _ => ~ was_setup tr | KSetup => leftover tr = false | _ => True end.
  Proof.
    intros [O H]. apply ordinary_snoc in O as [O1 O2]. split; [split; [exact O1|]|split; [exact O2|]].
    - intros b c o a ->. apply (H b c o (a ++ [e])). rewrite <- app_assoc. reflexivity.
    - destruct e as [c o]. apply (H tr c o []). reflexivity.
  Qed.

  (** ** The invariant *)
  Definition tref (s : side) : addr := match s with Lower => Atlb | Upper => Atub end.
  Definition mref m (s : side) : addr := match s with Lower => m_tlb m | Upper => m_tub m end.
  (** The terminal structure of a side is its own, or the state bounds by default. *)
  Definition ref_ok m (tr : trace) (s : side) : Prop :=
    (no_terminal tr s -> s_term (settings_of tr) = true -> mref m s = saddr s Vx) /\
    (~ no_terminal tr s \/ s_term (settings_of tr) = false -> mref m s = tref s).
  Record inv4 m (tr : trace) : Prop := mkInv4 {
    h_store : forall s t q, m_store m (saddr s t) q = bound_of tr s t q;
    h_term : forall s q, m_store m (tref s) q = terminal_of tr s q;
    h_scal : forall t q, m_scal m t q = scaling_of tr t q;
    h_rt : m_rt m = rterm_of tr;
    h_x : m_x0 m = x_of tr;
    h_prep : m_prepared m = m_setup m;
    h_ref0 : m_setup m = false -> forall s, mref m s = tref s;
    h_ref : m_setup m = true -> forall s, ref_ok m tr s;
    h_ob : m_setup m = true -> exists obs, m_ob m = Some obs /\
             (forall s t q, ob obs s t q = m_store m (saddr s t) q) /\ (forall s q, ob_term obs s q = m_store m (mref m s) q);
    h_run : m_run1 m = true -> m_setup m = true;
    h_warm : warm tr (m_z0 m) (m_ox m) (if m_run1 m then m_lam m else None) }.

  Lemma inv4_init : inv4 mpc_init [].
  Proof.
    constructor; try reflexivity; try discriminate.
    - intros [] t q; reflexivity.
    - intros [] q; reflexivity.
    - constructor.
  Qed.

  Lemma no_terminal_dec (tr : trace) s : no_terminal tr s \/ ~ no_terminal tr s.
  Proof.
    unfold no_terminal. induction (n_of E Vx) as [|n IH]; [left; intros q Hq; lia|].
    assert (D : terminal_of tr s n = @no_bound E s \/ terminal_of tr s n <> @no_bound E s) by (destruct (terminal_of tr s n), s; cbn; (left; reflexivity) || (right; discriminate)).
    destruct IH as [IH|IH]; [destruct D as [D|D]|].
    - left. intros q Hq. destruct (Nat.eq_dec q n) as [->|]; [exact D|apply IH; lia].
    - right. intros H. apply D, H. lia.
    - right. intros H. apply IH. intros q Hq. apply H. lia.
  Qed.

  Lemma bounds_for_of m (tr : trace) : inv1 m tr -> inv4 m tr -> m_setup m = true -> exists obs, m_ob m = Some obs /\ bounds_for tr obs.
  Proof.
    intros I H W. destruct (h_ob _ _ H W) as (obs & HO & B1 & B2). exists obs. split; [exact HO|]. split; [|split].
    - intros s t q. rewrite B1. apply (h_store _ _ H).
    - intros s q N T. rewrite B2. destruct (h_ref _ _ H W s) as [R _]. rewrite (R N T). apply (h_store _ _ H).
    - intros s q N. rewrite B2. destruct (h_ref _ _ H W s) as [_ R]. rewrite (R N). apply (h_term _ _ H).
  Qed.

  Lemma problem_for_of m (tr : trace) : inv1 m tr -> inv2 m tr -> inv4 m tr -> m_setup m = true ->
    exists pr, m_prob m = Some pr /\ problem_for tr pr /\ pr_scal pr = m_scal m.
  Proof.
    intros I J H W. destruct (j_prob _ _ J W) as (o & Ho & Hp). eexists. split; [exact Hp|]. split; [|reflexivity].
    unfold problem_for; cbn. split; [rewrite <- (i_o _ _ I); exact Ho|]. split; [apply (h_rt _ _ H)|]. split; [apply (i_n _ _ I)|].
    split; [apply (h_scal _ _ H)|apply (i_s _ _ I)].
  Qed.

  (** A call that changes nothing of this. *)
  Lemma inv4_same m tr m' c o : inv4 m tr ->
    (match c, o with (KSetup | KGuess | KStep _), Ok _ => False | _, _ => True end) ->
    (forall s t, bound_of (tr ++ [(c, o)]) s t = bound_of tr s t) -> (forall s, terminal_of (tr ++ [(c, o)]) s = terminal_of tr s) ->
    (m_setup m = true -> settings_of (tr ++ [(c, o)]) = settings_of tr) ->
    (forall t q, m_scal m' t q = scaling_of (tr ++ [(c, o)]) t q) -> m_rt m' = rterm_of (tr ++ [(c, o)]) -> m_x0 m' = x_of (tr ++ [(c, o)]) ->
    m_store m' = m_store m -> m_prepared m' = m_prepared m -> m_setup m' = m_setup m -> m_tlb m' = m_tlb m -> m_tub m' = m_tub m ->
    m_ob m' = m_ob m -> m_ox m' = m_ox m -> m_run1 m' = m_run1 m -> m_lam m' = m_lam m -> m_z0 m' = m_z0 m ->
    inv4 m' (tr ++ [(c, o)]).
  Proof.
    intros [H1 H2 H3 H4 H5 H6 H7 H8 H9 HR H10] P B T SS G1 G2 G3 G4 G5 G6 G7 G8 G9 G10 G11 G12 G13.
    constructor; auto.
    - intros s t q. rewrite G4, B. apply H1.
    - intros s q. rewrite G4, T. apply H2.
    - congruence.
    - rewrite G6. intros W s. unfold mref. rewrite G7, G8. apply (H7 W s).
    - rewrite G6. intros W s. destruct (H8 W s) as [R1 R2]. unfold ref_ok, no_terminal, mref in *. rewrite T, G7, G8, (SS W). auto.
    - rewrite G6, G9, G4. intros W. destruct (H9 W) as (obs & A & B1 & B2). exists obs. split; [exact A|]. split; [exact B1|].
      intros s q. unfold mref. rewrite G7, G8. apply B2.
    - rewrite G6, G11; exact HR.
    - rewrite G10, G11, G12, G13. apply warm_other; assumption.
  Qed.

  Lemma allinf_up m a : forallb (fun p => is_pinf (m_store m a p)) (seq 0 (n_of E Vx)) = true <-> forall q, q < n_of E Vx -> m_store m a q = PInf.
  Proof.
    rewrite forallb_forall. split.
    - intros H q Hq. specialize (H q). destruct (m_store m a q); cbn in H; try (discriminate H; apply in_seq; lia). reflexivity.
    - intros H q Hq. apply in_seq in Hq. rewrite H by lia. reflexivity.
  Qed.
  Lemma allinf_lo m a : forallb (fun p => is_minf (m_store m a p)) (seq 0 (n_of E Vx)) = true <-> forall q, q < n_of E Vx -> m_store m a q = MInf.
  Proof.
    rewrite forallb_forall. split.
    - intros H q Hq. specialize (H q). destruct (m_store m a q); cbn in H; try (discriminate H; apply in_seq; lia). reflexivity.
    - intros H q Hq. apply in_seq in Hq. rewrite H by lia. reflexivity.
  Qed.

  (** The references chosen by a setup. *)
  Lemma validity_refs m tr b tlb tub : inv1 m tr -> inv4 m tr -> check_validity (with_slack b m) = Ok (tlb, tub) ->
    forall s, (no_terminal tr s -> s_term (settings_of tr) = true -> (match s with Lower => tlb | Upper => tub end) = saddr s Vx) /\
              (~ no_terminal tr s \/ s_term (settings_of tr) = false -> (match s with Lower => tlb | Upper => tub end) = tref s).
  Proof.
    intros I H. unfold check_validity. cbn [m_obj m_tvpf m_pf m_store m_set m_tub m_tlb with_slack].
    destruct (m_obj m); [|discriminate]. destruct (_ && _)%bool; [discriminate|]. destruct (_ && _)%bool; [discriminate|]. destruct (bounds_bad _); [discriminate|].
    intros [= <- <-] s. rewrite (i_s _ _ I).
    destruct (m_setup m) eqn:W.
    - destruct (h_ref _ _ H W s) as [R1 R2]. destruct s; cbn [mref] in R1, R2; split; intros N.
      + intros T. destruct (_ && _)%bool; [reflexivity|]. auto.
      + specialize (R2 N). destruct (_ && _)%bool eqn:Q; [|exact R2]. exfalso. apply andb_prop in Q as [Q1 Q2]. rewrite allinf_lo in Q1.
        destruct N as [N|N]; [|congruence]. apply N. intros q Hq. rewrite <- (h_term _ _ H). cbn [tref no_bound] in R2 |- *. rewrite <- R2. apply Q1, Hq.
      + intros T. destruct (_ && _)%bool; [reflexivity|]. auto.
      + specialize (R2 N). destruct (_ && _)%bool eqn:Q; [|exact R2]. exfalso. apply andb_prop in Q as [Q1 Q2]. rewrite allinf_up in Q1.
        destruct N as [N|N]; [|congruence]. apply N. intros q Hq. rewrite <- (h_term _ _ H). cbn [tref no_bound] in R2 |- *. rewrite <- R2. apply Q1, Hq.
    - pose proof (h_ref0 _ _ H W) as R. destruct s; [specialize (R Lower)|specialize (R Upper)]; cbn [mref tref] in R; rewrite R; split; intros N.
      + intros T. replace (_ && _)%bool with true; [reflexivity|]. symmetry. rewrite T, andb_true_r, allinf_lo. intros q Hq. rewrite (h_term _ _ H Lower). apply N, Hq.
      + destruct (_ && _)%bool eqn:Q; [|reflexivity]. exfalso. apply andb_prop in Q as [Q1 Q2]. rewrite allinf_lo in Q1.
        destruct N as [N|N]; [|congruence]. apply N. intros q Hq. rewrite <- (h_term _ _ H). apply Q1, Hq.
      + intros T. replace (_ && _)%bool with true; [reflexivity|]. symmetry. rewrite T, andb_true_r, allinf_up. intros q Hq. rewrite (h_term _ _ H Upper). apply N, Hq.
      + destruct (_ && _)%bool eqn:Q; [|reflexivity]. exfalso. apply andb_prop in Q as [Q1 Q2]. rewrite allinf_up in Q1.
        destruct N as [N|N]; [|congruence]. apply N. intros q Hq. rewrite <- (h_term _ _ H). apply Q1, Hq.
  Qed.

  Lemma saddr_inj s t s' t' : saddr s t = saddr s' t' -> s = s' /\ t = t'.
  Proof. destruct s, s'; cbn; intros H; inversion H; auto. Qed.
  Lemma saddr_tref s t s' : saddr s t <> tref s'.
  Proof. destruct s, s'; discriminate. Qed.
  Lemma tref_inj s s' : tref s = tref s' -> s = s'.
  Proof. destruct s, s'; cbn; congruence. Qed.

  Lemma inv4_step m tr c m' o : inv1 m tr -> inv2 m tr -> inv3 m tr -> inv4 m tr -> allowed tr c ->
    (match c with KTerminal _ _ _ => ~ was_setup tr | KSetup => leftover tr = false | _ => True end) ->
    do_call m c = (m', o) -> inv4 m' (tr ++ [(c, o)]).
  Proof.
    intros I J K H Al Rg HD. pose proof H as HH.
    destruct HH as [H1 H2 H3 H4 H5 H6 H7 H8 H9 HR H10].
    destruct c; cbn [do_call] in HD; cbn in Al; try contradiction.
    Ltac same := eapply inv4_same; try eassumption; try exact Logic.I; try reflexivity;
        try (intros; cbn [m_scal m_rt m_x0 with_cfg with_slack with_iter with_data reset_history]; rewrite ?bound_snoc, ?terminal_snoc, ?settings_snoc, ?scaling_snoc, ?rterm_snoc, ?x_snoc; (congruence || auto; fail)).
    - (* bounds *)
      unfold set_bounds in HD. destruct (has_bounds t); cbn [ret] in HD;
        [destruct (resolve E t i) as [pos|] eqn:E1; cbn [bind] in HD; [destruct (spread pos v) as [w|] eqn:E2; cbn [bind] in HD|]|];
        cbn [ret] in HD; injection HD as <- <-; try (same; fail).
      assert (ST : forall s0 t0 q, put (saddr s t) w (m_store m) (saddr s0 t0) q = bound_of (tr ++ [(KBounds s t i v, Ok None)]) s0 t0 q).
      { intros s0 t0 q. rewrite bound_snoc. destruct (side_dec s0 s) as [->|N]; [destruct (vtype_dec t0 t) as [->|N]|].
        - rewrite (spread_assign _ _ _ _ _ _ _ _ E1 E2). apply assign_ext, H1.
        - rewrite put_other; [apply H1|]. intros Q. apply saddr_inj in Q. tauto.
        - rewrite put_other; [apply H1|]. intros Q. apply saddr_inj in Q. tauto. }
      assert (TT : forall s0 q, put (saddr s t) w (m_store m) (tref s0) q = terminal_of (tr ++ [(KBounds s t i v, Ok None)]) s0 q).
      { intros s0 q. rewrite terminal_snoc, put_other; [apply H2|]. intros Q. symmetry in Q. apply saddr_tref in Q. exact Q. }
      set (m1 := if m_prepared m then _ else _).
      assert (X : m_store m1 = put (saddr s t) w (m_store m) /\ m_scal m1 = m_scal m /\ m_rt m1 = m_rt m /\ m_x0 m1 = m_x0 m /\ m_prepared m1 = m_prepared m /\ m_setup m1 = m_setup m /\
                  m_tlb m1 = m_tlb m /\ m_tub m1 = m_tub m /\ m_run1 m1 = m_run1 m /\ m_ox m1 = m_ox m /\ m_lam m1 = m_lam m /\ m_z0 m1 = m_z0 m).
      { unfold m1. destruct (m_prepared m) eqn:Q; cbn; rewrite ?Q; auto 20. }
      destruct X as (X1 & X2 & X3 & X4 & X5 & X6 & X7 & X8 & X9 & X10 & X11 & X12).
      constructor; rewrite ?X1, ?X2, ?X3, ?X4, ?X5, ?X6, ?X9, ?X10, ?X11, ?X12; auto; try (rewrite ?scaling_snoc, ?rterm_snoc, ?x_snoc; auto; fail).
      + intros t0 q. rewrite scaling_snoc. apply H3.
      + intros W s0. unfold mref. rewrite X7, X8. apply (H7 W s0).
      + intros W s0. destruct (H8 W s0) as [R1 R2]. unfold ref_ok, no_terminal, mref in *. rewrite terminal_snoc, settings_snoc, X7, X8. auto.
      + intros W. exists (snapshot m1). split; [unfold m1; rewrite H6, W; reflexivity|]. split.
        * intros s0 t0 q. unfold snapshot. cbn [ob]. rewrite X1. reflexivity.
        * intros s0 q. unfold snapshot. cbn [ob_term]. rewrite X1. reflexivity.
      + apply warm_other; [assumption|exact Logic.I].
    - (* terminal *)
      unfold set_terminal in HD. destruct (resolve E Vx i) as [pos|] eqn:E1; cbn [bind] in HD; [destruct (spread pos v) as [w|] eqn:E2; cbn [bind] in HD|];
        cbn [ret] in HD; injection HD as <- <-; try (same; fail).
      assert (W : m_setup m = false) by (destruct (m_setup m) eqn:Q; [exfalso; apply Rg, (k_s _ _ K), Q|reflexivity]).
      assert (RR : (match s with Lower => m_tlb m | Upper => m_tub m end) = tref s) by (apply (H7 W s)). rewrite RR.
      constructor; cbn; auto; try congruence; try (rewrite ?scaling_snoc, ?rterm_snoc, ?x_snoc; auto; fail).
      + intros s0 t0 q. rewrite bound_snoc, put_other; [apply H1|]. apply saddr_tref.
      + intros s0 q. rewrite terminal_snoc. destruct (side_dec s0 s) as [->|N].
        * rewrite (spread_assign _ _ _ _ _ _ _ _ E1 E2). apply assign_ext, H2.
        * rewrite put_other; [apply H2|]. intros Q. apply tref_inj in Q. contradiction.
      + intros t0 q. rewrite scaling_snoc. apply H3.
      + apply warm_other; [assumption|exact Logic.I].
    - (* scaling *)
      unfold set_scaling in HD. destruct (m_setup m) eqn:E0;
        [|destruct (has_bounds t); [destruct (resolve E t i) as [pos|] eqn:E1; cbn [bind] in HD;
        [destruct (match v with [v0] => Ok (map (fun p => (p, v0)) pos) | _ => if (length v =? length pos)%nat then Ok (combine pos v) else Err ExcGeneric end) as [w|] eqn:E2; cbn [bind] in HD|]|]];
        cbn [ret] in HD; injection HD as <- <-; try (same; fail).
      same.
      intros t0 q. cbn. rewrite (scal_assign _ _ _ _ _ _ _ _ E1 E2), scaling_snoc. destruct (vtype_dec t0 t) as [->|N]; [apply assign_ext, H3|apply H3].
    - (* param *)
      unfold set_param in HD. destruct (m_setup m) eqn:E0; cbn [ret] in HD; injection HD as <- <-; same.
    - (* setting *)
      unfold set_setting in HD. cbn [ret] in HD; injection HD as <- <-. same. intros W. exfalso. apply Al, (k_s _ _ K), W.
    - (* objective *)
      unfold set_objective in HD. brk HD; cbn [ret] in HD; injection HD as <- <-; same.
    - (* rterm *)
      unfold set_rterm in HD. destruct (m_setup m) eqn:E0; [|destruct (Nat.leb (length kws) kw_ok) eqn:E1; [|apply Nat.leb_gt in E1; lia]];
        cbn [retu] in HD; injection HD as <- <-; same.
    - unfold set_nl_cons in HD. brk HD; cbn [ret] in HD; injection HD as <- <-; same.
    - unfold set_tvp_fun in HD. brk HD; cbn [ret] in HD; injection HD as <- <-; same.
    - unfold set_p_fun in HD. brk HD; cbn [ret] in HD; injection HD as <- <-; same.
    - (* setup *)
      destruct (setup m) as [m2 r2] eqn:ES.
      destruct (setup_cases _ _ _ ES) as [[-> (m1 & [tlb tub o' dt nh Hdt Hnh Ho Hcv ->] & [pr Hp ->])]|(e & -> & D)];
        cbn [retu] in HD; injection HD as <- <-.
      + cbn in Hp. injection Hp as <- Hsl. pose proof (validity_refs _ _ _ _ _ I H Hcv) as VR.
        constructor; cbn [m_store m_scal m_rt m_x0 m_prepared m_setup m_tlb m_tub m_ob m_run1 m_ox m_lam m_z0 with_ob]; try discriminate;
          try (intros; rewrite ?bound_snoc, ?terminal_snoc, ?scaling_snoc, ?rterm_snoc, ?x_snoc; (reflexivity || auto); fail).
        * intros _ s. unfold ref_ok, no_terminal, mref. cbn [m_tlb m_tub]. rewrite terminal_snoc, settings_snoc. apply VR.
        * intros _. eexists. split; [reflexivity|]. split; reflexivity.
        * eapply warm_setup; [exact H10|]. unfold problem_for; cbn. split; [rewrite <- (i_o _ _ I); exact Ho|]. split; [exact H4|].
          split; [apply (i_n _ _ I)|]. split; [exact H3|apply (i_s _ _ I)].
      + destruct D as [->|[->|P]]; try (same; fail).
        (* prepared but not created: left-over slack symbols *)
        exfalso. assert (LO : leftover tr = m_slack m) by (change (snd (lo_state tr) = m_slack m); rewrite (k_l _ _ K); reflexivity).
        rewrite Rg in LO. unfold setup in ES. destruct (prepare m) as [m1 r1] eqn:EP.
        destruct (prepare_cases _ _ _ EP) as [[-> P1]|(e' & -> & P1)].
        * destruct P1 as [tlb tub o' dt nh Hdt Hnh Ho Hcv ->]. unfold create in ES. cbn in ES. rewrite <- LO in ES. destruct (m_fields m) as [[? ?] ?]. discriminate.
        * injection ES as <- _. destruct P as [tlb tub o' dt nh Hdt Hnh Ho Hcv P]. clear - P1 P EP Hdt Hnh Ho Hcv.
          unfold prepare in EP. rewrite Hdt, Hnh, Hcv in EP. cbn in EP. rewrite Ho in EP. discriminate.
    - (* guess *)
      unfold set_initial_guess in HD. destruct (m_setup m) eqn:W; [destruct (m_ox m) as [ox|] eqn:EO|]; cbn [ret] in HD; injection HD as <- <-; try (same; fail).
      + constructor; cbn; rewrite ?W; auto; try discriminate;
          try (intros; rewrite ?bound_snoc, ?terminal_snoc, ?scaling_snoc, ?rterm_snoc, ?x_snoc; auto; fail).
        * intros _ s. destruct (H8 eq_refl s) as [R1 R2]. unfold ref_ok, no_terminal, mref in *. rewrite terminal_snoc, settings_snoc. auto.
        * destruct (problem_for_of m tr I J H W) as (pr & _ & Hp & Hs). rewrite H5, (i_u _ _ I), <- Hs. eapply warm_guess; eauto.
    - (* step *)
      destruct (make_step m x) as [m2 r2] eqn:ES.
      destruct (make_step_cases _ _ _ _ ES) as [(x' & u & -> & -> & [])|(e & -> & F)].
      + injection HD as <- <-. subst m2. pose proof Hset as W.
        destruct (problem_for_of m tr I J H W) as (pr' & Hpr' & Hp & Hs). rewrite Hpr in Hpr'. injection Hpr' as <-.
        destruct (bounds_for_of m tr I H W) as (obs' & Hob' & Hb). rewrite Hob in Hob'. injection Hob' as <-.
        constructor; cbn; try (rewrite W); auto; try discriminate;
          try (intros; rewrite ?bound_snoc, ?terminal_snoc, ?scaling_snoc, ?rterm_snoc, ?x_snoc; auto; fail).
        * congruence.
        * intros _ s. destruct (H8 W s) as [R1 R2]. unfold ref_ok, no_terminal, mref in *. rewrite terminal_snoc, settings_snoc. auto.
        * subst u z. rewrite <- !Hs. rewrite Hox in H10.
          assert (CK : clock tr = m_t0 m) by (unfold clock; rewrite (i_c _ _ I); reflexivity).
          assert (TF : tvp_force tr = tf).
          { unfold tvp_force. pose proof (i_t _ _ I) as A. unfold agree in A. destruct (tvp_of tr); [congruence|]. destruct A; congruence. }
          assert (PF : p_force tr = pf).
          { unfold p_force. pose proof (i_p _ _ I) as A. unfold agree in A. destruct (p_of tr); [congruence|]. destruct A; congruence. }
          eapply warm_step; eauto. rewrite CK, TF, PF, <- (i_u _ _ I). exact HS.
      + injection HD as <- <-.
        destruct F as [->|ox' lg lx d -> Hset Hbad]; [same; rewrite x_snoc; destruct x; exact H5|].
        exfalso. destruct (j_f _ _ J Hset) as (F1 & F2 & F3). pose proof (j_tstep _ _ J Hset).
        destruct Hbad as [B|[[B1 B2]|[[B1 B2]|[B1 B2]]]]; [contradiction|rewrite (F1 B1) in B2|rewrite (F2 B1) in B2|rewrite (F3 B1) in B2]; discriminate.
    - injection HD as <- <-. same.
    - destruct x; cbn in HD; injection HD as <- <-; same.
    - destruct u; cbn in HD; injection HD as <- <-; same.
    - destruct t; cbn in HD; injection HD as <- <-; same.
  Qed.

  Theorem inv4_reach h m tr : regular tr -> exec h mpc_init = (m, tr) -> inv1 m tr /\ inv2 m tr /\ inv3 m tr /\ inv4 m tr.
  Proof.
    intros Hr H. destruct (inv2_reach h m tr (proj1 Hr) H) as [I J]. destruct (inv3_reach h m tr H) as [_ K].
    split; [exact I|]. split; [exact J|]. split; [exact K|]. clear I J K.
    revert m tr Hr H. induction h as [|c h IH] using rev_ind; intros m tr Hr H.
    - cbn in H. injection H as <- <-. apply inv4_init.
    - rewrite exec_snoc in H. destruct (exec h mpc_init) as [m1 t1] eqn:E1. destruct (do_call m1 c) as [m2 o] eqn:E2. injection H as <- <-.
      destruct (regular_snoc _ _ Hr) as (R1 & R2 & R3).
      destruct (inv2_reach h m1 t1 (proj1 R1) E1) as [I J]. destruct (inv3_reach h m1 t1 E1) as [_ K].
      eapply inv4_step; eauto.
  Qed.
End P.
