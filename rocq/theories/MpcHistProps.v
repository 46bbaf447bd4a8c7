(** * C14, C75: what every solve of an MPC controller is given, read off the history of calls. *)
From Verif Require Import Base MpcModel MpcSpec MpcProofs MpcProps MpcHistSpec MpcHistProofs.
Import List.

Section T.
  Context {E : Env}.
  Notation mpc := (@mpc E).
  Notation call := (@call E).
  Notation trace := (list (call * res (option (tU E)))).

  (** ** C14 *)
  (** The input returned by a step is a function of the observed history and the state passed: it is the first
      input of the solution of the problem defined by the accepted calls, with the bounds assigned last, for
      the state passed, the input applied last and the parameters at the current time, started from the
      previous solution (or from what setup and set_initial_guess left) and its multipliers. *)
  Theorem C14_history_determines_step (h : list call) (m : mpc) (tr : trace) (x : tX E) :
    (forall t i pos, resolve E t i = Ok pos -> NoDup pos) ->
    regular tr -> exec h mpc_init = (m, tr) -> was_setup tr ->
    exists pr obs z ox l ox' lg lx st,
      problem_for tr pr /\ bounds_for tr obs /\ warm tr z (Some ox) l /\
      S E pr obs ox l (x, prev_input tr, tvp_force tr (clock tr), p_force tr (clock tr)) = (ox', lg, lx, st) /\
      snd (make_step m (Good x)) = Ok (scale_u E (pr_scal pr Vu) (ox_u E ox')) /\
      exists z', warm (tr ++ [(KStep (Good x), Ok (Some (scale_u E (pr_scal pr Vu) (ox_u E ox'))))]) z' (Some ox') (Some (lg, lx)).
  Proof.
    intros ND Rg He Ws. destruct (inv4_reach ND h m tr Rg He) as (I & J & K & H).
    destruct (C14_ordinary_histories h m tr (proj1 Rg) He) as (_ & _ & _ & _ & _ & Hok).
    destruct (Hok Ws x) as (m' & u & ES).
    destruct (make_step_cases _ _ _ _ ES) as [(x' & u' & Hx & Hu' & [])|(e & Q & _)]; [|discriminate].
    injection Hx as <-. injection Hu' as <-.
    destruct (problem_for_of m tr I J H Hset) as (pr' & Hpr' & Hp & Hs). rewrite Hpr in Hpr'. injection Hpr' as <-.
    destruct (bounds_for_of m tr I H Hset) as (obs' & Hob' & Hb). rewrite Hob in Hob'. injection Hob' as <-.
    pose proof (h_warm _ _ H) as W. rewrite Hox in W.
    assert (CK : clock tr = m_t0 m) by (unfold clock; rewrite (i_c _ _ I); reflexivity).
    assert (TF : tvp_force tr = tf).
    { unfold tvp_force. pose proof (i_t _ _ I) as A. unfold agree in A. destruct (tvp_of tr); [congruence|]. destruct A; congruence. }
    assert (PF : p_force tr = pf).
    { unfold p_force. pose proof (i_p _ _ I) as A. unfold agree in A. destruct (p_of tr); [congruence|]. destruct A; congruence. }
    rewrite (i_u _ _ I), <- CK, <- TF, <- PF in HS.
    exists pr, obs, (m_z0 m), ox, (if m_run1 m then m_lam m else None), ox', lg, lx, st.
    split; [exact Hp|]. split; [exact Hb|]. split; [exact W|]. split; [exact HS|].
    split; [rewrite ES, Hu, Hs; reflexivity|]. eexists. eapply warm_step; eauto.
  Qed.

  (** ** C75 *)
  (** At every step, the bounds handed to the solver: for each variable those assigned last, and for the
      terminal state the terminal bounds given, or by default (use_terminal_bounds, none given on that side)
      the state bounds. *)
  Theorem C75_bounds_of_every_solve (h : list call) (m : mpc) (tr : trace) :
    (forall t i pos, resolve E t i = Ok pos -> NoDup pos) ->
    regular tr -> exec h mpc_init = (m, tr) -> was_setup tr ->
    exists obs, m_ob m = Some obs /\
      (forall s t q, ob obs s t q = bound_of tr s t q) /\
      (forall s q, no_terminal tr s -> s_term (settings_of tr) = true -> ob_term obs s q = bound_of tr s Vx q) /\
      (forall s q, ~ no_terminal tr s \/ s_term (settings_of tr) = false -> ob_term obs s q = terminal_of tr s q).
  Proof.
    intros ND Rg He Ws. destruct (inv4_reach ND h m tr Rg He) as (I & J & K & H).
    apply (k_s _ _ K) in Ws. exact (bounds_for_of m tr I H Ws).
  Qed.
  (** And reading a bound returns the one assigned last. *)
  Theorem C75_bounds_read (h : list call) (m : mpc) (tr : trace) s t i pos :
    (forall t i pos, resolve E t i = Ok pos -> NoDup pos) ->
    regular tr -> exec h mpc_init = (m, tr) -> In t [Vx; Vu; Vz] -> resolve E t i = Ok pos ->
    get_bounds m s t i = Ok (map (bound_of tr s t) pos).
  Proof.
    intros ND Rg He Ht HR. destruct (inv4_reach ND h m tr Rg He) as (I & J & K & H).
    unfold get_bounds. rewrite HR. replace (has_bounds t) with true by (destruct Ht as [<-|[<-|[<-|[]]]]; reflexivity).
    cbn [bind]. f_equal. apply map_ext. intros q. apply (h_store _ _ H).
  Qed.
  (** ** C17: after any regular history the terminal-bound getter returns the state bounds assigned last, never the
      terminal bounds assigned ([terminal_of tr], which are the ones the solver gets, see C75). *)
  Theorem C17_terminal_read_partial (h : list call) (m : mpc) (tr : trace) s i pos :
    (forall t i pos, resolve E t i = Ok pos -> NoDup pos) ->
    regular tr -> exec h mpc_init = (m, tr) -> resolve E Vx i = Ok pos ->
    get_terminal m s i = Ok (map (bound_of tr s Vx) pos)
    /\ (get_terminal m s i = Ok (map (terminal_of tr s) pos) <-> forall q, In q pos -> bound_of tr s Vx q = terminal_of tr s q).
  Proof.
    intros ND Rg He HR. pose proof (C75_bounds_read h m tr s Vx i pos ND Rg He ltac:(left; reflexivity) HR) as B.
    rewrite <- (C17_terminal_getter_returns_state_bound m s i) in B. rewrite B. split; [reflexivity|]. split.
    - intros [= Q] q Hq. clear - Q Hq. induction pos as [|p pos IH]; [destruct Hq|]. cbn in Q. injection Q as Q1 Q2.
      destruct Hq as [<-|Hq]; auto.
    - intros Q. f_equal. apply map_ext_in. exact Q.
  Qed.
  (** Terminal bounds given without use_terminal_bounds are applied all the same. *)
  Theorem C75_terminal_bounds_apply_without_the_setting (h : list call) (m : mpc) (tr : trace) s q :
    (forall t i pos, resolve E t i = Ok pos -> NoDup pos) ->
    regular tr -> exec h mpc_init = (m, tr) -> was_setup tr -> s_term (settings_of tr) = false ->
    option_map (fun obs => ob_term obs s q) (m_ob m) = Some (terminal_of tr s q).
  Proof.
    intros ND Rg He Ws T. destruct (C75_bounds_of_every_solve h m tr ND Rg He Ws) as (obs & HO & _ & _ & B). rewrite HO. cbn. rewrite B by auto. reflexivity.
  Qed.
End T.

(** ** Examples *)
(** A computable version of [regular]. *)
Section Helper.
  Context {E : Env}.
  Notation trace := (list (@call E * res (option (tU E)))).
  Fixpoint regularb (pre tr : trace) : bool :=
    match tr with
    | [] => true
    | (c, o) :: r => (match c with KTerminal _ _ _ => negb (was_setupb pre) | KSetup => negb (leftover pre) | _ => true end) && regularb (pre ++ [(c, o)]) r
    end.
  Lemma was_setupb_iff (tr : trace) : was_setup tr -> was_setupb tr = true.
  Proof.
    intros (v & H). unfold was_setupb. rewrite existsb_exists. destruct H as [H|H]; eexists; (split; [exact H|reflexivity]).
  Qed.
  Lemma regularb_ok (tr : trace) : ordinaryb false tr = true -> regularb [] tr = true -> regular tr.
  Proof.
    intros O H. split; [apply ordinaryb_ok, O|]. clear O.
    assert (G : forall (tr pre : trace), regularb pre tr = true -> forall b c o a, tr = b ++ (c, o) :: a ->
      match c with KTerminal _ _ _ => ~ was_setup (pre ++ b) | KSetup => leftover (pre ++ b) = false | _ => True end).
    { clear. intros tr. induction tr as [|[c o] tr IH]; intros pre H b c' o' a Q; [destruct b; discriminate|].
      cbn [regularb] in H. apply andb_prop in H as [H1 H2]. destruct b as [|e b]; cbn in Q; injection Q as <- Q.
      - subst o tr. rewrite app_nil_r. destruct c; auto.
        + intros W. rewrite (was_setupb_iff _ W) in H1. discriminate.
        + apply negb_true_iff in H1. exact H1.
      - specialize (IH _ H2 _ _ _ _ Q). rewrite <- app_assoc in IH. exact IH. }
    intros b c o a Q. exact (G tr [] H b c o a Q).
  Qed.
End Helper.

Definition ex_h : list (@call Ex.env) :=
  [KParam Ex.base; KParam (fun s : @settings Ex.env => mkSet (s_tstep s) (s_nhor s) true (s_full s) (s_lagr s) (s_stats s)); Ex.ok_obj; Ex.tvp2;
   KBounds Upper Vx (99 : tInd Ex.env) [Fin (9%Z : tR Ex.env); Fin (8%Z : tR Ex.env)];
   KBounds Lower Vx (0 : tInd Ex.env) [Fin ((-5)%Z : tR Ex.env)];
   KTerminal Lower (1 : tInd Ex.env) [Fin ((-1)%Z : tR Ex.env)];
   KNlCons (true : tNl Ex.env); KSetup; KX0 (Good (4%Z : tX Ex.env)); KGuess; KStep (Good (3%Z : tX Ex.env));
   KBounds Upper Vx (1 : tInd Ex.env) [Fin (6%Z : tR Ex.env)]].
(** C17 in this session: the terminal bound -1 was accepted, the getter returns the state bound. *)
Example C17_nonvacuous :
  let m := fst (exec ex_h mpc_init) in let tr := snd (exec ex_h mpc_init) in
  (forall t i pos, resolve Ex.env t i = Ok pos -> NoDup pos) /\ regular tr /\ resolve Ex.env Vx (1 : tInd Ex.env) = Ok [1] /\
  terminal_of tr Lower 1 = Fin (-1)%Z /\ get_terminal m Lower (1 : tInd Ex.env) = Ok [MInf].
Proof.
  cbv zeta. split; [apply C18_nonvacuous|]. split; [apply regularb_ok; vm_compute; reflexivity|]. repeat split; vm_compute; reflexivity.
Qed.
Example C75_nonvacuous :
  let m := fst (exec ex_h mpc_init) in let tr := snd (exec ex_h mpc_init) in
  (forall t i pos, resolve Ex.env t i = Ok pos -> NoDup pos) /\
  regular tr /\ was_setup tr /\ (forall c o, In (c, o) tr -> is_ok o = true) /\
  no_terminal tr Upper /\ ~ no_terminal tr Lower /\
  option_map (fun o => [ob_term o Upper 0; ob_term o Upper 1; ob_term o Lower 0; ob_term o Lower 1]) (m_ob m) =
    Some [Fin 9%Z; Fin 6%Z; MInf; Fin (-1)%Z].
Proof.
  cbv zeta. split; [exact (proj1 C18_nonvacuous)|]. split; [apply regularb_ok; vm_compute; reflexivity|].
  split; [apply was_setupb_ok; vm_compute; reflexivity|]. split; [apply all_ok; vm_compute; reflexivity|].
  split; [intros q Hq; cbn in Hq; destruct q as [|[|q]]; [vm_compute; reflexivity|vm_compute; reflexivity|exfalso; unfold Ex.n_of in Hq; lia]|].
  split; [intros H; specialize (H 1); vm_compute in H; specialize (H (le_n 2)); discriminate|]. vm_compute. reflexivity.
Qed.

Print Assumptions C14_history_determines_step.
Print Assumptions C75_bounds_of_every_solve.
Print Assumptions C75_bounds_read.
Print Assumptions C75_terminal_bounds_apply_without_the_setting.
Print Assumptions C17_terminal_read_partial.
