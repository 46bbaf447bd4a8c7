(** * C81: the closed loop of controller and simulator respects the constraints as long as the solver returns
    feasible points.  From the API calls of both objects to the recorded states. *)
From Coq Require Import Reals Lra.
From Verif Require Import Base TreeModel TreeSpec TreeProofs NlpModel NlpSpec NlpProofs NlpProofs2 NlpProofs3 NlpProofs4 NlpProps.
From Verif Require Import MpcModel MpcSpec MpcProofs MpcProps MpcHistSpec MpcHistProofs SimModel SimSpec SimProofs SimProps RobustProps LinkModel.
Local Open Scope R_scope.
Local Open Scope list_scope.

Section LinkSpec.
  Variable L : link.
  Notation mtrace := (list (@call (link_env L) * res (option (tU (link_env L))))).

  (** [v] meets a bound given by the user. *)
  Definition above (b : ext R) (v : R) : Prop := match b with Fin r => r <= v | _ => True end.
  Definition below (b : ext R) (v : R) : Prop := match b with Fin r => v <= r | _ => True end.
  (** The last of the n_horizon states has the terminal bounds in force; see MpcHistSpec.bounds_for. *)
  Definition terminal_bound (tr : mtrace) (s : side) (q : nat) (b : ext R) : Prop :=
    (no_terminal tr s -> s_term (settings_of tr) = true -> b = bound_of tr s Vx q) /\
    (~ no_terminal tr s \/ s_term (settings_of tr) = false -> b = terminal_of tr s q).

  (** What a recorded row of parameters stands for: the measured state, the previously applied input, the previews of the
      time-varying parameters and the uncertain parameters of the scenarios. *)
  Definition problem_params (row : vec * vec * (nat -> vec) * (nat -> vec)) : params :=
    let '(x0, uprev, tvps, ps) := row in {| pX0 := x0; pUprev := uprev; pTvp := tvps; pP := ps |}.

  (** [c] is the problem the accepted calls of a history define. *)
  Record problem_of (tr : mtrace) (c : cfg) : Prop := mkPO {
    po_N : s_nhor (settings_of tr) = Some (N c);
    po_static : nr c = k_nr L /\ ncomb c = k_ncomb L /\ open_loop c = k_open L /\ single_slack c = k_single L /\
                chk_colloc c = k_chk L /\ nl_chk_colloc c = k_nlchk L /\ mdl c = k_mdl L /\ disc c = Discrete;
    po_nlc : nlc c = nlcons_of tr;
    po_obj : objective_of tr = Some (lterm c, mterm c);
    po_rterm : rterm c = match k_user L with Some f => RUser f | None => RDefault (rterm_of tr) end;
    po_scal : forall q, sx c q = scaling_of tr Vx q /\ su c q = scaling_of tr Vu q /\ sz c q = scaling_of tr Vz q;
    po_x : forall q, xlb c q = opt_of (bound_of tr Lower Vx q) /\ xub c q = opt_of (bound_of tr Upper Vx q);
    po_u : forall q, ulb c q = opt_of (bound_of tr Lower Vu q) /\ uub c q = opt_of (bound_of tr Upper Vu q);
    po_z : forall q, zlb c q = opt_of (bound_of tr Lower Vz q) /\ zub c q = opt_of (bound_of tr Upper Vz q);
    po_t : forall q, exists lo hi, terminal_bound tr Lower q lo /\ terminal_bound tr Upper q hi /\ tlb c q = opt_of lo /\ tub c q = opt_of hi }.

  (** The solver was called for problem [c] with parameters [par] and returned [pt]. *)
  Definition solved (c : cfg) (par : params) (pt : point) : Prop :=
    exists ox l lg lx st, k_solve L c par ox l = (pt, lg, lx, st).

  (** One sampling interval from x to x' with input u: what the configured bounds and constraints demand. *)
  Definition interval_ok (tr : mtrace) (x u tv p x' : vec) : Prop :=
    (forall a, (a < n_u (k_mdl L))%nat -> above (bound_of tr Lower Vu a) (u a) /\ below (bound_of tr Upper Vu a) (u a)) /\
    (forall a, (a < n_x (k_mdl L))%nat ->
       if Nat.eqb (match s_nhor (settings_of tr) with Some n => n | None => 0%nat end) 1
       then forall lo hi, terminal_bound tr Lower a lo -> terminal_bound tr Upper a hi -> above lo (x' a) /\ below hi (x' a)
       else above (bound_of tr Lower Vx a) (x' a) /\ below (bound_of tr Upper Vx a) (x' a)) /\
    (forall z a, (forall b, (b < n_z (k_mdl L))%nat -> alg (k_mdl L) x u z tv p vzero b = 0) -> (a < n_z (k_mdl L))%nat ->
       above (bound_of tr Lower Vz a) (z a) /\ below (bound_of tr Upper Vz a) (z a)) /\
    (k_nlchk L = false -> forall con z, In con (nlcons_of tr) -> state_constraint (k_mdl L) con ->
       match nl_ub con with
       | None => True
       | Some ub => match nl_soft con with
                    | None => nl_g con x u z tv p <= ub
                    | Some (vmax, _) => exists eps, 0 <= eps /\ le_ub eps vmax /\ nl_g con x u z tv p <= ub + eps
                    end
       end).
End LinkSpec.
Arguments above b v : simpl never. Arguments below b v : simpl never.

Lemma inside_of lo hi v : inside (opt_of lo) (opt_of hi) v <-> above lo v /\ below hi v.
Proof. destruct lo, hi; unfold inside, above, below; cbn; tauto. Qed.

(** ** One step: the first move of a feasible point applied to the model. *)
Section First.
  Variables (c : cfg) (par : params) (pt : point).
  Hypothesis Hok : cfg_ok c.
  Hypothesis Hpos : scaling_pos c.
  Hypothesis Hd : disc c = Discrete.
  Hypothesis Hwf : wf_model (mdl c).
  Hypothesis Huq : alg_unique (mdl c).
  Hypothesis Hf : feasible c par pt.
  Variables (i : nat) (z : vec).
  Hypothesis Hi : (i < ncomb c)%nat.
  Hypothesis Hi0 : nr c = 0%nat -> i = 0%nat.
  Let u := physU c pt 0 0.

  Lemma first_alg : exists z, forall a, (a < n_z (mdl c))%nat -> alg (mdl c) (pX0 par) u z (pTvp par 0%nat) (pP par i) vzero a = 0.
  Proof.
    assert (HN : (1 <= N c)%nat) by apply Hok.
    pose proof Hf as Hf'. apply (feasible_iff c par pt Hok Hpos) in Hf'. destruct Hf' as (_ & Hini & Hedge).
    assert (He : is_edge c 0 0 i).
    { unfold is_edge, width_of, fan_of, nodes, fan. cbn [Nat.min Nat.pow Nat.ltb Nat.leb]. split; [lia|]. split; [cbn; lia|].
      destruct (nr c) eqn:E; cbn; [rewrite Hi0 by reflexivity; lia|lia]. }
    assert (Eco : comb c 0 0 i = i).
    { unfold comb. destruct (nr c) eqn:E; cbn; [symmetry; apply Hi0; reflexivity|reflexivity]. }
    destruct (Hedge 0%nat 0%nat i He) as [Hm _]. unfold model_step, model_step_with in Hm. rewrite Hd in Hm.
    unfold discrete_step in Hm. cbv zeta in Hm. rewrite Eco in Hm.
    assert (Eu : physU c pt 0 (uidx c 0) = u) by (unfold uidx, u; destruct (open_loop c); reflexivity). rewrite Eu in Hm.
    destruct Hm as [_ Hm2]. eexists. intros a Ha. rewrite <- (Hm2 a Ha).
    apply Hwf; [intros b Hb; symmetry; apply Hini; exact Hb|intros b Hb; reflexivity|exact Ha].
  Qed.
  Let x1 := rhs (mdl c) (pX0 par) u z (pTvp par 0%nat) (pP par i) vzero.
  Hypothesis Hz : forall a, (a < n_z (mdl c))%nat -> alg (mdl c) (pX0 par) u z (pTvp par 0%nat) (pP par i) vzero a = 0.

  Lemma first_move :
    (forall a, (a < n_u (mdl c))%nat -> inside (ulb c a) (uub c a) (u a)) /\
    (forall a, (a < n_x (mdl c))%nat -> if Nat.eqb (N c) 1 then inside (tlb c a) (tub c a) (x1 a) else inside (xlb c a) (xub c a) (x1 a)) /\
    (forall a, (a < n_z (mdl c))%nat -> inside (zlb c a) (zub c a) (z a)) /\
    (nl_chk_colloc c = false -> forall con z', In con (nlc c) -> state_constraint (mdl c) con ->
       match nl_ub con with
       | None => True
       | Some ub => match nl_soft con with
                    | None => nl_g con (pX0 par) u z' (pTvp par 0%nat) (pP par i) <= ub
                    | Some (vmax, _) => exists eps, 0 <= eps /\ le_ub eps vmax /\ nl_g con (pX0 par) u z' (pTvp par 0%nat) (pP par i) <= ub + eps
                    end
       end).
  Proof.
    assert (HN : (1 <= N c)%nat) by apply Hok. assert (Hc : (1 <= ncomb c)%nat) by apply Hok.
    pose proof Hf as Hf'. apply (feasible_iff c par pt Hok Hpos) in Hf'. destruct Hf' as (((HB1 & HB2 & HB3 & HB4) & _ & HE) & Hini & Hedge).
    assert (He : is_edge c 0 0 i).
    { unfold is_edge, width_of, fan_of, nodes, fan. cbn [Nat.min Nat.pow Nat.ltb Nat.leb]. split; [lia|]. split; [cbn; lia|].
      destruct (nr c) eqn:E; cbn; [rewrite Hi0 by reflexivity; lia|lia]. }
    assert (Ech : childnode c 0 0 i = i) by reflexivity.
    assert (Eco : comb c 0 0 i = i).
    { unfold comb. destruct (nr c) eqn:E; cbn; [symmetry; apply Hi0; reflexivity|reflexivity]. }
    destruct (Hedge 0%nat 0%nat i He) as [Hm Hnl]. unfold model_step, model_step_with in Hm. rewrite Hd in Hm.
    unfold discrete_step in Hm. cbv zeta in Hm. rewrite Ech, Eco in Hm.
    assert (Eu : physU c pt 0 (uidx c 0) = u) by (unfold uidx, u; destruct (open_loop c); reflexivity). rewrite Eu in Hm.
    destruct Hm as [Hm1 Hm2].
    assert (Hx0 : NlpSpec.agree (n_x (mdl c)) (stateX c pt 0 0) (pX0 par)) by exact Hini.
    assert (Hnx : (i < nmax c)%nat).
    { pose proof (nodes_le_nmax c HN Hc 1). unfold nodes in H. destruct (Nat.eq_dec (nr c) 0) as [E|E].
      - rewrite (Hi0 E). unfold nmax. rewrite E. cbn. lia.
      - unfold nmax. destruct (nr c) as [|r]; [contradiction|]. cbn [Nat.pow]. pose proof (Nat.pow_nonzero (ncomb c) r ltac:(lia)). nia. }
    assert (Hzz : NlpSpec.agree (n_z (mdl c)) z (physZ c pt 0 i 0)).
    { apply (Huq (pX0 par) u (pTvp par 0%nat) (pP par i)); [exact Hz|]. intros a Ha. rewrite <- (Hm2 a Ha).
      apply Hwf; [intros b Hb; symmetry; apply Hx0; exact Hb|intros b Hb; reflexivity|exact Ha]. }
    assert (Hx1 : forall a, (a < n_x (mdl c))%nat -> x1 a = stateX c pt 1 i a).
    { intros a Ha. change (stateX c pt 1 i a) with (stateX c pt (0 + 1) i a). rewrite (Hm1 a Ha). apply Hwf; [intros b Hb; symmetry; apply Hx0; exact Hb|exact Hzz|exact Ha]. }
    split; [|split; [|split]].
    - intros a Ha. apply HB1; auto; try lia. unfold n_u_scenarios. destruct (open_loop c); lia.
    - intros a Ha. rewrite (Hx1 a Ha). destruct (Nat.eqb_spec (N c) 1) as [E|E].
      + rewrite <- E. apply HB3; auto.
      + apply HB2; auto; lia.
    - intros a Ha. rewrite (Hzz a Ha). apply HB4; auto; lia.
    - intros Hch con z' Hin Hst. apply In_nth_error in Hin as [q Hq]. specialize (Hnl q con Hq). rewrite Hch in Hnl. unfold nl_holds in Hnl.
      rewrite Eco, Eu in Hnl. rewrite (Hst _ (pX0 par) u _ z' (pTvp par 0%nat) (pP par i) Hx0) in Hnl.
      unfold slack_of in Hnl. destruct (nl_ub con) as [ub|]; [|exact I]. cbn [le_ub] in Hnl.
      destruct (nl_soft con) as [[vmax pen]|] eqn:Es; [|lra].
      set (k := Nat.min 0 ((if single_slack c then 1 else N c) - 1)) in *. set (ai := List.length (soft_list (firstn q (nlc c)))) in *.
      assert (Hsplit : soft_list (nlc c) = soft_list (firstn q (nlc c)) ++ (vmax, pen) :: soft_list (skipn (Datatypes.S q) (nlc c))).
      { pose proof (nth_error_split (nlc c) q Hq) as (l1 & l2 & E & El). rewrite E.
        rewrite firstn_app, El, Nat.sub_diag. cbn [firstn]. rewrite app_nil_r, firstn_all2 by lia.
        rewrite skipn_app, El. rewrite skipn_all2 by lia. replace (Datatypes.S q - q)%nat with 1%nat by lia. cbn [skipn app].
        unfold soft_list. rewrite flat_map_app. cbn [flat_map]. rewrite Es. reflexivity. }
      assert (Hk : (k < (if single_slack c then 1 else N c))%nat) by (unfold k; destruct (single_slack c); lia).
      assert (Hai : (ai < List.length (soft_list (nlc c)))%nat).
      { rewrite Hsplit, app_length. cbn [List.length]. unfold ai. lia. }
      pose proof (HE k 0%nat ai Hk ltac:(lia) Hai) as [H0 H1].
      assert (Hnth : nth_error (soft_list (nlc c)) ai = Some (vmax, pen)).
      { rewrite Hsplit, nth_error_app2 by (unfold ai; lia). unfold ai. rewrite Nat.sub_diag. reflexivity. }
      rewrite Hnth in H1. cbn [fst ge_lb] in H0, H1. exists (oE pt k 0 ai). split; [exact H0|]. split; [exact H1|]. lra.
  Qed.
End First.

(** ** C81 *)
Section Main.
  Variable L : link.
  Notation mtrace := (list (@call (link_env L) * res (option (tU (link_env L))))).

  Lemma problem_of_link (tr : mtrace) pr obs : problem_for tr pr -> bounds_for tr obs -> (exists n, s_nhor (settings_of tr) = Some n) ->
    problem_of L tr (link_cfg L pr obs).
  Proof.
    destruct pr as [o rt nl sc st]. intros (P1 & P2 & P3 & P4 & P5) (B1 & B2 & B3) [n Hn]. cbn in P1, P2, P3, P4, P5. subst rt nl st.
    constructor; cbn.
    - cbn in Hn. rewrite Hn. reflexivity.
    - repeat (split; [reflexivity|]). reflexivity.
    - reflexivity.
    - rewrite P1. destruct o; reflexivity.
    - reflexivity.
    - intros q. split; [apply P4|]. split; apply P4.
    - intros q. rewrite <- !B1. auto.
    - intros q. rewrite <- !B1. auto.
    - intros q. rewrite <- !B1. auto.
    - intros q. exists (ob_term obs Lower q), (ob_term obs Upper q). split; [split; auto|]. split; [split; auto|]. auto.
  Qed.

  Lemma no_terminal_dec (tr : mtrace) s : no_terminal tr s \/ ~ no_terminal tr s.
  Proof.
    unfold no_terminal. generalize (n_of (link_env L) Vx). induction n as [|n IH]; [left; intros; lia|].
    destruct IH as [IH|IH]; [|right; intros H; apply IH; intros q Hq; apply H; lia].
    assert (D : terminal_of tr s n = no_bound s \/ terminal_of tr s n <> no_bound s).
    { destruct (terminal_of tr s n), s; cbn; (left; reflexivity) || (right; discriminate). }
    destruct D as [D|D]; [left|right].
    - intros q Hq. destruct (Nat.eq_dec q n) as [->|]; [exact D|apply IH; lia].
    - intros H. apply D, H. lia.
  Qed.
  Lemma terminal_bound_unique (tr : mtrace) s q b b' : terminal_bound L tr s q b -> terminal_bound L tr s q b' -> b = b'.
  Proof.
    intros [A1 A2] [B1 B2]. destruct (no_terminal_dec tr s) as [D|D]; [|rewrite A2, B2 by auto; reflexivity].
    destruct (s_term (settings_of tr)) eqn:E; [rewrite A1, B1 by auto|rewrite A2, B2 by auto]; reflexivity.
  Qed.

  (** From the first move of a feasible point to the demands of the history. *)
  Lemma interval_from (tr : mtrace) c par pt i z x' :
    problem_of L tr c -> (1 <= k_ncomb L)%nat -> (1 <= N c)%nat -> (forall t q, 0 < scaling_of tr t q) ->
    wf_model (k_mdl L) -> alg_unique (k_mdl L) -> feasible c par pt -> (i < k_ncomb L)%nat -> (k_nr L = 0%nat -> i = 0%nat) ->
    (forall a, (a < n_z (k_mdl L))%nat -> alg (k_mdl L) (pX0 par) (physU c pt 0 0) z (pTvp par 0%nat) (pP par i) vzero a = 0) ->
    x' = rhs (k_mdl L) (pX0 par) (physU c pt 0 0) z (pTvp par 0%nat) (pP par i) vzero ->
    interval_ok L tr (pX0 par) (physU c pt 0 0) (pTvp par 0%nat) (pP par i) x'.
  Proof.
    intros [PN (S1 & S2 & S3 & S4 & S5 & S6 & S7 & S8) Pl Po Pr Ps Px Pu Pz Pt] Hc HN Hsc Hwf Huq Hf Hi Hi0 Hz ->.
    assert (Hpos : scaling_pos c).
    { split; [|split]; intros a _; destruct (Ps a) as (E1 & E2 & E3); rewrite ?E1, ?E2, ?E3; apply Hsc. }
    assert (Hok : cfg_ok c).
    { split; [exact HN|]. split; [rewrite S2; exact Hc|]. split; [|rewrite S8; exact I]. intros a Ha. apply Rgt_not_eq, Hpos, Ha. }
    rewrite <- S7, <- S2, <- S1 in *.
    destruct (first_move c par pt Hok Hpos S8 Hwf Huq Hf i z Hi Hi0 Hz) as (F1 & F2 & F3 & F4).
    unfold interval_ok. rewrite <- S7, PN. split; [|split; [|split]].
    - intros a Ha. specialize (F1 a Ha). destruct (Pu a) as [E1 E2]. rewrite E1, E2 in F1. apply inside_of. exact F1.
    - intros a Ha. specialize (F2 a Ha). destruct (Nat.eqb (N c) 1).
      + intros lo hi T1 T2. destruct (Pt a) as (lo' & hi' & U1 & U2 & E1 & E2). rewrite E1, E2 in F2.
        rewrite (terminal_bound_unique tr _ _ _ _ T1 U1), (terminal_bound_unique tr _ _ _ _ T2 U2). apply inside_of. exact F2.
      + destruct (Px a) as [E1 E2]. rewrite E1, E2 in F2. apply inside_of. exact F2.
    - intros z' a Hz' Ha. destruct (first_move c par pt Hok Hpos S8 Hwf Huq Hf i z' Hi Hi0 Hz') as (_ & _ & F3' & _).
      specialize (F3' a Ha). destruct (Pz a) as [E1 E2]. rewrite E1, E2 in F3'. apply inside_of. exact F3'.
    - rewrite <- S6, <- Pl. exact F4.
  Qed.

  (** The root finder of the simulator solves the algebraic equations whenever they have a solution. *)
  Definition root_ok : Prop := forall z0 x u tv p,
    (exists z, forall a, (a < n_z (k_mdl L))%nat -> alg (k_mdl L) x u z tv p vzero a = 0) ->
    forall a, (a < n_z (k_mdl L))%nat -> alg (k_mdl L) x u (k_root L z0 x u tv p vzero) tv p vzero a = 0.

  Notation strace := (list (@scall (link_sim L) * res (option (sY (link_sim L))))).

  (** Plant and controller know the same time-varying parameters; the plant's parameters are at every time one of the
      combinations of the controller (the first one if there is no robust horizon). *)
  Definition plant_covered (tr : mtrace) (str : strace) : Prop :=
    (forall t : R, stvp_force str t = tvp_force tr t 0%nat) /\
    (forall t : R, exists i, (i < k_ncomb L)%nat /\ (k_nr L = 0%nat -> i = 0%nat) /\ sp_force str t = p_force tr t i).

  (** *** Objects ready to step *)
  Record mready (m : @mpc (link_env L)) tf pf pr obs dt : Prop := mkMR {
    y_set : m_setup m = true; y_tf : m_tvpf m = Some tf; y_pf : m_pf m = Some pf; y_pr : m_prob m = Some pr; y_ob : m_ob m = Some obs;
    y_ox : m_ox m <> None; y_dt : s_tstep (m_set m) = Some dt;
    y_f : (s_full (m_set m) = true -> fst (fst (m_fields m)) = true) /\ (s_lagr (m_set m) = true -> snd (fst (m_fields m)) = true) /\
          (s_stats (m_set m) = true -> snd (m_fields m) = true);
    y_sc : pr_scal pr = m_scal m }.

  Lemma ready_step m tf pf pr obs dt x : mready m tf pf pr obs dt ->
    exists m' u pt, make_step m (Good x) = (m', Ok u) /\ mready m' tf pf pr obs dt /\ m_t0 m' = m_t0 m + dt /\
      solved L (link_cfg L pr obs) (problem_params (x, m_u0 m, tf (m_t0 m), pf (m_t0 m))) pt /\ u = physU (link_cfg L pr obs) pt 0 0 /\
      r_x (m_data m') = r_x (m_data m) ++ [x] /\ r_u (m_data m') = r_u (m_data m) ++ [u] /\
      r_optp (m_data m') = r_optp (m_data m) ++ [(x, m_u0 m, tf (m_t0 m), pf (m_t0 m))].
  Proof.
    intros R. destruct (make_step m (Good x)) as [m' r] eqn:ES.
    destruct (make_step_cases _ _ _ _ ES) as [(x' & u & Hx & -> & [])|(e & -> & F)].
    - injection Hx as <-.
      rewrite (y_tf _ _ _ _ _ _ R) in Htf. injection Htf as <-. rewrite (y_pf _ _ _ _ _ _ R) in Hpf. injection Hpf as <-.
      rewrite (y_pr _ _ _ _ _ _ R) in Hpr. injection Hpr as <-. rewrite (y_ob _ _ _ _ _ _ R) in Hob. injection Hob as <-.
      rewrite (y_dt _ _ _ _ _ _ R) in Hdt. injection Hdt as <-.
      exists m', u, ox'. subst m'. split; [reflexivity|]. split.
      { destruct R. constructor; cbn; auto. discriminate. }
      split; [reflexivity|]. split; [eexists; eexists; eexists; eexists; eexists; exact HS|].
      split; [rewrite Hu, <- (y_sc _ _ _ _ _ _ R); reflexivity|].
      subst d. split; [reflexivity|]. split; reflexivity.
    - exfalso. destruct R as [Y1 Y2 Y3 Y4 Y5 Y6 Y7 (F1 & F2 & F3) Y9].
      unfold make_step in ES. rewrite Y1, Y2, Y3, Y4, Y5 in ES. destruct (m_ox m); [|congruence].
      cbv zeta in ES. destruct (MpcModel.S _ _ _ _ _ _) as [[[a1 a2] a3] a4]. destruct (m_fields m) as [[ff fl] fs]. cbn in F1, F2, F3.
      rewrite Y7 in ES. unfold optional_row in ES.
      destruct (s_full (m_set m)) eqn:G1; [rewrite (F1 G1) in ES|]; (destruct (s_lagr (m_set m)) eqn:G2; [rewrite (F2 G2) in ES|]);
      (destruct (s_stats (m_set m)) eqn:G3; [rewrite (F3 G3) in ES|]); discriminate.
  Qed.

  Record sready (s : @sim (link_sim L)) tfs pfs dt : Prop := mkSR {
    e_set : c_setup s = true; e_tf : c_tvpf s = Some tfs; e_pf : c_pf s = Some pfs; e_dt : c_tstep s = Some dt }.

  Lemma sready_step s tfs pfs dt u : sready s tfs pfs dt ->
    exists s' z, sim_step s (Some (Good u)) None None = (s', Ok (c_x0 s')) /\ sready s' tfs pfs dt /\ c_t0 s' = c_t0 s + dt /\
      z = (if Nat.eqb (n_z (k_mdl L)) 0 then c_simz s else k_root L (c_simz s) (c_x0 s) u (tfs (c_t0 s)) (pfs (c_t0 s)) vzero) /\
      c_x0 s' = rhs (k_mdl L) (c_x0 s) u z (tfs (c_t0 s)) (pfs (c_t0 s)) vzero /\
      q_x (c_data s') = q_x (c_data s) ++ [c_x0 s] /\ q_u (c_data s') = q_u (c_data s) ++ [u] /\ q_p (c_data s') = q_p (c_data s) ++ [pfs (c_t0 s)].
  Proof.
    intros [E1 E2 E3 E4]. exists (fst (sim_step s (Some (Good u)) None None)). eexists. unfold sim_step. rewrite E1, E2, E3, E4. cbn. split; [reflexivity|].
    split; [constructor; cbn; auto|]. repeat (split; [reflexivity|]). reflexivity.
  Qed.

  Theorem C81_closed_loop_constraints (n : nat) (hm : list (@call (link_env L))) m (tr : mtrace) (hs : list (@scall (link_sim L))) s (str : strace) :
    (forall t i pos, k_resolve L t i = Ok pos -> NoDup pos) ->
    (* controller and simulator: any regular histories with a successful setup, same clock and sampling time *)
    regular tr -> exec hm mpc_init = (m, tr) -> was_setup tr ->
    sordinary str -> sexec hs sim_init = (s, str) -> swas_setup str ->
    sclock str = clock tr -> stime_step str = s_tstep (settings_of tr) ->
    (* the problem *)
    wf_model (k_mdl L) -> alg_unique (k_mdl L) -> (1 <= k_ncomb L)%nat -> (forall t q, 0 < scaling_of tr t q) ->
    (forall nh, s_nhor (settings_of tr) = Some nh -> (1 <= nh)%nat) -> root_ok -> plant_covered tr str ->
    exists c m' s' xs us ps pars,
      problem_of L tr c /\
      (* the loop runs through; what is recorded *)
      loop (E := link_env L) (F := link_sim L) (fun u => u) (fun y => y) n m s (c_x0 s) = (m', s', Ok (c_x0 s')) /\
      List.length xs = n /\ List.length us = n /\ List.length ps = n /\ List.length pars = n /\
      r_x (m_data m') = r_x (m_data m) ++ xs /\ q_x (c_data s') = q_x (c_data s) ++ xs /\
      r_u (m_data m') = r_u (m_data m) ++ us /\ q_u (c_data s') = q_u (c_data s) ++ us /\
      q_p (c_data s') = q_p (c_data s) ++ ps /\ r_optp (m_data m') = r_optp (m_data m) ++ pars /\
      nth_error (xs ++ [c_x0 s']) 0 = Some (c_x0 s) /\
      (* every step whose solver result is feasible keeps the constraints *)
      forall k x u p par, nth_error xs k = Some x -> nth_error us k = Some u -> nth_error ps k = Some p -> nth_error pars k = Some par ->
        pX0 (problem_params par) = x /\
        exists pt x', nth_error (xs ++ [c_x0 s']) (k + 1) = Some x' /\ solved L c (problem_params par) pt /\ u = physU c pt 0 0 /\
          (feasible c (problem_params par) pt -> interval_ok L tr x u (pTvp (problem_params par) 0%nat) p x').
  Proof.
    intros ND Rg He Ws Os Hs Wss Hck Hdt Hwf Huq Hc Hsc HN Hroot Hcov.
    destruct (inv4_reach (E := link_env L) ND hm m tr Rg He) as (I0 & J0 & K0 & H0).
    assert (Hset : m_setup m = true).
    { destruct (C14_ordinary_histories hm m tr (proj1 Rg) He) as (_ & _ & _ & _ & _ & Hok). destruct (Hok Ws (c_x0 s)) as (m1 & u & ES).
      destruct (make_step_cases _ _ _ _ ES) as [(? & ? & _ & _ & [])|(? & Q & _)]; [exact Hset|discriminate]. }
    destruct (problem_for_of m tr I0 J0 H0 Hset) as (pr & Hpr & Hp & Hs0).
    destruct (bounds_for_of m tr I0 H0 Hset) as (obs & Hob & Hb).
    set (c := link_cfg L pr obs).
    destruct (sinv2_reach hs s str Os Hs) as [I J].
    assert (CS : c_setup s = true) by (apply (v_setup _ _ I); exact Wss).
    destruct (j2_dt _ _ J CS) as [_ D2]. destruct (v_have _ _ I CS) as (D3 & D4 & _).
    destruct (c_tstep s) as [dt|] eqn:CT; [|congruence].
    assert (SR : sready s (stvp_force str) (sp_force str) dt).
    { constructor; auto.
      - unfold stvp_force. pose proof (v_t _ _ I) as A. unfold sagree in A. destruct (stvp_of str); [congruence|]. destruct A; congruence.
      - unfold sp_force. pose proof (v_p _ _ I) as A. unfold sagree in A. destruct (sp_of str); [congruence|]. destruct A; congruence. }
    assert (DT : s_tstep (m_set m) = Some dt) by (rewrite (i_s _ _ I0), <- Hdt, <- (v_ts _ _ I); exact CT).
    assert (Hpd : m_pend m <> None) by (apply (i_prob _ _ I0), (i_set _ _ I0); exact Hset).
    destruct (i_have _ _ I0 Hpd) as (_ & X1 & X2 & X3).
    assert (MR : mready m (tvp_force tr) (p_force tr) pr obs dt).
    { constructor; auto.
      - unfold tvp_force. pose proof (i_t _ _ I0) as A. unfold MpcProofs.agree in A. destruct (tvp_of tr); [congruence|]. destruct A; congruence.
      - unfold p_force. pose proof (i_p _ _ I0) as A. unfold MpcProofs.agree in A. destruct (p_of tr); [congruence|]. destruct A; congruence.
      - apply (j_f _ _ J0 Hset). }
    assert (PO : problem_of L tr c).
    { apply problem_of_link; auto. pose proof (j_nhor _ _ J0 Hset) as Q. rewrite (i_s _ _ I0) in Q. destruct (s_nhor (settings_of tr)) as [nh|]; [eauto|congruence]. }
    assert (HNc : (1 <= N c)%nat) by (apply HN; apply (po_N _ _ _ PO)).
    assert (CK : m_t0 m = c_t0 s).
    { assert (A : clock tr = m_t0 m) by (unfold clock; rewrite (i_c _ _ I0); reflexivity).
      assert (B : sclock str = c_t0 s) by (unfold sclock; rewrite (v_ck _ _ I); reflexivity). rewrite <- A, <- B. symmetry. exact Hck. }
    clear - Hwf Huq Hc Hsc Hroot Hcov SR MR PO HNc CK.
    exists c. revert m s MR SR CK. induction n as [|n IH]; intros m s MR SR CK.
    - exists m, s, [], [], [], []. cbn [loop]. rewrite !app_nil_r. split; [exact PO|]. repeat (split; [reflexivity|]).
      intros [|k] x u p par Q; discriminate Q.
    - destruct (ready_step m _ _ _ _ _ (c_x0 s) MR) as (m1 & u & pt & ES & MR1 & T1 & SO & EU & RX & RU & RP).
      destruct (sready_step s _ _ _ u SR) as (s1 & z & SS & SR1 & T2 & EZ & EX & QX & QU & QP).
      destruct (IH m1 s1 MR1 SR1) as (m' & s' & xs & us & ps & pars & _ & LO & L1 & L2 & L3 & L4 & A1 & A2 & A3 & A4 & A5 & A6 & FI & ST); [rewrite T1, T2, CK; reflexivity|].
      exists m', s', (c_x0 s :: xs), (u :: us), (sp_force str (c_t0 s) :: ps), ((c_x0 s, m_u0 m, tvp_force tr (m_t0 m), p_force tr (m_t0 m)) :: pars).
      split; [exact PO|]. split; [cbn [loop]; rewrite ES, SS; exact LO|].
      split; [exact (f_equal Datatypes.S L1)|]. split; [exact (f_equal Datatypes.S L2)|]. split; [exact (f_equal Datatypes.S L3)|]. split; [exact (f_equal Datatypes.S L4)|].
      split; [rewrite A1, RX, <- app_assoc; reflexivity|]. split; [rewrite A2, QX, <- app_assoc; reflexivity|].
      split; [rewrite A3, RU, <- app_assoc; reflexivity|]. split; [rewrite A4, QU, <- app_assoc; reflexivity|].
      split; [rewrite A5, QP, <- app_assoc; reflexivity|]. split; [rewrite A6, RP, <- app_assoc; reflexivity|].
      split; [reflexivity|].
      intros [|k] x v p par K1 K2 K3 K4.
      + cbn in K1, K2, K3, K4. injection K1 as <-. injection K2 as <-. injection K3 as <-. injection K4 as <-.
        split; [reflexivity|]. exists pt, (c_x0 s1). split; [exact FI|].
        split; [exact SO|]. split; [exact EU|]. intros Hf.
        destruct Hcov as [Hv Hpp]. destruct (Hpp (c_t0 s)) as (i & Hi & Hi0 & Ei).
        set (par := problem_params (c_x0 s, m_u0 m, tvp_force tr (m_t0 m), p_force tr (m_t0 m))) in *.
        change (c_x0 s) with (pX0 par). rewrite Ei, <- CK. change (p_force tr (m_t0 m) i) with (pP par i). rewrite EU.
        assert (E1 : stvp_force str (c_t0 s) = pTvp par 0%nat) by (rewrite Hv, <- CK; reflexivity).
        assert (E2 : sp_force str (c_t0 s) = pP par i) by (rewrite Ei, <- CK; reflexivity).
        rewrite E1, E2, EU in EX, EZ.
        apply (interval_from tr c par pt i z); auto.
        rewrite EZ. intros a Ha. destruct (Nat.eqb_spec (n_z (k_mdl L)) 0) as [E0|E0]; [lia|].
        apply Hroot; [|exact Ha].
        destruct PO as [PN (S1 & S2 & S3 & S4 & S5 & S6 & S7 & S8) Pl Po Pr Ps Px Pu Pz Pt].
        assert (Hpos : scaling_pos c).
        { split; [|split]; intros q _; destruct (Ps q) as (Q1 & Q2 & Q3); rewrite ?Q1, ?Q2, ?Q3; apply Hsc. }
        assert (Hok : cfg_ok c).
        { split; [exact HNc|]. split; [rewrite S2; exact Hc|]. split; [|rewrite S8; exact Logic.I]. intros q Hq. apply Rgt_not_eq, Hpos, Hq. }
        rewrite <- S7, <- S2, <- S1 in *. apply (first_alg c par pt Hok Hpos S8 Hwf Hf i Hi Hi0).
      + cbn in K1, K2, K3, K4. apply (ST k x v p par K1 K2 K3 K4).
  Qed.

  (** With a solver that finds a feasible point whenever there is one, and a horizon of at least two steps: as long as
      the problems are solvable, every state after the first one is inside the state bounds assigned last. *)
  Theorem C81_states_within_bounds (n : nat) (hm : list (@call (link_env L))) m (tr : mtrace) (hs : list (@scall (link_sim L))) s (str : strace) nh :
    (forall t i pos, k_resolve L t i = Ok pos -> NoDup pos) ->
    regular tr -> exec hm mpc_init = (m, tr) -> was_setup tr ->
    sordinary str -> sexec hs sim_init = (s, str) -> swas_setup str ->
    sclock str = clock tr -> stime_step str = s_tstep (settings_of tr) ->
    wf_model (k_mdl L) -> alg_unique (k_mdl L) -> (1 <= k_ncomb L)%nat -> (forall t q, 0 < scaling_of tr t q) ->
    s_nhor (settings_of tr) = Some nh -> (2 <= nh)%nat -> root_ok -> plant_covered tr str ->
    (forall c par ox l, problem_of L tr c -> (exists pt, feasible c par pt) -> feasible c par (fst (fst (fst (k_solve L c par ox l))))) ->
    exists c m' s' xs pars,
      problem_of L tr c /\
      loop (E := link_env L) (F := link_sim L) (fun u => u) (fun y => y) n m s (c_x0 s) = (m', s', Ok (c_x0 s')) /\
      List.length xs = n /\ q_x (c_data s') = q_x (c_data s) ++ xs /\ r_optp (m_data m') = r_optp (m_data m) ++ pars /\
      ((forall par, In par pars -> exists pt, feasible c (problem_params par) pt) ->
       forall k x a, (1 <= k)%nat -> nth_error (xs ++ [c_x0 s']) k = Some x -> (a < n_x (k_mdl L))%nat ->
         above (bound_of tr Lower Vx a) (x a) /\ below (bound_of tr Upper Vx a) (x a)).
  Proof.
    intros ND Rg He Ws Os Hs Wss Hck Hdt Hwf Huq Hc Hsc Hnh HN Hroot Hcov Hsol.
    destruct (C81_closed_loop_constraints n hm m tr hs s str ND Rg He Ws Os Hs Wss Hck Hdt Hwf Huq Hc Hsc) as
      (c & m' & s' & xs & us & ps & pars & PO & LO & L1 & L2 & L3 & L4 & _ & A2 & _ & _ & _ & A6 & _ & ST); auto.
    { intros nh' E. rewrite Hnh in E. injection E as <-. lia. }
    exists c, m', s', xs, pars. repeat (split; [assumption|]). intros Hfe k x a Hk Hx Ha.
    assert (Hkn : (k < n + 1)%nat).
    { assert (Q : nth_error (xs ++ [c_x0 s']) k <> None) by (intros Q; exact (eq_ind None (fun o => match o with None => True | Some _ => False end) I _ (eq_trans (eq_sym Q) Hx))). apply nth_error_Some in Q. rewrite app_length in Q. cbn in Q. cbn in L1. lia. }
    destruct k as [|k]; [lia|]. assert (Hk' : (k < n)%nat) by lia.
    destruct (nth_error xs k) as [x0|] eqn:E1; [|apply nth_error_None in E1; cbn in E1, L1; lia].
    destruct (nth_error us k) as [u|] eqn:E2; [|apply nth_error_None in E2; cbn in E2, L2; lia].
    destruct (nth_error ps k) as [p|] eqn:E3; [|apply nth_error_None in E3; cbn in E3, L3; lia].
    destruct (nth_error pars k) as [par|] eqn:E4; [|apply nth_error_None in E4; cbn in E4, L4; lia].
    destruct (ST k x0 u p par E1 E2 E3 E4) as (_ & pt & x' & Ex & (ox & l & lg & lx & st & Eso) & _ & Hi).
    replace (k + 1)%nat with (Datatypes.S k) in Ex by lia. pose proof (eq_trans (eq_sym Hx) Ex) as Exx. injection Exx as <-.
    assert (Hf : feasible c (problem_params par) pt).
    { specialize (Hsol c (problem_params par) ox l PO). rewrite Eso in Hsol. apply Hsol. apply Hfe. eapply nth_error_In. exact E4. }
    destruct (Hi Hf) as (_ & Hst & _). specialize (Hst a Ha). rewrite Hnh in Hst.
    destruct (Nat.eqb_spec nh 1) as [E|_]; [lia|exact Hst].
  Qed.
End Main.
Print Assumptions C81_closed_loop_constraints.
Print Assumptions C81_states_within_bounds.
