(** * C80: the plan of the robust controller respects the constraints for every realisation of the
    uncertain parameters.  Stated without the scenario tree: a policy (what to do after the parameters seen so
    far) and a plant simulated with it. *)
From Coq Require Import Reals Lra.
From Verif Require Import Base TreeModel TreeSpec TreeProofs TreeProofs2 NlpModel NlpSpec NlpProofs NlpProofs2 NlpProofs3 NlpProofs4 NlpProps.
Local Open Scope R_scope.

(** The discrete-time plant under inputs u, algebraic states z, time-varying parameters tvp, parameters p. *)
Fixpoint plant (m : dyn_model) (x0 : vec) (u z tvp p : nat -> vec) (k : nat) : vec :=
  match k with
  | O => x0
  | S k' => rhs m (plant m x0 u z tvp p k') (u k') (z k') (tvp k') (p k') vzero
  end.
(** The algebraic equations have at most one solution. *)
Definition alg_unique (m : dyn_model) : Prop :=
  forall x u tvp p z z', (forall a, (a < n_z m)%nat -> alg m x u z tvp p vzero a = 0) -> (forall a, (a < n_z m)%nat -> alg m x u z' tvp p vzero a = 0) ->
    agree (n_z m) z z'.
(** A sequence of parameter combinations (rows of the table of uncertainty values): free in the robust horizon,
    constant afterwards; without robust horizon the nominal one. *)
Definition realisation (c : cfg) (ps : nat -> nat) : Prop :=
  (forall k, (k < nr c)%nat -> (ps k < ncomb c)%nat) /\
  (forall k, (nr c <= k)%nat -> ps k = if (nr c =? 0)%nat then 0%nat else ps (nr c - 1)%nat).
(** A constraint function sees the declared states only (constraints on algebraic states: see
    C09_algebraic_constraint_refuted). *)
Definition state_constraint (m : dyn_model) (con : nl_con) : Prop :=
  forall x x' u z z' tvp p, agree (n_x m) x x' -> nl_g con x u z tvp p = nl_g con x' u z' tvp p.

Theorem C80_robust_plan :
  forall c par pt, cfg_ok c -> scaling_pos c -> disc c = Discrete -> wf_model (mdl c) -> alg_unique (mdl c) -> feasible c par pt ->
  exists policy : list nat -> vec,
    policy [] = physU c pt 0 0 /\
    forall (ps : nat -> nat) (z : nat -> vec), realisation c ps ->
      let u := fun k => policy (map ps (seq 0 k)) in
      let p := fun k => pP par (ps k) in
      let x := plant (mdl c) (pX0 par) u z (pTvp par) p in
      (forall k a, (k < N c)%nat -> (a < n_z (mdl c))%nat -> alg (mdl c) (x k) (u k) (z k) (pTvp par k) (p k) vzero a = 0) ->
      (forall k a, (k < N c)%nat -> (a < n_u (mdl c))%nat -> inside (ulb c a) (uub c a) (u k a)) /\
      (forall k a, (1 <= k < N c)%nat -> (a < n_x (mdl c))%nat -> inside (xlb c a) (xub c a) (x k a)) /\
      (forall a, (a < n_x (mdl c))%nat -> inside (tlb c a) (tub c a) (x (N c) a)) /\
      (forall k a, (k < N c)%nat -> (a < n_z (mdl c))%nat -> inside (zlb c a) (zub c a) (z k a)) /\
      (nl_chk_colloc c = false -> forall k con, (k < N c)%nat -> In con (nlc c) -> state_constraint (mdl c) con ->
         match nl_ub con with
         | None => True
         | Some ub => match nl_soft con with
                      | None => nl_g con (x k) (u k) (z k) (pTvp par k) (p k) <= ub
                      | Some (vmax, _) => exists eps, 0 <= eps /\ le_ub eps vmax /\ nl_g con (x k) (u k) (z k) (pTvp par k) (p k) <= ub + eps
                      end
         end).
Proof.
  intros c par pt Hok Hpos Hd Hwf Huq Hf.
  assert (HN : (1 <= N c)%nat) by apply Hok. assert (Hc : (1 <= ncomb c)%nat) by apply Hok.
  destruct (tree_exists (ncomb c) (nr c) (N c)) as [t Ht]; [lia..|].
  pose proof Hf as [_ (pp & Epp & Hsat)].
  destruct (C05_inputs_are_non_anticipative c par pt t pp Hok Ht Epp Hsat) as (policy0 & _ & Hpol).
  exists (fun h => match h with [] => physU c pt 0 0 | _ => policy0 h end). split; [reflexivity|].
  intros ps z [Hps Hpe] u p x Halg.
  destruct (sequences_label_leaves (ncomb c) (nr c) (N c) Hc HN t Ht ps Hps) as (j & _ & (node & br & HP & _ & Hcomb) & _).
  assert (Hco : forall k, (k < N c)%nat -> Z.to_nat (combination_on t node br k) = ps k).
  { intros k Hk. destruct (Nat.lt_ge_cases k (nr c)) as [Hk'|Hk'].
    - rewrite Hcomb by auto. apply Nat2Z.id.
    - rewrite (Hpe k Hk'). destruct (Nat.eqb_spec (nr c) 0) as [E0|E0].
      + rewrite (combination_after (ncomb c) (nr c) (N c) Hc HN t Ht node br k HP Hk Hk'). rewrite E0. reflexivity.
      + rewrite (combination_stays (ncomb c) (nr c) (N c) Hc HN t Ht node br k HP) by lia. rewrite Hcomb by lia. apply Nat2Z.id. }
  assert (N0 : node 0%nat = 0%nat) by apply HP.
  assert (Hu : forall k, (k < N c)%nat -> u k = scen_u c pt node k).
  { intros k Hk. unfold u. destruct k as [|k].
    - cbn. unfold scen_u. rewrite N0. unfold uidx. destruct (open_loop c); reflexivity.
    - destruct (Hpol node br HP (S k) Hk) as [E _]. cbv zeta in E.
      assert (Em : map (fun i => Z.to_nat (combination_on t node br i)) (seq 0 (S k)) = map ps (seq 0 (S k))).
      { apply map_ext_in. intros i Hi. apply in_seq in Hi. apply Hco. lia. }
      rewrite Em in E. cbn [seq map]. cbn [seq map] in E. exact E. }
  apply (feasible_iff c par pt Hok Hpos) in Hf. destruct Hf as (((HB1 & HB2 & HB3 & HB4) & _ & HE) & Hini & Hedge).
  assert (Hdyn : discrete_dynamics c par pt t). { apply (discrete_iff c Hok t Ht par pt Hd). intros k s b He. apply (Hedge k s b He). }
  assert (Hx : forall k, (k <= N c)%nat -> agree (n_x (mdl c)) (x k) (scen_x c pt node k) /\ ((k < N c)%nat -> agree (n_z (mdl c)) (z k) (scen_z c pt node k 0))).
  { assert (HZ : forall k, (k < N c)%nat -> agree (n_x (mdl c)) (x k) (scen_x c pt node k) -> agree (n_z (mdl c)) (z k) (scen_z c pt node k 0)).
    { intros k Hk Hxk. destruct (Hdyn node br HP k Hk) as [_ Hz].
      apply (Huq (scen_x c pt node k) (scen_u c pt node k) (pTvp par k) (scen_p par t node br k)); [|exact Hz].
      intros a Ha. rewrite <- (Halg k a Hk Ha). unfold scen_p. rewrite (Hco k Hk). fold (p k). rewrite (Hu k Hk). symmetry.
      apply Hwf; [exact Hxk|intros ? ?; reflexivity|exact Ha]. }
    intros k. induction k as [|k IH]; intros Hk.
    - assert (H0 : agree (n_x (mdl c)) (x 0%nat) (scen_x c pt node 0)).
      { intros a Ha. unfold scen_x. rewrite N0. symmetry. exact (Hini a Ha). }
      split; [exact H0|]. intros Hk'. apply HZ; auto.
    - destruct (IH ltac:(lia)) as [IHx IHz]. specialize (IHz ltac:(lia)).
      assert (H1 : agree (n_x (mdl c)) (x (S k)) (scen_x c pt node (S k))).
      { intros a Ha. destruct (Hdyn node br HP k ltac:(lia)) as [Hs _]. replace (S k) with (k + 1)%nat at 2 by lia. rewrite (Hs a Ha).
        unfold x. cbn [plant]. fold x. unfold scen_p. rewrite (Hco k) by lia. fold (p k). rewrite (Hu k) by lia. apply Hwf; auto. }
      split; [exact H1|]. intros Hk'. apply HZ; auto. }
  assert (Hnode : forall k, (k <= N c)%nat -> (node k < nmax c)%nat).
  { intros k Hk. pose proof (path_in_range (ncomb c) (nr c) (N c) Hc HN t Ht node br HP k Hk) as Hr. pose proof (nodes_le_nmax c HN Hc k). lia. }
  split; [|split; [|split; [|split]]].
  - intros k a Hk Ha. rewrite (Hu k Hk). apply HB1; auto. unfold uidx, n_u_scenarios. pose proof (Hnode k ltac:(lia)). destruct (open_loop c); lia.
  - intros k a Hk Ha. destruct (Hx k ltac:(lia)) as [Hk' _]. rewrite (Hk' a Ha). apply HB2; auto. apply Hnode. lia.
  - intros a Ha. destruct (Hx (N c) ltac:(lia)) as [Hk' _]. rewrite (Hk' a Ha). apply HB3; auto.
  - intros k a Hk Ha. destruct (Hx k ltac:(lia)) as [_ Hk']. rewrite (Hk' Hk a Ha). apply HB4; auto. apply Hnode. lia.
  - intros Hnl k con Hk Hin Hst. apply In_nth_error in Hin as [i Hi].
    destruct (path_edge c Hok t Ht node br k HP Hk) as (He & _ & Eco).
    destruct (Hedge _ _ _ He) as [_ Hstep]. specialize (Hstep i con Hi). rewrite Hnl in Hstep. unfold nl_holds in Hstep.
    rewrite <- Eco, (Hco k Hk) in Hstep. change (stateX c pt k (node k)) with (scen_x c pt node k) in Hstep.
    change (physU c pt k (uidx c (node k))) with (scen_u c pt node k) in Hstep. rewrite <- (Hu k Hk) in Hstep.
    destruct (Hx k ltac:(lia)) as [Hxk _].
    rewrite <- (Hst (x k) _ (u k) (z k) _ (pTvp par k) (p k) Hxk) in Hstep.
    unfold slack_of in Hstep. destruct (nl_ub con) as [ub|]; [|exact I]. cbn [le_ub] in Hstep.
    destruct (nl_soft con) as [[vmax pen]|] eqn:Es; [|lra].
    set (q := Nat.min k ((if single_slack c then 1 else N c) - 1)) in *. set (ai := List.length (soft_list (firstn i (nlc c)))) in *.
    assert (Hsplit : soft_list (nlc c) = soft_list (firstn i (nlc c)) ++ (vmax, pen) :: soft_list (skipn (S i) (nlc c))).
    { pose proof (nth_error_split (nlc c) i Hi) as (l1 & l2 & E & El). rewrite E.
      rewrite firstn_app, El, Nat.sub_diag. cbn [firstn]. rewrite app_nil_r, firstn_all2 by lia.
      rewrite skipn_app, El. rewrite skipn_all2 by lia. replace (S i - i)%nat with 1%nat by lia. cbn [skipn app].
      unfold soft_list. rewrite flat_map_app. cbn [flat_map]. rewrite Es. reflexivity. }
    assert (Hq : (q < (if single_slack c then 1 else N c))%nat) by (unfold q; destruct (single_slack c); lia).
    assert (Hai : (ai < List.length (soft_list (nlc c)))%nat).
    { rewrite Hsplit, app_length. cbn [List.length]. unfold ai. lia. }
    pose proof (HE q (node k) ai Hq (Hnode k ltac:(lia)) Hai) as [H0 H1].
    assert (Hnth : nth_error (soft_list (nlc c)) ai = Some (vmax, pen)).
    { rewrite Hsplit, nth_error_app2 by (unfold ai; lia). unfold ai. rewrite Nat.sub_diag. reflexivity. }
    rewrite Hnth in H1. cbn [fst ge_lb] in H0, H1. exists (oE pt q (node k) ai). split; [exact H0|]. split; [exact H1|]. lra.
Qed.
Print Assumptions C80_robust_plan.

Example C80_nonvacuous :
  let c := ex_cfg 2 1 2 false 0 ex_soft (fun _ _ _ _ _ => 0) (fun _ _ _ => 0) in
  cfg_ok c /\ scaling_pos c /\ disc c = Discrete /\ wf_model (mdl c) /\ alg_unique (mdl c) /\ feasible c ex_par ex_soft_pt /\
  realisation c (fun _ => 1%nat) /\ realisation c (fun _ => 0%nat) /\ (forall con, In con (nlc c) -> state_constraint (mdl c) con).
Proof.
  intros c. destruct C09_nonvacuous as (H1 & H2 & H3). split; [exact H1|]. split; [exact H2|]. split; [reflexivity|].
  split; [|split; [|split; [exact H3|split; [|split]]]].
  - intros x x' u z z' tvp p w Hx Hz. split; intros a Ha; cbn in *; [rewrite (Hx a Ha); reflexivity|lia].
  - intros x u tvp p z z' _ _ a Ha. cbn in Ha. lia.
  - split; cbn; intros; [lia|]. reflexivity.
  - split; cbn; intros; [lia|]. reflexivity.
  - intros con [<-|[<-|[]]] x x' u z z' tvp p Hx; cbn in *; apply Hx; lia.
Qed.
