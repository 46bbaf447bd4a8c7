(** * Proofs: scenario level, bounds, scaling. *)
From Coq Require Import Reals Lra FunctionalExtensionality.
From Verif Require Import Base TreeModel TreeSpec TreeProofs TreeProofs2 NlpModel NlpSpec NlpProofs NlpProofs2 NlpProofs3.
Local Open Scope R_scope.

Section Paths.
  Variable c : cfg.
  Hypothesis Hok : cfg_ok c.
  Variable t : tree.
  Hypothesis Ht : setup_scenario_tree (ncomb c) (nr c) (N c) = Ok t.
  Let HN : (1 <= N c)%nat. Proof. apply Hok. Qed.
  Let Hc : (1 <= ncomb c)%nat. Proof. apply Hok. Qed.

  Lemma path_edge node br k : scenario c t node br -> (k < N c)%nat ->
    is_edge c k (node k) (br k) /\ childnode c k (node k) (br k) = node (k+1)%nat /\
    Z.to_nat (combination_on t node br k) = comb c k (node k) (br k).
  Proof.
    intros HP Hk.
    assert (He : is_edge c k (node k) (br k)).
    { split; [exact Hk|]. split.
      - apply (path_in_range (ncomb c) (nr c) (N c) Hc HN t Ht _ _ HP). lia.
      - apply HP. exact Hk. }
    split; [exact He|]. split.
    - unfold childnode, fan_of. symmetry. apply (path_step (ncomb c) (nr c) (N c) Hc HN t Ht _ _ HP k Hk).
    - rewrite <- (cur_is c HN Hc t Ht k _ _ He). reflexivity.
  Qed.

  Lemma node_on_path k s : (k <= N c)%nat -> (s < width_of c k)%nat ->
    exists br, (forall i, (br i < fan (ncomb c) (nr c) i)%nat) /\ walk (ncomb c) (nr c) br k = s.
  Proof.
    revert s. induction k as [|k IH]; intros s Hk Hs.
    - exists (fun _ => 0%nat). split; [intros i; pose proof (fan_pos (ncomb c) (nr c) Hc i); lia|].
      unfold width_of, nodes in Hs; simpl in Hs. simpl. lia.
    - pose proof (fan_pos (ncomb c) (nr c) Hc k) as Hf.
      destruct (IH (s / fan (ncomb c) (nr c) k)%nat ltac:(lia)) as (br & Hb & Hw).
      { unfold width_of in *. rewrite <- Nat.add_1_r, nodes_S in Hs. apply Nat.div_lt_upper_bound; lia. }
      exists (fun i => if (i =? k)%nat then (s mod fan (ncomb c) (nr c) k)%nat else br i). split.
      + intros i. destruct (Nat.eqb_spec i k); [subst; apply Nat.mod_upper_bound; lia|apply Hb].
      + cbn [walk]. rewrite Nat.eqb_refl.
        assert (Hext : forall f g m, (forall i, (i < m)%nat -> f i = g i) -> walk (ncomb c) (nr c) f m = walk (ncomb c) (nr c) g m).
        { intros f g m. induction m as [|m IHm]; intros Hfg; [reflexivity|]. cbn [walk].
          rewrite IHm by (intros; apply Hfg; lia). rewrite Hfg by lia. reflexivity. }
        rewrite (Hext _ br).
        * rewrite Hw. rewrite (Nat.div_mod s (fan (ncomb c) (nr c) k)) at 3 by lia. lia.
        * intros i Hi. destruct (Nat.eqb_spec i k); [lia|reflexivity].
  Qed.

  Lemma walk_ext f g m : (forall i, (i < m)%nat -> f i = g i) -> walk (ncomb c) (nr c) f m = walk (ncomb c) (nr c) g m.
  Proof. induction m as [|m IHm]; intros Hfg; [reflexivity|]. cbn [walk].
    rewrite IHm by (intros; apply Hfg; lia). rewrite Hfg by lia. reflexivity. Qed.

  Lemma edge_on_path k s b : is_edge c k s b ->
    exists node br, scenario c t node br /\ node k = s /\ br k = b.
  Proof.
    intros (Hk & Hs & Hb). destruct (node_on_path k s ltac:(lia) Hs) as (br & Hbr & Hw).
    set (br' := fun i => if (i =? k)%nat then b else br i).
    exists (walk (ncomb c) (nr c) br'), br'. split; [|split].
    - apply (walk_is_path (ncomb c) (nr c) (N c) Hc HN t Ht). intros i Hi. unfold br'.
      destruct (Nat.eqb_spec i k); [subst; exact Hb|apply Hbr].
    - rewrite <- Hw. apply walk_ext. intros i Hi. unfold br'. destruct (Nat.eqb_spec i k); [lia|reflexivity].
    - unfold br'. rewrite Nat.eqb_refl. reflexivity.
  Qed.

  (** the node of step k is determined by the combinations of the steps before *)
  Lemma node_by_history node br k : scenario c t node br -> (k <= N c)%nat ->
    node k = walk (ncomb c) (nr c)
      (fun i => if (i <? nr c)%nat
                then nth i (map (fun i => Z.to_nat (combination_on t node br i)) (seq 0 k)) 0%nat else 0%nat) k.
  Proof.
    intros HP Hk. rewrite (path_is_walk (ncomb c) (nr c) (N c) Hc HN t Ht _ _ HP k Hk).
    apply walk_ext. intros i Hi. rewrite nth_map_seq by exact Hi.
    destruct (Nat.ltb_spec i (nr c)) as [L|L].
    - rewrite (combination_before (ncomb c) (nr c) (N c) Hc HN t Ht _ _ i HP) by lia. rewrite Nat2Z.id. reflexivity.
    - destruct (path_step (ncomb c) (nr c) (N c) Hc HN t Ht _ _ HP i ltac:(lia)) as [_ B].
      unfold fan in B. destruct (Nat.ltb_spec i (nr c)); lia.
  Qed.

  Variable par : params.
  Variable pt : point.

  Lemma discrete_iff : disc c = Discrete ->
    (forall k s b, is_edge c k s b -> model_step c par pt k s b) <-> discrete_dynamics c par pt t.
  Proof.
    intros Hd. unfold discrete_dynamics, model_step, model_step_with. split.
    - intros H node br HP k Hk. destruct (path_edge node br k HP Hk) as (He & Ech & Eco).
      specialize (H _ _ _ He). rewrite Hd in H. destruct H as [H1 H2].
      unfold scen_x, scen_u, scen_z, scen_p. rewrite Eco, <- Ech. split; assumption.
    - intros H k s b He. rewrite Hd. destruct (edge_on_path k s b He) as (node & br & HP & E1 & E2).
      assert (Hk : (k < N c)%nat) by apply He.
      destruct (path_edge node br k HP Hk) as (_ & Ech & Eco).
      destruct (H node br HP k Hk) as [H1 H2].
      unfold scen_x, scen_u, scen_z, scen_p in *. rewrite Eco, <- Ech, E1, E2 in H1, H2. split; assumption.
  Qed.
End Paths.

(** ** Bounds *)
Lemma scale_ge s b v : 0 < s -> ge_lb v (scale_bound s b) <-> ge_lb (v * s) b.
Proof.
  intros Hs. destruct b as [l|]; simpl; [|tauto]. split; intros H.
  - apply (Rmult_le_compat_r s) in H; [|lra]. replace (l / s * s) with l in H by (field; lra). exact H.
  - apply (Rmult_le_reg_r s); [exact Hs|]. replace (l / s * s) with l by (field; lra). exact H.
Qed.
Lemma scale_le s b v : 0 < s -> le_ub v (scale_bound s b) <-> le_ub (v * s) b.
Proof.
  intros Hs. destruct b as [l|]; simpl; [|tauto]. split; intros H.
  - apply (Rmult_le_compat_r s) in H; [|lra]. replace (l / s * s) with l in H by (field; lra). exact H.
  - apply (Rmult_le_reg_r s); [exact Hs|]. replace (l / s * s) with l by (field; lra). exact H.
Qed.
Lemma scale_inside s lb ub v : 0 < s ->
  (ge_lb v (scale_bound s lb) /\ le_ub v (scale_bound s ub)) <-> inside lb ub (v * s).
Proof. intros Hs. rewrite scale_ge, scale_le by assumption. reflexivity. Qed.

Lemma bounds_iff c pt : scaling_pos c -> (1 <= N c)%nat ->
  within_bounds c pt <->
  (physical_bounds c pt /\ (chk_colloc c = true -> colloc_bounds c pt) /\ slack_bounds c pt).
Proof.
  intros (Px & Pu & Pz) HN. unfold within_bounds, physical_bounds, colloc_bounds, slack_bounds.
  assert (Hns : n_slack (nlc c) = List.length (soft_list (nlc c))).
  { unfold n_slack. rewrite slack_index_soft, firstn_all. reflexivity. }
  split.
  - intros (HX & HZ & HU & HE). split; [split; [|split; [|split]]|split; [split|]].
    + intros k s a Hk Hs Ha. apply scale_inside; [auto|]. apply HU; auto.
    + intros k s a Hk Hs Ha. specialize (HX k s (last_x c) a ltac:(lia) Hs ltac:(lia) Ha).
      unfold lb_x, ub_x, bx, in_x_range in HX. rewrite Nat.eqb_refl, !andb_true_r, orb_true_r in HX.
      destruct (Nat.eqb_spec k (N c)); [lia|]. destruct (Nat.leb_spec 1 k), (Nat.ltb_spec k (N c)); try lia.
      cbn [andb] in HX. apply scale_inside in HX; [exact HX|auto].
    + intros s a Hs Ha. specialize (HX (N c) s (last_x c) a ltac:(lia) Hs ltac:(lia) Ha).
      unfold lb_x, ub_x, bx in HX. rewrite !Nat.eqb_refl in HX. apply scale_inside in HX; [exact HX|auto].
    + intros k s a Hk Hs Ha. specialize (HZ k s 0%nat a Hk Hs ltac:(unfold n_zpts; lia) Ha).
      unfold lb_z, ub_z, bz in HZ. rewrite Nat.eqb_refl, orb_true_r in HZ. apply scale_inside in HZ; [exact HZ|auto].
    + intros k s i a Hk Hs Hi Ha. specialize (HX k s i a ltac:(lia) Hs ltac:(unfold last_x, nc; lia) Ha).
      unfold lb_x, ub_x, bx, in_x_range in HX. rewrite H in HX.
      destruct (Nat.eqb_spec k (N c)); [lia|]. destruct (Nat.leb_spec 1 k), (Nat.ltb_spec k (N c)); try lia.
      cbn [andb orb] in HX. apply scale_inside in HX; [exact HX|auto].
    + intros k s i a Hk Hs Hi Ha. specialize (HZ k s i a Hk Hs Hi Ha).
      unfold lb_z, ub_z, bz in HZ. rewrite H in HZ. cbn [orb] in HZ. apply scale_inside in HZ; [exact HZ|auto].
    + intros k s a Hk Hs Ha. rewrite <- Hns in Ha. apply (HE k s a Hk Hs Ha).
  - intros ((HU & HX & HT & HZ) & HC & HE). split; [|split; [|split]].
    + intros k s i a Hk Hs Hi Ha. unfold lb_x, ub_x, bx.
      destruct ((k =? N c) && (i =? last_x c))%nat eqn:E1.
      * apply andb_true_iff in E1. destruct E1 as [E1 E2]. apply Nat.eqb_eq in E1, E2. subst k i.
        apply scale_inside; [auto|]. apply HT; auto.
      * destruct (in_x_range c k i) eqn:E2; [|simpl; auto]. unfold in_x_range in E2.
        rewrite !andb_true_iff, orb_true_iff, Nat.leb_le, Nat.ltb_lt, Nat.eqb_eq in E2. destruct E2 as ((L1 & L2) & E2).
        apply scale_inside; [auto|]. destruct (Nat.eq_dec i (last_x c)) as [->|Ni].
        -- apply HX; auto.
        -- apply HC; auto; [|unfold last_x, nc in *; lia]. destruct E2; [assumption|congruence].
    + intros k s i a Hk Hs Hi Ha. unfold lb_z, ub_z, bz. destruct (chk_colloc c || (i =? 0)%nat) eqn:E; [|simpl; auto].
      apply scale_inside; [auto|]. destruct (Nat.eq_dec i 0) as [->|Ni].
      * apply HZ; auto.
      * apply HC; auto. apply orb_true_iff in E. rewrite Nat.eqb_eq in E. destruct E; [assumption|congruence].
    + intros k s a Hk Hs Ha. apply scale_inside; [auto|]. apply HU; auto.
    + intros k s a Hk Hs Ha. rewrite Hns in Ha. apply (HE k s a Hk Hs Ha).
Qed.

(** ** Scaling *)
Section Scaling.
  Variables (c : cfg) (sx' su' sz' : vec) (par : params) (p1 p2 : point).
  Let c' := with_scaling c sx' su' sz'.
  Hypothesis Hsame : same_physical c c' p1 p2.

  Lemma same_X k s i : physX c p1 k s i = physX c' p2 k s i.
  Proof. apply functional_extensionality. intros a. apply Hsame. Qed.
  Lemma same_Z k s i : physZ c p1 k s i = physZ c' p2 k s i.
  Proof. apply functional_extensionality. intros a. apply Hsame. Qed.
  Lemma same_U k s : physU c p1 k s = physU c' p2 k s.
  Proof. apply functional_extensionality. intros a. apply Hsame. Qed.
  Lemma same_E k s : oE p1 k s = oE p2 k s.
  Proof. apply functional_extensionality. intros a. apply Hsame. Qed.

  Lemma same_model_step k s b : model_step c par p1 k s b <-> model_step c' par p2 k s b.
  Proof.
    unfold model_step, model_step_with. change (disc c') with (disc c).
    change (uidx c' s) with (uidx c s). rewrite <- same_U.
    destruct (disc c) as [|deg ni h C D] eqn:Ed.
    - unfold discrete_step, stateX. rewrite <- !same_X, <- same_Z. reflexivity.
    - assert (Ex : collx c' p2 deg k s b = collx c p1 deg k s b).
      { apply functional_extensionality; intros i; apply functional_extensionality; intros j.
        unfold collx, stateX. rewrite <- !same_X. reflexivity. }
      assert (Ez : collz c' p2 deg k s b = collz c p1 deg k s b).
      { apply functional_extensionality; intros i; apply functional_extensionality; intros j.
        unfold collz. rewrite <- !same_Z. reflexivity. }
      unfold colloc_step, stateX. rewrite Ex, Ez, <- same_X. reflexivity.
  Qed.

  Lemma same_nl_step k s b : nl_step c par p1 k s b <-> nl_step c' par p2 k s b.
  Proof.
    unfold nl_step. change (nlc c') with (nlc c). change (nl_chk_colloc c') with (nl_chk_colloc c).
    change (disc c') with (disc c). unfold nl_holds, slack_of, stateX.
    change (nlc c') with (nlc c). change (single_slack c') with (single_slack c). change (N c') with (N c).
    change (comb c' k s b) with (comb c k s b). change (disc c') with (disc c). change (uidx c' s) with (uidx c s).
    split; intros H i con E; specialize (H i con E); destruct (nl_chk_colloc c).
    - intros q Hq. specialize (H q Hq). rewrite <- same_X, <- same_Z, <- same_U, <- !same_E. exact H.
    - rewrite <- same_X, <- same_Z, <- same_U, <- !same_E. exact H.
    - intros q Hq. specialize (H q Hq). rewrite <- same_X, <- same_Z, <- same_U, <- !same_E in H. exact H.
    - rewrite <- same_X, <- same_Z, <- same_U, <- !same_E in H. exact H.
  Qed.

  Lemma same_initial : initial_ok c par p1 <-> initial_ok c' par p2.
  Proof. unfold initial_ok, stateX. rewrite <- same_X. reflexivity. Qed.

  Lemma same_bounds :
    (physical_bounds c p1 /\ (chk_colloc c = true -> colloc_bounds c p1) /\ slack_bounds c p1) <->
    (physical_bounds c' p2 /\ (chk_colloc c' = true -> colloc_bounds c' p2) /\ slack_bounds c' p2).
  Proof.
    destruct Hsame as (SX & SZ & SU & SE).
    assert (A : physical_bounds c p1 <-> physical_bounds c' p2).
    { unfold physical_bounds, stateX. split; intros (H1 & H2 & H3 & H4); (split; [|split; [|split]]); intros.
      - rewrite <- SU; apply H1; assumption.
      - change (disc c') with (disc c); rewrite <- SX; apply H2; assumption.
      - change (disc c') with (disc c); change (N c') with (N c); rewrite <- SX; apply H3; assumption.
      - rewrite <- SZ; apply H4; assumption.
      - rewrite SU; apply H1; assumption.
      - rewrite SX; apply H2; assumption.
      - rewrite SX; apply H3; assumption.
      - rewrite SZ; apply H4; assumption. }
    assert (B : colloc_bounds c p1 <-> colloc_bounds c' p2).
    { unfold colloc_bounds. split; intros (H1 & H2); split; intros.
      - rewrite <- SX; apply H1; assumption.
      - rewrite <- SZ; apply H2; assumption.
      - rewrite SX; apply H1; assumption.
      - rewrite SZ; apply H2; assumption. }
    assert (C : slack_bounds c p1 <-> slack_bounds c' p2).
    { unfold slack_bounds. split; intros H k s a Hk Hs Ha.
      - rewrite <- SE; apply H; assumption.
      - rewrite SE; apply H; assumption. }
    change (chk_colloc c') with (chk_colloc c). rewrite A, B, C. reflexivity.
  Qed.
End Scaling.

Lemma feasible_iff c par pt : cfg_ok c -> scaling_pos c ->
  feasible c par pt <->
  (physical_bounds c pt /\ (chk_colloc c = true -> colloc_bounds c pt) /\ slack_bounds c pt) /\
  initial_ok c par pt /\
  (forall k s b, is_edge c k s b -> model_step c par pt k s b /\ nl_step c par pt k s b).
Proof.
  intros Hok Hpos. destruct Hok as (HN & Hc & Hrest) eqn:EE.
  unfold feasible. rewrite (bounds_iff c pt Hpos HN). apply and_iff_compat_l.
  destruct (tree_exists (ncomb c) (nr c) (N c) Hc HN) as [t Ht].
  destruct (body_sat c Hok par pt t Ht) as (p & E & _ & _ & _ & _ & Hsat).
  unfold prepare_nlp. rewrite Ht. cbn [bind]. rewrite E. split.
  - intros (p' & E' & H). injection E' as <-. apply Hsat. exact H.
  - intros H. exists p. split; [reflexivity|]. apply Hsat. exact H.
Qed.
