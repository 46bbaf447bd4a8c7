(** * Proofs for C96: the objective is the cost of the collocation plan. *)
From Coq Require Import Reals Lra Lia.
From Verif Require Import Base TreeModel TreeSpec TreeProofs TreeProofs2 NlpModel NlpSpec NlpProofs NlpProofs2 NlpProofs3 NlpProofs4 NlpProps RobustProps PlanSpec PlanProofs BestSpec BestProofs BestProofs2 CplanSpec CplanProofs CbestSpec.
Local Open Scope R_scope.

(** The point and the plan have the same states, inputs and slacks along every sequence of parameter rows. *)
Definition calike (c : cfg) (pt : point) (policy state : list nat -> vec) (slack : list nat -> nat -> R) : Prop :=
  forall ps, realisation c ps ->
    (forall k, (k <= N c)%nat -> agree (n_x (mdl c)) (state (map ps (seq 0 k))) (stateX c pt k (psnode c ps k))) /\
    (forall k, (k < N c)%nat -> agree (n_u (mdl c)) (policy (map ps (seq 0 k))) (physU c pt k (uidx c (psnode c ps k)))) /\
    (forall k a, (k < N c)%nat -> (a < List.length (soft_list (nlc c)))%nat -> slack (map ps (seq 0 k)) a = oE pt (srow c k) (psnode c ps k) a).

(** If a point and a plan have the same states, inputs and slacks, the objective is the cost of the plan. *)
Lemma ccost_eq c par pt r policy state Z slack : cfg_ok c -> scaling_pos c -> (nr c < N c)%nat -> rterm c = RDefault r -> xu_cost c ->
  calike c pt policy state slack ->
  has_objective c par pt (collocation_plan_cost c par r policy state Z slack).
Proof.
  intros Hok Hpos Hnr Hr (Hl & Hm) HE.
  assert (HN : (1 <= N c)%nat) by apply Hok. assert (Hc : (1 <= ncomb c)%nat) by apply Hok.
  destruct (tree_exists (ncomb c) (nr c) (N c) Hc HN) as [t Ht].
  destruct (body_sat c Hok par pt t Ht) as (p & E & _).
  assert (Ep : prepare_nlp c par pt = Ok p) by (unfold prepare_nlp; rewrite Ht; cbn [bind]; exact E).
  exists p. split; [exact Ep|].
  assert (Hpath : forall j, (j < nodes (ncomb c) (nr c) (N c))%nat -> scenario c t (psnode c (leaf c j)) (leaf_br c j) /\ psnode c (leaf c j) (N c) = j).
  { intros j Hj. split; [apply leaf_path; assumption|]. apply leaf_node; [assumption|lia|exact Hj]. }
  rewrite (C07_objective_is_scenario_average_partial c par pt t p r Hok Hnr Hr) with (node := fun j => psnode c (leaf c j)) (br := leaf_br c); try assumption.
  2:{ intros a Ha. pose proof (proj1 (proj2 Hpos) a Ha). lra. }
  cbv zeta.
  assert (EW : nodes (ncomb c) (nr c) (N c) = (ncomb c ^ nr c)%nat) by (unfold nodes; f_equal; lia).
  assert (EW' : width_of c (nr c) = (ncomb c ^ nr c)%nat) by (unfold width_of, nodes; f_equal; lia).
  assert (Hpw : forall m, INR (ncomb c ^ m) <> 0) by (intros m; apply not_0_INR; apply Nat.pow_nonzero; lia).
  set (F := fun k s (b : nat) => slack_charge 0 (nlc c) (oE pt (Nat.min k ((if single_slack c then 1 else N c) - 1)) s)
        + rate_penalty c r (physU c pt k (uidx c s)) (if (k =? 0)%nat then pUprev par else physU c pt (k-1) (uidx c (s / fan_of c (k-1))))).
  assert (ES : total (N c) (fun k => total (width_of c k) (fun s => total (fan_of c k) (fun b => F k s b)))
     = 1 / INR (nodes (ncomb c) (nr c) (N c)) * total (nodes (ncomb c) (nr c) (N c)) (fun j => total (N c) (fun k => INR (ncomb c ^ Nat.min (k + 1) (nr c)) * F k (psnode c (leaf c j) k) (leaf_br c j k)))).
  { rewrite sumn_swap, sumn_scal. apply sumn_ext. intros k Hk.
    pose proof (average_edges (ncomb c) (nr c) (N c) Hc HN t Ht (fun j => psnode c (leaf c j)) (leaf_br c) Hpath (F k) k Hk) as HA.
    unfold nodes at 1 in HA.
    assert (E3 : total (width_of c k) (fun s => total (fan_of c k) (fun b => F k s b)) = INR (ncomb c ^ Nat.min (k + 1) (nr c)) *
      (1 / INR (ncomb c ^ Nat.min (k + 1) (nr c)) * sumn (nodes (ncomb c) (nr c) k) (fun s => sumn (fan (ncomb c) (nr c) k) (fun b => F k s b)))).
    { change (total (width_of c k) (fun s => total (fan_of c k) (fun b => F k s b))) with (sumn (nodes (ncomb c) (nr c) k) (fun s => sumn (fan (ncomb c) (nr c) k) (fun b => F k s b))).
      field. apply Hpw. }
    rewrite E3, HA. rewrite <- (sumn_scal (nodes (ncomb c) (nr c) (N c)) (fun j => F k (psnode c (leaf c j) k) (leaf_br c j k)) (INR (ncomb c ^ Nat.min (k + 1) (nr c)))). ring. }
  unfold F in ES. rewrite ES. clear ES. rewrite <- Rmult_plus_distr_l. unfold collocation_plan_cost. rewrite <- EW at 1. f_equal.
  rewrite (sequences_hist c Hok (nr c)) by lia. rewrite map_map.
  change (rsum (map (fun x => collocation_scenario_cost c par r policy state Z slack (realise c (hist c (nr c) x))) (seq 0 (width_of c (nr c)))))
    with (total (width_of c (nr c)) (fun j => collocation_scenario_cost c par r policy state Z slack (leaf c j))).
  rewrite EW', EW, <- sumn_plus. apply sumn_ext. intros j Hj. rewrite <- EW in Hj. destruct (Hpath j Hj) as [HP _].
  destruct (HE (leaf c j) (leaf_real c Hok j)) as (Hx & Hu & Hs). clear HE.
  assert (EP : forall k, (k < N c)%nat -> scen_p par t (psnode c (leaf c j)) (leaf_br c j) k = pP par (leaf c j k)).
  { intros k Hk. unfold scen_p. destruct (path_edge c Hok t Ht _ _ k HP Hk) as (_ & _ & ->). rewrite leaf_comb by exact Hok. reflexivity. }
  unfold collocation_scenario_cost. f_equal; [f_equal|].
  - apply sumn_ext. intros k Hk. rewrite EP by exact Hk. apply Hl.
    + intros a Ha. symmetry. apply (Hx k ltac:(lia) a Ha).
    + intros a Ha. symmetry. apply (Hu k Hk a Ha).
  - rewrite EP by lia. apply Hm. intros a Ha. symmetry. apply (Hx (N c) ltac:(lia) a Ha).
  - apply sumn_ext. intros k Hk. f_equal. f_equal.
    + apply slack_charge_ext. intros b Hb. symmetry. apply Hs; assumption.
    + unfold rate_penalty. apply sumn_ext. intros a Ha. f_equal. f_equal. f_equal. rewrite <- (Hu k Hk a Ha). f_equal.
      destruct (Nat.eqb_spec k 0) as [->|Hk0]; [reflexivity|].
      assert (Epar : (psnode c (leaf c j) k / fan_of c (k - 1))%nat = psnode c (leaf c j) (k - 1)).
      { destruct (psnode_step c Hok (leaf c j) (k - 1) (leaf_real c Hok j) (psnode_lt c Hok _ _ (leaf_real c Hok j))) as (b & Hb & E1 & _).
        replace (S (k - 1)) with k in E1 by lia. rewrite E1. apply child_div; assumption. }
      rewrite Epar. symmetry. apply (Hu (k - 1)%nat ltac:(lia) a Ha).
Qed.

Section Both.
  Variable c : cfg.
  Variable par : params.
  Variables (deg ni : nat) (h : R) (C : nat -> nat -> R) (D : nat -> R).
  Hypothesis Hok : cfg_ok c.
  Hypothesis Hpos : scaling_pos c.
  Hypothesis Hd : disc c = Colloc deg ni h C D.
  Hypothesis Hwf : wf_model (mdl c).
  Hypothesis Hwu : wf_inputs (mdl c).
  Hypothesis Hnl : nl_chk_colloc c = false.
  Hypothesis Hcon : forall con, In con (nlc c) -> xu_constraint (mdl c) con.
  Hypothesis Hnr : (nr c < N c)%nat.
  Let HN : (1 <= N c)%nat := proj1 Hok.
  Let Hc : (1 <= ncomb c)%nat := proj1 (proj2 Hok).

  Lemma cplan_alike pt : feasible c par pt ->
    exists slack, collocation_slacks c par (pol c pt) (stp c pt) (Zp c pt deg) slack /\ calike c pt (pol c pt) (stp c pt) slack.
  Proof.
    intros Hf. pose proof (proj1 (feasible_iff c par pt Hok Hpos) Hf) as ((_ & _ & HE) & Hini & Hedge).
    exists (fun l a => oE pt (srow c (List.length l)) (nodeof c l) a).
    assert (HS : forall ps k, stp c pt (map ps (seq 0 k)) = stateX c pt k (psnode c ps k)).
    { intros ps k. unfold stp. rewrite nodeof_ps, map_length, seq_length by exact Hok. reflexivity. }
    assert (HU : forall ps k, pol c pt (map ps (seq 0 k)) = physU c pt k (uidx c (psnode c ps k))).
    { intros ps k. unfold pol. rewrite nodeof_ps, map_length, seq_length by exact Hok. reflexivity. }
    split; [split|].
    - intros Es l l' a El. rewrite !nodeof_place, El. unfold srow. rewrite Es, !Nat.min_0_r. reflexivity.
    - intros ps Hps k i con vmax pen Hk Hi Es now next eps.
      destruct (soft_split c i con vmax pen Hi Es) as [Hn Hlt].
      assert (Eeps : eps = oE pt (srow c k) (psnode c ps k) (List.length (soft_list (firstn i (nlc c))))).
      { unfold eps, now. rewrite nodeof_ps, map_length, seq_length. reflexivity. }
      rewrite Eeps. clear eps Eeps.
      assert (Hw : (psnode c ps k < nmax c)%nat).
      { pose proof (psnode_lt c Hok ps k Hps) as Hw. pose proof (nodes_le_nmax c HN Hc k). unfold width_of in Hw. lia. }
      pose proof (HE (srow c k) (psnode c ps k) _ (srow_lt c k HN) Hw Hlt) as [H0 H1]. rewrite Hn in H1. cbn [fst ge_lb] in H0, H1.
      split; [exact H0|]. split; [exact H1|].
      destruct (psnode_step c Hok ps k Hps (psnode_lt c Hok _ _ Hps)) as (b & Hb & E1 & E2).
      assert (He : is_edge c k (psnode c ps k) b) by (split; [lia|]; split; [apply psnode_lt; assumption|exact Hb]).
      destruct (Hedge _ _ _ He) as [_ Hstep]. specialize (Hstep i con Hi). rewrite Hnl in Hstep. unfold nl_holds, slack_of in Hstep. rewrite Es, E2 in Hstep. fold (srow c k) in Hstep.
      unfold now. rewrite HS, HU.
      rewrite (Hcon con (nth_error_In _ _ Hi) _ (stateX c pt k (psnode c ps k)) _ (physU c pt k (uidx c (psnode c ps k))) _ (physZ c pt k (psnode c ps k) 0) (pTvp par k) (pP par (ps k)) (fun _ _ => eq_refl) (fun _ _ => eq_refl)).
      exact Hstep.
    - intros ps Hps. split; [|split].
      + intros k _. rewrite HS. intros ? ?. reflexivity.
      + intros k _. rewrite HU. intros ? ?. reflexivity.
      + intros k a Hk Ha. rewrite nodeof_ps, map_length, seq_length. reflexivity.
  Qed.

  Lemma cpoint_alike policy state X Z slack : robust_collocation_plan c deg ni h C D par policy state X Z -> collocation_slacks c par policy state Z slack ->
    exists pt, feasible c par pt /\ agree (n_u (mdl c)) (physU c pt 0 0) (policy []) /\ calike c pt policy state slack.
  Proof.
    intros Hp [Hsh Hs].
    assert (Hvio : violations_ok c).
    { intros con v pen Hin Es. apply In_nth_error in Hin as [i Hi].
      pose proof (Hs _ (leaf_real c Hok 0%nat) 0%nat i con (Some v) pen ltac:(lia) Hi Es) as (H0 & H1 & _). cbn [le_ub] in H1. lra. }
    destruct (to_cpoint c par deg ni h C D policy state X Z Hok Hpos Hd Hwf Hwu Hnl Hcon Hvio Hp) as [Hf Hu].
    pose proof (proj1 (feasible_iff c par _ Hok Hpos) Hf) as ((HB & HC & HE) & Hini & Hedge).
    set (pt0 := cpoint_of c par deg ni policy state X Z) in *.
    set (pt := {| oX := oX pt0; oZ := oZ pt0; oU := oU pt0; oE := fun k s a => slack (hist c (sstep c k) (clip c (sstep c k) s)) a |}).
    assert (Hnode : forall ps k, realisation c ps -> hist c k (clip c k (psnode c ps k)) = map ps (seq 0 k)).
    { intros ps k Hps. rewrite clip_id by (try exact Hok; apply psnode_lt; assumption). apply (psnode_hist c Hok). exact Hps. }
    assert (HX : forall k s, agree (n_x (mdl c)) (stateX c pt k s) (state (hist c k (clip c k s)))).
    { intros k s a Ha. change (stateX c pt k s a) with (stateX c pt0 k s a). unfold pt0, cpoint_of. eapply cp_st; eassumption. }
    assert (HU : forall k s, (s < width_of c k)%nat -> agree (n_u (mdl c)) (physU c pt k (uidx c s)) (policy (hist c k s))).
    { intros k s Hw a Ha. change (physU c pt k (uidx c s) a) with (physU c pt0 k (uidx c s) a). unfold pt0, cpoint_of.
      eapply cp_uidx; eassumption. }
    exists pt. split; [|split; [exact Hu|]].
    - apply (feasible_iff c par _ Hok Hpos). split; [split; [exact HB|split; [exact HC|]]|split; [exact Hini|]].
      + intros k s a Hk _ Ha. cbn [oE pt]. assert (Hks : (sstep c k < N c)%nat) by (unfold sstep; destruct (single_slack c); lia). clear Hk. generalize dependent (sstep c k). clear k. intros k Hk.
        destruct (soft_which (nlc c) a Ha) as (i & con & vmax & pen & Hi & Es & Hn & Ea).
        destruct (realised c Hok _ _ (clip_lt c Hok k s)) as (ps & Hps & E). rewrite <- E, Hn. cbn [fst].
        pose proof (Hs ps Hps k i con vmax pen Hk Hi Es) as (H0 & H1 & _). rewrite <- Ea in H0, H1. split; [exact H0|exact H1].
      + intros k s b He. destruct (Hedge k s b He) as [Hm Hn]. split; [exact Hm|]. intros i con Hi. specialize (Hn i con Hi). rewrite Hnl in *.
        unfold nl_holds in *. destruct (nl_soft con) as [[vmax pen]|] eqn:Es.
        2:{ unfold slack_of in *. rewrite Es in *. exact Hn. }
        clear Hn. pose proof He as (Hk & Hw & Hb).
        destruct (realised c Hok _ _ (child_width c Hok k s b Hw Hb)) as (ps & Hps & E). pose proof (hist_child c Hok k s b Hb) as Eh. rewrite Eh, seq_snoc, map_app in E.
        cbn [map] in E. apply app_inj_tail in E as [Eh' Ec].
        pose proof (Hs ps Hps k i con vmax pen Hk Hi Es) as (_ & _ & H2).
        unfold slack_of. rewrite Es. fold (srow c k). cbn [oE pt]. rewrite shared_slack by assumption.
        rewrite Ec, Eh' in H2.
        rewrite (Hcon con (nth_error_In _ _ Hi) _ (state (hist c k s)) _ (policy (hist c k s)) _ (Z (map ps (seq 0 (k + 1))) 0%nat 0%nat)).
        * exact H2.
        * intros a Ha. rewrite (HX k s a Ha), clip_id by assumption. reflexivity.
        * apply HU. exact Hw.
    - intros ps Hps. split; [|split].
      + intros k Hk a Ha. rewrite (HX k _ a Ha), (Hnode ps k Hps). reflexivity.
      + intros k Hk a Ha. rewrite (HU k _ (psnode_lt c Hok ps k Hps) a Ha), (psnode_hist c Hok) by exact Hps. reflexivity.
      + intros k a Hk Ha. cbn [oE pt]. rewrite shared_slack by (try assumption; apply psnode_lt; assumption). rewrite psnode_hist by assumption. reflexivity.
  Qed.

  Variable r : vec.
  Hypothesis Hr : rterm c = RDefault r.
  Hypothesis Hcost : xu_cost c.
  Lemma cplan_of_point pt : feasible c par pt ->
    exists slack, collocation_slacks c par (pol c pt) (stp c pt) (Zp c pt deg) slack /\
      has_objective c par pt (collocation_plan_cost c par r (pol c pt) (stp c pt) (Zp c pt deg) slack).
  Proof. intros Hf. destruct (cplan_alike pt Hf) as (slack & Hs & HA). exists slack. split; [exact Hs|]. apply ccost_eq; assumption. Qed.
  Lemma point_of_cplan policy state X Z slack : robust_collocation_plan c deg ni h C D par policy state X Z -> collocation_slacks c par policy state Z slack ->
    exists pt, feasible c par pt /\ agree (n_u (mdl c)) (physU c pt 0 0) (policy []) /\ has_objective c par pt (collocation_plan_cost c par r policy state Z slack).
  Proof.
    intros Hp Hs. destruct (cpoint_alike policy state X Z slack Hp Hs) as (pt & Hf & Hu & HA). exists pt. split; [exact Hf|]. split; [exact Hu|].
    apply ccost_eq; assumption.
  Qed.
End Both.
