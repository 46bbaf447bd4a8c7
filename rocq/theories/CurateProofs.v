(** * Proofs for C106 with collocation. *)
From Coq Require Import Reals Lra Lia.
From Verif Require Import Base TreeModel TreeSpec TreeProofs TreeProofs2 NlpModel NlpSpec NlpProofs NlpProofs2 NlpProofs3 NlpProofs4 NlpProps RobustProps PlanSpec PlanProofs PlanProps BestSpec BestProofs BestProofs2 CplanSpec CplanProofs CbestSpec CbestProofs UrateSpec UrateProofs CurateSpec.
Local Open Scope R_scope.

(** If a point and a plan have the same states, inputs and slacks, the objective is the cost of the plan. *)
Lemma user_ccost_eq c par pt f policy state Z slack : cfg_ok c -> scaling_pos c -> (nr c < N c)%nat -> rterm c = RUser f -> xu_cost c -> xu_rate (mdl c) f ->
  calike c pt policy state slack -> has_objective c par pt (user_collocation_cost c par f policy state Z slack).
Proof.
  intros Hok Hpos Hnr Hf Hxu Hxr HA. assert (HN : (1 <= N c)%nat) by apply Hok. assert (Hc : (1 <= ncomb c)%nat) by apply Hok.
  assert (Hsu : forall a, (a < n_u (mdl c))%nat -> su c a <> 0). { intros a Ha. pose proof (proj1 (proj2 Hpos) a Ha). lra. }
  destruct (tree_exists (ncomb c) (nr c) (N c) Hc HN) as [t Ht].
  destruct (body_sat c Hok par pt t Ht) as (p & E & _).
  assert (Ep : prepare_nlp c par pt = Ok p) by (unfold prepare_nlp; rewrite Ht; cbn [bind]; exact E).
  destruct (ccost_eq (with_rate c (fun _ => 0)) par pt (fun _ => 0) policy state Z slack Hok Hpos Hnr eq_refl Hxu HA) as (p0 & Ep0 & Eo).
  exists p. split; [exact Ep|].
  rewrite (user_split c par pt t p0 p f Hok Hf Hsu); try assumption.
  2:{ intros x u v v' z tvp pp Hv. apply Hxr; [intros ? ?; reflexivity|intros ? ?; reflexivity|exact Hv]. }
  rewrite Eo. clear E Ep p p0 Ep0 Eo.
  change (collocation_plan_cost (with_rate c (fun _ => 0)) par (fun _ => 0) policy state Z slack) with (collocation_plan_cost c par (fun _ => 0) policy state Z slack).
  rewrite (edges_average c t (fun k s b => f (stateX c pt k s) (physU c pt k (uidx c s))
        (fun a => (if (k =? 0)%nat then pUprev par else physU c pt (k - 1) (uidx c (s / fan_of c (k - 1)))) a / su c a)
        (physZ c pt k s (last_z c)) (pTvp par k) (pP par (comb c k s b))) Hok Hnr Ht).
  unfold collocation_plan_cost, user_collocation_cost. rewrite <- Rmult_plus_distr_l. f_equal.
  rewrite (sequences_hist c Hok (nr c)) by lia. rewrite !map_map.
  change (rsum (map (fun x => collocation_scenario_cost c par (fun _ => 0) policy state Z slack (realise c (hist c (nr c) x))) (seq 0 (width_of c (nr c)))))
    with (total (width_of c (nr c)) (fun j => collocation_scenario_cost c par (fun _ => 0) policy state Z slack (leaf c j))).
  change (rsum (map (fun x => collocation_scenario_cost c par (fun _ => 0) policy state Z slack (realise c (hist c (nr c) x)) + collocation_rate_cost c par f policy state (realise c (hist c (nr c) x))) (seq 0 (width_of c (nr c)))))
    with (total (width_of c (nr c)) (fun j => collocation_scenario_cost c par (fun _ => 0) policy state Z slack (leaf c j) + collocation_rate_cost c par f policy state (leaf c j))).
  rewrite <- sumn_plus. apply sumn_ext. intros j Hj. f_equal. unfold collocation_rate_cost. apply sumn_ext. intros k Hk. f_equal.
  destruct (HA (leaf c j) (leaf_real c Hok j)) as (Hx & Hu & _).
  rewrite leaf_comb by exact Hok. apply Hxr.
  - intros a Ha. symmetry. apply (Hx k ltac:(lia) a Ha).
  - intros a Ha. symmetry. apply (Hu k Hk a Ha).
  - intros a Ha. destruct (Nat.eqb_spec k 0) as [->|Hk0]; [reflexivity|]. f_equal.
    assert (Epar : (psnode c (leaf c j) k / fan_of c (k - 1))%nat = psnode c (leaf c j) (k - 1)).
    { destruct (psnode_step c Hok (leaf c j) (k - 1) (leaf_real c Hok j) (psnode_lt c Hok _ _ (leaf_real c Hok j))) as (b & Hb & E1 & _).
      replace (S (k - 1)) with k in E1 by lia. rewrite E1. apply child_div; assumption. }
    rewrite Epar. symmetry. apply (Hu (k - 1)%nat ltac:(lia) a Ha).
Qed.
