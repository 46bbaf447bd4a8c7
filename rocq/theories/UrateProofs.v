(** * Proofs for C106: user-defined rate penalties. *)
From Coq Require Import Reals Lra Lia.
From Verif Require Import Base TreeModel TreeSpec TreeProofs TreeProofs2 NlpModel NlpSpec NlpProofs NlpProofs2 NlpProofs3 NlpProofs4 NlpProps RobustProps PlanSpec PlanProofs PlanProps BestSpec BestProofs BestProofs2 UrateSpec.
Local Open Scope R_scope.

(** What the expression adds to the objective. *)
Lemma user_split c par pt t p0 p f : cfg_ok c -> rterm c = RUser f ->
  (forall a, (a < n_u (mdl c))%nat -> su c a <> 0) ->
  (forall x u v v' z tvp pp, agree (n_u (mdl c)) v v' -> f x u v z tvp pp = f x u v' z tvp pp) ->
  setup_scenario_tree (ncomb c) (nr c) (N c) = Ok t ->
  prepare_nlp (with_rate c (fun _ => 0)) par pt = Ok p0 -> prepare_nlp c par pt = Ok p ->
  obj p = obj p0 + total (N c) (fun k => total (width_of c k) (fun s => total (fan_of c k) (fun b =>
      f (stateX c pt k s) (physU c pt k (uidx c s))
        (fun a => (if (k =? 0)%nat then pUprev par else physU c pt (k - 1) (uidx c (s / fan_of c (k - 1)))) a / su c a)
        (physZ c pt k s (last_z c)) (pTvp par k) (pP par (comb c k s b))))).
Proof.
  intros Hok Hf Hsu Hag Ht E0 E. assert (HN : (1 <= N c)%nat) by apply Hok. assert (Hc : (1 <= ncomb c)%nat) by apply Hok.
  destruct (body_sat c Hok par pt t Ht) as (q & Eq & _ & _ & _ & Ho & _).
  destruct (body_sat (with_rate c (fun _ => 0)) Hok par pt t Ht) as (q0 & Eq0 & _ & _ & _ & Ho0 & _).
  unfold prepare_nlp in E, E0. change (ncomb (with_rate c (fun _ => 0))) with (ncomb c) in E0. change (nr (with_rate c (fun _ => 0))) with (nr c) in E0. change (N (with_rate c (fun _ => 0))) with (N c) in E0.
  rewrite Ht in E, E0. cbn [bind] in E, E0. rewrite E in Eq. injection Eq as <-. rewrite E0 in Eq0. injection Eq0 as <-.
  rewrite Ho, Ho0, !sum_edges.
  change (N (with_rate c (fun _ => 0))) with (N c). change (width_of (with_rate c (fun _ => 0))) with (width_of c). change (fan_of (with_rate c (fun _ => 0))) with (fan_of c).
  rewrite <- sumn_plus. apply sumn_ext. intros k Hk. rewrite <- sumn_plus. apply sumn_ext. intros s Hs. rewrite <- sumn_plus. apply sumn_ext. intros b Hb.
  assert (R0 : rterm_edge (with_rate c (fun _ => 0)) t par pt k s b = 0).
  { rewrite (rterm_is c Hok par pt t _ k s b Hsu Ht Hk Hs). unfold rate_penalty. rewrite (sumn_ext _ _ (fun _ => 0)); [apply sumn_zero|]. intros; ring. }
  assert (R1 : rterm_edge c t par pt k s b = f (stateX c pt k s) (physU c pt k (uidx c s))
        (fun a => (if (k =? 0)%nat then pUprev par else physU c pt (k - 1) (uidx c (s / fan_of c (k - 1)))) a / su c a)
        (physZ c pt k s (last_z c)) (pTvp par k) (pP par (comb c k s b))).
  { unfold rterm_edge. rewrite Hf, (cur_is c HN Hc t Ht) by (repeat split; assumption).
    apply Hag. intros a Ha. specialize (Hsu a Ha).
    destruct (Nat.eqb_spec k 0) as [K0|K0]; [reflexivity|].
    assert (Epar : parent t k (s_u c s) = if open_loop c then 0%nat else (s / fan_of c (k - 1))%nat).
    { unfold s_u. destruct (open_loop c).
      - rewrite (parent_is c HN Hc t Ht); [|lia|lia|unfold width_of; pose proof (TreeProofs.ns_pos (ncomb c) (nr c) k Hc); unfold n_scenarios, nodes in *; lia].
        pose proof (TreeProofs2.fan_pos (ncomb c) (nr c) Hc (k-1)). unfold fan_of. rewrite Nat.div_0_l by lia. reflexivity.
      - rewrite (parent_is c HN Hc t Ht); [reflexivity|lia|lia|exact Hs]. }
    rewrite Epar. unfold physU, uidx. field. exact Hsu. }
  rewrite <- R1. unfold edge_obj. rewrite R0. change (omega (with_rate c (fun _ => 0))) with (omega c).
  change (lterm (with_rate c (fun _ => 0))) with (lterm c). change (mterm (with_rate c (fun _ => 0))) with (mterm c).
  change (uX (with_rate c (fun _ => 0))) with (uX c). change (uU (with_rate c (fun _ => 0))) with (uU c). change (uZ (with_rate c (fun _ => 0))) with (uZ c).
  change (last_x (with_rate c (fun _ => 0))) with (last_x c). change (last_z (with_rate c (fun _ => 0))) with (last_z c). change (s_u (with_rate c (fun _ => 0))) with (s_u c).
  change (nlc (with_rate c (fun _ => 0))) with (nlc c). change (k_eps (with_rate c (fun _ => 0))) with (k_eps c). change (N (with_rate c (fun _ => 0))) with (N c). lra.
Qed.

(** The sum over the edges of the tree is the average over its leaves, every step times the number of branches after it. *)
Lemma edges_average c t (F : nat -> nat -> nat -> R) : cfg_ok c -> (nr c < N c)%nat -> setup_scenario_tree (ncomb c) (nr c) (N c) = Ok t ->
  total (N c) (fun k => total (width_of c k) (fun s => total (fan_of c k) (fun b => F k s b)))
  = 1 / INR (ncomb c ^ nr c) * total (width_of c (nr c)) (fun j => total (N c) (fun k => INR (ncomb c ^ Nat.min (k + 1) (nr c)) * F k (psnode c (leaf c j) k) (leaf_br c j k))).
Proof.
  intros Hok Hnr Ht. assert (HN : (1 <= N c)%nat) by apply Hok. assert (Hc : (1 <= ncomb c)%nat) by apply Hok.
  assert (Hpath : forall j, (j < nodes (ncomb c) (nr c) (N c))%nat -> scenario c t (psnode c (leaf c j)) (leaf_br c j) /\ psnode c (leaf c j) (N c) = j).
  { intros j Hj. split; [apply leaf_path; assumption|]. apply leaf_node; [assumption|lia|exact Hj]. }
  assert (EW : nodes (ncomb c) (nr c) (N c) = (ncomb c ^ nr c)%nat) by (unfold nodes; f_equal; lia).
  assert (EW' : width_of c (nr c) = (ncomb c ^ nr c)%nat) by (unfold width_of, nodes; f_equal; lia).
  assert (Hpw : forall m, INR (ncomb c ^ m) <> 0) by (intros m; apply not_0_INR; apply Nat.pow_nonzero; lia).
  rewrite EW', <- EW. rewrite sumn_swap, sumn_scal. apply sumn_ext. intros k Hk.
  pose proof (average_edges (ncomb c) (nr c) (N c) Hc HN t Ht (fun j => psnode c (leaf c j)) (leaf_br c) Hpath (F k) k Hk) as HA.
  unfold nodes at 1 in HA.
  assert (E3 : total (width_of c k) (fun s => total (fan_of c k) (fun b => F k s b)) = INR (ncomb c ^ Nat.min (k + 1) (nr c)) *
    (1 / INR (ncomb c ^ Nat.min (k + 1) (nr c)) * sumn (nodes (ncomb c) (nr c) k) (fun s => sumn (fan (ncomb c) (nr c) k) (fun b => F k s b)))).
  { change (total (width_of c k) (fun s => total (fan_of c k) (fun b => F k s b))) with (sumn (nodes (ncomb c) (nr c) k) (fun s => sumn (fan (ncomb c) (nr c) k) (fun b => F k s b))).
    field. apply Hpw. }
  rewrite E3, HA. rewrite <- (sumn_scal (nodes (ncomb c) (nr c) (N c)) (fun j => F k (psnode c (leaf c j) k) (leaf_br c j k)) (INR (ncomb c ^ Nat.min (k + 1) (nr c)))). ring.
Qed.

(** If a point and a plan have the same states, inputs and slacks, the objective is the cost of the plan. *)
Lemma user_cost_eq c par pt f policy zpol slack : cfg_ok c -> scaling_pos c -> (nr c < N c)%nat -> rterm c = RUser f -> xu_cost c -> xu_rate (mdl c) f ->
  alike c par pt policy zpol slack -> has_objective c par pt (user_plan_cost c par f policy zpol slack).
Proof.
  intros Hok Hpos Hnr Hf Hxu Hxr HA. assert (HN : (1 <= N c)%nat) by apply Hok. assert (Hc : (1 <= ncomb c)%nat) by apply Hok.
  assert (Hsu : forall a, (a < n_u (mdl c))%nat -> su c a <> 0). { intros a Ha. pose proof (proj1 (proj2 Hpos) a Ha). lra. }
  destruct (tree_exists (ncomb c) (nr c) (N c) Hc HN) as [t Ht].
  destruct (body_sat c Hok par pt t Ht) as (p & E & _).
  assert (Ep : prepare_nlp c par pt = Ok p) by (unfold prepare_nlp; rewrite Ht; cbn [bind]; exact E).
  destruct (cost_eq (with_rate c (fun _ => 0)) par pt (fun _ => 0) policy zpol slack Hok Hpos Hnr eq_refl Hxu HA) as (p0 & Ep0 & Eo).
  exists p. split; [exact Ep|].
  rewrite (user_split c par pt t p0 p f Hok Hf Hsu); try assumption.
  2:{ intros x u v v' z tvp pp Hv. apply Hxr; [intros ? ?; reflexivity|intros ? ?; reflexivity|exact Hv]. }
  rewrite Eo. clear E Ep p p0 Ep0 Eo.
  change (plan_cost (with_rate c (fun _ => 0)) par (fun _ => 0) policy zpol slack) with (plan_cost c par (fun _ => 0) policy zpol slack).
  rewrite (edges_average c t (fun k s b => f (stateX c pt k s) (physU c pt k (uidx c s))
        (fun a => (if (k =? 0)%nat then pUprev par else physU c pt (k - 1) (uidx c (s / fan_of c (k - 1)))) a / su c a)
        (physZ c pt k s (last_z c)) (pTvp par k) (pP par (comb c k s b))) Hok Hnr Ht).
  unfold plan_cost, user_plan_cost. rewrite <- Rmult_plus_distr_l. f_equal.
  rewrite (sequences_hist c Hok (nr c)) by lia. rewrite !map_map.
  change (rsum (map (fun x => scenario_cost c par (fun _ => 0) policy zpol slack (realise c (hist c (nr c) x))) (seq 0 (width_of c (nr c)))))
    with (total (width_of c (nr c)) (fun j => scenario_cost c par (fun _ => 0) policy zpol slack (leaf c j))).
  change (rsum (map (fun x => scenario_cost c par (fun _ => 0) policy zpol slack (realise c (hist c (nr c) x)) + user_rate_cost c par f policy zpol (realise c (hist c (nr c) x))) (seq 0 (width_of c (nr c)))))
    with (total (width_of c (nr c)) (fun j => scenario_cost c par (fun _ => 0) policy zpol slack (leaf c j) + user_rate_cost c par f policy zpol (leaf c j))).
  rewrite <- sumn_plus. apply sumn_ext. intros j Hj. f_equal. unfold user_rate_cost. apply sumn_ext. intros k Hk. f_equal.
  destruct (HA (leaf c j) (leaf_real c Hok j)) as (Hx & Hu & _).
  rewrite leaf_comb by exact Hok. apply Hxr.
  - intros a Ha. symmetry. apply (Hx k ltac:(lia) a Ha).
  - intros a Ha. symmetry. apply (Hu k Hk a Ha).
  - intros a Ha. destruct (Nat.eqb_spec k 0) as [->|Hk0]; [reflexivity|]. f_equal.
    assert (Epar : (psnode c (leaf c j) k / fan_of c (k - 1))%nat = psnode c (leaf c j) (k - 1)).
    { destruct (psnode_step c Hok (leaf c j) (k - 1) (leaf_real c Hok j) (psnode_lt c Hok _ _ (leaf_real c Hok j))) as (b & Hb & E1 & _).
      replace (S (k - 1)) with k in E1 by lia. rewrite E1. apply child_div; assumption. }
    rewrite Epar. symmetry. apply (Hu (k - 1)%nat ltac:(lia) a Ha).
Qed.
