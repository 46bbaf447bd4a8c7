(** * Proofs for C91: the objective is the cost of the plan. *)
From Coq Require Import Reals Lra Lia.
From Verif Require Import Base TreeModel TreeSpec TreeProofs TreeProofs2 NlpModel NlpSpec NlpProofs NlpProofs2 NlpProofs3 NlpProofs4 NlpProps RobustProps PlanSpec PlanProofs BestSpec.
Local Open Scope R_scope.

Lemma seq_mul w f : seq 0 (w * f) = flat_map (fun s => map (fun b => s * f + b)%nat (seq 0 f)) (seq 0 w).
Proof.
  induction w as [|w IH]; [reflexivity|]. replace (S w * f)%nat with (w * f + f)%nat by lia. rewrite seq_app, IH, seq_snoc, flat_map_app.
  f_equal. cbn [flat_map]. rewrite app_nil_r. cbn [Nat.add]. generalize (w * f)%nat as m. clear. intros m.
  replace (seq m f) with (seq (m + 0) f) by (f_equal; lia). generalize 0%nat as a. induction f as [|f IH]; intros a; [reflexivity|].
  cbn [seq map]. f_equal. rewrite <- IH. f_equal. lia.
Qed.
Lemma flat_map_map {A B C} (f : B -> list C) (g : A -> B) l : flat_map f (map g l) = flat_map (fun a => f (g a)) l.
Proof. induction l as [|a l IH]; [reflexivity|]. cbn. rewrite IH. reflexivity. Qed.
Lemma map_flat_map {A B C} (f : B -> C) (g : A -> list B) l : map f (flat_map g l) = flat_map (fun a => map f (g a)) l.
Proof. induction l as [|a l IH]; [reflexivity|]. cbn. rewrite map_app, IH. reflexivity. Qed.

Section Leaves.
  Variable c : cfg.
  Hypothesis Hok : cfg_ok c.
  Let HN : (1 <= N c)%nat := proj1 Hok.
  Let Hc : (1 <= ncomb c)%nat := proj1 (proj2 Hok).

  Lemma sequences_hist k : (k <= nr c)%nat -> sequences (ncomb c) k = map (hist c k) (seq 0 (width_of c k)).
  Proof.
    induction k as [|k IH]; intros Hk; [reflexivity|]. cbn [sequences]. rewrite IH by lia. rewrite width_step by exact Hok. rewrite seq_mul, flat_map_map, map_flat_map.
    apply flat_map_ext. intros s. rewrite map_map. assert (F : fan_of c k = ncomb c) by (unfold fan_of, fan; destruct (Nat.ltb_spec k (nr c)); [reflexivity|lia]).
    rewrite F. apply map_ext_in. intros b Hb. apply in_seq in Hb. rewrite <- F.
    change (s * fan_of c k + b)%nat with (childnode c k s b). rewrite hist_child by (assumption || (rewrite F; lia)). f_equal. f_equal.
    unfold comb. destruct (Nat.ltb_spec k (nr c)); [reflexivity|lia].
  Qed.
  Lemma nodeof_hist k : (k <= nr c)%nat -> forall s, (s < width_of c k)%nat -> nodeof c (hist c k s) = s.
  Proof.
    induction k as [|k IH]; intros Hk s Hs.
    - unfold width_of, nodes in Hs. cbn in Hs. unfold nodeof. cbn. lia.
    - rewrite width_step in Hs by exact Hok. pose proof (fan_pos c Hok k) as Hf.
      assert (Hq : (s / fan_of c k < width_of c k)%nat) by (apply Nat.div_lt_upper_bound; lia).
      specialize (IH ltac:(lia) _ Hq). unfold nodeof in *. cbn [hist]. rewrite app_length. rewrite hist_length in * by exact Hok. cbn [List.length].
      replace (k + 1)%nat with (S k) by lia. cbn [walk]. fold (fan_of c k).
      rewrite (walk_ext c (branch c (hist c k (s / fan_of c k) ++ [comb c k (s / fan_of c k) (s mod fan_of c k)])) (branch c (hist c k (s / fan_of c k))) k).
      2:{ intros i Hi. unfold branch. rewrite app_nth1; [reflexivity|]. rewrite hist_length by exact Hok. exact Hi. }
      rewrite IH. unfold branch. destruct (Nat.ltb_spec k (nr c)) as [_|]; [|lia]. rewrite app_nth2; rewrite hist_length by exact Hok; [|lia].
      rewrite Nat.sub_diag. cbn [nth]. unfold comb. destruct (Nat.ltb_spec k (nr c)) as [_|]; [|lia].
      rewrite Nat.mul_comm. symmetry. apply Nat.div_mod. lia.
  Qed.

  Definition leaf (j : nat) : nat -> nat := realise c (hist c (nr c) j).
  Lemma leaf_real j : realisation c (leaf j).
  Proof.
    unfold leaf, realise. split.
    - intros k Hk. destruct (Nat.eqb_spec (nr c) 0); [lia|]. apply hist_lt; [exact Hok|lia].
    - intros k Hk. destruct (Nat.eqb_spec (nr c) 0) as [|Hn]; [reflexivity|]. f_equal. lia.
  Qed.
  Lemma leaf_rows j : map (leaf j) (seq 0 (nr c)) = hist c (nr c) j.
  Proof.
    apply nth_ext with (d := 0%nat) (d' := 0%nat); [rewrite map_length, seq_length, hist_length; auto|].
    rewrite map_length, seq_length. intros i Hi. rewrite (nth_indep _ 0%nat (leaf j 0%nat)) by (rewrite map_length, seq_length; exact Hi).
    rewrite map_nth, seq_nth by exact Hi. cbn [Nat.add]. unfold leaf, realise. destruct (Nat.eqb_spec (nr c) 0); [lia|]. f_equal. lia.
  Qed.
  Lemma psnode_after ps k : (nr c <= k)%nat -> psnode c ps k = psnode c ps (nr c).
  Proof.
    intros Hk. replace k with (nr c + (k - nr c))%nat by lia. generalize (k - nr c)%nat. clear. intros d. induction d as [|d IH]; [f_equal; lia|].
    replace (nr c + S d)%nat with (S (nr c + d)) by lia. unfold psnode in *. cbn [walk]. rewrite IH. unfold fan.
    destruct (Nat.ltb_spec (nr c + d) (nr c)); lia.
  Qed.
  Lemma width_after k : (nr c <= k)%nat -> width_of c k = width_of c (nr c).
  Proof. intros H. unfold width_of, nodes. rewrite !Nat.min_r by lia. reflexivity. Qed.
  Lemma leaf_node j k : (nr c <= k)%nat -> (j < width_of c k)%nat -> psnode c (leaf j) k = j.
  Proof.
    intros Hk Hj. rewrite width_after in Hj by assumption. rewrite psnode_after by assumption. rewrite <- nodeof_ps, leaf_rows by exact Hok. apply nodeof_hist; [lia|exact Hj].
  Qed.
  Definition leaf_br (j k : nat) : nat := if (k <? nr c)%nat then leaf j k else 0%nat.
  Lemma leaf_path t j : setup_scenario_tree (ncomb c) (nr c) (N c) = Ok t -> scenario c t (psnode c (leaf j)) (leaf_br j).
  Proof.
    intros Ht. apply walk_is_path; try assumption. intros k Hk. unfold leaf_br, fan. destruct (Nat.ltb_spec k (nr c)); [|lia]. apply leaf_real. assumption.
  Qed.
  Lemma leaf_comb j k : comb c k (psnode c (leaf j) k) (leaf_br j k) = leaf j k.
  Proof.
    destruct (psnode_step c Hok (leaf j) k (leaf_real j) (psnode_lt c Hok _ k (leaf_real j))) as (b & Hb & E & E2).
    unfold leaf_br. unfold comb in *. destruct (Nat.ltb_spec k (nr c)); [reflexivity|exact E2].
  Qed.
End Leaves.

(** The slack variable of step k. *)
Definition srow (c : cfg) (k : nat) : nat := Nat.min k ((if single_slack c then 1 else N c) - 1).
Lemma srow_lt c k : (1 <= N c)%nat -> (srow c k < (if single_slack c then 1 else N c))%nat.
Proof. unfold srow. destruct (single_slack c); lia. Qed.
(** The step whose slacks the k-th slack variable stands for. *)
Definition sstep (c : cfg) (k : nat) : nat := if single_slack c then (N c - 1)%nat else k.

Lemma nodeof_place c h : nodeof c h = place c h.
Proof.
  induction h as [|i h IH] using rev_ind; [unfold nodeof, place; rewrite firstn_nil; reflexivity|].
  unfold nodeof in *. rewrite app_length. cbn [List.length]. replace (List.length h + 1)%nat with (S (List.length h)) by lia. cbn [walk].
  rewrite (walk_ext c (branch c (h ++ [i])) (branch c h)).
  2:{ intros j Hj. unfold branch. rewrite app_nth1 by exact Hj. reflexivity. }
  rewrite IH. unfold branch, fan, place. rewrite firstn_app. destruct (Nat.ltb_spec (List.length h) (nr c)) as [H|H].
  - rewrite app_nth2, Nat.sub_diag by lia. cbn [nth]. replace (nr c - List.length h)%nat with (S (nr c - List.length h - 1)) by lia.
    cbn [firstn]. rewrite firstn_nil, fold_left_app. cbn [fold_left]. lia.
  - replace (nr c - List.length h)%nat with 0%nat by lia. cbn [firstn]. rewrite app_nil_r. lia.
Qed.
Lemma hist_place c k s : cfg_ok c -> (s < width_of c k)%nat -> place c (hist c k s) = s.
Proof.
  intros Hok Hs. rewrite <- nodeof_place. destruct (Nat.le_gt_cases k (nr c)) as [Hk|Hk]; [apply nodeof_hist; assumption|].
  rewrite nodeof_place. unfold place. rewrite (hist_after c Hok k s) by (try assumption; lia). rewrite firstn_app, hist_length, Nat.sub_diag by exact Hok. cbn [firstn]. rewrite app_nil_r.
  rewrite <- (nodeof_hist c Hok (nr c) ltac:(lia) s) at 2 by (rewrite (width_after c Hok k) in Hs by lia; exact Hs). rewrite nodeof_place. unfold place. reflexivity.
Qed.
(** The slack variable of a node in step k holds the slacks of the plan. *)
Lemma shared_slack c slack k s : cfg_ok c -> (nr c < N c)%nat -> slack_shared c slack -> (k < N c)%nat -> (s < width_of c k)%nat -> forall a,
  slack (hist c (sstep c (srow c k)) (clip c (sstep c (srow c k)) s)) a = slack (hist c k s) a.
Proof.
  intros Hok Hnr Hsh Hk Hs a. unfold sstep, srow. destruct (single_slack c) eqn:Es.
  - assert (Hw : (s < width_of c (N c - 1))%nat).
    { rewrite (width_after c Hok (N c - 1)) by lia. unfold width_of, nodes in *. rewrite Nat.min_id. apply Nat.lt_le_trans with (1 := Hs). apply Nat.pow_le_mono_r; [pose proof (proj1 (proj2 Hok)); lia|lia]. }
    apply (Hsh Es). rewrite clip_id by assumption. rewrite !hist_place by assumption. reflexivity.
  - replace (Nat.min k (N c - 1)) with k by lia. rewrite clip_id by assumption. reflexivity.
Qed.

Lemma slack_charge_ext l : forall a eps eps', (forall b, (b < a + List.length (soft_list l))%nat -> eps b = eps' b) -> slack_charge a l eps = slack_charge a l eps'.
Proof.
  induction l as [|con l IH]; intros a eps eps' H; [reflexivity|]. cbn [slack_charge]. unfold soft_list in *. cbn [flat_map] in H.
  destruct (nl_soft con) as [q|]; cbn [app List.length] in H.
  - rewrite (H a) by lia. f_equal. apply IH. intros b Hb. apply H. lia.
  - apply IH. exact H.
Qed.

(** A point and a plan have the same states, inputs and slacks. *)
Definition alike (c : cfg) (par : params) (pt : point) (policy zpol : list nat -> vec) (slack : list nat -> nat -> R) : Prop :=
  forall ps, realisation c ps ->
    let u := fun k => policy (map ps (seq 0 k)) in
    let z := fun k => zpol (map ps (seq 0 (k + 1))) in
    let p := fun k => pP par (ps k) in
    let x := plant (mdl c) (pX0 par) u z (pTvp par) p in
    (forall k, (k <= N c)%nat -> agree (n_x (mdl c)) (x k) (stateX c pt k (psnode c ps k))) /\
    (forall k, (k < N c)%nat -> agree (n_u (mdl c)) (u k) (physU c pt k (uidx c (psnode c ps k)))) /\
    (forall k a, (k < N c)%nat -> (a < List.length (soft_list (nlc c)))%nat -> slack (map ps (seq 0 k)) a = oE pt (srow c k) (psnode c ps k) a).

(** Then the objective is the cost of the plan. *)
Lemma cost_eq c par pt r policy zpol slack : cfg_ok c -> scaling_pos c -> (nr c < N c)%nat -> rterm c = RDefault r -> xu_cost c ->
  alike c par pt policy zpol slack -> has_objective c par pt (plan_cost c par r policy zpol slack).
Proof.
  intros Hok Hpos Hnr Hr (Hl & Hm) HE.
  assert (HN : (1 <= N c)%nat) by apply Hok. assert (Hc : (1 <= ncomb c)%nat) by apply Hok.
  destruct (tree_exists (ncomb c) (nr c) (N c) Hc HN) as [t Ht].
  destruct (body_sat c Hok par pt t Ht) as (p & E & _).
  assert (Ep : prepare_nlp c par pt = Ok p) by (unfold prepare_nlp; rewrite Ht; cbn [bind]; exact E).
  exists p. split; [exact Ep|].
  assert (Hpath : forall j, (j < nodes (ncomb c) (nr c) (N c))%nat -> scenario c t (psnode c (leaf c j)) (leaf_br c j) /\ psnode c (leaf c j) (N c) = j).
  { intros j Hj. split; [apply leaf_path; assumption|]. apply leaf_node; [assumption|lia|exact Hj]. }
  rewrite (C07_objective_is_scenario_average_partial c par pt t p r Hok Hnr Hr) with (node := fun j => psnode c (leaf c j)) (br := leaf_br c); try assumption.
  2:{ intros a Ha. pose proof (proj1 (proj2 Hpos) a Ha). lra. }
  cbv zeta.
  assert (EW : nodes (ncomb c) (nr c) (N c) = (ncomb c ^ nr c)%nat) by (unfold nodes; f_equal; lia).
  assert (EW' : width_of c (nr c) = (ncomb c ^ nr c)%nat) by (unfold width_of, nodes; f_equal; lia).
  assert (Hpw : forall m, INR (ncomb c ^ m) <> 0) by (intros m; apply not_0_INR; apply Nat.pow_nonzero; lia).
  set (F := fun k s (b : nat) => slack_charge 0 (nlc c) (oE pt (Nat.min k ((if single_slack c then 1 else N c) - 1)) s)
        + rate_penalty c r (physU c pt k (uidx c s)) (if (k =? 0)%nat then pUprev par else physU c pt (k-1) (uidx c (s / fan_of c (k-1))))).
  assert (ES : total (N c) (fun k => total (width_of c k) (fun s => total (fan_of c k) (fun b => F k s b)))
     = 1 / INR (nodes (ncomb c) (nr c) (N c)) * total (nodes (ncomb c) (nr c) (N c)) (fun j => total (N c) (fun k => INR (ncomb c ^ Nat.min (k + 1) (nr c)) * F k (psnode c (leaf c j) k) (leaf_br c j k)))).
  { rewrite sumn_swap, sumn_scal. apply sumn_ext. intros k Hk.
    pose proof (average_edges (ncomb c) (nr c) (N c) Hc HN t Ht (fun j => psnode c (leaf c j)) (leaf_br c) Hpath (F k) k Hk) as HA.
    unfold nodes at 1 in HA.
    assert (E3 : total (width_of c k) (fun s => total (fan_of c k) (fun b => F k s b)) = INR (ncomb c ^ Nat.min (k + 1) (nr c)) *
      (1 / INR (ncomb c ^ Nat.min (k + 1) (nr c)) * sumn (nodes (ncomb c) (nr c) k) (fun s => sumn (fan (ncomb c) (nr c) k) (fun b => F k s b)))).
    { change (total (width_of c k) (fun s => total (fan_of c k) (fun b => F k s b))) with (sumn (nodes (ncomb c) (nr c) k) (fun s => sumn (fan (ncomb c) (nr c) k) (fun b => F k s b))).
      field. apply Hpw. }
    rewrite E3, HA. rewrite <- (sumn_scal (nodes (ncomb c) (nr c) (N c)) (fun j => F k (psnode c (leaf c j) k) (leaf_br c j k)) (INR (ncomb c ^ Nat.min (k + 1) (nr c)))). ring. }
  unfold F in ES. rewrite ES. clear ES. rewrite <- Rmult_plus_distr_l. unfold plan_cost. rewrite <- EW at 1. f_equal.
  rewrite (sequences_hist c Hok (nr c)) by lia. rewrite map_map.
  change (rsum (map (fun x => scenario_cost c par r policy zpol slack (realise c (hist c (nr c) x))) (seq 0 (width_of c (nr c)))))
    with (total (width_of c (nr c)) (fun j => scenario_cost c par r policy zpol slack (leaf c j))).
  rewrite EW', EW, <- sumn_plus. apply sumn_ext. intros j Hj. rewrite <- EW in Hj. destruct (Hpath j Hj) as [HP _].
  destruct (HE (leaf c j) (leaf_real c Hok j)) as (Hx & Hu & Hs). clear HE.
  assert (EP : forall k, (k < N c)%nat -> scen_p par t (psnode c (leaf c j)) (leaf_br c j) k = pP par (leaf c j k)).
  { intros k Hk. unfold scen_p. destruct (path_edge c Hok t Ht _ _ k HP Hk) as (_ & _ & ->). rewrite leaf_comb by exact Hok. reflexivity. }
  unfold scenario_cost. f_equal; [f_equal|].
  - apply sumn_ext. intros k Hk. rewrite EP by exact Hk. apply Hl.
    + intros a Ha. symmetry. apply (Hx k ltac:(lia) a Ha).
    + intros a Ha. symmetry. apply (Hu k Hk a Ha).
  - rewrite EP by lia. apply Hm. intros a Ha. symmetry. apply (Hx (N c) ltac:(lia) a Ha).
  - apply sumn_ext. intros k Hk. f_equal. f_equal.
    + apply slack_charge_ext. intros b Hb. symmetry. apply Hs; assumption.
    + unfold rate_penalty. apply sumn_ext. intros a Ha. f_equal. f_equal. f_equal. rewrite <- (Hu k Hk a Ha). f_equal.
      destruct (Nat.eqb_spec k 0) as [->|Hk0]; [reflexivity|].
      assert (Epar : (psnode c (leaf c j) k / fan_of c (k - 1))%nat = psnode c (leaf c j) (k - 1)).
      { destruct (psnode_step c Hok (leaf c j) (k - 1) (leaf_real c Hok j) (psnode_lt c Hok _ _ (leaf_real c Hok j))) as (b & Hb & E1 & _).
        replace (S (k - 1)) with k in E1 by lia. rewrite E1. apply child_div; assumption. }
      rewrite Epar. symmetry. apply (Hu (k - 1)%nat ltac:(lia) a Ha).
Qed.
