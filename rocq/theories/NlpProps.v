(** * Property theorems about the MPC optimisation problem (C05-C11, C13, C58). *)
From Coq Require Import Reals Lra.
From Verif Require Import Base TreeModel TreeSpec TreeProofs TreeProofs2 NlpModel NlpSpec NlpProofs NlpProofs2 NlpProofs3 NlpProofs4.
Local Open Scope R_scope.

(** ** A concrete family of configurations used by the examples and counterexamples:
    one state, one input, x+ = x + u + p and optionally one algebraic state z = p. *)
Definition ex_model (nz : nat) : dyn_model :=
  {| n_x := 1; n_u := 1; n_z := nz;
     rhs := fun x u z tvp p w a => x a + u a + p a;
     alg := fun x u z tvp p w a => z a - p a |}.
Definition ex_cfg (n r cc : nat) (nlchk : bool) (nz : nat) (l : list nl_con)
   (lt : vec -> vec -> vec -> vec -> vec -> R) (mt : vec -> vec -> vec -> R) : cfg :=
  {| N := n; nr := r; ncomb := cc; open_loop := false; single_slack := false; chk_colloc := true;
     nl_chk_colloc := nlchk; mdl := ex_model nz; sx := fun _ => 2; su := fun _ => 4; sz := fun _ => 1;
     disc := Discrete; nlc := l; lterm := lt; mterm := mt; rterm := RDefault (fun _ => 0);
     xlb := fun _ => None; xub := fun _ => Some 3; ulb := fun _ => None; uub := fun _ => None;
     zlb := fun _ => None; zub := fun _ => None; tlb := fun _ => None; tub := fun _ => None |}.
Lemma ex_ok n r cc nlchk nz l lt mt : (1 <= n)%nat -> (1 <= cc)%nat -> cfg_ok (ex_cfg n r cc nlchk nz l lt mt).
Proof. intros. repeat split; cbn; auto. intros a _. cbn. lra. Qed.
Lemma ex_pos n r cc nlchk nz l lt mt : scaling_pos (ex_cfg n r cc nlchk nz l lt mt).
Proof. repeat split; cbn; intros; lra. Qed.
Definition ex_par : params :=
  {| pX0 := fun _ => 0; pTvp := fun _ _ => 0; pP := fun c _ => INR c; pUprev := fun _ => 0 |}.
(** x_k = k*s in scenario s, zero input *)
Definition ex_pt : point :=
  {| oX := fun k s i a => INR (k * s) / 2; oZ := fun k s i a => INR s; oU := fun k s a => 0; oE := fun k s a => 0 |}.

(** ** C06 *)

(** C06 (1): for every accepted configuration the problem is generated without error; a point
    satisfies all generated constraints iff the initial state is the given one, the
    discrete-time model holds along every scenario, and the nonlinear constraints hold. *)
Theorem C06_equality_constraints_are_the_dynamics :
  forall c par pt t, cfg_ok c -> disc c = Discrete ->
  setup_scenario_tree (ncomb c) (nr c) (N c) = Ok t ->
  exists p, prepare_nlp c par pt = Ok p /\
    (cons_sat (cons p) (cons_lb p) (cons_ub p) <->
       (forall a, (a < n_x (mdl c))%nat -> stateX c pt 0 0 a = pX0 par a) /\
       discrete_dynamics c par pt t /\
       (forall k s b, is_edge c k s b -> nl_step c par pt k s b)).
Proof.
  intros c par pt t Hok Hd Ht.
  destruct (body_sat c Hok par pt t Ht) as (p & E & _ & _ & _ & _ & Hsat).
  exists p. unfold prepare_nlp. rewrite Ht. cbn [bind]. split; [exact E|].
  rewrite Hsat, <- (discrete_iff c Hok t Ht par pt Hd). unfold initial_ok. split.
  - intros [H1 H2]. split; [exact H1|]. split; intros k s b He; apply (H2 k s b He).
  - intros (H1 & H2 & H3). split; [exact H1|]. intros k s b He. split; [apply H2|apply H3]; exact He.
Qed.
Print Assumptions C06_equality_constraints_are_the_dynamics.

Lemma ex_feasible_con : forall k s b, is_edge (ex_cfg 2 1 2 false 0 [] (fun _ _ _ _ _ => 0) (fun _ _ _ => 0)) k s b ->
  model_step (ex_cfg 2 1 2 false 0 [] (fun _ _ _ _ _ => 0) (fun _ _ _ => 0)) ex_par ex_pt k s b.
Proof.
  intros k s b (Hk & Hs & Hb). cbn in Hk. destruct k as [|[|k]]; [| |lia];
  unfold width_of, fan_of, nodes, fan in *; cbn in Hs, Hb;
  unfold model_step, model_step_with, discrete_step, stateX, physX, childnode, fan_of, fan, comb, physU; cbn;
  (split; [|intros; lia]); intros a Ha.
  - assert (s = 0)%nat by lia. subst. destruct b as [|[|b]]; [| |lia]; cbn; lra.
  - assert (b = 0)%nat by lia. subst. destruct s as [|[|s]]; [| |lia]; cbn; lra.
Qed.
Example C06_nonvacuous :
  let c := ex_cfg 2 1 2 false 0 [] (fun _ _ _ _ _ => 0) (fun _ _ _ => 0) in
  cfg_ok c /\ disc c = Discrete /\ (exists t, setup_scenario_tree (ncomb c) (nr c) (N c) = Ok t) /\
  exists p, prepare_nlp c ex_par ex_pt = Ok p /\ cons_sat (cons p) (cons_lb p) (cons_ub p) /\ List.length (cons p) = 5%nat.
Proof.
  intros c. assert (Hok : cfg_ok c) by (apply ex_ok; lia). split; [exact Hok|]. split; [reflexivity|].
  destruct (tree_exists 2 1 2) as [t Ht]; [lia..|]. split; [exists t; exact Ht|].
  destruct (body_sat c Hok ex_par ex_pt t Ht) as (p & E & _ & _ & HL & _ & Hsat).
  exists p. unfold prepare_nlp. change (setup_scenario_tree (ncomb c) (nr c) (N c)) with (setup_scenario_tree 2 1 2).
  rewrite Ht. cbn [bind]. split; [exact E|]. split.
  - apply Hsat. split.
    + intros a Ha. unfold stateX, physX; cbn. lra.
    + intros k s b He. split; [apply ex_feasible_con; exact He|]. intros i con Hi. destruct i; discriminate Hi.
  - rewrite HL. reflexivity.
Qed.

(** C06 (2): collocation.  Same, edge by edge: the constraints are the collocation equations, the
    continuity equations between finite elements and to the child node. *)
Theorem C06_collocation_constraints :
  forall c par pt deg ni h C D, cfg_ok c -> disc c = Colloc deg ni h C D ->
  exists p, prepare_nlp c par pt = Ok p /\
    (cons_sat (cons p) (cons_lb p) (cons_ub p) <->
       (forall a, (a < n_x (mdl c))%nat -> stateX c pt 0 0 a = pX0 par a) /\
       (forall k s b, is_edge c k s b ->
          colloc_step c par pt deg ni h C D (physU c pt k (uidx c s)) k s b) /\
       (forall k s b, is_edge c k s b -> nl_step c par pt k s b)).
Proof.
  intros c par pt deg ni h C D Hok Hd.
  destruct (tree_exists (ncomb c) (nr c) (N c)) as [t Ht]; [apply Hok..|].
  destruct (body_sat c Hok par pt t Ht) as (p & E & _ & _ & _ & _ & Hsat).
  exists p. unfold prepare_nlp. rewrite Ht. cbn [bind]. split; [exact E|].
  rewrite Hsat. unfold initial_ok, model_step, model_step_with. rewrite Hd. split.
  - intros [H1 H2]. split; [exact H1|]. split; intros k s b He; apply (H2 k s b He).
  - intros (H1 & H2 & H3). split; [exact H1|]. intros k s b He. split; [apply H2|apply H3]; exact He.
Qed.
Print Assumptions C06_collocation_constraints.

(** ** C05 *)

(** C05: non-anticipativity.  If the constraints hold there is a policy - a function of the
    parameter combinations realised strictly before the step - such that in every scenario the
    model holds with the policy's input, and that input is the scenario's input variable; with
    open_loop the policy depends on the number of the step only. *)
Theorem C05_inputs_are_non_anticipative :
  forall c par pt t p, cfg_ok c -> setup_scenario_tree (ncomb c) (nr c) (N c) = Ok t ->
  prepare_nlp c par pt = Ok p -> cons_sat (cons p) (cons_lb p) (cons_ub p) ->
  exists policy : list nat -> vec,
    (open_loop c = true -> forall h h', List.length h = List.length h' -> policy h = policy h') /\
    forall node br, scenario c t node br -> forall k, (k < N c)%nat ->
      let history := map (fun i => Z.to_nat (combination_on t node br i)) (seq 0 k) in
      policy history = scen_u c pt node k /\
      model_step_with c par pt (policy history) k (node k) (br k).
Proof.
  intros c par pt t p Hok Ht E Hsat.
  destruct (body_sat c Hok par pt t Ht) as (p' & E' & _ & _ & _ & _ & Hiff).
  unfold prepare_nlp in E. rewrite Ht in E. cbn [bind] in E. rewrite E in E'. injection E' as <-.
  apply Hiff in Hsat. destruct Hsat as [_ Hedges].
  exists (fun h => physU c pt (List.length h) (uidx c (walk (ncomb c) (nr c)
            (fun i => if (i <? nr c)%nat then nth i h 0%nat else 0%nat) (List.length h)))).
  split.
  - intros Ho h h' El. unfold uidx. rewrite Ho, El. reflexivity.
  - intros node br HP k Hk history.
    assert (Eh : List.length history = k) by (unfold history; rewrite map_length, seq_length; reflexivity).
    rewrite Eh. unfold history. rewrite <- (node_by_history c Hok t Ht node br k HP ltac:(lia)).
    split; [reflexivity|]. apply Hedges. apply (path_edge c Hok t Ht node br k HP Hk).
Qed.
Print Assumptions C05_inputs_are_non_anticipative.
(** The hypotheses are those of C06_nonvacuous; in that example two different scenarios exist. *)
Example C05_nonvacuous :
  exists t node br node' br', setup_scenario_tree 2 1 2 = Ok t /\
    scenario (ex_cfg 2 1 2 false 0 [] (fun _ _ _ _ _ => 0) (fun _ _ _ => 0)) t node br /\
    scenario (ex_cfg 2 1 2 false 0 [] (fun _ _ _ _ _ => 0) (fun _ _ _ => 0)) t node' br' /\ node 2%nat <> node' 2%nat.
Proof.
  destruct (tree_exists 2 1 2) as [t Ht]; [lia..|].
  exists t, (walk 2 1 (fun _ => 0%nat)), (fun _ => 0%nat),
     (walk 2 1 (fun k => if (k =? 0)%nat then 1%nat else 0%nat)), (fun k => if (k =? 0)%nat then 1%nat else 0%nat).
  split; [exact Ht|]. split; [|split].
  - apply walk_is_path; [cbn; lia..|exact Ht|]. cbn [N ex_cfg]. intros [|[|k]] Hk; vm_compute; lia.
  - apply walk_is_path; [cbn; lia..|exact Ht|]. cbn [N ex_cfg]. intros [|[|k]] Hk; vm_compute; lia.
  - vm_compute. discriminate.
Qed.

(** ** C10 *)

(** C10: the three vectors have the same length, which is the number of initial conditions plus,
    for each edge of the tree, the model equations, the continuity equations and the nonlinear
    constraints; and the number of edges is the number of nodes except the root. *)
Theorem C10_constraint_vectors_aligned :
  forall c par pt, cfg_ok c ->
  exists p, prepare_nlp c par pt = Ok p /\
    List.length (cons_lb p) = List.length (cons p) /\ List.length (cons_ub p) = List.length (cons p) /\
    let per_step := match disc c with
                    | Discrete => n_z (mdl c)
                    | Colloc deg ni _ _ _ => ni * (deg+1) * (n_x (mdl c) + n_z (mdl c))
                    end%nat in
    let nl_points := (if nl_chk_colloc c then match disc c with Discrete => 0 | Colloc deg ni _ _ _ => (deg+1) * ni end else 1)%nat in
    List.length (cons p) =
      (n_x (mdl c) + list_sum (map (fun k => ncomb c ^ Nat.min (k+1) (nr c)) (seq 0 (N c)))
                     * (per_step + n_x (mdl c) + nl_points * List.length (nlc c)))%nat.
Proof.
  intros c par pt Hok.
  destruct (tree_exists (ncomb c) (nr c) (N c)) as [t Ht]; [apply Hok..|].
  destruct (body_sat c Hok par pt t Ht) as (p & E & L1 & L2 & L3 & _ & _).
  exists p. unfold prepare_nlp. rewrite Ht. cbn [bind]. split; [exact E|]. split; [auto|]. split; [auto|].
  cbv zeta. rewrite L3. f_equal.
  assert (Hle : List.length (edges c) = list_sum (map (fun k => ncomb c ^ Nat.min (k+1) (nr c)) (seq 0 (N c)))%nat).
  { unfold edges. generalize (seq 0 (N c)). intros ks. induction ks as [|k ks IH]; [reflexivity|].
    cbn [flat_map map list_sum fold_right]. rewrite app_length. unfold list_sum in IH. rewrite IH. f_equal.
    pose proof (nodes_S (ncomb c) (nr c) k) as En. unfold nodes in En. rewrite En.
    unfold n_scenarios, n_branches, fan.
    rewrite <- (seq_length (ncomb c ^ Nat.min k (nr c)) 0) at 2.
    generalize (seq 0 (ncomb c ^ Nat.min k (nr c))). intros ss.
    induction ss as [|s ss IHs]; [reflexivity|]. cbn [flat_map List.length]. rewrite app_length, IHs, map_length, seq_length. lia. }
  rewrite Hle. f_equal. unfold rows_per_edge, eqs_per_step, ncoll. destruct (disc c), (nl_chk_colloc c); lia.
Qed.
Print Assumptions C10_constraint_vectors_aligned.
Example C10_nonvacuous : cfg_ok (ex_cfg 3 2 2 false 1 [] (fun _ _ _ _ _ => 0) (fun _ _ _ => 0)) /\
  list_sum (map (fun k => 2 ^ Nat.min (k+1) 2)%nat (seq 0 3)) = 10%nat.
Proof. split; [apply ex_ok; lia|reflexivity]. Qed.

(** ** C07 *)

(** rate penalty as documented, in the code's scaled units: sum r_a ((u_k - u_(k-1))/su)^2 *)
Definition rate_penalty (c : cfg) (r : vec) (u uprev : vec) : R :=
  total (n_u (mdl c)) (fun a => r a * ((u a - uprev a) / su c a) ^ 2).

Lemma slack_charge_is l eps : epsterm l eps = slack_charge 0 l eps.
Proof.
  unfold epsterm. generalize 0%nat as a. induction l as [|con l IH]; intros a; [reflexivity|].
  cbn [slack_charge]. unfold soft_list in *. cbn [flat_map]. destruct (nl_soft con) as [q|]; cbn [app]; [|apply IH].
  specialize (IH (S a)). rewrite <- IH. reflexivity.
Qed.

Lemma obj_split c (Hok : cfg_ok c) par pt t p :
  setup_scenario_tree (ncomb c) (nr c) (N c) = Ok t -> prepare_nlp c par pt = Ok p ->
  forall node br : nat -> nat -> nat,
  (forall j, (j < nodes (ncomb c) (nr c) (N c))%nat -> scenario c t (node j) (br j) /\ node j (N c) = j) ->
  let W := nodes (ncomb c) (nr c) (N c) in
  obj p =
    1 / INR W * total W (fun j => total (N c) (fun k =>
         lterm c (scen_x c pt (node j) k) (scen_u c pt (node j) k) (physZ c pt k (node j k) (last_z c))
               (pTvp par k) (scen_p par t (node j) (br j) k)))
  + 1 / INR W * total W (fun j =>
         mterm c (stateX c pt (N c) (node j (N c - 1)%nat)) (pTvp par (N c)) (scen_p par t (node j) (br j) (N c - 1)))
  + total (N c) (fun k => total (width_of c k) (fun s => total (fan_of c k) (fun b =>
         epsterm (nlc c) (oE pt (k_eps c k) s) + rterm_edge c t par pt k s b))).
Proof.
  intros Ht E node br Hp W.
  destruct (body_sat c Hok par pt t Ht) as (p' & E' & _ & _ & _ & Ho & _).
  unfold prepare_nlp in E. rewrite Ht in E. cbn [bind] in E. rewrite E in E'. injection E' as <-.
  rewrite Ho, sum_edges. unfold edge_obj.
  assert (HN : (1 <= N c)%nat) by apply Hok. assert (Hc : (1 <= ncomb c)%nat) by apply Hok.
  set (Lk := fun k s b => lterm c (uX c pt k s (last_x c)) (uU c pt k (s_u c s)) (uZ c pt k s (last_z c)) (pTvp par k) (pP par (cur t k s b))).
  set (Mk := fun k s b => mterm c (uX c pt (k+1) s (last_x c)) (pTvp par (k+1)) (pP par (cur t k s b))).
  set (Rk := fun k s b => epsterm (nlc c) (oE pt (k_eps c k) s) + rterm_edge c t par pt k s b).
  assert (E1 : total (N c) (fun k => total (width_of c k) (fun s => total (fan_of c k) (fun b =>
      omega c k * Lk k s b + epsterm (nlc c) (uE pt (k_eps c k) s) + (if (k =? N c - 1)%nat then omega c k * Mk k s b else 0) + rterm_edge c t par pt k s b)))
    = total (N c) (fun k => omega c k * total (width_of c k) (fun s => total (fan_of c k) (fun b => Lk k s b)))
    + total (N c) (fun k => if (k =? N c - 1)%nat then omega c k * total (width_of c k) (fun s => total (fan_of c k) (fun b => Mk k s b)) else 0)
    + total (N c) (fun k => total (width_of c k) (fun s => total (fan_of c k) (fun b => Rk k s b)))).
  { rewrite <- !sumn_plus. apply sumn_ext. intros k Hk.
    replace (if (k =? N c - 1)%nat then omega c k * total (width_of c k) (fun s => total (fan_of c k) (fun b => Mk k s b)) else 0)
      with (total (width_of c k) (fun s => total (fan_of c k) (fun b => if (k =? N c - 1)%nat then omega c k * Mk k s b else 0))).
    2:{ destruct (k =? N c - 1)%nat.
        - rewrite sumn_scal. apply sumn_ext. intros s Hs. rewrite sumn_scal. reflexivity.
        - rewrite (sumn_ext _ _ (fun _ => 0)); [apply sumn_zero|]. intros; apply sumn_zero. }
    rewrite sumn_scal, <- !sumn_plus. apply sumn_ext. intros s Hs.
    rewrite sumn_scal, <- !sumn_plus. apply sumn_ext. intros b Hb. unfold Rk, uE. ring. }
  etransitivity; [exact E1|]. clear E1. f_equal; f_equal.
  - rewrite sumn_swap, sumn_scal. apply sumn_ext. intros k Hk.
    unfold omega. change (n_scenarios (ncomb c) (nr c) (k+1)) with (nodes (ncomb c) (nr c) (k+1)).
    etransitivity; [exact (average_edges (ncomb c) (nr c) (N c) Hc HN t Ht node br Hp (fun s b => Lk k s b) k Hk)|].
    reflexivity.
  - assert (E2 : forall n (f : nat -> R), (1 <= n)%nat -> total n (fun k => if (k =? n - 1)%nat then f k else 0) = f (n-1)%nat).
    { intros n f Hn. destruct n as [|n]; [lia|]. replace (S n - 1)%nat with n by lia. rewrite sumn_S, Nat.eqb_refl.
      rewrite (sumn_ext _ _ (fun _ => 0)); [rewrite sumn_zero; ring|].
      intros i Hi. destruct (Nat.eqb_spec i n); [lia|reflexivity]. }
    rewrite (E2 (N c) (fun k => omega c k * total (width_of c k) (fun s => total (fan_of c k) (fun b => Mk k s b))) HN).
    unfold omega. change (n_scenarios (ncomb c) (nr c) (N c - 1 + 1)) with (nodes (ncomb c) (nr c) (N c - 1 + 1)).
    etransitivity; [exact (average_edges (ncomb c) (nr c) (N c) Hc HN t Ht node br Hp (fun s b => Mk (N c - 1)%nat s b) (N c - 1)%nat ltac:(lia))|].
    unfold W, Mk. replace (N c - 1 + 1)%nat with (N c) by lia. reflexivity.
Qed.

(** C07: for n_robust < N the objective is the average over all scenarios of the stage costs
    along the scenario plus the terminal cost at its end, plus, once per edge, the slack penalty
    and the default rate penalty.  Restrictions (see the two _refuted theorems): n_robust < N,
    and the algebraic states fed to the stage cost are those stored under the node's own index. *)
Theorem C07_objective_is_scenario_average_partial :
  forall c par pt t p r, cfg_ok c -> (nr c < N c)%nat -> rterm c = RDefault r ->
  (forall a, (a < n_u (mdl c))%nat -> su c a <> 0) ->
  setup_scenario_tree (ncomb c) (nr c) (N c) = Ok t -> prepare_nlp c par pt = Ok p ->
  forall node br : nat -> nat -> nat,
  (forall j, (j < nodes (ncomb c) (nr c) (N c))%nat -> scenario c t (node j) (br j) /\ node j (N c) = j) ->
  let W := nodes (ncomb c) (nr c) (N c) in
  let zlast := (Nat.max (ncoll (disc c)) 1 - 1)%nat in
  obj p =
    1 / INR W * total W (fun j =>
        total (N c) (fun k =>
          lterm c (scen_x c pt (node j) k) (scen_u c pt (node j) k) (physZ c pt k (node j k) zlast)
                (pTvp par k) (scen_p par t (node j) (br j) k))
        + mterm c (scen_x c pt (node j) (N c)) (pTvp par (N c)) (scen_p par t (node j) (br j) (N c - 1)))
  + total (N c) (fun k => total (width_of c k) (fun s => total (fan_of c k) (fun b =>
        slack_charge 0 (nlc c) (oE pt (Nat.min k ((if single_slack c then 1 else N c) - 1)) s)
        + rate_penalty c r (physU c pt k (uidx c s))
            (if (k =? 0)%nat then pUprev par else physU c pt (k-1) (uidx c (s / fan_of c (k-1))))))).
Proof.
  intros c par pt t p r Hok Hnr Hr Hsu Ht E node br Hp W zlast.
  assert (HN : (1 <= N c)%nat) by apply Hok. assert (Hc : (1 <= ncomb c)%nat) by apply Hok.
  rewrite (obj_split c Hok par pt t p Ht E node br Hp). fold W. f_equal.
  - rewrite <- Rmult_plus_distr_l, <- sumn_plus. f_equal. apply sumn_ext. intros j Hj. f_equal.
    destruct (Hp j Hj) as [HP Hl]. unfold scen_x. f_equal. f_equal.
    destruct (path_step (ncomb c) (nr c) (N c) Hc HN t Ht _ _ HP (N c - 1)%nat ltac:(lia)) as [E1 B].
    replace (N c - 1 + 1)%nat with (N c) in E1 by lia. unfold fan in E1, B.
    destruct (Nat.ltb_spec (N c - 1) (nr c)); lia.
  - apply sumn_ext. intros k Hk. apply sumn_ext. intros s Hs. apply sumn_ext. intros b Hb.
    f_equal; [apply slack_charge_is|]. unfold rterm_edge, rate_penalty, total, rows. rewrite Hr. apply rsum_ext. intros a Ha. apply in_seq in Ha.
    specialize (Hsu a ltac:(lia)). f_equal. f_equal. unfold physU, uidx, s_u.
    destruct (Nat.eqb_spec k 0) as [K0|K0].
    + field. exact Hsu.
    + assert (Epar : forall s', (s' < width_of c k)%nat -> parent t k s' = (s' / fan_of c (k-1))%nat)
        by (intros; apply (parent_is c HN Hc t Ht); lia).
      destruct (open_loop c).
      * rewrite Epar by (unfold width_of; pose proof (ns_pos (ncomb c) (nr c) k Hc); unfold n_scenarios, nodes in *; lia).
        pose proof (fan_pos (ncomb c) (nr c) Hc (k-1)). unfold fan_of. rewrite Nat.div_0_l by lia. field. exact Hsu.
      * rewrite Epar by exact Hs. field. exact Hsu.
Qed.
Print Assumptions C07_objective_is_scenario_average_partial.
(** hypotheses: a path per leaf exists for every tree *)
Example C07_nonvacuous :
  let c := ex_cfg 3 1 2 false 0 [] (fun x _ _ _ _ => x 0%nat ^ 2) (fun x _ _ => x 0%nat) in
  cfg_ok c /\ (nr c < N c)%nat /\ exists t node br, setup_scenario_tree 2 1 3 = Ok t /\
  (forall j, (j < nodes 2 1 3)%nat -> scenario c t (node j) (br j) /\ node j (N c) = j).
Proof.
  intros c. split; [apply ex_ok; lia|]. split; [cbn; lia|].
  destruct (tree_exists 2 1 3) as [t Ht]; [lia..|].
  exists t, (fun j => walk 2 1 (fun k => if (k =? 0)%nat then j else 0%nat)), (fun j k => if (k =? 0)%nat then j else 0%nat).
  split; [exact Ht|]. intros j Hj. cbn in Hj. split.
  - apply walk_is_path; [cbn; lia..|exact Ht|]. cbn [N ex_cfg]. intros [|[|[|k]]] Hk; vm_compute; try lia; exact Hj.
  - cbn. lia.
Qed.

(** C07 is false of the code when n_robust = N: the terminal cost of the last branching uses the
    parent's index, so the end state of scenario 1 does not enter the objective. *)
Theorem C07_terminal_cost_refuted :
  exists c par pt p, cfg_ok c /\ nr c = N c /\ prepare_nlp c par pt = Ok p /\
    (forall x u z tvp q, lterm c x u z tvp q = 0) /\ rterm c = RDefault (fun _ => 0) /\ nlc c = [] /\
    obj p <> 1 / INR (nodes (ncomb c) (nr c) (N c)) *
             total (nodes (ncomb c) (nr c) (N c)) (fun j => mterm c (stateX c pt (N c) j) vzero vzero).
Proof.
  set (c := ex_cfg 1 1 2 false 0 [] (fun _ _ _ _ _ => 0) (fun x _ _ => x 0%nat)).
  assert (Hok : cfg_ok c) by (apply ex_ok; lia).
  destruct (tree_exists 2 1 1) as [t Ht]; [lia..|].
  destruct (body_sat c Hok ex_par ex_pt t Ht) as (p & E & _ & _ & _ & Ho & _).
  assert (EE : prepare_nlp c ex_par ex_pt = Ok p).
  { unfold prepare_nlp. change (setup_scenario_tree (ncomb c) (nr c) (N c)) with (setup_scenario_tree 2 1 1). rewrite Ht. exact E. }
  exists c, ex_par, ex_pt, p. repeat split; try exact EE; try apply Hok; try reflexivity.
  rewrite Ho. cbn [edges c ex_cfg N seq flat_map map n_scenarios n_branches ncomb nr Nat.min Nat.pow Nat.mul Nat.add Nat.ltb Nat.leb app].
  unfold edge_obj, rterm_edge, omega, uX, last_x, nc; cbn.
  unfold vmul, total, stateX, physX; cbn. lra.
Qed.
Print Assumptions C07_terminal_cost_refuted.

(** C07 is false of the code for stage costs that read algebraic states in a branching tree: all
    branches of a node are charged with the algebraic state of branch 0. *)
Theorem C07_stage_cost_algebraic_refuted :
  exists c par pt p t node br, cfg_ok c /\ (nr c < N c)%nat /\
    setup_scenario_tree (ncomb c) (nr c) (N c) = Ok t /\ prepare_nlp c par pt = Ok p /\
    cons_sat (cons p) (cons_lb p) (cons_ub p) /\
    (forall j, (j < nodes (ncomb c) (nr c) (N c))%nat -> scenario c t (node j) (br j) /\ node j (N c) = j) /\
    (forall x tvp q, mterm c x tvp q = 0) /\ rterm c = RDefault (fun _ => 0) /\ nlc c = [] /\
    obj p <> 1 / INR (nodes (ncomb c) (nr c) (N c)) * total (nodes (ncomb c) (nr c) (N c)) (fun j =>
       total (N c) (fun k => lterm c (scen_x c pt (node j) k) (scen_u c pt (node j) k) (scen_z c pt (node j) k 0)
                             (pTvp par k) (scen_p par t (node j) (br j) k))).
Proof.
  set (c := ex_cfg 2 1 2 false 1 [] (fun _ _ z _ _ => z 0%nat) (fun x _ _ => 0)).
  assert (Hok : cfg_ok c) by (apply ex_ok; lia).
  destruct (tree_exists 2 1 2) as [t Ht]; [lia..|].
  destruct (body_sat c Hok ex_par ex_pt t Ht) as (p & E & _ & _ & _ & Ho & Hsat).
  assert (EE : prepare_nlp c ex_par ex_pt = Ok p).
  { unfold prepare_nlp. change (setup_scenario_tree (ncomb c) (nr c) (N c)) with (setup_scenario_tree 2 1 2). rewrite Ht. exact E. }
  exists c, ex_par, ex_pt, p, t, (fun j => walk 2 1 (fun k => if (k =? 0)%nat then j else 0%nat)), (fun j k => if (k =? 0)%nat then j else 0%nat).
  split; [exact Hok|]. split; [cbn; lia|]. split; [exact Ht|]. split; [exact EE|]. split.
  { apply Hsat. split.
    - intros a Ha. unfold stateX, physX; cbn. lra.
    - intros k s b (Hk & Hs & Hb). split; [|intros i con Hi; destruct i; discriminate Hi].
      cbn in Hk. unfold width_of, fan_of, nodes, fan in *. cbn in Hs, Hb.
      unfold model_step, model_step_with, discrete_step, stateX, physX, physZ, childnode, fan_of, fan, comb, physU; cbn.
      destruct k as [|[|k]]; [| |lia]; cbn in *; (split; intros a Ha).
      + assert (s = 0)%nat by lia. subst. destruct b as [|[|b]]; [| |lia]; cbn; lra.
      + assert (s = 0)%nat by lia. subst. destruct b as [|[|b]]; [| |lia]; cbn; lra.
      + assert (b = 0)%nat by lia. subst. destruct s as [|[|s]]; [| |lia]; cbn; lra.
      + assert (b = 0)%nat by lia. subst. destruct s as [|[|s]]; [| |lia]; cbn; lra. }
  split.
  { intros j Hj. cbn in Hj. split.
    - apply walk_is_path; [cbn; lia..|exact Ht|]. cbn [N ex_cfg]. intros [|[|k]] Hk; vm_compute; try lia; exact Hj.
    - cbn. lia. }
  split; [reflexivity|]. split; [reflexivity|]. split; [reflexivity|].
  rewrite Ho. cbn [edges c ex_cfg N seq flat_map map n_scenarios n_branches ncomb nr Nat.min Nat.pow Nat.mul Nat.add Nat.ltb Nat.leb app].
  unfold edge_obj, rterm_edge, omega, uX, uZ, last_x, last_z, n_zpts, nc; cbn.
  unfold vmul, total, scen_z, physZ; cbn. lra.
Qed.
Print Assumptions C07_stage_cost_algebraic_refuted.

(** C58 (finding): the default rate penalty is charged on scaled inputs, so with a scaling
    factor other than 1 it is not r*(u_k - u_(k-1))^2 of the physical inputs. *)
Theorem C58_rate_penalty_physical_refuted :
  exists c par pt t r, cfg_ok c /\ scaling_pos c /\ rterm c = RDefault r /\
    setup_scenario_tree (ncomb c) (nr c) (N c) = Ok t /\
    rterm_edge c t par pt 0 0 0 <>
      total (n_u (mdl c)) (fun a => r a * (physU c pt 0 0 a - pUprev par a) ^ 2).
Proof.
  set (c0 := ex_cfg 1 0 1 false 0 [] (fun _ _ _ _ _ => 0) (fun x _ _ => 0)).
  set (c := {| N := 1; nr := 0; ncomb := 1; open_loop := false; single_slack := false; chk_colloc := true;
     nl_chk_colloc := false; mdl := ex_model 0; sx := fun _ => 2; su := fun _ => 4; sz := fun _ => 1;
     disc := Discrete; nlc := []; lterm := lterm c0; mterm := mterm c0; rterm := RDefault (fun _ => 1);
     xlb := xlb c0; xub := xub c0; ulb := ulb c0; uub := uub c0; zlb := zlb c0; zub := zub c0; tlb := tlb c0; tub := tub c0 |}).
  destruct (tree_exists 1 0 1) as [t Ht]; [lia..|].
  exists c, ex_par, {| oX := oX ex_pt; oZ := oZ ex_pt; oU := fun _ _ _ => 1; oE := oE ex_pt |}, t, (fun _ => 1).
  split. { repeat split; cbn; auto. intros a _. cbn. lra. }
  split. { repeat split; cbn; intros; lra. }
  split; [reflexivity|]. split; [exact Ht|].
  unfold rterm_edge, total, physU; cbn. lra.
Qed.
Print Assumptions C58_rate_penalty_physical_refuted.

(** C58 (what does hold): switching the default rate penalty on (factors r instead of 0) adds, for every
    problem and every point, exactly r * ((u_k - u_(k-1)) / scaling)^2 for each entry of the input and each
    edge of the tree, u_prev being the previously applied input at step 0 - so with scaling 1 (the
    default) it is the penalty on physical changes. *)
Definition with_rate (c : cfg) (r : vec) : cfg :=
  {| N := N c; nr := nr c; ncomb := ncomb c; open_loop := open_loop c; single_slack := single_slack c;
     chk_colloc := chk_colloc c; nl_chk_colloc := nl_chk_colloc c; mdl := mdl c;
     sx := sx c; su := su c; sz := sz c; disc := disc c; nlc := nlc c; lterm := lterm c; mterm := mterm c;
     rterm := RDefault r; xlb := xlb c; xub := xub c; ulb := ulb c; uub := uub c; zlb := zlb c; zub := zub c;
     tlb := tlb c; tub := tub c |}.

Lemma rterm_is c (Hok : cfg_ok c) par pt t r k s b :
  (forall a, (a < n_u (mdl c))%nat -> su c a <> 0) -> setup_scenario_tree (ncomb c) (nr c) (N c) = Ok t ->
  (k < N c)%nat -> (s < width_of c k)%nat ->
  rterm_edge (with_rate c r) t par pt k s b
  = rate_penalty c r (physU c pt k (uidx c s)) (if (k =? 0)%nat then pUprev par else physU c pt (k-1) (uidx c (s / fan_of c (k-1)))).
Proof.
  intros Hsu Ht Hk Hs. assert (HN : (1 <= N c)%nat) by apply Hok. assert (Hc : (1 <= ncomb c)%nat) by apply Hok.
  unfold rterm_edge, rate_penalty, total, rows. cbn [rterm with_rate mdl]. apply rsum_ext. intros a Ha. apply in_seq in Ha.
  specialize (Hsu a ltac:(lia)). f_equal. f_equal. unfold physU, uidx, s_u. cbn [open_loop with_rate su].
  destruct (Nat.eqb_spec k 0) as [K0|K0].
  + field. exact Hsu.
  + assert (Epar : forall s', (s' < width_of c k)%nat -> parent t k s' = (s' / fan_of c (k-1))%nat)
      by (intros; apply (parent_is c HN Hc t Ht); lia).
    destruct (open_loop c).
    * rewrite Epar by (unfold width_of; pose proof (ns_pos (ncomb c) (nr c) k Hc); unfold n_scenarios, nodes in *; lia).
      pose proof (fan_pos (ncomb c) (nr c) Hc (k-1)). unfold fan_of. rewrite Nat.div_0_l by lia. field. exact Hsu.
    * rewrite Epar by exact Hs. field. exact Hsu.
Qed.

Theorem C58_rate_penalty_partial :
  forall c par pt t p0 p r, cfg_ok c -> (forall a, (a < n_u (mdl c))%nat -> su c a <> 0) ->
  setup_scenario_tree (ncomb c) (nr c) (N c) = Ok t ->
  prepare_nlp (with_rate c (fun _ => 0)) par pt = Ok p0 -> prepare_nlp (with_rate c r) par pt = Ok p ->
  let charge (scale : vec) := total (N c) (fun k => total (width_of c k) (fun s => total (fan_of c k) (fun b =>
      total (n_u (mdl c)) (fun a => r a * (((physU c pt k (uidx c s) a)
          - (if (k =? 0)%nat then pUprev par a else physU c pt (k-1) (uidx c (s / fan_of c (k-1))) a)) / scale a) ^ 2)))) in
  obj p = obj p0 + charge (su c)
  /\ ((forall a, (a < n_u (mdl c))%nat -> su c a = 1) -> obj p = obj p0 + charge (fun _ => 1)).
Proof.
  intros c par pt t p0 p r Hok Hsu Ht E0 E charge.
  assert (O : forall r' q, prepare_nlp (with_rate c r') par pt = Ok q ->
    obj q = total (N c) (fun k => total (width_of c k) (fun s => total (fan_of c k) (fun b =>
       (omega c k * lterm c (uX c pt k s (last_x c)) (uU c pt k (s_u c s)) (uZ c pt k s (last_z c)) (pTvp par k) (pP par (cur t k s b))
        + epsterm (nlc c) (uE pt (k_eps c k) s)
        + (if (k =? N c - 1)%nat then omega c k * mterm c (uX c pt (k+1) s (last_x c)) (pTvp par (k+1)) (pP par (cur t k s b)) else 0))
       + rterm_edge (with_rate c r') t par pt k s b)))).
  { intros r' q Eq. assert (Hok' : cfg_ok (with_rate c r')) by exact Hok.
    destruct (body_sat (with_rate c r') Hok' par pt t Ht) as (q' & E' & _ & _ & _ & Ho & _).
    unfold prepare_nlp in Eq. change (ncomb (with_rate c r')) with (ncomb c) in Eq. change (nr (with_rate c r')) with (nr c) in Eq. change (N (with_rate c r')) with (N c) in Eq.
    rewrite Ht in Eq. cbn [bind] in Eq. rewrite Eq in E'. injection E' as <-. rewrite Ho, sum_edges. reflexivity. }
  assert (M : obj p = obj p0 + charge (su c)).
  { rewrite (O _ _ E), (O _ _ E0). unfold charge. rewrite <- sumn_plus. apply sumn_ext. intros k Hk. rewrite <- sumn_plus. apply sumn_ext. intros s Hs.
    rewrite <- sumn_plus. apply sumn_ext. intros b Hb. rewrite !(rterm_is c Hok par pt t _ k s b Hsu Ht Hk Hs). unfold rate_penalty.
    rewrite (sumn_ext _ (fun a => 0 * _) (fun _ => 0)) by (intros; ring). rewrite sumn_zero, Rplus_0_r. f_equal.
    apply sumn_ext. intros a Ha. destruct (k =? 0)%nat; reflexivity. }
  split; [exact M|]. intros H1. rewrite M. f_equal. unfold charge. apply sumn_ext. intros k Hk. apply sumn_ext. intros s Hs. apply sumn_ext. intros b Hb.
  apply sumn_ext. intros a Ha. rewrite (H1 a Ha). reflexivity.
Qed.
Print Assumptions C58_rate_penalty_partial.

Example C58_nonvacuous : exists p0 p, let c := ex_cfg 2 1 2 false 0 [] (fun _ _ _ _ _ => 0) (fun x _ _ => 0) in
  cfg_ok c /\ prepare_nlp (with_rate c (fun _ => 0)) ex_par ex_pt = Ok p0 /\ prepare_nlp (with_rate c (fun _ => 3)) ex_par ex_pt = Ok p.
Proof.
  set (c := ex_cfg 2 1 2 false 0 [] (fun _ _ _ _ _ => 0) (fun x _ _ => 0)).
  assert (Hok : cfg_ok c) by (apply ex_ok; lia).
  destruct (tree_exists 2 1 2) as [t Ht]; [lia..|].
  assert (O : forall r, exists q, prepare_nlp (with_rate c r) ex_par ex_pt = Ok q).
  { intros r. assert (Hok' : cfg_ok (with_rate c r)) by exact Hok.
    destruct (body_sat (with_rate c r) Hok' ex_par ex_pt t Ht) as (q & E & _). exists q. unfold prepare_nlp.
    change (setup_scenario_tree (ncomb (with_rate c r)) (nr (with_rate c r)) (N (with_rate c r))) with (setup_scenario_tree 2 1 2). rewrite Ht. exact E. }
  destruct (O (fun _ => 0)) as [p0 E0], (O (fun _ => 3)) as [p E]. exists p0, p. auto.
Qed.

(** ** C08 *)

(** C08: the bounds of the generated problem hold iff the user's bounds hold, in physical units, on
    inputs at all steps, states at the grid points of steps 1..N-1, terminal bounds at step N,
    algebraic states at the beginning of each step, in all scenarios (and slacks in their range);
    with collocation checking additionally at the collocation points stored with steps 1..N-1.
    Missing: the collocation points of the last interval (see _refuted). *)
Theorem C08_bounds_hold_partial :
  forall c pt, scaling_pos c -> (1 <= N c)%nat ->
  (within_bounds c pt <->
   physical_bounds c pt /\ (chk_colloc c = true -> colloc_bounds c pt) /\ slack_bounds c pt).
Proof. exact bounds_iff. Qed.
Print Assumptions C08_bounds_hold_partial.
Example C08_nonvacuous :
  let c := ex_cfg 2 1 2 false 0 [] (fun _ _ _ _ _ => 0) (fun _ _ _ => 0) in
  scaling_pos c /\ (1 <= N c)%nat /\ within_bounds c ex_pt /\
  ~ within_bounds c {| oX := fun _ _ _ _ => 2; oZ := oZ ex_pt; oU := oU ex_pt; oE := oE ex_pt |}.
Proof.
  intros c. split; [apply ex_pos|]. split; [cbn; lia|]. split.
  - apply bounds_iff; [apply ex_pos|cbn; lia|]. unfold physical_bounds, colloc_bounds, slack_bounds, inside, stateX, physX, physU, physZ; cbn.
    split; [split; [|split; [|split]]|split; [intros _; split|]]; try (intros; lia); try (intros; split; exact I).
    intros k s a Hk Hs Ha. split; [exact I|]. assert (k = 1)%nat by lia. subst. unfold nmax in Hs; cbn in Hs.
    destruct s as [|[|s]]; [| |lia]; cbn; lra.
  - intros H. apply bounds_iff in H; [|apply ex_pos|cbn; lia]. destruct H as ((_ & H & _) & _).
    specialize (H 1%nat 0%nat 0%nat ltac:(cbn; lia) ltac:(cbn; lia) ltac:(cbn; lia)).
    destruct H as [_ H]. unfold stateX, physX in H; cbn in H. lra.
Qed.

(** A collocation problem: x' = u, one element of degree 1 (Radau: point 1), h = 1, x <= 1. *)
Definition ex_coll : cfg :=
  {| N := 1; nr := 0; ncomb := 1; open_loop := false; single_slack := false; chk_colloc := true;
     nl_chk_colloc := true;
     mdl := {| n_x := 1; n_u := 1; n_z := 0; rhs := fun x u z tvp p w a => u a; alg := fun x u z tvp p w a => 0 |};
     sx := fun _ => 1; su := fun _ => 1; sz := fun _ => 1;
     disc := Colloc 1 1 1 (fun r j => if (r =? 0)%nat then -1 else 1) (fun j => if (j =? 0)%nat then 0 else 1);
     nlc := [ {| nl_g := fun x _ _ _ _ => x 0%nat; nl_ub := Some 1; nl_soft := None |} ];
     lterm := fun _ _ _ _ _ => 0; mterm := fun _ _ _ => 0; rterm := RDefault (fun _ => 0);
     xlb := fun _ => None; xub := fun _ => Some 1; ulb := fun _ => None; uub := fun _ => None;
     zlb := fun _ => None; zub := fun _ => None; tlb := fun _ => None; tub := fun _ => None |}.
Definition ex_coll_pt : point :=
  {| oX := fun k s i a => if (k =? 0)%nat then 0 else 10; oZ := fun _ _ _ _ => 0; oU := fun _ _ _ => 10; oE := fun _ _ _ => 0 |}.
Lemma ex_coll_ok : cfg_ok ex_coll.
Proof.
  split; [cbn; lia|]. split; [cbn; lia|]. split; [intros a _; cbn; lra|]. cbn.
  split; [lia|]. split; [lia|]. unfold wf_model, agree; cbn. intros. split; intros; reflexivity.
Qed.
Lemma ex_coll_feasible : feasible ex_coll ex_par ex_coll_pt.
Proof.
  apply feasible_iff; [apply ex_coll_ok|repeat split; cbn; intros; lra|].
  split; [split; [|split]|split].
  - unfold physical_bounds, inside; cbn. repeat split; auto; intros; lia.
  - intros _. unfold colloc_bounds, inside; cbn. repeat split; auto; intros; lia.
  - unfold slack_bounds; cbn. intros; lia.
  - intros a Ha. unfold stateX, physX; cbn. lra.
  - intros k s b (Hk & Hs & Hb). unfold width_of, fan_of, nodes, fan in *. cbn in Hk, Hs, Hb.
    assert (k = 0 /\ s = 0 /\ b = 0)%nat as (-> & -> & ->) by (destruct k; cbn in *; lia).
    split.
    + unfold model_step, model_step_with; cbn [disc ex_coll]. unfold colloc_step, collx, stateX, physX, physU; cbn.
      repeat split; try (intros; lia).
      * intros i j a Hi Hj Ha. assert (i = 0 /\ j = 1)%nat as [-> ->] by lia. cbn. lra.
      * intros i a Hi Ha. assert (i = 0)%nat by lia. subst. cbn. lra.
    + intros i con Hi. destruct i as [|[|i]]; try discriminate Hi. injection Hi as <-. cbn [nl_chk_colloc ex_coll].
      intros q Hq. unfold nl_holds, physX; cbn. lra.
Qed.

(** C08 is false of the code for the last interval: with collocation checking enabled a feasible
    point can violate the state bound at a collocation point of the last interval. *)
Theorem C08_last_interval_refuted :
  exists c par pt, cfg_ok c /\ scaling_pos c /\ chk_colloc c = true /\ feasible c par pt /\
    exists i, (i < ncoll (disc c))%nat /\
      ~ inside (xlb c 0%nat) (xub c 0%nat) (physX c pt (N c) 0 i 0%nat).
Proof.
  exists ex_coll, ex_par, ex_coll_pt. split; [apply ex_coll_ok|]. split; [repeat split; cbn; intros; lra|].
  split; [reflexivity|]. split; [apply ex_coll_feasible|]. exists 0%nat. split; [cbn; lia|].
  intros [_ H]. unfold physX in H; cbn in H. lra.
Qed.
Print Assumptions C08_last_interval_refuted.

(** ** C09 *)

(** C09 (without collocation checking): at every step 0..N-1 of every scenario each constraint
    holds up to its slack, which is zero for hard constraints, lies in [0, maximum_violation] for
    soft ones, and is charged with its penalty in the objective (slack_charge, see C07). *)
Theorem C09_nonlinear_constraints_partial :
  forall c par pt t, cfg_ok c -> scaling_pos c -> nl_chk_colloc c = false ->
  setup_scenario_tree (ncomb c) (nr c) (N c) = Ok t -> feasible c par pt ->
  forall node br, scenario c t node br -> forall k, (k < N c)%nat ->
  forall i con, nth_error (nlc c) i = Some con ->
    let g := nl_g con (scen_x c pt node k) (scen_u c pt node k) (physZ c pt k (node k) 0)
                  (pTvp par k) (scen_p par t node br k) in
    match nl_soft con, nl_ub con with
    | None, Some ub => g <= ub
    | Some (vmax, pen), Some ub =>
        exists eps, 0 <= eps /\ le_ub eps vmax /\ g <= ub + eps /\
          exists q rest, slack_charge 0 (nlc c) (oE pt q (node k)) = pen * eps + rest /\
            q = Nat.min k ((if single_slack c then 1 else N c) - 1) /\
            ((forall con' s, In con' (nlc c) -> nl_soft con' = Some s -> 0 <= snd s) -> 0 <= rest)
    | _, None => True
    end.
Proof.
  intros c par pt t Hok Hpos Hnl Ht Hf node br HP k Hk i con Hi g.
  apply (feasible_iff c par pt Hok Hpos) in Hf. destruct Hf as ((_ & _ & HE) & _ & Hedge).
  destruct (path_edge c Hok t Ht node br k HP Hk) as (He & _ & Eco).
  destruct (Hedge _ _ _ He) as [_ Hstep]. specialize (Hstep i con Hi). rewrite Hnl in Hstep.
  unfold nl_holds in Hstep. rewrite <- Eco in Hstep. fold (scen_p par t node br k) in Hstep.
  change (stateX c pt k (node k)) with (scen_x c pt node k) in Hstep.
  change (physU c pt k (uidx c (node k))) with (scen_u c pt node k) in Hstep. fold g in Hstep.
  unfold slack_of in Hstep.
  assert (HN : (1 <= N c)%nat) by apply Hok.
  assert (Hc : (1 <= ncomb c)%nat) by apply Hok.
  assert (Hnode : (node k < nmax c)%nat).
  { destruct He as (_ & Hs & _). unfold width_of in Hs. pose proof (nodes_le_nmax c HN Hc k). lia. }
  destruct (nl_soft con) as [[vmax pen]|] eqn:Es, (nl_ub con) as [ub|]; cbn [le_ub] in Hstep; auto.
  - set (q := Nat.min k ((if single_slack c then 1 else N c) - 1)) in *.
    set (ai := List.length (soft_list (firstn i (nlc c)))) in *.
    assert (Hsplit : soft_list (nlc c) = soft_list (firstn i (nlc c)) ++ (vmax, pen) :: soft_list (skipn (S i) (nlc c))).
    { pose proof (nth_error_split (nlc c) i Hi) as (l1 & l2 & E & El). rewrite E.
      rewrite firstn_app, El, Nat.sub_diag. cbn [firstn]. rewrite app_nil_r, firstn_all2 by lia.
      rewrite skipn_app, El. rewrite skipn_all2 by lia. replace (S i - i)%nat with 1%nat by lia. cbn [skipn app].
      unfold soft_list. rewrite flat_map_app. cbn [flat_map]. rewrite Es. reflexivity. }
    assert (Hq : (q < (if single_slack c then 1 else N c))%nat) by (unfold q; destruct (single_slack c); lia).
    assert (Hai : (ai < List.length (soft_list (nlc c)))%nat).
    { rewrite Hsplit, app_length. cbn [List.length]. unfold ai. lia. }
    pose proof (HE q (node k) ai Hq Hnode Hai) as [H0 H1].
    assert (Hnth : nth_error (soft_list (nlc c)) ai = Some (vmax, pen)).
    { rewrite Hsplit, nth_error_app2 by (unfold ai; lia). unfold ai. rewrite Nat.sub_diag. reflexivity. }
    rewrite Hnth in H1. cbn [fst ge_lb] in H0, H1.
    exists (oE pt q (node k) ai). split; [exact H0|]. split; [exact H1|]. split; [lra|].
    exists q.
    set (e := oE pt q (node k)) in *.
    set (F := fun o (l : list (option R * R)) => rsum (map (fun ia => snd (snd ia) * e (fst ia)) (combine (seq o (List.length l)) l))).
    assert (HF : forall l1 l2 o, F o (l1 ++ l2) = F o l1 + F (o + List.length l1)%nat l2).
    { assert (Hcons : forall x l o, F o (x :: l) = snd x * e o + F (S o) l) by (intros; reflexivity).
      induction l1 as [|x l1 IH]; intros l2 o.
      - cbn [app List.length]. rewrite Nat.add_0_r. unfold F at 2. cbn. ring.
      - cbn [app List.length]. rewrite !Hcons, IH. rewrite Nat.add_succ_r, Nat.add_succ_l. ring. }
    assert (Hpos' : forall l o, (forall s, In s l -> 0 <= snd s) -> (forall a, (o <= a < o + List.length l)%nat -> 0 <= e a) -> 0 <= F o l).
    { assert (Hcons : forall x l o, F o (x :: l) = snd x * e o + F (S o) l) by (intros; reflexivity).
      induction l as [|x l IH]; intros o H1' H2'; [unfold F; cbn; lra|]. rewrite Hcons.
      specialize (IH (S o) ltac:(intros; apply H1'; simpl; auto) ltac:(intros; apply H2'; cbn [List.length]; lia)).
      pose proof (H1' x ltac:(simpl; auto)). pose proof (H2' o ltac:(cbn [List.length]; lia)). nra. }
    exists (F 0%nat (soft_list (firstn i (nlc c))) + F (S ai) (soft_list (skipn (S i) (nlc c)))).
    split; [|split; [reflexivity|]].
    + rewrite <- slack_charge_is. unfold epsterm. change (F 0%nat (soft_list (nlc c)) = pen * e ai + (F 0%nat (soft_list (firstn i (nlc c))) + F (S ai) (soft_list (skipn (S i) (nlc c))))).
      rewrite Hsplit at 1. rewrite HF. cbn [Nat.add]. fold ai.
      assert (Hc1 : forall l o, F o ((vmax, pen) :: l) = pen * e o + F (S o) l) by (intros; reflexivity).
      rewrite Hc1. ring.
    + intros Hpen.
      assert (Hall : forall s, In s (soft_list (nlc c)) -> 0 <= snd s).
      { intros s Hin. apply in_flat_map in Hin. destruct Hin as (con' & H1' & H2').
        destruct (nl_soft con') as [s'|] eqn:E'; [|destruct H2']. destruct H2' as [<-|[]]. apply (Hpen con' s' H1' E'). }
      assert (He0 : forall a, (a < List.length (soft_list (nlc c)))%nat -> 0 <= e a).
      { intros a Ha. destruct (HE q (node k) a Hq Hnode Ha) as [X _]. exact X. }
      rewrite Hsplit in Hall, He0. rewrite app_length in He0. cbn [List.length] in He0.
      apply Rplus_le_le_0_compat; apply Hpos'.
      * intros; apply Hall. apply in_or_app. auto.
      * intros; apply He0. fold ai. fold ai in H. lia.
      * intros; apply Hall. apply in_or_app. right. simpl; auto.
      * intros; apply He0. fold ai. lia.
  - cbn in Hstep. lra.
Qed.
Print Assumptions C09_nonlinear_constraints_partial.

Definition ex_soft : list nl_con :=
  [ {| nl_g := fun x _ _ _ _ => x 0%nat; nl_ub := Some 5; nl_soft := None |};
    {| nl_g := fun x _ _ _ _ => x 0%nat; nl_ub := Some (1/2); nl_soft := Some (Some 2, 7) |} ].
Definition ex_soft_pt : point := {| oX := oX ex_pt; oZ := oZ ex_pt; oU := oU ex_pt; oE := fun k s a => INR (k * s) |}.
Example C09_nonvacuous :
  let c := ex_cfg 2 1 2 false 0 ex_soft (fun _ _ _ _ _ => 0) (fun _ _ _ => 0) in
  cfg_ok c /\ scaling_pos c /\ feasible c ex_par ex_soft_pt.
Proof.
  intros c. assert (Hok : cfg_ok c) by (apply ex_ok; lia). assert (Hp : scaling_pos c) by apply ex_pos.
  split; [exact Hok|]. split; [exact Hp|]. apply (feasible_iff c _ _ Hok Hp).
  split; [split; [|split]|split].
  - unfold physical_bounds, inside, stateX, physX; cbn.
    split; [|split; [|split]]; try (intros; lia); try (intros; split; exact I).
    intros k s a Hk Hs Ha. split; [exact I|]. assert (k = 1)%nat by lia. subst. unfold nmax in Hs; cbn in Hs.
    destruct s as [|[|s]]; [| |lia]; cbn; lra.
  - intros _. unfold colloc_bounds, inside; cbn. repeat split; auto; intros; lia.
  - unfold slack_bounds, inside, nmax; cbn. intros k s a Hk Hs Ha. assert (a = 0)%nat by lia. subst. cbn.
    destruct k as [|[|k]]; [| |lia]; destruct s as [|[|s]]; try lia; cbn; lra.
  - intros a Ha. unfold stateX, physX; cbn. lra.
  - intros k s b He. split; [exact (ex_feasible_con k s b He)|].
    destruct He as (Hk & Hs & Hb). unfold width_of, nodes in Hs. cbn in Hk, Hs.
    intros i con Hi. cbn [nl_chk_colloc c ex_cfg]. unfold nl_holds, slack_of, stateX, physX.
    destruct i as [|[|[|i]]]; try discriminate Hi; injection Hi as <-; cbn;
    (destruct k as [|[|k]]; [| |lia]); cbn in Hs |- *.
    + lra.
    + destruct s as [|[|s]]; [| |lia]; cbn; lra.
    + assert (s = 0)%nat by lia. subst. cbn. lra.
    + destruct s as [|[|s]]; [| |lia]; cbn; lra.
Qed.

(** C09 is false of the code when nl_cons_check_colloc_points is set and the model is
    discrete-time: no nonlinear constraint is imposed at all. *)
Theorem C09_discrete_colloc_check_refuted :
  exists c par pt con, cfg_ok c /\ scaling_pos c /\ disc c = Discrete /\ nl_chk_colloc c = true /\
    nlc c = [con] /\ nl_soft con = None /\ nl_ub con = Some 0 /\ feasible c par pt /\
    forall k s, (k < N c)%nat -> (s < width_of c k)%nat ->
      ~ nl_g con (stateX c pt k s) (physU c pt k (uidx c s)) (physZ c pt k s 0) (pTvp par k) (pP par (comb c k s 0)) <= 0.
Proof.
  set (con := {| nl_g := fun x _ _ _ _ => x 0%nat + 1; nl_ub := Some 0; nl_soft := None |}).
  set (c := ex_cfg 2 1 2 true 0 [con] (fun _ _ _ _ _ => 0) (fun _ _ _ => 0)).
  exists c, ex_par, ex_pt, con.
  assert (Hok : cfg_ok c) by (apply ex_ok; lia). assert (Hp : scaling_pos c) by apply ex_pos.
  split; [exact Hok|]. split; [exact Hp|]. do 5 (split; [reflexivity|]). split.
  - apply (feasible_iff c _ _ Hok Hp). split; [split; [|split]|split].
    + unfold physical_bounds, inside, stateX, physX; cbn.
      split; [|split; [|split]]; try (intros; lia); try (intros; split; exact I).
      intros k s a Hk Hs Ha. split; [exact I|]. assert (k = 1)%nat by lia. subst. unfold nmax in Hs; cbn in Hs.
      destruct s as [|[|s]]; [| |lia]; cbn; lra.
    + intros _. unfold colloc_bounds, inside; cbn. repeat split; auto; intros; lia.
    + unfold slack_bounds; cbn. intros; lia.
    + intros a Ha. unfold stateX, physX; cbn. lra.
    + intros k s b He. split; [exact (ex_feasible_con k s b He)|]. intros i con' Hi. cbn [nl_chk_colloc c ex_cfg].
      intros q Hq. cbn in Hq. lia.
  - intros k s Hk Hs. unfold stateX, physX; cbn. intros H. pose proof (pos_INR (k * s)). lra.
Qed.
Print Assumptions C09_discrete_colloc_check_refuted.

(** C09 is false of the code for constraints on algebraic states in a branching tree: the second
    branch is checked with the algebraic state of the first. *)
Theorem C09_algebraic_constraint_refuted :
  exists c par pt con t node br, cfg_ok c /\ scaling_pos c /\ nl_chk_colloc c = false /\
    setup_scenario_tree (ncomb c) (nr c) (N c) = Ok t /\
    nlc c = [con] /\ nl_soft con = None /\ nl_ub con = Some (1/2) /\ feasible c par pt /\ scenario c t node br /\
    ~ nl_g con (scen_x c pt node 0) (scen_u c pt node 0) (scen_z c pt node 0 0) (pTvp par 0) (scen_p par t node br 0) <= 1/2.
Proof.
  set (con := {| nl_g := fun _ _ z _ _ => z 0%nat; nl_ub := Some (1/2); nl_soft := None |}).
  set (c := ex_cfg 1 1 2 false 1 [con] (fun _ _ _ _ _ => 0) (fun _ _ _ => 0)).
  destruct (tree_exists 2 1 1) as [t Ht]; [lia..|].
  exists c, ex_par, ex_pt, con, t, (walk 2 1 (fun _ => 1%nat)), (fun _ => 1%nat).
  assert (Hok : cfg_ok c) by (apply ex_ok; lia). assert (Hp : scaling_pos c) by apply ex_pos.
  split; [exact Hok|]. split; [exact Hp|]. split; [reflexivity|]. split; [exact Ht|]. do 3 (split; [reflexivity|]).
  split; [|split].
  - apply (feasible_iff c _ _ Hok Hp). split; [split; [|split]|split].
    + unfold physical_bounds, inside, stateX, physX; cbn. repeat split; auto; intros; lia.
    + intros _. unfold colloc_bounds, inside; cbn. repeat split; auto; intros; lia.
    + unfold slack_bounds; cbn. intros; lia.
    + intros a Ha. unfold stateX, physX; cbn. lra.
    + intros k s b (Hk & Hs & Hb). cbn in Hk. assert (k = 0)%nat by lia. subst k.
      unfold width_of, fan_of, nodes, fan in *. cbn in Hs, Hb. assert (s = 0)%nat by lia. subst s. split.
      * unfold model_step, model_step_with, discrete_step, stateX, physX, physZ, childnode, fan_of, fan, comb, physU; cbn.
        destruct b as [|[|b]]; [| |lia]; cbn; split; intros; lra.
      * intros i con' Hi. cbn [nl_chk_colloc c ex_cfg]. destruct i as [|[|i]]; try discriminate Hi. injection Hi as <-.
        unfold nl_holds, slack_of, physZ; cbn. lra.
  - apply walk_is_path; [cbn; lia..|exact Ht|]. intros [|k] Hk; [vm_compute; lia|]. cbn in Hk. lia.
  - unfold scen_z, physZ; cbn. lra.
Qed.
Print Assumptions C09_algebraic_constraint_refuted.

(** C09 is false of the code at the last interval's collocation points when
    nl_cons_check_colloc_points is set. *)
Theorem C09_last_interval_refuted :
  exists c par pt con, cfg_ok c /\ scaling_pos c /\ nl_chk_colloc c = true /\ disc c <> Discrete /\
    nlc c = [con] /\ nl_soft con = None /\ nl_ub con = Some 1 /\ feasible c par pt /\
    exists i, (i < ncoll (disc c))%nat /\
    ~ nl_g con (physX c pt (N c) 0 i) (physU c pt (N c - 1) 0) (physZ c pt (N c - 1) 0 i) (pTvp par (N c - 1)) (pP par 0) <= 1.
Proof.
  exists ex_coll, ex_par, ex_coll_pt, {| nl_g := fun x _ _ _ _ => x 0%nat; nl_ub := Some 1; nl_soft := None |}.
  split; [apply ex_coll_ok|]. split; [repeat split; cbn; intros; lra|]. split; [reflexivity|]. split; [discriminate|].
  do 3 (split; [reflexivity|]). split; [apply ex_coll_feasible|]. exists 0%nat. split; [cbn; lia|].
  unfold physX; cbn. lra.
Qed.
Print Assumptions C09_last_interval_refuted.

(** ** C11 *)

(** C11: the feasible set does not depend on the (positive) scaling: a point is feasible for
    one scaling iff the point with the same physical values is feasible for the other, and such
    a point always exists.  The costs other than the rate penalty agree too. *)
Theorem C11_scaling_invariance :
  forall c sx' su' sz' par, cfg_ok c ->
  (forall a, 0 < sx c a /\ 0 < su c a /\ 0 < sz c a) -> (forall a, 0 < sx' a /\ 0 < su' a /\ 0 < sz' a) ->
  let c' := with_scaling c sx' su' sz' in
  (forall p1, exists p2, same_physical c c' p1 p2) /\
  (forall p1 p2, same_physical c c' p1 p2 -> (feasible c par p1 <-> feasible c' par p2)) /\
  (forall p1 p2 q1 q2, rterm c = RDefault (fun _ => 0) -> same_physical c c' p1 p2 ->
     prepare_nlp c par p1 = Ok q1 -> prepare_nlp c' par p2 = Ok q2 -> obj q1 = obj q2).
Proof.
  intros c sx' su' sz' par Hok Hp1 Hp2 c'.
  assert (Hok' : cfg_ok c').
  { destruct Hok as (H1 & H2 & H3 & H4). split; [exact H1|]. split; [exact H2|]. split; [|exact H4].
    intros a _. cbn. destruct (Hp2 a). lra. }
  assert (S1 : scaling_pos c) by (repeat split; intros a _; apply Hp1).
  assert (S2 : scaling_pos c') by (repeat split; intros a _; cbn; apply Hp2).
  split; [|split].
  - intros p1. exists {| oX := fun k s i a => oX p1 k s i a * sx c a / sx' a; oZ := fun k s i a => oZ p1 k s i a * sz c a / sz' a;
                         oU := fun k s a => oU p1 k s a * su c a / su' a; oE := oE p1 |}.
    unfold same_physical, physX, physU, physZ; cbn. repeat split; intros; destruct (Hp2 a) as (? & ? & ?); field; lra.
  - intros p1 p2 Hs. rewrite (feasible_iff c par p1 Hok S1), (feasible_iff c' par p2 Hok' S2).
    rewrite (same_bounds c sx' su' sz' p1 p2 Hs), (same_initial c sx' su' sz' par p1 p2 Hs).
    fold c'. apply and_iff_compat_l. apply and_iff_compat_l.
    split; intros H k s b He; destruct (H k s b He) as [H1 H2]; (split;
      [apply (same_model_step c sx' su' sz' par p1 p2 Hs); exact H1|apply (same_nl_step c sx' su' sz' par p1 p2 Hs); exact H2]).
  - intros p1 p2 q1 q2 Hr Hs E1 E2.
    destruct (tree_exists (ncomb c) (nr c) (N c)) as [t Ht]; [apply Hok..|].
    destruct (body_sat c Hok par p1 t Ht) as (q1' & E1' & _ & _ & _ & Ho1 & _).
    assert (Ht' : setup_scenario_tree (ncomb c') (nr c') (N c') = Ok t) by exact Ht.
    destruct (body_sat c' Hok' par p2 t Ht') as (q2' & E2' & _ & _ & _ & Ho2 & _).
    unfold prepare_nlp in E1, E2. rewrite Ht in E1. rewrite Ht' in E2. cbn [bind] in E1, E2.
    rewrite E1 in E1'. rewrite E2 in E2'. injection E1' as <-. injection E2' as <-. rewrite Ho1, Ho2.
    change (edges c') with (edges c). apply rsum_ext. intros [[k s] b] _. unfold edge_obj, rterm_edge.
    change (rterm c') with (rterm c). rewrite Hr.
    assert (EX : forall k s i, uX c p1 k s i = uX c' p2 k s i) by (intros; apply (same_X c sx' su' sz' p1 p2 Hs)).
    assert (EU : forall k s, uU c p1 k s = uU c' p2 k s) by (intros; apply (same_U c sx' su' sz' p1 p2 Hs)).
    assert (EZ : forall k s i, uZ c p1 k s i = uZ c' p2 k s i) by (intros; apply (same_Z c sx' su' sz' p1 p2 Hs)).
    assert (EE : forall k s, uE p1 k s = uE p2 k s) by (intros; apply (same_E c sx' su' sz' p1 p2 Hs)).
    rewrite !EX, EU, EZ, EE.
    assert (Z0 : forall m f, rsum (rows m (fun a => 0 * f a)) = 0).
    { intros m f. unfold rows. induction (seq 0 m) as [|x l IH]; [reflexivity|]. cbn [map rsum fold_right].
      unfold rsum in IH. rewrite IH. ring. }
    rewrite !Z0. reflexivity.
Qed.
Print Assumptions C11_scaling_invariance.
Example C11_nonvacuous :
  let c := ex_cfg 2 1 2 false 0 ex_soft (fun _ _ _ _ _ => 0) (fun _ _ _ => 0) in
  cfg_ok c /\ (forall a, 0 < sx c a /\ 0 < su c a /\ 0 < sz c a) /\ rterm c = RDefault (fun _ => 0) /\
  feasible c ex_par ex_soft_pt.
Proof.
  intros c. split; [apply ex_ok; lia|]. split; [intros a; cbn; lra|]. split; [reflexivity|]. apply C09_nonvacuous.
Qed.

(** ** C13 *)

(** C13: in a collocated step the (deg+1)*ni - 1 collocation states and the end state of the
    interval are in one-to-one correspondence with consecutive blocks of the state variables, the
    (deg+1)*ni algebraic blocks with all (element, point) pairs, and there are as many equations
    as collocation variables. *)
Theorem C13_layout_uses_every_variable_once :
  forall nx nz deg ni, (1 <= nx)%nat -> (1 <= nz)%nat -> (1 <= ni)%nat ->
  exists L, coll_layout nx nz deg ni = Ok L /\
    l_x L 0 0 = SlotX0 /\
    (forall m, (m < ni * (deg+1) - 1)%nat -> exists i j, (i < ni)%nat /\ (j <= deg)%nat /\ l_x L i j = SlotAt (m * nx) /\
        forall i' j', (i' < ni)%nat -> (j' <= deg)%nat -> l_x L i' j' = SlotAt (m * nx) -> i' = i /\ j' = j) /\
    l_xf L = ((ni * (deg+1) - 1) * nx)%nat /\
    (forall m, (m < ni * (deg+1))%nat -> exists i j, (i < ni)%nat /\ (j <= deg)%nat /\ l_z L i j = SlotAt (m * nz) /\
        forall i' j', (i' < ni)%nat -> (j' <= deg)%nat -> l_z L i' j' = SlotAt (m * nz) -> i' = i /\ j' = j) /\
    (forall i j, (i < ni)%nat -> (j <= deg)%nat -> (i, j) <> (0, 0)%nat ->
        exists m, (m < ni * (deg+1) - 1)%nat /\ l_x L i j = SlotAt (m * nx)) /\
    (forall i j, (i < ni)%nat -> (j <= deg)%nat -> exists m, (m < ni * (deg+1))%nat /\ l_z L i j = SlotAt (m * nz)).
Proof.
  intros nx nz deg ni Hx Hz Hn. destruct (coll_layout_ok nx nz deg ni Hn) as (L & E & HL & HF).
  assert (D : forall m, (m = (m / (deg+1)) * (deg+1) + m mod (deg+1) /\ m mod (deg+1) <= deg)%nat).
  { intros m. pose proof (Nat.div_mod m (deg+1) ltac:(lia)). pose proof (Nat.mod_upper_bound m (deg+1) ltac:(lia)). lia. }
  exists L. split; [exact E|]. split; [|split; [|split; [exact HF|split; [|split]]]].
  - destruct (HL 0%nat 0%nat ltac:(lia) ltac:(lia)) as [-> _]. reflexivity.
  - intros m Hm. exists ((m+1) / (deg+1))%nat, ((m+1) mod (deg+1))%nat. destruct (D (m+1)%nat) as [D1 D2].
    set (i := ((m+1) / (deg+1))%nat) in *. set (j := ((m+1) mod (deg+1))%nat) in *. clearbody i j.
    assert (Hi : (i < ni)%nat) by nia.
    split; [exact Hi|]. split; [exact D2|]. split.
    + destruct (HL i j Hi D2) as [-> _]. unfold lx_spec.
      destruct ((i =? 0) && (j =? 0))%nat eqn:E0.
      * apply andb_true_iff in E0. rewrite !Nat.eqb_eq in E0. destruct E0; subst. lia.
      * do 2 f_equal. lia.
    + intros i' j' Hi' Hj' E'. destruct (HL i' j' Hi' Hj') as [E1 _]. rewrite E1 in E'. unfold lx_spec in E'.
      destruct ((i' =? 0) && (j' =? 0))%nat eqn:E0; [discriminate|]. injection E' as E'.
      apply Nat.mul_cancel_r in E'; [|lia].
      assert (i' * (deg+1) + j' <> 0)%nat.
      { apply andb_false_iff in E0. rewrite !Nat.eqb_neq in E0. nia. }
      assert (i' = i) by nia. subst. split; [reflexivity|]. lia.
  - intros m Hm. exists (m / (deg+1))%nat, (m mod (deg+1))%nat. destruct (D m) as [D1 D2].
    set (i := (m / (deg+1))%nat) in *. set (j := (m mod (deg+1))%nat) in *. clearbody i j.
    assert (Hi : (i < ni)%nat) by nia.
    split; [exact Hi|]. split; [exact D2|]. split.
    + destruct (HL i j Hi D2) as [_ ->]. unfold lz_spec. do 2 f_equal. lia.
    + intros i' j' Hi' Hj' E'. destruct (HL i' j' Hi' Hj') as [_ E1]. rewrite E1 in E'. unfold lz_spec in E'.
      injection E' as E'. apply Nat.mul_cancel_r in E'; [|lia]. assert (i' = i) by nia. subst. split; [reflexivity|]. lia.
  - intros i j Hi Hj Hne. destruct (HL i j Hi Hj) as [-> _]. unfold lx_spec.
    destruct ((i =? 0) && (j =? 0))%nat eqn:E0.
    + apply andb_true_iff in E0. rewrite !Nat.eqb_eq in E0. destruct E0; subst. congruence.
    + exists (i * (deg+1) + j - 1)%nat. split; [|reflexivity].
      apply andb_false_iff in E0. rewrite !Nat.eqb_neq in E0. nia.
  - intros i j Hi Hj. destruct (HL i j Hi Hj) as [_ ->]. exists (i * (deg+1) + j)%nat. split; [nia|reflexivity].
Qed.
Print Assumptions C13_layout_uses_every_variable_once.
Theorem C13_equations_match_variables :
  forall c par pt deg ni h C D t, cfg_ok c -> disc c = Colloc deg ni h C D ->
  setup_scenario_tree (ncomb c) (nr c) (N c) = Ok t -> forall k s b, is_edge c k s b ->
  exists g xf, step_fun c t par pt k s b = Ok (g, xf) /\
    List.length g = (ncoll (disc c) * n_x (mdl c) + Nat.max (ncoll (disc c)) 1 * n_z (mdl c))%nat.
Proof.
  intros c par pt deg ni h C D t Hok Hd Ht k s b He.
  destruct (step_sat c Hok t Ht par pt k s b He) as (g & xf & E & Lg & _). exists g, xf. split; [exact E|].
  rewrite Lg. unfold eqs_per_step. destruct Hok as (_ & _ & _ & Hm). rewrite Hd in *. cbn [ncoll].
  destruct Hm as (Hni & Hdeg & _). rewrite Nat.max_l by nia. nia.
Qed.
Print Assumptions C13_equations_match_variables.
Example C13_nonvacuous : match coll_layout 2 1 3 2 with Ok L => l_x L 1 2 = SlotAt 10 /\ l_xf L = 14%nat | Err _ => False end.
Proof. vm_compute. auto. Qed.
