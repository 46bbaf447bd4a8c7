(** * Specification of the robust optimal control problem, in physical units.

    Nodes of step k are 0 .. nodes k - 1; node s of step k has children s*fan k + b.
    [comb k s b] is the parameter combination of the edge, [uidx s] the input used. *)
From Coq Require Import Reals.
From Verif Require Import Base TreeModel TreeSpec NlpModel.
Local Open Scope R_scope.

Definition agree (n : nat) (v w : vec) : Prop := forall a, (a < n)%nat -> v a = w a.

(** user functions see only the declared components *)
Definition wf_model (m : dyn_model) : Prop :=
  forall x x' u z z' tvp p w,
    agree (n_x m) x x' -> agree (n_z m) z z' ->
    agree (n_x m) (rhs m x u z tvp p w) (rhs m x' u z' tvp p w) /\
    agree (n_z m) (alg m x u z tvp p w) (alg m x' u z' tvp p w).

(** The penalty for slack values [eps]: each soft constraint's penalty times its slack; the soft
    constraints are numbered in the order in which they were set, from [a] on. *)
Fixpoint slack_charge (a : nat) (l : list nl_con) (eps : vec) : R :=
  match l with
  | [] => 0
  | con :: l' => match nl_soft con with
                 | Some s => snd s * eps a + slack_charge (S a) l' eps
                 | None => slack_charge a l' eps
                 end
  end.

Section Spec.
  Variable c : cfg.
  Variable par : params.
  Variable pt : point.

  (** physical values of the optimisation variables *)
  Definition physX (k s i : nat) : vec := fun a => oX pt k s i a * sx c a.
  Definition physU (k s : nat) : vec := fun a => oU pt k s a * su c a.
  Definition physZ (k s i : nat) : vec := fun a => oZ pt k s i a * sz c a.

  Definition width_of (k : nat) : nat := nodes (ncomb c) (nr c) k.
  Definition fan_of (k : nat) : nat := fan (ncomb c) (nr c) k.
  Definition childnode (k s b : nat) : nat := (s * fan_of k + b)%nat.
  Definition comb (k s b : nat) : nat :=
    if (k <? nr c)%nat then b else if (nr c =? 0)%nat then 0%nat else (s mod ncomb c)%nat.
  Definition uidx (s : nat) : nat := if open_loop c then 0%nat else s.

  (** state of node s at step k: the last of its 1+n collocation entries *)
  Definition stateX (k s : nat) : vec := physX k s (ncoll (disc c)).

  Definition is_edge (k s b : nat) : Prop :=
    (k < N c /\ s < width_of k /\ b < fan_of k)%nat.

  (** discrete-time model equation of an edge, with input u *)
  Definition discrete_step (u : vec) (k s b : nat) : Prop :=
    let x := stateX k s in
    let z := physZ k (childnode k s b) 0 in
    let tvp := pTvp par k in let p := pP par (comb k s b) in
    (forall a, (a < n_x (mdl c))%nat ->
       stateX (k+1) (childnode k s b) a = rhs (mdl c) x u z tvp p vzero a) /\
    (forall a, (a < n_z (mdl c))%nat -> alg (mdl c) x u z tvp p vzero a = 0).

  (** collocation equations of an edge: points (i,j) = point j of finite element i *)
  Section CollStep.
    Variables (deg ni : nat) (h : R) (C : nat -> nat -> R) (D : nat -> R).
    Definition collx (k s b i j : nat) : vec :=
      if ((i =? 0) && (j =? 0))%nat then stateX k s
      else physX (k+1) (childnode k s b) (i * (deg+1) + j - 1)%nat.
    Definition collz (k s b i j : nat) : vec := physZ k (childnode k s b) (i * (deg+1) + j)%nat.
    Definition colloc_step (u : vec) (k s b : nat) : Prop :=
      let tvp := pTvp par k in let p := pP par (comb k s b) in
      (forall i j a, (i < ni)%nat -> (j <= deg)%nat -> (a < n_z (mdl c))%nat ->
         alg (mdl c) (collx k s b i j) u (collz k s b i j) tvp p vzero a = 0) /\
      (forall i j a, (i < ni)%nat -> (1 <= j <= deg)%nat -> (a < n_x (mdl c))%nat ->
         h * rhs (mdl c) (collx k s b i j) u (collz k s b i j) tvp p vzero a
         = rsum (map (fun r => C r j * collx k s b i r a) (seq 0 (deg+1)))) /\
      (forall i a, (i < ni)%nat -> (a < n_x (mdl c))%nat ->
         collx k s b (i+1) 0 a = rsum (map (fun r => D r * collx k s b i r a) (seq 0 (deg+1)))) /\
      (forall a, (a < n_x (mdl c))%nat ->
         stateX (k+1) (childnode k s b) a = collx k s b ni 0 a).
  End CollStep.

  (** the model equation(s) of an edge hold with input u *)
  Definition model_step_with (u : vec) (k s b : nat) : Prop :=
    match disc c with
    | Discrete => discrete_step u k s b
    | Colloc deg ni h C D => colloc_step deg ni h C D u k s b
    end.
  (** ... with the input variable of the node *)
  Definition model_step (k s b : nat) : Prop := model_step_with (physU k (uidx s)) k s b.

  Definition initial_ok : Prop :=
    forall a, (a < n_x (mdl c))%nat -> stateX 0 0 a = pX0 par a.

  (** index of the slack variable of the i-th constraint, if it is soft *)
  Definition slack_of (i k s : nat) (con : nl_con) : R :=
    match nl_soft con with
    | None => 0
    | Some _ => oE pt (Nat.min k ((if single_slack c then 1 else N c) - 1)) s
                   (List.length (soft_list (firstn i (nlc c))))
    end.

  (** i-th nonlinear constraint on an edge, evaluated with states x and algebraic states z *)
  Definition nl_holds (x z : vec) (k s b i : nat) (con : nl_con) : Prop :=
    le_ub (nl_g con x (physU k (uidx s)) z (pTvp par k) (pP par (comb k s b)) - slack_of i k s con)
          (nl_ub con).

  (** nonlinear constraints imposed on an edge *)
  Definition nl_step (k s b : nat) : Prop :=
    forall i con, nth_error (nlc c) i = Some con ->
      if nl_chk_colloc c
      then forall q, (q < ncoll (disc c))%nat -> nl_holds (physX k s q) (physZ k s q) k s b i con
      else nl_holds (stateX k s) (physZ k s 0) k s b i con.
End Spec.

(** scaling factors are non-zero where they are used *)
Definition scaling_ok (c : cfg) : Prop :=
  (forall a, (a < n_x (mdl c))%nat -> sx c a <> 0).
Definition scaling_pos (c : cfg) : Prop :=
  (forall a, (a < n_x (mdl c))%nat -> 0 < sx c a) /\
  (forall a, (a < n_u (mdl c))%nat -> 0 < su c a) /\
  (forall a, (a < n_z (mdl c))%nat -> 0 < sz c a).

(** a configuration [setup] accepts (positive horizon; at least one combination; for
    collocation at least one finite element) *)
Definition cfg_ok (c : cfg) : Prop :=
  (1 <= N c)%nat /\ (1 <= ncomb c)%nat /\ scaling_ok c /\
  match disc c with
  | Discrete => True
  | Colloc deg ni _ _ _ => (1 <= ni)%nat /\ (1 <= deg)%nat /\ wf_model (mdl c)
  end.

(** ** Scenario (path) level vocabulary.  [node], [br] describe a root-to-leaf path, see
    TreeSpec.is_path. *)
Section PathSpec.
  Variable c : cfg.
  Variable par : params.
  Variable pt : point.
  Variable t : tree.

  Definition scenario (node br : nat -> nat) : Prop := is_path (ncomb c) (nr c) (N c) t node br.
  (** parameters seen by the scenario at step k *)
  Definition scen_p (node br : nat -> nat) (k : nat) : vec := pP par (Z.to_nat (combination_on t node br k)).
  Definition scen_x (node : nat -> nat) (k : nat) : vec := stateX c pt k (node k).
  Definition scen_u (node : nat -> nat) (k : nat) : vec := physU c pt k (uidx c (node k)).
  (** algebraic states of the step k -> k+1 of the scenario: stored with the child node *)
  Definition scen_z (node : nat -> nat) (k i : nat) : vec := physZ c pt k (node (k+1)%nat) i.
  Definition scen_uprev (node : nat -> nat) (k : nat) : vec :=
    if (k =? 0)%nat then pUprev par else scen_u node (k-1).

  (** the discrete-time model equations along every scenario *)
  Definition discrete_dynamics : Prop :=
    forall node br, scenario node br -> forall k, (k < N c)%nat ->
      (forall a, (a < n_x (mdl c))%nat ->
        scen_x node (k+1) a =
        rhs (mdl c) (scen_x node k) (scen_u node k) (scen_z node k 0) (pTvp par k) (scen_p node br k) vzero a) /\
      (forall a, (a < n_z (mdl c))%nat ->
        alg (mdl c) (scen_x node k) (scen_u node k) (scen_z node k 0) (pTvp par k) (scen_p node br k) vzero a = 0).

  (** user's bounds hold at value v *)
  Definition inside (lb ub : option R) (v : R) : Prop := ge_lb v lb /\ le_ub v ub.
End PathSpec.

(** The bounds the user has set, in physical units, on everything the property lists. *)
Definition physical_bounds (c : cfg) (pt : point) : Prop :=
  (forall k s a, k < N c -> s < n_u_scenarios c -> a < n_u (mdl c) ->
     inside (ulb c a) (uub c a) (physU c pt k s a))%nat /\
  (forall k s a, 1 <= k < N c -> s < nmax c -> a < n_x (mdl c) ->
     inside (xlb c a) (xub c a) (stateX c pt k s a))%nat /\
  (forall s a, s < nmax c -> a < n_x (mdl c) ->
     inside (tlb c a) (tub c a) (stateX c pt (N c) s a))%nat /\
  (forall k s a, k < N c -> s < nmax c -> a < n_z (mdl c) ->
     inside (zlb c a) (zub c a) (physZ c pt k s 0 a))%nat.

(** with collocation checking: additionally all collocation points stored with steps 1..N-1, and
    all algebraic collocation points *)
Definition colloc_bounds (c : cfg) (pt : point) : Prop :=
  (forall k s i a, 1 <= k < N c -> s < nmax c -> i < ncoll (disc c) -> a < n_x (mdl c) ->
     inside (xlb c a) (xub c a) (physX c pt k s i a))%nat /\
  (forall k s i a, k < N c -> s < nmax c -> i < Nat.max (ncoll (disc c)) 1 -> a < n_z (mdl c) ->
     inside (zlb c a) (zub c a) (physZ c pt k s i a))%nat.

Definition slack_bounds (c : cfg) (pt : point) : Prop :=
  (forall k s a, k < (if single_slack c then 1 else N c) -> s < nmax c ->
     a < List.length (soft_list (nlc c)) ->
     inside (Some 0%R) (match nth_error (soft_list (nlc c)) a with Some q => fst q | None => None end)
            (oE pt k s a))%nat.

(** change of scaling factors, nothing else *)
Definition with_scaling (c : cfg) (sx' su' sz' : vec) : cfg :=
  {| N := N c; nr := nr c; ncomb := ncomb c; open_loop := open_loop c; single_slack := single_slack c;
     chk_colloc := chk_colloc c; nl_chk_colloc := nl_chk_colloc c; mdl := mdl c;
     sx := sx'; su := su'; sz := sz'; disc := disc c; nlc := nlc c; lterm := lterm c; mterm := mterm c;
     rterm := rterm c; xlb := xlb c; xub := xub c; ulb := ulb c; uub := uub c; zlb := zlb c; zub := zub c;
     tlb := tlb c; tub := tub c |}.
(** two points describe the same physical trajectory *)
Definition same_physical (c1 c2 : cfg) (p1 p2 : point) : Prop :=
  (forall k s i a, physX c1 p1 k s i a = physX c2 p2 k s i a) /\
  (forall k s i a, physZ c1 p1 k s i a = physZ c2 p2 k s i a) /\
  (forall k s a, physU c1 p1 k s a = physU c2 p2 k s a) /\
  (forall k s a, oE p1 k s a = oE p2 k s a).

(** n-fold sum *)
Definition total (n : nat) (f : nat -> R) : R := rsum (map f (seq 0 n)).
