(** * Specification vocabulary for C89 and C90: plans against uncertain parameters, without scenario tree,
    optimisation variables, scaling or slack variables. *)
From Coq Require Import Reals.
From Verif Require Import Base NlpModel NlpSpec RobustProps.
Local Open Scope R_scope.

(** The user's functions see only the declared inputs (states and algebraic states: [wf_model]). *)
Definition wf_inputs (m : dyn_model) : Prop :=
  forall x u u' z tvp p w, agree (n_u m) u u' ->
    agree (n_x m) (rhs m x u z tvp p w) (rhs m x u' z tvp p w) /\ agree (n_z m) (alg m x u z tvp p w) (alg m x u' z tvp p w).
(** A constraint on the declared states and inputs (constraints on algebraic states: C09_algebraic_constraint_refuted). *)
Definition xu_constraint (m : dyn_model) (con : nl_con) : Prop :=
  forall x x' u u' z z' tvp p, agree (n_x m) x x' -> agree (n_u m) u u' -> nl_g con x u z tvp p = nl_g con x' u' z' tvp p.

(** A nonlinear constraint holds, up to its maximum violation if it is soft. *)
Definition respects (con : nl_con) (x u z tvp p : vec) : Prop :=
  match nl_ub con with
  | None => True
  | Some ub => match nl_soft con with
               | None => nl_g con x u z tvp p <= ub
               | Some (vmax, _) => exists eps, 0 <= eps /\ le_ub eps vmax /\ nl_g con x u z tvp p <= ub + eps
               end
  end.

(** A plan: [policy h] is the input after the parameter values h were seen; [zpol h] are the algebraic states of
    the step in which the last parameter of h was seen.  The plan is robust if for every realisation of the
    parameters the plant driven by it satisfies the algebraic equations and meets all constraints. *)
Definition robust_plan (c : cfg) (par : params) (policy zpol : list nat -> vec) : Prop :=
  (open_loop c = true -> forall h h', List.length h = List.length h' -> policy h = policy h') /\
  forall ps, realisation c ps ->
    let u := fun k => policy (map ps (seq 0 k)) in
    let z := fun k => zpol (map ps (seq 0 (k + 1))) in
    let p := fun k => pP par (ps k) in
    let x := plant (mdl c) (pX0 par) u z (pTvp par) p in
    (forall k a, (k < N c)%nat -> (a < n_z (mdl c))%nat -> alg (mdl c) (x k) (u k) (z k) (pTvp par k) (p k) vzero a = 0) /\
    (forall k a, (k < N c)%nat -> (a < n_u (mdl c))%nat -> inside (ulb c a) (uub c a) (u k a)) /\
    (forall k a, (1 <= k < N c)%nat -> (a < n_x (mdl c))%nat -> inside (xlb c a) (xub c a) (x k a)) /\
    (forall a, (a < n_x (mdl c))%nat -> inside (tlb c a) (tub c a) (x (N c) a)) /\
    (forall k a, (k < N c)%nat -> (a < n_z (mdl c))%nat -> inside (zlb c a) (zub c a) (z k a)) /\
    (forall k con, (k < N c)%nat -> In con (nlc c) -> respects con (x k) (u k) (z k) (pTvp par k) (p k)).

(** Maximum violations are not negative. *)
Definition violations_ok (c : cfg) : Prop := forall con v pen, In con (nlc c) -> nl_soft con = Some (Some v, pen) -> 0 <= v.

(** ** For C90 *)
(** A parameter row the plant may have in the next step. *)
Definition admissible (c : cfg) (i : nat) : Prop := (i < ncomb c)%nat /\ (nr c = 0%nat -> i = 0%nat).
(** The tree covers every sequence of parameter rows over the horizon. *)
Definition covers_all (c : cfg) : Prop := nr c = 0%nat \/ ncomb c = 1%nat \/ (N c <= nr c)%nat.
Definition in_terminal (c : cfg) (x : vec) : Prop := forall a, (a < n_x (mdl c))%nat -> inside (tlb c a) (tub c a) (x a).
(** The terminal bounds lie within the state bounds and are robustly control invariant: [law] is an admissible input
    (independent of the state if the controller is open loop), [zlaw x i] the algebraic states when the parameter row
    is i. *)
Definition terminal_invariant (c : cfg) (tvp : vec) (P : nat -> vec) (law : vec -> vec) (zlaw : vec -> nat -> vec) : Prop :=
  (open_loop c = true -> forall x x', law x = law x') /\
  forall x, in_terminal c x ->
    (forall a, (a < n_x (mdl c))%nat -> inside (xlb c a) (xub c a) (x a)) /\
    (forall a, (a < n_u (mdl c))%nat -> inside (ulb c a) (uub c a) (law x a)) /\
    forall i, admissible c i ->
      (forall a, (a < n_z (mdl c))%nat -> alg (mdl c) x (law x) (zlaw x i) tvp (P i) vzero a = 0) /\
      (forall a, (a < n_z (mdl c))%nat -> inside (zlb c a) (zub c a) (zlaw x i a)) /\
      (forall con, In con (nlc c) -> respects con x (law x) (zlaw x i) tvp (P i)) /\
      in_terminal c (rhs (mdl c) x (law x) (zlaw x i) tvp (P i) vzero).
(** The parameters of the next problem: the preview moves by one step, the rows stay, the state is the given one. *)
Definition next_problem (c : cfg) (par par' : params) (x : vec) : Prop :=
  (forall a, (a < n_x (mdl c))%nat -> pX0 par' a = x a) /\
  (forall k, (k < N c)%nat -> pTvp par' k = pTvp par (k + 1)%nat) /\
  (forall i, (i < ncomb c)%nat -> pP par' i = pP par i).
