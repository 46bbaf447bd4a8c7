(** * Specification vocabulary for C104: linear models, quadratic costs and inactive constraints. *)
From Coq Require Import Reals.
From Verif Require Import Base NlpModel NlpSpec.
From mathcomp Require Import all_ssreflect all_algebra.
From Verif Require Import RealField LqrSpec.
Set Implicit Arguments.
Unset Strict Implicit.
Unset Printing Implicit Defensive.
Local Open Scope ring_scope.

(** The first k entries of a vector as a column, and back. *)
Definition cv k (x : vec) : 'cV[R]_k := \col_(i < k) x i.
Definition vec_of k (v : 'cV[R]_k) : vec := fun a => if insub a is Some i then v i 0 else 0.

Section Spec.
  Variables n m : nat.
  (** The discrete-time model is x+ = A x + B u without algebraic states (no process noise within the controller). *)
  Definition linear_model (A : 'M[R]_n) (B : 'M[R]_(n,m)) (md : dyn_model) : Prop :=
    n_x md = n /\ n_u md = m /\ n_z md = 0%N /\
    forall x u z tvp p (i : 'I_n), rhs md x u z tvp p vzero i = (A *m cv n x + B *m cv m u) i 0.

  (** Stage and terminal cost are the quadratic forms of the LQR around (xss, uss). *)
  Definition quadratic_costs (Q : 'M[R]_n) (W : 'M[R]_m) (P : 'M[R]_n) (xss : 'cV[R]_n) (uss : 'cV[R]_m)
      (costs : (vec -> vec -> vec -> vec -> vec -> R) * (vec -> vec -> vec -> R)) : Prop :=
    (forall x u z tvp p, fst costs x u z tvp p = qf Q (cv n x - xss) + qf W (cv m u - uss)) /\
    (forall x tvp p, snd costs x tvp p = qf P (cv n x - xss)).

  (** Along the trajectory from x with the inputs us all bounds and all nonlinear constraints (the soft ones without
      violation) hold; penalties and maximum violations are not negative. *)
  Definition inactive (c : cfg) (par : params) (A : 'M[R]_n) (B : 'M[R]_(n,m)) (us : nat -> 'cV[R]_m) : Prop :=
    let x := fun k => vec_of (traj A B (cv n (pX0 par)) us k) in
    let u := fun k => vec_of (us k) in
    (forall k a, (k < N c)%N -> (a < m)%N -> inside (ulb c a) (uub c a) (u k a)) /\
    (forall k a, (1 <= k < N c)%N -> (a < n)%N -> inside (xlb c a) (xub c a) (x k a)) /\
    (forall a, (a < n)%N -> inside (tlb c a) (tub c a) (x (N c) a)) /\
    (forall k con ub, (k < N c)%N -> List.In con (nlc c) -> nl_ub con = Some ub ->
       Rle (nl_g con (x k) (u k) vzero (pTvp par k) (pP par 0%N)) ub) /\
    (forall con vmax pen, List.In con (nlc c) -> nl_soft con = Some (vmax, pen) -> Rle 0 pen /\ le_ub 0 vmax).
End Spec.
