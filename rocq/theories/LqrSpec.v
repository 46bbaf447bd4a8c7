(** * Specification vocabulary for the LQR properties: quadratic forms, trajectories of
    x+ = A x + B u, the documented costs (_lqr.py:327-375 docstring) and "first input of the
    optimal input sequence".  Nothing here refers to gains or Riccati equations. *)
From mathcomp Require Import all_ssreflect all_algebra.
Set Implicit Arguments.
Unset Strict Implicit.
Unset Printing Implicit Defensive.
Import Order.TTheory GRing.Theory Num.Theory.
Local Open Scope ring_scope.

Section Spec.
  Variable F : realFieldType.

  Definition qf k (M : 'M[F]_k) (x : 'cV[F]_k) : F := (x^T *m M *m x) 0 0.
  Definition symmetric k (M : 'M[F]_k) := M^T = M.
  Definition psd k (M : 'M[F]_k) := forall x, 0 <= qf M x.
  Definition pd k (M : 'M[F]_k) := forall x, x != 0 -> 0 < qf M x.

  Variables n m : nat.
  (** State after k steps of x+ = A x + B u under the input sequence us. *)
  Fixpoint traj (A : 'M[F]_n) (B : 'M[F]_(n,m)) (x : 'cV[F]_n) (us : nat -> 'cV[F]_m) (k : nat) :=
    match k with
    | O => x
    | S k' => A *m traj A B x us k' + B *m us k'
    end.

  (** Finite horizon cost in set-point tracking mode (docstring, without the constant factor). *)
  Definition lq_cost (A : 'M[F]_n) (B : 'M[F]_(n,m)) (Q : 'M[F]_n) (R : 'M[F]_m) (P : 'M[F]_n)
      (N : nat) (xss : 'cV[F]_n) (uss : 'cV[F]_m) (x : 'cV[F]_n) (us : nat -> 'cV[F]_m) : F :=
    \sum_(k < N) (qf Q (traj A B x us k - xss) + qf R (us k - uss)) + qf P (traj A B x us N - xss).

  (** The input that was applied before step k: u_prev at step 0. *)
  Definition before (uprev : 'cV[F]_m) (us : nat -> 'cV[F]_m) (k : nat) : 'cV[F]_m :=
    match k with O => uprev | S k' => us k' end.

  (** Finite horizon cost in input-rate mode, in terms of the physical states and inputs: the
      augmented state at step k is (x_k, u_{k-1}), its weight diag(Q,R), and the rate
      u_k - u_{k-1} is weighted by delR. *)
  Definition rate_cost (A : 'M[F]_n) (B : 'M[F]_(n,m)) (Q : 'M[F]_n) (R dR : 'M[F]_m) (P : 'M[F]_n)
      (N : nat) (xss : 'cV[F]_n) (uss uprev : 'cV[F]_m) (x : 'cV[F]_n) (us : nat -> 'cV[F]_m) : F :=
    \sum_(k < N) (qf Q (traj A B x us k - xss) + qf R (before uprev us k - uss)
                  + qf dR (us k - before uprev us k))
    + (qf P (traj A B x us N - xss) + qf R (before uprev us N - uss)).

  (** [u] is the first input of a cost-minimising input sequence, and of every such sequence. *)
  Definition optimal_first_input (cost : (nat -> 'cV[F]_m) -> F) (u : 'cV[F]_m) :=
    (exists us, us 0%N = u /\ forall vs, cost us <= cost vs)
    /\ (forall us, (forall vs, cost us <= cost vs) -> us 0%N = u).
End Spec.
