(** * Specification vocabulary for C101: convergence of sequences of numpy columns, and the
    textbook terminal condition.  Nothing here refers to gains or Riccati equations. *)
From mathcomp Require Import all_ssreflect all_algebra.
From Verif Require Import LqrSpec.
Set Implicit Arguments.
Unset Strict Implicit.
Unset Printing Implicit Defensive.
Import Order.TTheory GRing.Theory Num.Theory.
Local Open Scope ring_scope.

Section Spec.
  Variable F : realFieldType.

  (** Every entry of [x k] comes, and stays, within any distance of the entry of [l]. *)
  Definition converges_to k (x : nat -> 'cV[F]_k) (l : 'cV[F]_k) :=
    forall i eps, 0 < eps -> exists N, forall j, (N <= j)%N -> `|x j i 0 - l i 0| < eps.

  (** The terminal weight over-estimates the cost to go: under some linear feedback L it decreases
      by at least the stage cost. *)
  Definition terminal_decrease n m (A : 'M[F]_n) (B : 'M[F]_(n,m)) (Q : 'M[F]_n) (R : 'M[F]_m) (P : 'M[F]_n) :=
    exists L : 'M[F]_(m,n), forall z,
      qf Q z + qf R (L *m z) + qf P (A *m z + B *m (L *m z)) <= qf P z.

  (** [p] solves the discrete algebraic Riccati equation: what scipy.linalg.solve_discrete_are
      documents its result to be. *)
  Definition solves_dare n m (A : 'M[F]_n) (B : 'M[F]_(n,m)) (Q : 'M[F]_n) (R : 'M[F]_m) (p : 'M[F]_n) :=
    p = A^T *m p *m A - (A^T *m p *m B) *m invmx (R + B^T *m p *m B) *m (B^T *m p *m A) + Q.

  (** The cost accumulated over the first k steps of the run x, u around (xss,uss). *)
  Definition run_cost n m (Q : 'M[F]_n) (R : 'M[F]_m) (xss : 'cV[F]_n) (uss : 'cV[F]_m)
      (x : nat -> 'cV[F]_n) (u : nat -> 'cV[F]_m) (k : nat) : F :=
    \sum_(j < k) (qf Q (x j - xss) + qf R (u j - uss)).
  (** The same in input-rate mode: changes of the input are weighted by dR. *)
  Definition run_rate_cost n m (Q : 'M[F]_n) (R dR : 'M[F]_m) (xss : 'cV[F]_n) (uss uprev : 'cV[F]_m)
      (x : nat -> 'cV[F]_n) (u : nat -> 'cV[F]_m) (k : nat) : F :=
    \sum_(j < k) (qf Q (x j - xss) + qf R (before uprev u j - uss) + qf dR (u j - before uprev u j)).
End Spec.
