(** * Model of the collocation coefficients.
    do_mpc/optimizer.py, [Optimizer._setup_discretization], lines 863-885.
    Numbers are elements of an arbitrary field F (the code uses floating point); the symbolic
    expression L in the dimensionless time tau is a polynomial over F, [castools.tangent] is its
    derivative. *)
From mathcomp Require Import all_ssreflect all_algebra.
Set Implicit Arguments.
Unset Strict Implicit.
Unset Printing Implicit Defensive.
Import GRing.Theory.
Local Open Scope ring_scope.

Section Coefficients.
  Variable F : fieldType.
  Variable tau_root : nat -> F.       (* tau_root[0] = 0, then the collocation points: :843-848 *)
  Variable deg : nat.

  (** optimizer.py:874-877: L starts as 1 and is multiplied by the factors r != j *)
  Definition lagrange (j : nat) : {poly F} :=
    foldl (fun L r => if r != j then L * ((tau_root j - tau_root r)^-1 *: ('X - (tau_root r)%:P)) else L)
          1 (iota 0 deg.+1).
  (** optimizer.py:879 [D[j] = lfcn(1.0)] *)
  Definition coefD (j : nat) : F := (lagrange j).[1].
  (** optimizer.py:882-884 [C[j, r] = tfcn(tau_root[r])] *)
  Definition coefC (j r : nat) : F := ((lagrange j)^`()).[tau_root r].
End Coefficients.
