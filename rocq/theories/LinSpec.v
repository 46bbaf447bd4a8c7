(** * Specification vocabulary for linear models: steady states and the calls a user makes. *)
From Verif Require Import Base.
From mathcomp Require Import all_ssreflect all_algebra.
From Verif Require Import LqrModel LinModel.
Set Implicit Arguments.
Unset Strict Implicit.
Unset Printing Implicit Defensive.
Import GRing.Theory.
Local Open Scope ring_scope.

Section Spec.
  Variable F : realFieldType.
  Variables n m : nat.
  Variable par : Type.

  (** (x,u) is a steady state of x+ = A x + B u. *)
  Definition steady (A : 'M[F]_n) (B : 'M[F]_(n,m)) (x : 'cV[F]_n) (u : 'cV[F]_m) := x = A *m x + B *m u.
  (** Exactly one state is steady for the input u. *)
  Definition unique_steady (A : 'M[F]_n) (B : 'M[F]_(n,m)) (u : 'cV[F]_m) :=
    exists x, steady A B x u /\ forall x', steady A B x' u -> x' = x.

  (** Measured numbers of y = C x + D u. *)
  Definition linear_outputs (C : seq 'rV[F]_n) (D : seq 'rV[F]_m) (x : 'cV[F]_n) (u : 'cV[F]_m) : seq F :=
    [seq (rr.1 *m x + rr.2 *m u) 0 0 | rr <- zip C D].

  (** The calls on a LinearModel; exceptions are caught by the user. *)
  Inductive lop :=
  | LRhs (es : seq (option (aff F n m par)))
  | LMeas (name : string) (es : seq (option (aff F n m par)))
  | LSetup (A B C D : option (arr F))
  | LSteady (xss uss : ssarg F).
  Variable struct_ok : seq string -> bool.
  Variable pinv : 'M[F]_(n,m) -> 'M[F]_(m,n).
  Definition lstep (s : lin F n m par) (o : lop) : lin F n m par :=
    match o with
    | LRhs es => if lin_set_rhs es s is Ok s' then s' else s
    | LMeas nm es => if lin_set_meas nm es s is Ok s' then s' else s
    | LSetup A B C D => fst (lin_setup struct_ok A B C D s)
    | LSteady x u => fst (get_steady_state pinv x u s)
    end.
  Definition lhist (t : mtype) (h : seq lop) : lin F n m par := foldl lstep (lin_init F n m par t) h.

  (** cont2discrete leaves C and D alone (zero-order hold and Euler do). *)
  Definition keeps_outputs (c2d : sys F n m -> F -> string -> res (sys F n m)) (method : string) :=
    forall y t d, c2d y t method = Ok d -> sC d = sC y /\ sD d = sD y.
End Spec.
Arguments LRhs {F n m par}. Arguments LMeas {F n m par}. Arguments LSetup {F n m par}. Arguments LSteady {F n m par}.
