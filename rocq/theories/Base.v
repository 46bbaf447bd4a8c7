(** * Base: python exceptions as values and small list helpers.

    This file models no function of do-mpc; it holds the vocabulary used by the
    models: a result type whose error branch names the python exception class. *)
From Coq Require Export List Arith ZArith Lia Bool String.
Export ListNotations.

(** The python exception classes raised by the modelled code.  [ExcGeneric] is a bare
    [raise Exception(...)].  Messages are not modelled. *)
Inductive exn : Type :=
| ExcAssertion | ExcIndex | ExcKey | ExcType | ExcValue | ExcName
| ExcAttribute | ExcUnbound | ExcGeneric | ExcOutOfFuel.

(** Outcome of a python call: a value, or an exception. *)
Inductive res (A : Type) : Type :=
| Ok (a : A)
| Err (e : exn).
Arguments Ok {A} a.
Arguments Err {A} e.

Definition bind {A B} (r : res A) (f : A -> res B) : res B :=
  match r with Ok a => f a | Err e => Err e end.

(** [assert b] of python. *)
Definition py_assert (b : bool) : res unit := if b then Ok tt else Err ExcAssertion.

Notation "'let!' x ':=' r 'in' k" := (bind r (fun x => k))
  (at level 200, x pattern, right associativity).

Definition is_ok {A} (r : res A) : bool := match r with Ok _ => true | Err _ => false end.

(** Python's [for x in l: st = f(st, x)] where the body may raise. *)
Fixpoint foldM {A B} (f : A -> B -> res A) (l : list B) (a : A) : res A :=
  match l with
  | [] => Ok a
  | x :: xs => match f a x with Ok a' => foldM f xs a' | Err e => Err e end
  end.

(** [map] with exceptions. *)
Fixpoint mapM {A B} (f : A -> res B) (l : list A) : res (list B) :=
  match l with
  | [] => Ok []
  | x :: xs => match f x with
               | Ok y => match mapM f xs with Ok ys => Ok (y :: ys) | Err e => Err e end
               | Err e => Err e
               end
  end.

Lemma forall2_length {A B} (R : A -> B -> Prop) l m : Forall2 R l m -> List.length l = List.length m.
Proof. induction 1; simpl; congruence. Qed.
