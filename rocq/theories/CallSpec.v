(** * Specification for sample functions: when a call by keywords is possible, and what it passes. *)
From Verif Require Import Base DataModel SamplingModel SamplingSpec CallModel.
Local Open Scope string_scope.

(** A parameter that can be passed by keyword. *)
Definition keyword_param (s : pysig) (n : string) : Prop := exists d, In (n, d) (sg_args s ++ sg_kwonly s).
(** A parameter that must be passed. *)
Definition required (s : pysig) (n : string) : Prop := In (n, false) (sg_args s ++ sg_kwonly s).

(** The call f( **kw ) is possible: nothing required is missing, nothing unknown is passed, and no
    positional-only parameter is required. *)
Definition callable_with (s : pysig) (keys : list string) : Prop :=
  (forall n d, In (n, d) (sg_posonly s) -> d = true)
  /\ (forall n, required s n -> In n keys)
  /\ (sg_varkw s = true \/ forall k, In k keys -> keyword_param s k).

(** The names of all parameters are different (python syntax). *)
Definition well_formed_sig (s : pysig) : Prop := NoDup (map fst (sg_posonly s ++ sg_args s ++ sg_kwonly s)).

(** A planner on which first the variables are declared and then cases are added. *)
Definition only_cases {V W} (h : list (pop V W)) : Prop :=
  forall o, In o h -> match o with PVar _ _ => False | _ => True end.
