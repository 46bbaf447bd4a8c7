(** * Model of do_mpc/model/_iteratedvariables.py: current values of the iterating objects, with object identity.

    Controller, estimator and simulator each hold numerical structures _x0, _u0, _z0.  A structure is a mutable
    python object; here a cell of a heap.  Assigning an array makes a new structure (_convert2struct calls
    [struct(val)]); assigning a structure stores that same structure.  A step writes the fields in place
    ([self._x0.master = ...]: controller/_mpc.py:1045-1047, estimator/_mhe.py:985-988, simulator.py:699-701,
    controller/_lqr.py:316-317).

    Simplifications: a structure is a list of entries of type R with the name of the layout it was made from; the
    values a step computes are arguments of the step. *)
From Verif Require Import Base.
Import List.
Local Open Scope nat_scope.

Inductive slot := Sx | Su | Sz.
Definition slot_eqb (a b : slot) : bool := match a, b with Sx, Sx | Su, Su | Sz, Sz => true | _, _ => false end.

Section Alias.
  Variable R : Type.
  Variable zero : R.
  Variable size : slot -> nat.                                 (* n_x, n_u, n_z *)

  Record cell := mkCell { layout : slot; entries : list R }.
  Record world := mkW { heap : nat -> cell; next : nat; ref : nat -> slot -> nat; user : list nat }.

  Definition upd_heap (h : nat -> cell) (r : nat) (c : cell) : nat -> cell := fun q => if Nat.eqb q r then c else h q.
  Definition upd_ref (f : nat -> slot -> nat) (o : nat) (s : slot) (r : nat) : nat -> slot -> nat :=
    fun o' s' => if Nat.eqb o' o && slot_eqb s' s then r else f o' s'.

  (** _iteratedvariables.py:37-44 __init__, for objects 0 .. n-1: three new structures each. *)
  Definition slot_no (s : slot) : nat := match s with Sx => 0 | Su => 1 | Sz => 2 end.
  Definition world_init (n : nat) : world :=
    mkW (fun r => let s := match Nat.modulo r 3 with 0 => Sx | 1 => Su | _ => Sz end in mkCell s (repeat zero (size s)))
        (3 * n) (fun o s => 3 * o + slot_no s) [].

  (** What a user may pass to a setter: an array (or DM or number) with these entries, the structure held by an object
      (as returned by its getter), a structure of the user's, something else. *)
  Inductive value := VArr (l : list R) | VOf (o : nat) (s : slot) | VUser (k : nat) | VOther.

  (** _iteratedvariables.py:47-76 _convert2struct: the reference to be stored. *)
  Definition convert (w : world) (v : value) (s : slot) : res (nat * world) :=
    match v with
    | VArr l =>
        let! _ := py_assert (Nat.eqb (length l) (size s)) in
        Ok (next w, mkW (upd_heap (heap w) (next w) (mkCell s l)) (Datatypes.S (next w)) (ref w) (user w))
    | VOf o s' =>
        let! _ := py_assert (Nat.eqb (length (entries (heap w (ref w o s')))) (size s)) in Ok (ref w o s', w)
    | VUser k =>
        match nth_error (user w) k with
        | Some r => let! _ := py_assert (Nat.eqb (length (entries (heap w r))) (size s)) in Ok (r, w)
        | None => Err ExcName
        end
    | VOther => Err ExcAttribute
    end.

  (** Calls. *)
  Inductive acall :=
  | ASet (o : nat) (s : slot) (v : value)          (* obj.x0 = v  (112-114, 150-152, 188-190) *)
  | AWrite (o : nat) (s : slot) (i : nat) (a : R)  (* obj.x0[i] = a: the getter returns the structure itself (80-110) *)
  | AStep (o : nat) (x u z : list R)               (* make_step of the object *)
  | ANew (s : slot) (l : list R)                   (* the user makes a structure, e.g. model._x(0) *)
  | AUser (k i : nat) (a : R).                     (* and writes into it *)

  Definition set_nth (l : list R) (i : nat) (a : R) : list R := firstn i l ++ match skipn i l with [] => [] | _ :: r => a :: r end.
  Definition write (w : world) (r : nat) (l : list R) : world := mkW (upd_heap (heap w) r (mkCell (layout (heap w r)) l)) (next w) (ref w) (user w).

  Definition do_acall (w : world) (c : acall) : world * res unit :=
    match c with
    | ASet o s v =>
        match convert w v s with
        | Ok (r, w') => (mkW (heap w') (next w') (upd_ref (ref w') o s r) (user w'), Ok tt)
        | Err e => (w, Err e)
        end
    | AWrite o s i a =>
        let r := ref w o s in
        if Nat.ltb i (length (entries (heap w r))) then (write w r (set_nth (entries (heap w r)) i a), Ok tt) else (w, Err ExcIndex)
    | AStep o x u z =>
        (* sizes of what a step writes are those of the model *)
        if Nat.eqb (length x) (size Sx) && Nat.eqb (length u) (size Su) && Nat.eqb (length z) (size Sz)
        then (write (write (write w (ref w o Sx) x) (ref w o Su) u) (ref w o Sz) z, Ok tt) else (w, Err ExcAssertion)
    | ANew s l =>
        if Nat.eqb (length l) (size s)
        then (mkW (upd_heap (heap w) (next w) (mkCell s l)) (Datatypes.S (next w)) (ref w) (user w ++ [next w]), Ok tt) else (w, Err ExcGeneric)
    | AUser k i a =>
        match nth_error (user w) k with
        | Some r => if Nat.ltb i (length (entries (heap w r))) then (write w r (set_nth (entries (heap w r)) i a), Ok tt) else (w, Err ExcIndex)
        | None => (w, Err ExcName)
        end
    end.
  Fixpoint aexec (h : list acall) (w : world) : world * list (acall * res unit) :=
    match h with
    | [] => (w, [])
    | c :: h => let (w1, o) := do_acall w c in let (w2, tr) := aexec h w1 in (w2, (c, o) :: tr)
    end.
  (** What the user reads: obj.x0. *)
  Definition value_of (w : world) (o : nat) (s : slot) : list R := entries (heap w (ref w o s)).

  (** *** t0 *)
  (** _iteratedvariables.py:195-212.  [val.size] of a numpy array is a number, of a casadi.DM a bound method, which
      is never equal to 1. *)
  Inductive timearg := TNum (t : R) | TArray (l : list R) | TDM (l : list R) | TOther.
  Definition set_time (cur : list R) (v : timearg) : res (list R) :=
    match v with
    | TNum t => Ok [t]
    | TArray l => if Nat.eqb (length l) 1 then Ok l else Err ExcAssertion
    | TDM l => Err ExcAssertion
    | TOther => Err ExcGeneric
    end.
End Alias.
