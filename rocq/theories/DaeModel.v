(** * Model of do_mpc/model/_dae2odeconversion.py (dae2odeconversion), on top of MdlModel.v.

    The old model is described by its variables (name, size; the reserved entries 'default' left out),
    the states with process noise in the order of the noise vector, and its functions over the reals.
    Every variable is a column.  CasADi expressions of the new model are functions of an assignment of
    values to its symbols. Arithmetic is exact. *)
From Coq Require Import Reals.
From Verif Require Import Base MdlModel.
Import List.
Local Open Scope R_scope.

(** A point of the old model: stacked x, u, z, tvp, p. *)
Record pt := mkPt { px : list R; pu : list R; pz : list R; ptvp : list R; pp : list R }.

(** Values of the symbols of the new model: states by name and entry, entries of the input q,
    parameters, process noise. *)
Record env := mkEnv {
  e_s : string -> nat -> R; e_q : nat -> R;
  e_tvp : string -> nat -> R; e_p : string -> nat -> R; e_noise : string -> nat -> R }.

(** The old (set-up) model: variables, noise vector, right-hand side without noise, algebraic
    equations and their exact Jacobians (castools.jacobian). *)
Record dae := mkDae {
  d_setup : bool;
  d_x : list (string * nat); d_u : list (string * nat); d_z : list (string * nat);
  d_p : list (string * nat); d_tvp : list (string * nat);
  d_w : list string;
  d_f : pt -> list R; d_g : pt -> list R;
  d_gx : pt -> list (list R); d_gu : pt -> list (list R); d_gz : pt -> list (list R) }.

Definition vsum (l : list (string * nat)) : nat := list_sum (map snd l).

(** Matrix times column. *)
Fixpoint dot (a b : list R) : R :=
  match a, b with x :: a', y :: b' => x * y + dot a' b' | _, _ => 0 end.
Definition mv (M : list (list R)) (v : list R) : list R := map (fun r => dot r v) M.
Definition map2 (f : R -> R -> R) (a b : list R) : list R := map (fun p => f (fst p) (snd p)) (combine a b).

Definition has_noise (d : dae) (n : string) : bool := existsb (String.eqb n) (d_w d).

(** Offset of the noise of state [n] in the noise vector of the old model. *)
Fixpoint w_offset (d : dae) (ws : list string) (n : string) : nat :=
  match ws with
  | [] => 0%nat
  | k :: ws' => if String.eqb n k then 0%nat else (size_of k (d_x d) + w_offset d ws' n)%nat
  end.
(** The noise each entry of x receives from the stacked noise vector [w] of the old model (set_rhs
    with process_noise adds the variable of that state). *)
Definition scatter (d : dae) (w : list R) : list R :=
  flat_map (fun v => map (fun i => if has_noise d (fst v) then nth (w_offset d (d_w d) (fst v) + i) w 0 else 0)
                         (seq 0 (snd v))) (d_x d).
(** model._rhs_fun. *)
Definition rhs_fun (d : dae) (P : pt) (w : list R) : list R := map2 Rplus (d_f d P) (scatter d w).

(** vertcat of named variables. *)
Definition gather (vars : list (string * nat)) (val : string -> nat -> R) : list R :=
  flat_map (fun v => map (val (fst v)) (seq 0 (snd v))) vars.

(** _dae2odeconversion.py:77-81: the old variables as symbols of the new model. *)
Definition point (d : dae) (e : env) : pt :=
  mkPt (gather (d_x d) (e_s e)) (gather (d_u d) (e_s e)) (gather (d_z d) (e_s e))
       (gather (d_tvp d) (e_tvp e)) (gather (d_p d) (e_p e)).

Definition E := env -> R.

(** castools.inv *)
Section Conv.
  Variable inv : list (list R) -> list (list R).

  (** _dae2odeconversion.py:84-85: rhs with the noise set to zero, entries [o], ..., [o+s-1]. *)
  Definition x_slice (d : dae) (o s : nat) : list E :=
    map (fun i e => nth i (rhs_fun d (point d e) (repeat 0 (list_sum (map (fun n => size_of n (d_x d)) (d_w d))))) 0) (seq o s).

  (** The noise vector of the new model, in the order of the set_rhs calls of lines 86-93. *)
  Definition w_new (d : dae) (e : env) : list R :=
    flat_map (fun v => if has_noise d (fst v) then map (e_noise e (fst v ++ "_noise")%string) (seq 0 (snd v)) else []) (d_x d).
  Definition q_of (d : dae) (e : env) : list R := map (e_q e) (seq 0 (vsum (d_u d))).

  (** _dae2odeconversion.py:94-96: z_next (matrix products associated to the right). *)
  Definition z_next (d : dae) (e : env) : list R :=
    let P := point d e in
    map2 (fun a b => - a - b)
         (mv (inv (d_gz d P)) (mv (d_gx d P) (rhs_fun d P (w_new d e))))
         (mv (inv (d_gz d P)) (mv (d_gu d P) (q_of d e))).
  Definition z_slice (d : dae) (o s : nat) : list E := map (fun i e => nth i (z_next d e) 0) (seq o s).

  (** A running offset over named variables (x_count, z_count). *)
  Fixpoint counted (o : nat) (vars : list (string * nat)) : list (string * nat * nat) :=
    match vars with [] => [] | (n, s) :: vs => (n, o, s) :: counted (o + s)%nat vs end.

  (** The declaring calls on the new model, in order: lines 64-74 and 86-104. The rate of the j-th
      input *name* is the j-th entry of q (line 99). *)
  Definition decls (d : dae) : list (decl E) :=
    (map (fun v => DVar "_x" (fst v) (snd v)) (d_x d ++ d_u d ++ d_z d)
     ++ map (fun v => DVar "_p" (fst v) (snd v)) (d_p d)
     ++ map (fun v => DVar "_tvp" (fst v) (snd v)) (d_tvp d)
     ++ [DVar "_u" "q" (vsum (d_u d))]
     ++ map (fun c => DRhs (fst (fst c)) (x_slice d (snd (fst c)) (snd c)) (has_noise d (fst (fst c)))) (counted 0 (d_x d))
     ++ map (fun jv => DRhs (fst (snd jv)) [fun e => e_q e (fst jv)] false) (combine (seq 0 (List.length (d_u d))) (d_u d))
     ++ map (fun c => DRhs (fst (fst c)) (z_slice d (snd (fst c)) (snd c)) false) (counted 0 (d_z d)))%list.

  Variable struct_ok : list string -> bool.
  Variable resetup : model E -> model E * res unit.
  Definition e_zero : E := fun _ => 0.
  Definition e_plus (a b : E) : E := fun e => a e + b e.
  Definition e_nsym (_ : bool) (n : string) (i : nat) : E := fun e => e_noise e n i.
  Definition e_ssym (n : string) (i : nat) : E := fun e => e_s e n i.

  (** _dae2odeconversion.py:27-109. *)
  Definition dae2ode (d : dae) : res (model E) :=
    let! _ := py_assert (d_setup d) in
    let! m := foldM (decl_call E e_plus e_nsym) (decls d) (model_init E e_zero) in
    let r := setup E e_zero e_plus e_nsym struct_ok e_ssym resetup (fun _ _ => true) m in
    let! _ := snd r in Ok (fst r).
End Conv.

(** The right-hand side of the new model at an assignment, all states stacked in order. *)
Definition rhs_at (a : assembled E) (e : env) : list R :=
  flat_map (fun re => map (fun ex : E => ex e) (snd re)) (a_rhs a).
