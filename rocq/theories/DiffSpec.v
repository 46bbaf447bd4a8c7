(** * Specification vocabulary for the differentiator (C49, C50, C70-C73).

    First-order changes are computed with dual numbers: the pair (v, d) stands for v + d*eps with
    eps^2 = 0.  [evd] evaluates an expression on dual numbers; it knows nothing of symbolic
    differentiation. *)
From Verif Require Import Base.
From mathcomp Require Import all_ssreflect all_algebra.
From Verif Require Import LinModel DiffModel.
Set Implicit Arguments.
Unset Strict Implicit.
Unset Printing Implicit Defensive.
Import GRing.Theory Num.Theory.
Local Open Scope ring_scope.

Section Spec.
  Variable F : realFieldType.
  Variable fn : nat -> F -> F.
  Variable dfn : nat -> nat.
  Local Notation ex := (ex F).
  Local Notation nlp := (nlp F).

  Definition dadd (a b : F * F) : F * F := (a.1 + b.1, a.2 + b.2).
  Definition dmul (a b : F * F) : F * F := (a.1 * b.1, a.1 * b.2 + a.2 * b.1).

  Fixpoint evd (rho : sym -> F * F) (e : ex) : F * F :=
    match e with
    | Cst c => (c, 0) | Sym s => rho s
    | Add a b => dadd (evd rho a) (evd rho b)
    | Mul a b => dmul (evd rho a) (evd rho b)
    | Fn k a => (fn k (evd rho a).1, fn (dfn k) (evd rho a).1 * (evd rho a).2)
    end.

  (** The point (x,p) of problem P moved in direction (dx,dp). *)
  Definition moved (P : nlp) (x p : seq F) (dx dp : nat -> F) : sym -> F * F := fun s =>
    if s \in n_x P then (nth 0 x (index s (n_x P)), dx (index s (n_x P)))
    else if s \in n_p P then (nth 0 p (index s (n_p P)), dp (index s (n_p P)))
    else (0, 0).

  (** Value and first-order change of  df/dx_i + sum_k lam_g,k dg_k/dx_i + lam_x,i . *)
  Definition stationarity (P : nlp) (x lg lx p : seq F) (dx dlg dlx dp : nat -> F) (i : nat) : F * F :=
    let rho := moved P x p dx dp in
    let s := nth (usym 0) (n_x P) i in
    dadd (evd rho (D dfn s (n_f P)))
         (dadd (foldr (fun k acc => dadd (dmul (nth 0 lg k, dlg k) (evd rho (D dfn s (nth (Cst 0) (n_g P) k)))) acc)
                      (0, 0) (iota 0 (size (n_g P))))
               (nth 0 lx i, dlx i)).

  (** To first order, the changes (dx, dlam) keep the optimality conditions of problem P valid when the
      parameters change by dp: stationarity holds, active constraints and bounds stay as they are,
      multipliers of inactive constraints and bounds stay as they are. *)
  Record tracks (P : nlp) (actg actx : nat -> bool) (x lg lx p : seq F)
      (dx dlg dlx dp : nat -> F) : Prop := {
    tr_stat : forall i, (i < size (n_x P))%N -> (stationarity P x lg lx p dx dlg dlx dp i).2 = 0;
    tr_actg : forall k, (k < size (n_g P))%N -> actg k -> (evd (moved P x p dx dp) (nth (Cst 0) (n_g P) k)).2 = 0;
    tr_actx : forall i, (i < size (n_x P))%N -> actx i -> dx i = 0;
    tr_inactg : forall k, (k < size (n_g P))%N -> ~~ actg k -> dlg k = 0;
    tr_inactx : forall i, (i < size (n_x P))%N -> ~~ actx i -> dlx i = 0 }.

  (** Active: within the tolerance of a finite bound. *)
  Definition at_bound (tol v : F) (lb ub : option F) : bool :=
    (if lb is Some l then `|v - l| <= tol else false) || (if ub is Some u then `|v - u| <= tol else false).
  Definition act_g (tol : F) (b : bnd F) (g : seq F) (k : nat) : bool :=
    at_bound tol (nth 0 g k) (nth None (b_lbg b) k) (nth None (b_ubg b) k).
  Definition act_x (tol : F) (b : bnd F) (x : seq F) (i : nat) : bool :=
    at_bound tol (nth 0 x i) (nth None (b_lbx b) i) (nth None (b_ubx b) i).

  (** A problem as a user can pass it: distinct user symbols; the objective and the constraints are
      built from user symbols; one bound per variable and per constraint. *)
  Definition is_user (s : sym) : bool := if s is inl _ then true else false.
  Record wf (P : nlp) (b : bnd F) : Prop := {
    wf_uniq : uniq (n_x P ++ n_p P);
    wf_user : all is_user (n_x P ++ n_p P);
    wf_f : forall s, occ s (n_f P) -> is_user s;
    wf_g : forall k s, (k < size (n_g P))%N -> occ s (nth (Cst 0) (n_g P) k) -> is_user s;
    wf_lbx : size (b_lbx b) = size (n_x P);
    wf_ubx : size (b_ubx b) = size (n_x P);
    wf_lbg : size (b_lbg b) = size (n_g P);
    wf_ubg : size (b_ubg b) = size (n_g P) }.

  (** The variable or parameter enters the objective or a constraint. *)
  Definition enters (P : nlp) (s : sym) : Prop := occ s (n_f P) \/ exists2 k, (k < size (n_g P))%N & occ s (nth (Cst 0) (n_g P) k).

  (** Matrix times direction. *)
  Definition along (n : nat) (M : nat -> nat -> F) (dp : nat -> F) (i : nat) : F := \sum_(j < n) M i j * dp j.
End Spec.

Section Positions.
  Variable F : realFieldType.
  (** Does the i-th variable / j-th parameter enter the problem; ranks among those that do. *)
  Definition ux (P : nlp F) (i : nat) : bool := used P (nth (usym 0) (n_x P) i).
  Definition up (P : nlp F) (j : nat) : bool := used P (nth (usym 0) (n_p P) j).
  Definition rank (f : nat -> bool) (i : nat) : nat := count f (iota 0 i).

  (** Linear independence of the gradients of the active constraints and bounds at (x,p). *)
  Definition licq (fn : nat -> F -> F) (dfn : nat -> nat) (P : nlp F) (actg actx : nat -> bool) (x p : seq F) : Prop :=
    forall cg cx : nat -> F,
      (forall k, (k < size (n_g P))%N -> ~~ actg k -> cg k = 0) ->
      (forall i, (i < size (n_x P))%N -> ~~ actx i -> cx i = 0) ->
      (forall i, (i < size (n_x P))%N ->
         (\sum_(k < size (n_g P)) cg k * (evd fn dfn (moved P x p (fun i' => if i' == i then 1 else 0) (fun=> 0)) (nth (Cst 0) (n_g P) k)).2)
         + cx i = 0) ->
      (forall k, (k < size (n_g P))%N -> cg k = 0) /\ (forall i, (i < size (n_x P))%N -> cx i = 0).
End Positions.
