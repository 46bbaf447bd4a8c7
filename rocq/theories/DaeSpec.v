(** * Specification vocabulary for the DAE to ODE conversion. *)
From Coq Require Import Reals.
From Verif Require Import Base MdlModel DaeModel.
Import List.
Local Open Scope R_scope.

(** The derivative of x at an assignment: f plus, for the states with process noise, the noise of
    that state. *)
Definition noise_named (d : dae) (e : env) : list R :=
  flat_map (fun v => map (fun i => if has_noise d (fst v) then e_noise e (fst v ++ "_noise")%string i else 0)
                         (seq 0 (snd v))) (d_x d).
Definition xdot (d : dae) (e : env) : list R := map2 Rplus (d_f d (point d e)) (noise_named d e).

Definition vadd : list R -> list R -> list R := map2 Rplus.

(** A well-formed set-up model: distinct names per kind, 'default' reserved, functions of the right
    shapes. *)
Record wf_dae (d : dae) : Prop := {
  wf_setup : d_setup d = true;
  wf_p : NoDup ("default"%string :: map fst (d_p d));
  wf_tvp : NoDup ("default"%string :: map fst (d_tvp d));
  wf_w : forall n, In n (d_w d) -> In n (map fst (d_x d));
  wf_f : forall P, List.length (d_f d P) = vsum (d_x d);
  wf_gx : forall P, List.length (d_gx d P) = vsum (d_z d) /\ Forall (fun r => List.length r = vsum (d_x d)) (d_gx d P);
  wf_gu : forall P, List.length (d_gu d P) = vsum (d_z d) /\ Forall (fun r => List.length r = vsum (d_u d)) (d_gu d P);
  wf_gz : forall P, List.length (d_gz d P) = vsum (d_z d) /\ Forall (fun r => List.length r = vsum (d_z d)) (d_gz d P) }.

(** No name is used for two of states, inputs and algebraic states. *)
Definition distinct_names (d : dae) : Prop := NoDup (map fst (d_x d ++ d_u d ++ d_z d)) /\ ~ In "default"%string (map fst (d_x d ++ d_u d ++ d_z d)).
(** All inputs are scalars. *)
Definition scalar_inputs (d : dae) : Prop := Forall (fun v => snd v = 1%nat) (d_u d).
(** The noise vector lists the states in the order in which they were declared. *)
Definition noise_in_order (d : dae) : Prop := d_w d = filter (has_noise d) (map fst (d_x d)).
(** [inv] inverts the Jacobian of the algebraic equations with respect to z at the point. *)
Definition inverts (inv : list (list R) -> list (list R)) (d : dae) (P : pt) : Prop :=
  List.length (inv (d_gz d P)) = vsum (d_z d) /\
  forall v, List.length v = vsum (d_z d) -> mv (d_gz d P) (mv (inv (d_gz d P)) v) = v.

(** gx, gu, gz are the partial derivatives of the algebraic equations (chain rule along every curve on
    which the parameters are constant). *)
Definition jacobian (d : dae) : Prop := forall (P : R -> pt) t dx du dz,
  (forall s, List.length (px (P s)) = vsum (d_x d) /\ List.length (pu (P s)) = vsum (d_u d) /\ List.length (pz (P s)) = vsum (d_z d)
             /\ ptvp (P s) = ptvp (P t) /\ pp (P s) = pp (P t)) ->
  List.length dx = vsum (d_x d) -> List.length du = vsum (d_u d) -> List.length dz = vsum (d_z d) ->
  (forall i, derivable_pt_lim (fun s => nth i (px (P s)) 0) t (nth i dx 0)) ->
  (forall i, derivable_pt_lim (fun s => nth i (pu (P s)) 0) t (nth i du 0)) ->
  (forall i, derivable_pt_lim (fun s => nth i (pz (P s)) 0) t (nth i dz 0)) ->
  forall k, derivable_pt_lim (fun s => nth k (d_g d (P s)) 0) t
    (nth k (vadd (vadd (mv (d_gx d (P t)) dx) (mv (d_gu d (P t)) du)) (mv (d_gz d (P t)) dz)) 0).

(** The assignment [c t] follows the ODE with right-hand side [a]; parameters are constant in time. *)
Definition follows (d : dae) (a : assembled E) (c : R -> env) : Prop := forall t,
  (forall i, derivable_pt_lim (fun s => nth i (gather (d_x d ++ d_u d ++ d_z d) (e_s (c s))) 0) t (nth i (rhs_at a (c t)) 0)) /\
  (forall s, gather (d_tvp d) (e_tvp (c s)) = gather (d_tvp d) (e_tvp (c t)) /\ gather (d_p d) (e_p (c s)) = gather (d_p d) (e_p (c t))).
