(** * Specification of the estimation problem in physical units. *)
From Coq Require Import Reals.
From Verif Require Import Base TreeModel NlpModel NlpSpec MheNlpModel.
Local Open Scope R_scope.

Section Spec.
  Variable c : mcfg.
  Variable par : mpar.
  Variable pt : mpoint.

  (** physical values of the optimisation variables; state x_k of the window is the last entry of its group *)
  Definition eX (k i : nat) : vec := fun a => mX pt k i a * hsx c a.
  Definition ex (k : nat) : vec := eX k (ncoll (hdisc c)).
  Definition eU (k : nat) : vec := fun a => mU pt k a * hsu c a.
  Definition eZ (k i : nat) : vec := fun a => mZ pt k i a * hsz c a.
  Definition ePe : vec := fun a => mPe pt a * hspe c a.
  (** the model's parameters: estimated ones from pe, the others from the user *)
  Definition model_p (pe : vec) : vec := fun i => match psel c i with inl j => pe j | inr j => mPs par j end.

  (** the model equations of window step k with process noise w_k *)
  Definition est_discrete_step (k : nat) : Prop :=
    agree (n_x (hmdl c)) (ex (k+1)) (rhs (hmdl c) (ex k) (eU k) (eZ k 0) (mTvp par k) (model_p ePe) (mW pt k)) /\
    forall a, (a < n_z (hmdl c))%nat -> alg (hmdl c) (ex k) (eU k) (eZ k 0) (mTvp par k) (model_p ePe) (mW pt k) a = 0.
  Section Coll.
    Variables (deg ni : nat) (h : R) (C : nat -> nat -> R) (D : nat -> R).
    (** point j of finite element i of window step k *)
    Definition est_cx (k i j : nat) : vec := if ((i =? 0) && (j =? 0))%nat then ex k else eX (k+1) (i * (deg+1) + j - 1).
    Definition est_cz (k i j : nat) : vec := eZ k (i * (deg+1) + j).
    Definition est_colloc_step (k : nat) : Prop :=
      let f := fun i j => rhs (hmdl c) (est_cx k i j) (eU k) (est_cz k i j) (mTvp par k) (model_p ePe) (mW pt k) in
      let g := fun i j => alg (hmdl c) (est_cx k i j) (eU k) (est_cz k i j) (mTvp par k) (model_p ePe) (mW pt k) in
      (forall i j a, (i < ni)%nat -> (j <= deg)%nat -> (a < n_z (hmdl c))%nat -> g i j a = 0) /\
      (forall i j a, (i < ni)%nat -> (1 <= j <= deg)%nat -> (a < n_x (hmdl c))%nat ->
         h * f i j a = total (deg+1) (fun r => C r j * est_cx k i r a)) /\
      (forall i a, (i < ni)%nat -> (a < n_x (hmdl c))%nat -> est_cx k (i+1) 0 a = total (deg+1) (fun r => D r * est_cx k i r a)) /\
      agree (n_x (hmdl c)) (ex (k+1)) (est_cx k ni 0).
  End Coll.
  Definition est_step (k : nat) : Prop :=
    match hdisc c with Discrete => est_discrete_step k | Colloc deg ni h C D => est_colloc_step deg ni h C D k end.

  (** measurement equation of window step k, with parameters p *)
  Definition est_meas (p : vec) (k : nat) : Prop :=
    forall a, (a < hny c)%nat -> hmeas c (ex (k+1)) (eU k) (eZ k 0) (mTvp par k) p (mV pt k) a = mY par k a.

  (** slack of the i-th nonlinear constraint at window step k *)
  Definition est_slack (i k : nat) (n : mnl) : R :=
    match mn_soft n with
    | None => 0
    | Some _ => mE pt (Nat.min k ((if hsingle c then 1 else hN c) - 1)) (List.length (m_soft (firstn i (hnl c))))
    end.
  (** the i-th nonlinear constraint at states x, z, with parameter estimates pe *)
  Definition est_nl (pe x z : vec) (i k : nat) (n : mnl) : Prop :=
    le_ub (mn_g n x (eU k) z (mTvp par k) pe (mPs par) - est_slack i k n) (mn_ub n).
  (** those the problem contains for step k *)
  Definition est_nl_step (pe : vec) (k : nat) : Prop :=
    forall i n, nth_error (hnl c) i = Some n ->
      if hnlchk c then forall q, (q < ncoll (hdisc c))%nat -> est_nl pe (eX k q) (eZ k q) i k n
      else est_nl pe (ex k) (eZ k 0) i k n.

  (** the user's bounds, in physical units *)
  Definition est_state_bounds (k i : nat) : Prop := forall a, (a < n_x (hmdl c))%nat -> inside (hxlb c a) (hxub c a) (eX k i a).
  Definition est_alg_bounds (k i : nat) : Prop := forall a, (a < n_z (hmdl c))%nat -> inside (hzlb c a) (hzub c a) (eZ k i a).
  Definition est_other_bounds : Prop :=
    (forall k a, (k < hN c)%nat -> (a < n_u (hmdl c))%nat -> inside (hulb c a) (huub c a) (eU k a)) /\
    (forall a, (a < hnpe c)%nat -> inside (hplb c a) (hpub c a) (ePe a)) /\
    (forall k a, (k < if hsingle c then 1 else hN c)%nat -> (a < List.length (m_soft (hnl c)))%nat ->
       inside (Some 0) (match nth_error (m_soft (hnl c)) a with Some s => fst s | None => None end) (mE pt k a)).
End Spec.

Definition mscal_pos (c : mcfg) : Prop :=
  (forall a, (a < n_x (hmdl c))%nat -> 0 < hsx c a) /\ (forall a, (a < n_u (hmdl c))%nat -> 0 < hsu c a) /\
  (forall a, (a < n_z (hmdl c))%nat -> 0 < hsz c a) /\ (forall a, (a < hnpe c)%nat -> 0 < hspe c a).
(** the estimated parameters that occur have scaling factor 1 *)
Definition unit_pe_scaling (c : mcfg) : Prop := forall j, hspe c j = 1.
(** a configuration setup accepts, with nonzero state scaling *)
Definition mcfg_ok (c : mcfg) : Prop :=
  (forall a, (a < n_x (hmdl c))%nat -> hsx c a <> 0) /\
  (hnlchk c = true -> hdisc c <> Discrete) /\
  match hdisc c with Discrete => True | Colloc deg ni _ _ _ => (1 <= ni)%nat /\ (1 <= deg)%nat /\ wf_model (hmdl c) end.

(** v' P v *)
Definition weighted_square (n : nat) (P : nat -> nat -> R) (v : vec) : R := total n (fun i => total n (fun j => v i * P i j * v j)).
