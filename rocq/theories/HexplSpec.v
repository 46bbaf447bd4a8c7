(** * What the moving horizon estimator is for: an explanation of the measurements of a window, in physical units.
    No scaling factor occurs here: of the configuration only the model, the horizon, the settings, the constraints, the costs and
    the bounds are used. *)
From Coq Require Import Reals.
From Verif Require Import Base NlpModel NlpSpec MheNlpModel HlinkModel MheModel MheSpec MheHistSpec.
Import List.
Local Open Scope R_scope.

(** A story that explains the measurements: states (at the points of every interval; the last point of interval k is the state
    at time k), algebraic states, inputs, process and measurement noise, violations of soft constraints and parameters. *)
Record explanation := mkExpl {
  st_x : nat -> nat -> vec; st_z : nat -> nat -> vec; st_u : nat -> vec; st_w : nat -> vec; st_v : nat -> vec; st_e : nat -> vec; st_p : vec }.

Section Explains.
  Variable c : mcfg.
  Variable par : mpar.      (* what is given: previous estimates, set parameters, time-varying parameters, measurements *)
  Variable s : explanation.

  Definition state_at (k : nat) : vec := st_x s k (ncoll (hdisc c)).
  Definition all_p : vec := fun i => match psel c i with inl j => st_p s j | inr j => mPs par j end.

  (** the story follows the model from time k to time k+1 *)
  Definition follows_discrete (k : nat) : Prop :=
    agree (n_x (hmdl c)) (state_at (k+1)) (rhs (hmdl c) (state_at k) (st_u s k) (st_z s k 0) (mTvp par k) all_p (st_w s k)) /\
    agree (n_z (hmdl c)) (alg (hmdl c) (state_at k) (st_u s k) (st_z s k 0) (mTvp par k) all_p (st_w s k)) (fun _ => 0).
  Definition follows_colloc (deg ni : nat) (h : R) (C : nat -> nat -> R) (D : nat -> R) (k : nat) : Prop :=
    let x := fun i j => if ((i =? 0) && (j =? 0))%nat then state_at k else st_x s (k+1) (i * (deg+1) + j - 1) in
    let z := fun i j => st_z s k (i * (deg+1) + j) in
    let xdot := fun i j => rhs (hmdl c) (x i j) (st_u s k) (z i j) (mTvp par k) all_p (st_w s k) in
    (forall i j, (i < ni)%nat -> (j <= deg)%nat -> agree (n_z (hmdl c)) (alg (hmdl c) (x i j) (st_u s k) (z i j) (mTvp par k) all_p (st_w s k)) (fun _ => 0)) /\
    (forall i j a, (i < ni)%nat -> (1 <= j <= deg)%nat -> (a < n_x (hmdl c))%nat -> h * xdot i j a = total (deg+1) (fun r => C r j * x i r a)) /\
    (forall i a, (i < ni)%nat -> (a < n_x (hmdl c))%nat -> x (i+1)%nat 0%nat a = total (deg+1) (fun r => D r * x i r a)) /\
    agree (n_x (hmdl c)) (state_at (k+1)) (x ni 0%nat).
  Definition follows (k : nat) : Prop :=
    match hdisc c with Discrete => follows_discrete k | Colloc deg ni h C D => follows_colloc deg ni h C D k end.

  (** the measurement taken at the end of interval k *)
  Definition measures (k : nat) : Prop :=
    agree (hny c) (hmeas c (state_at (k+1)) (st_u s k) (st_z s k 0) (mTvp par k) all_p (st_v s k)) (mY par k).

  (** violation allowed to the i-th constraint at step k: nothing for a hard one *)
  Definition violation (i k : nat) (n : mnl) : R :=
    match mn_soft n with
    | None => 0
    | Some _ => st_e s (if hsingle c then 0 else k)%nat (List.length (m_soft (firstn i (hnl c))))
    end.
  Definition respects (k : nat) : Prop :=
    forall i n, nth_error (hnl c) i = Some n ->
      let holds := fun x z => le_ub (mn_g n x (st_u s k) z (mTvp par k) (st_p s) (mPs par) - violation i k n) (mn_ub n) in
      if hnlchk c then forall q, (q < ncoll (hdisc c))%nat -> holds (st_x s k q) (st_z s k q) else holds (state_at k) (st_z s k 0%nat).

  (** the user's bounds: everywhere with cons_check_colloc_points, else at the inner times of the window only *)
  Definition in_bounds : Prop :=
    (forall k i a, (k <= hN c)%nat -> (i <= ncoll (hdisc c))%nat -> (a < n_x (hmdl c))%nat ->
       (hchk c = true \/ (1 <= k < hN c)%nat /\ i = ncoll (hdisc c)) -> inside (hxlb c a) (hxub c a) (st_x s k i a)) /\
    (forall k i a, (k < hN c)%nat -> (i < Nat.max (ncoll (hdisc c)) 1)%nat -> (a < n_z (hmdl c))%nat ->
       (hchk c = true \/ i = 0%nat) -> inside (hzlb c a) (hzub c a) (st_z s k i a)) /\
    (forall k a, (k < hN c)%nat -> (a < n_u (hmdl c))%nat -> inside (hulb c a) (huub c a) (st_u s k a)) /\
    (forall a, (a < hnpe c)%nat -> inside (hplb c a) (hpub c a) (st_p s a)) /\
    (forall k a m pen, (k < if hsingle c then 1 else hN c)%nat -> nth_error (m_soft (hnl c)) a = Some (m, pen) -> inside (Some 0) m (st_e s k a)).

  Definition explains : Prop :=
    (forall k, (k < hN c)%nat -> follows k /\ measures k /\ respects k) /\ in_bounds.

  (** its price: arrival cost, stage costs of the noise, penalties of the violations *)
  Definition price : R :=
    harrival c (state_at 0) (mXprev par) (st_p s) (mPeprev par) (mPs par)
    + total (hN c) (fun k => hstage c (st_w s k) (st_v s k) (mTvp par k) all_p
        + total (List.length (m_soft (hnl c))) (fun a => match nth_error (m_soft (hnl c)) a with Some (_, pen) => pen * st_e s (if hsingle c then 0 else k)%nat a | None => 0 end)).
End Explains.

(** An explanation no other explanation is cheaper than. *)
Definition cheapest (c : mcfg) (par : mpar) (s : explanation) : Prop :=
  explains c par s /\ forall s', explains c par s' -> price c par s <= price c par s'.

(** Two configurations that differ in the scaling factors only. *)
Definition same_but_scaling (c c' : mcfg) : Prop :=
  (hN c, hsingle c, hchk c, hnlchk c, hmdl c, hny c, hnpe c, hmeas c) = (hN c', hsingle c', hchk c', hnlchk c', hmdl c', hny c', hnpe c', hmeas c') /\
  (hdisc c, psel c, hnl c, hstage c, harrival c) = (hdisc c', psel c', hnl c', hstage c', harrival c') /\
  (hxlb c, hxub c, hulb c, huub c, hzlb c, hzub c, hplb c, hpub c) = (hxlb c', hxub c', hulb c', huub c', hzlb c', hzub c', hplb c', hpub c').

(** Scaling factors are positive; those of the estimated parameters are 1. *)
Definition good_scaling (c : mcfg) : Prop := (forall a, 0 < hsx c a /\ 0 < hsu c a /\ 0 < hsz c a) /\ forall a, hspe c a = 1.

(** ** The data of the j-th step (counted from 0) after setup: measurements ys 0 .. ys j arrived so far, previous estimates
    xp and pp, the user's functions at the time of the step. *)
Definition step_data (L : hlink) (tr : list (@hcall (hlink_env L) * res (option vec))) (N : nat) (dt : R) (ys : nat -> vec) (j : nat) (xp pp : vec) : mpar :=
  let t := (hclock tr : R) + INR j * dt in
  {| mXprev := xp; mPeprev := pp; mPs := hp_force tr t; mTvp := fun k => nth k (htvp_force tr t : list vec) vzero;
     mY := fun k => if (k <? N)%nat then match huser_y tr with Some f => nth k (f t : list vec) vzero | None => ys (j + 1 + k - N)%nat end else vzero |}.
(** The arrival cost of a step refers to time 1 of the explanation found in the step before (the first step: to the initial
    estimates). *)
Definition arrival_x (c : mcfg) (x0 : vec) (e : nat -> explanation) (j : nat) : vec := match j with O => x0 | Datatypes.S i => state_at c (e i) 1 end.
Definition arrival_p (p0 : vec) (e : nat -> explanation) (j : nat) : vec := match j with O => p0 | Datatypes.S i => st_p (e i) end.
