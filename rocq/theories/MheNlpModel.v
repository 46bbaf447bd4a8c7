(** * Model of the optimisation problem built by the moving horizon estimator.
    do_mpc/estimator/_mhe.py [_prepare_nlp] 1027-1193, [_update_bounds] 992-1025, [set_default_objective] 599-712;
    do_mpc/optimizer.py [_setup_discretization] 789-985 and [_setup_nl_cons] 543-586 (NlpModel.v).

    As in NlpModel.v, symbolic expressions are represented by their value at a point and numbers are exact reals.
    Nonlinear constraint expressions are scalar.  The split of the model parameters into estimated and set ones
    is given by a selector [psel] (which parameter comes from where: MheModel.v, [p_cat]). *)
From Coq Require Import Reals.
From Verif Require Import Base TreeModel NlpModel.
Local Open Scope R_scope.

(** A nonlinear constraint of the estimator: expression of x, u, z, tvp, p_est and p_set (_mhe.py:1031-1033). *)
Record mnl := mkMnl { mn_g : vec -> vec -> vec -> vec -> vec -> vec -> R; mn_ub : option R; mn_soft : option (option R * R) }.

Record mcfg := {
  hN : nat; hsingle : bool; hchk : bool; hnlchk : bool;      (* n_horizon, nl_cons_single_slack, cons_check_colloc_points, nl_cons_check_colloc_points *)
  hmdl : dyn_model; hny : nat; hnpe : nat;                   (* model, number of measurements and of estimated parameters *)
  hmeas : vec -> vec -> vec -> vec -> vec -> vec -> vec;     (* measurement function of x, u, z, tvp, p, v *)
  hsx : vec; hsu : vec; hsz : vec; hspe : vec;               (* scaling *)
  hdisc : discr;
  psel : nat -> nat + nat;                                   (* parameter i: component j of p_est, or of p_set *)
  hnl : list mnl;
  hstage : vec -> vec -> vec -> vec -> R;                    (* stage cost of w, v, tvp, p *)
  harrival : vec -> vec -> vec -> vec -> vec -> R;           (* arrival cost of x, x_prev, p_est, p_est_prev, p_set *)
  hxlb : nat -> option R; hxub : nat -> option R; hulb : nat -> option R; huub : nat -> option R;
  hzlb : nat -> option R; hzub : nat -> option R; hplb : nat -> option R; hpub : nat -> option R }.

(** Scaled optimisation variables, _mhe.py:1050-1058. *)
Record mpoint := { mX : nat -> nat -> vec; mZ : nat -> nat -> vec; mU : nat -> vec; mW : nat -> vec; mV : nat -> vec; mE : nat -> vec; mPe : vec }.
(** Optimisation parameters, _mhe.py:1077-1083. *)
Record mpar := { mXprev : vec; mPeprev : vec; mPs : vec; mTvp : nat -> vec; mY : nat -> vec }.

Section Prepare.
  Variable c : mcfg.
  Variable par : mpar.
  Variable pt : mpoint.

  (** [_p_cat_fun], _mhe.py:176-190. *)
  Definition pcat (e s : vec) : vec := fun i => match psel c i with inl j => e j | inr j => s j end.
  Definition one : vec := fun _ => 1.
  Definition p_scaling : vec := pcat (hspe c) one.                            (* :1037; _p_set_scaling is 1, :200 *)
  Definition h_neps : nat := if hsingle c then 1%nat else hN c.               (* :1043-1046 *)
  Definition hnc : nat := ncoll (hdisc c).
  Definition hlast : nat := hnc.                                              (* index -1 of 1+n entries *)
  Definition hnz : nat := Nat.max hnc 1.

  (** opt_x_unscaled, :1066-1073: w, v and eps have scaling 1. *)
  Definition mXu k i : vec := vmul (mX pt k i) (hsx c).
  Definition mZu k i : vec := vmul (mZ pt k i) (hsz c).
  Definition mUu k : vec := vmul (mU pt k) (hsu c).
  Definition mPeu : vec := vmul (mPe pt) (hspe c).

  Definition p_scaled : vec := pcat (mPe pt) (vdiv (mPs par) one).            (* :1114 *)

  (** :1119-1123; the discretisation unscales the parameters (optimizer.py:805-812). *)
  Definition h_step (k : nat) : res (list R * vec) :=
    ifcn (hmdl c) (hsx c) (hsu c) (hsz c) (hdisc c)
         (mX pt k hlast) (map (fun i => mX pt (k+1) i) (seq 0 hnc)) (mU pt k) (map (fun i => mZ pt k i) (seq 0 hnz))
         (mTvp par k) (vmul p_scaled p_scaling) (mW pt k).
  (** :1126-1127. *)
  Definition h_meas (k : nat) : vec := hmeas c (mXu (k+1) hlast) (mUu k) (mZu k 0) (mTvp par k) p_scaled (mV pt k).

  Definition h_keps (k : nat) : nat := Nat.min k (h_neps - 1).                (* :1144 *)
  Definition close_nl (n : mnl) : nl_con := {| nl_g := fun x u z tvp pe => mn_g n x u z tvp pe (mPs par); nl_ub := mn_ub n; nl_soft := mn_soft n |}.
  Definition h_nlc : list nl_con := map close_nl (hnl c).
  (** :1148-1150, :1156-1158. *)
  Definition h_nl_at (k i_x i_z : nat) : list R :=
    nl_cons_fun h_nlc (mXu k i_x) (mUu k) (mZu k i_z) (mTvp par k) (mPe pt) (mE pt (h_keps k)).
  (** The blocks appended at step k, the last one once more (:1145-1165); with no collocation points the name
      [nl_cons_k] is unbound. *)
  Definition h_nl_blocks (k : nat) : res (list (list R)) :=
    if hnlchk c then
      match hnc with
      | O => Err ExcUnbound
      | Datatypes.S n => Ok (map (fun i => h_nl_at k i i) (seq 0 hnc) ++ [h_nl_at k n n])
      end
    else Ok [h_nl_at k hlast 0; h_nl_at k hlast 0].

  Definition h_cons (k : nat) : res (list (list R * list (option R) * list (option R))) :=
    let! (g, xf) := h_step k in
    let! nl := h_nl_blocks k in
    Ok ((g, map (fun _ => Some 0) g, map (fun _ => Some 0) g)                                           (* :1130-1132 *)
        :: (rows (n_x (hmdl c)) (fun a => xf a - mX pt (k+1) hlast a),
            repeat (Some 0) (n_x (hmdl c)), repeat (Some 0) (n_x (hmdl c)))                             (* :1135-1137 *)
        :: (rows (hny c) (fun a => h_meas k a - mY par k a), repeat (Some 0) (hny c), repeat (Some 0) (hny c))  (* :1140-1142 *)
        :: map (fun v => (v, nl_cons_lb h_nlc, nl_cons_ub h_nlc)) nl).

  (** :1103-1111, :1167-1172. *)
  Definition h_obj : R :=
    harrival c (mXu 0 hlast) (mXprev par) mPeu (mPeprev par) (mPs par)
    + rsum (map (fun k => hstage c (mW pt k) (mV pt k) (mTvp par k) p_scaled + epsterm h_nlc (mE pt (h_keps k))) (seq 0 (hN c))).

  Definition mhe_nlp : res nlp :=
    let! bl := mapM h_cons (seq 0 (hN c)) in
    let blocks := List.concat bl in
    Ok {| obj := h_obj; cons := flat_map (fun x => fst (fst x)) blocks;
          cons_lb := flat_map (fun x => snd (fst x)) blocks; cons_ub := flat_map snd blocks |}.
End Prepare.

(** ** Variable bounds: _mhe.py:992-1025 with the setters optimizer.py:233-241, 259-266. *)
Section Bounds.
  Variable c : mcfg.
  Definition mbx (b : nat -> option R) (k i a : nat) : option R :=
    if hchk c then scale_bound (hsx c a) (b a)
    else if ((1 <=? k) && (k <? hN c) && (i =? hlast c))%nat then scale_bound (hsx c a) (b a) else None.
  Definition mbz (b : nat -> option R) (i a : nat) : option R :=
    if hchk c then scale_bound (hsz c a) (b a) else if (i =? 0)%nat then scale_bound (hsz c a) (b a) else None.
  Definition mbu (b : nat -> option R) (a : nat) : option R := scale_bound (hsu c a) (b a).
  Definition mbp (b : nat -> option R) (a : nat) : option R := scale_bound (hspe c a) (b a).
End Bounds.

(** Slack bounds: [0, maximum_violation] (optimizer.py:553-586, _mhe.py:1019-1020). *)
Definition m_soft (l : list mnl) : list (option R * R) := flat_map (fun n => match mn_soft n with Some s => [s] | None => [] end) l.
Definition mhe_within (c : mcfg) (pt : mpoint) : Prop :=
  (forall k i a, k <= hN c -> i <= hlast c -> a < n_x (hmdl c) ->
     ge_lb (mX pt k i a) (mbx c (hxlb c) k i a) /\ le_ub (mX pt k i a) (mbx c (hxub c) k i a))%nat /\
  (forall k i a, k < hN c -> i < hnz c -> a < n_z (hmdl c) ->
     ge_lb (mZ pt k i a) (mbz c (hzlb c) i a) /\ le_ub (mZ pt k i a) (mbz c (hzub c) i a))%nat /\
  (forall k a, k < hN c -> a < n_u (hmdl c) ->
     ge_lb (mU pt k a) (mbu c (hulb c) a) /\ le_ub (mU pt k a) (mbu c (huub c) a))%nat /\
  (forall a, (a < hnpe c)%nat -> ge_lb (mPe pt a) (mbp c (hplb c) a) /\ le_ub (mPe pt a) (mbp c (hpub c) a)) /\
  (forall k a, (k < h_neps c)%nat -> (a < List.length (m_soft (hnl c)))%nat ->
     0 <= mE pt k a /\ le_ub (mE pt k a) (match nth_error (m_soft (hnl c)) a with Some s => fst s | None => None end)).

Definition mhe_feasible (c : mcfg) (par : mpar) (pt : mpoint) : Prop :=
  mhe_within c pt /\ exists p, mhe_nlp c par pt = Ok p /\ cons_sat (cons p) (cons_lb p) (cons_ub p).

(** The state make_step returns: the last of the window, unscaled (_mhe.py:951). *)
Definition returned (c : mcfg) (pt : mpoint) : vec := mXu c pt (hN c) (hlast c).

(** ** set_default_objective: _mhe.py:662-712.  A weighting matrix is given with its shape, or None. *)
Record weight := mkW { w_shape : nat * nat; w_at : nat -> nat -> R }.
Definition quadf (P : weight) (v : vec) : R :=       (* v.T @ P @ v *)
  rsum (map (fun i => rsum (map (fun j => v i * w_at P i j * v j) (seq 0 (snd (w_shape P))))) (seq 0 (fst (w_shape P)))).
Definition shape_is (P : weight) (n : nat) : bool := ((fst (w_shape P) =? n) && (snd (w_shape P) =? n))%nat.
(** an optional weight for a vector of n components: the term, or the exception *)
Definition opt_term (P : option weight) (n : nat) : res (vec -> R) :=
  match P with
  | None => let! _ := py_assert (n =? 0)%nat in Ok (fun _ => 0)
  | Some P => let! _ := py_assert (shape_is P n) in Ok (quadf P)
  end.
Definition vsub (a b : vec) : vec := fun i => a i - b i.
Definition default_objective (nx nv nw npe : nat) (Px : weight) (Pv Pp Pw : option weight)
  : res ((vec -> vec -> vec -> vec -> R) * (vec -> vec -> vec -> vec -> vec -> R)) :=
  let! _ := py_assert (shape_is Px nx) in
  let! tv := opt_term Pv nv in
  let! tw := opt_term Pw nw in
  let! tp := opt_term Pp npe in
  Ok (fun w v tvp p => 0 + tv v + tw w, fun x xp pe pep ps => quadf Px (vsub x xp) + tp (vsub pe pep)).
