(** * What a history of calls says about the next estimate of a moving horizon estimator.

    Everything here is read off the observed history (calls and what they returned); nothing looks at the
    estimator object. *)
From Verif Require Import Base MpcModel MheModel MheSpec.
Import List.

Section HistSpec.
  Context {E : HEnv}.
  Notation trace := (list (@hcall E * res (option (hX E)))).

  (** The objective accepted last, the constraints accepted, the scaling factors and the bounds. *)
  Definition hobjective_of (tr : trace) : option (hObj E) :=
    fold_left (fun o e => match e with (HObjective (Good x), Ok _) => Some x | _ => o end) tr None.
  Definition hnlcons_of (tr : trace) : list (hNl E) :=
    fold_left (fun l e => match e with (HNlCons n, Ok _) => l ++ [n] | _ => l end) tr [].
  Definition hscaling_of (tr : trace) : hSc E :=
    fold_left (fun s e => match e with (HScaling g, Ok _) => g s | _ => s end) tr (h_sc_one E).
  Definition hbounds_of (tr : trace) : hB E :=
    fold_left (fun b e => match e with (HBounds g, Ok _) => g b | _ => b end) tr (h_b_free E).

  (** [pr] is the problem defined by the accepted calls. *)
  Definition hproblem_for (tr : trace) (pr : @hprob E) : Prop :=
    hobjective_of tr = Some (hp_obj pr) /\ hp_nl pr = hnlcons_of tr /\ hp_scal pr = hscaling_of tr /\ hp_set pr = hsettings_of tr.

  (** The measurements a step with the new measurement [y] is solved for: those of the user's function at the current time, or
      the moving window over the measurements since the last reset or setup. *)
  Definition hmeasured (tr : trace) (y : hY E) (ys : list (hY E)) : Prop :=
    match huser_y tr with
    | Some f => ys = f (hclock tr)
    | None => exists N, hs_nhor (hsettings_of tr) = Some N /\ is_window N (map n_y (hlog tr) ++ [y]) ys
    end.

  (** The parameters of the problem of a step. *)
  Definition hparams_for (tr : trace) (pe : hPE E) (ox : hOX E) (ys : list (hY E)) : @hpar E :=
    mkHpar (h_x1 E (hscaling_of tr) ox) pe (hp_force tr (hclock tr)) (htvp_force tr (hclock tr)) ys.

  (** Inputs, algebraic variables and estimated parameters known last, warm start and multipliers after a history. *)
  Inductive hwarm : trace -> hU E * hZ E * hPE E -> option (hOX E) -> option (hLG E * hLX E) -> Prop :=
  | hwarm_start : hwarm [] (h_u_zero E, h_z_zero E, h_pe_zero E) None None
  | hwarm_setup tr w ox l pr v
      (Hw : hwarm tr w ox l) (Hp : hproblem_for tr pr) :
      hwarm (tr ++ [(HSetup, Ok v)]) w (Some (h_ox_zero E pr)) l
  | hwarm_guess tr u z pe ox l v
      (Hw : hwarm tr (u, z, pe) (Some ox) l) :
      hwarm (tr ++ [(HGuess, Ok v)]) (u, z, pe) (Some (h_guess E ox (estimate tr) u z pe (hscaling_of tr))) l
  | hwarm_step tr u z pe ox l pr y ys ox' lg lx st
      (Hw : hwarm tr (u, z, pe) (Some ox) l) (Hp : hproblem_for tr pr) (Hy : hmeasured tr y ys)
      (HS : h_S E pr (hbounds_of tr) ox l (hparams_for tr pe ox ys) = (ox', lg, lx, st)) :
      hwarm (tr ++ [(HStep (Good y), Ok (Some (h_xN E (hscaling_of tr) ox')))])
            (h_uN E (hscaling_of tr) ox', h_zN E (hscaling_of tr) ox', h_pe E (hscaling_of tr) ox') (Some ox') (Some (lg, lx))
  | hwarm_u tr u z pe ox l u' v (Hw : hwarm tr (u, z, pe) ox l) : hwarm (tr ++ [(HU0 u', Ok v)]) (u', z, pe) ox l
  | hwarm_z tr u z pe ox l z' v (Hw : hwarm tr (u, z, pe) ox l) : hwarm (tr ++ [(HZ0 z', Ok v)]) (u, z', pe) ox l
  | hwarm_pe tr u z pe ox l p' v (Hw : hwarm tr (u, z, pe) ox l) : hwarm (tr ++ [(HPe0 p', Ok v)]) (u, z, p') ox l
  | hwarm_other tr w ox l c o
      (Hw : hwarm tr w ox l) (Hc : match c, o with (HSetup | HGuess | HStep _ | HU0 _ | HZ0 _ | HPe0 _), Ok _ => False | _, _ => True end) :
      hwarm (tr ++ [(c, o)]) w ox l.
End HistSpec.
