(** * Model of do_mpc/estimator/_mhe.py: class MHE (with do_mpc/optimizer.py): measurement window, split of the
    parameters, life cycle and make_step.  The optimisation problem is modelled in MheNlpModel.v; here the
    solver is an arbitrary function of the problem configuration, the bounds, the warm start and the parameters.

    Simplifications: python argument types are right except where [arg] offers a wrong case; warnings and sleeps
    have no effect; data rows are typed values (class Data is modelled in DataModel.v); tvp, p and user
    measurement functions are pure functions of time; the route through prepare_nlp/create_nlp is not taken
    separately; nonlinear constraints have no slack (repeated setup with soft constraints: C62). *)
From Verif Require Import Base MpcModel.
Import List.

(** ** The default measurement function *)
Section Window.
  Context {Y : Type}.
  (** [template['y_meas', i] = y] for a nonnegative index, and for the index -k. *)
  Definition set_at (l : list Y) (i : nat) (a : Y) : res (list Y) :=
    if Nat.ltb i (length l) then Ok (firstn i l ++ a :: skipn (1 + i) l) else Err ExcIndex.
  Definition set_neg (l : list Y) (k : nat) (a : Y) : res (list Y) :=
    if Nat.leb k (length l) then set_at l (length l - k) a else Err ExcIndex.
  (** [data._y[-k]]; index -0 is index 0. *)
  Definition get_neg (ys : list Y) (k : nat) : res Y :=
    match nth_error ys (if Nat.eqb k 0 then 0 else length ys - k) with Some y => if Nat.leb k (length ys) then Ok y else Err ExcIndex | None => Err ExcIndex end.
  (** [try: for ...: template[k] = v  except: None]: what was written before the exception stays. *)
  Fixpoint fill (ks : list nat) (v : res Y) (l : list Y) : list Y :=
    match ks with
    | [] => l
    | k :: r => match v with
                | Err _ => l
                | Ok y => match set_at l k y with Ok l' => fill r v l' | Err _ => l end
                end
    end.
  (** _mhe.py:843-852 y_fun: [nhor] is settings.n_horizon at the time of the call, [templ] the shared template,
      [ys] the recorded measurements.  If a write of the first loop fails, then the first one does (it has
      the most negative index), so an error leaves the template unchanged. *)
  Definition y_default (nhor : nat) (templ ys : list Y) : res (list Y) :=
    let n := Nat.min (length ys) nhor in
    let! t := foldM (fun t j => let! y := get_neg ys (n - j) in set_neg t (n - j) y) (seq 0 n) templ in
    Ok (fill (seq 0 (nhor - n)) (get_neg ys n) t).
End Window.

(** ** Estimated and set parameters *)
Section Psplit.
  Context {V : Type}.                        (* numbers *)
  Definition names := list (string * nat).   (* entries of a structure: name and number of elements *)
  Definition keys_of (k : names) : list string := map fst k.
  Definition memb (n : string) (l : list string) : bool := existsb (String.eqb n) l.
  (** [struct[name]] of a flat vector with the given entries: the elements of the first entry with that name. *)
  Fixpoint entry_of (k : names) (flat : list V) (n : string) : list V :=
    match k with
    | [] => []
    | (m, sz) :: r => if String.eqb n m then firstn sz flat else entry_of r (skipn sz flat) n
    end.
  Fixpoint total_size (k : names) : nat := match k with [] => 0 | (_, sz) :: r => sz + total_size r end.
  (** _mhe.py:165-168 and 169-171. *)
  Definition p_est_struct (k : names) (est : list string) : names := ("default"%string, 0) :: filter (fun e => memb (fst e) est) k.
  Definition p_set_struct (k : names) (est : list string) : names := filter (fun e => negb (memb (fst e) est)) k.
  (** _mhe.py:175-189 _p_cat_fun (substituting all of _p gives the vector substituted). *)
  Definition p_cat (k : names) (est : list string) (pe ps : list V) : list V :=
    flat_map (fun e => if memb (fst e) (keys_of (p_est_struct k est)) then entry_of (p_est_struct k est) pe (fst e)
                       else if memb (fst e) (keys_of (p_set_struct k est)) then entry_of (p_set_struct k est) ps (fst e)
                       else []) k.
End Psplit.

(** ** Life cycle *)
Record hset_ (Tm : Type) := mkHset { hs_tstep : option Tm; hs_nhor : option nat; hs_meas : bool; hs_full : bool; hs_lagr : bool; hs_stats : bool }.
Arguments mkHset {Tm}. Arguments hs_tstep {Tm}. Arguments hs_nhor {Tm}. Arguments hs_meas {Tm}. Arguments hs_full {Tm}. Arguments hs_lagr {Tm}. Arguments hs_stats {Tm}.
(** What is fixed when the problem is created. *)
Record hprob_ (Obj Nl Sc Tm : Type) := mkHprob { hp_obj : Obj; hp_nl : list Nl; hp_scal : Sc; hp_set : hset_ Tm }.
Arguments mkHprob {Obj Nl Sc Tm}. Arguments hp_obj {Obj Nl Sc Tm}. Arguments hp_nl {Obj Nl Sc Tm}. Arguments hp_scal {Obj Nl Sc Tm}. Arguments hp_set {Obj Nl Sc Tm}.
(** The parameters of the problem (_mhe.py:1077-1083): _x_prev, _p_est_prev, _p_set, _tvp, _y_meas. *)
Record hpar_ (X PE PS TVh Y : Type) := mkHpar { hq_xprev : X; hq_peprev : PE; hq_pset : PS; hq_tvp : TVh; hq_y : list Y }.
Arguments mkHpar {X PE PS TVh Y}. Arguments hq_xprev {X PE PS TVh Y}. Arguments hq_peprev {X PE PS TVh Y}. Arguments hq_pset {X PE PS TVh Y}.
Arguments hq_tvp {X PE PS TVh Y}. Arguments hq_y {X PE PS TVh Y}.

(** What the estimator is parametric in (data only). *)
Record HEnv := mkHEnv {
  hX : Type; hU : Type; hZ : Type; hPE : Type; hPS : Type; hP : Type; hTVh : Type; hTV : Type; hY : Type; hAUX : Type; hTm : Type;
  hObj : Type; hNl : Type; hSc : Type; hB : Type;      (* objective, constraint, scaling factors, bounds *)
  hOX : Type; hLG : Type; hLX : Type; hST : Type;      (* solution vector, multipliers, statistics *)
  h_ntvp : nat; h_npset : nat;
  h_tadd : hTm -> hTm -> hTm; h_t_zero : hTm;
  h_x_zero : hX; h_u_zero : hU; h_z_zero : hZ; h_pe_zero : hPE; h_y_zero : hY;
  h_sc_one : hSc; h_b_free : hB; h_b_bad : hB -> bool; (* some lower bound above its upper bound *)
  h_tv_last : hTVh -> hTV;                             (* tvp0['_tvp', -1] *)
  h_pcat : hPE -> hPS -> hP;                           (* _p_cat_fun *)
  h_ox_zero : hprob_ hObj hNl hSc hTm -> hOX;
  h_guess : hOX -> hX -> hU -> hZ -> hPE -> hSc -> hOX;
  h_S : hprob_ hObj hNl hSc hTm -> hB -> hOX -> option (hLG * hLX) -> hpar_ hX hPE hPS hTVh hY -> hOX * hLG * hLX * hST;
  h_aux : hprob_ hObj hNl hSc hTm -> hOX -> hpar_ hX hPE hPS hTVh hY -> hAUX;
  (** unscaled parts of a solution: opt_x_num[...] * scaling *)
  h_x1 : hSc -> hOX -> hX;                             (* '_x', 1, -1 *)
  h_xN : hSc -> hOX -> hX;                             (* '_x', -1, -1 *)
  h_uN : hSc -> hOX -> hU; h_zN : hSc -> hOX -> hZ; h_pe : hSc -> hOX -> hPE;
  h_tvp_dummy : hTm -> hTVh; h_p_dummy : hTm -> hPS }.

Section Mhe.
  Context {E : HEnv}.
  Definition hset := hset_ (hTm E).
  Definition hprob := hprob_ (hObj E) (hNl E) (hSc E) (hTm E).
  Definition hpar := hpar_ (hX E) (hPE E) (hPS E) (hTVh E) (hY E).

  (** estimator/_estimatorsettings.py:26-120: defaults. *)
  Definition hset_init : hset := mkHset None None false false true true.

  (** Where the measurements of a step come from. *)
  Inductive ysource := YNone | YDefault (templ : list (hY E)) | YUser (f : hTm E -> list (hY E)).

  Record hrows := mkHrows {
    d_y : list (hY E); d_x : list (hX E); d_u : list (hU E); d_z : list (hZ E); d_p : list (hP E); d_tvp : list (hTV E); d_time : list (hTm E);
    d_aux : list (hAUX E); d_optp : list hpar; d_full : list (hOX E * hAUX E); d_lam : list (hLG E); d_stats : list (hST E) }.
  Definition no_hrows : hrows := mkHrows [] [] [] [] [] [] [] [] [] [] [] [].

  Record hcfg := mkHcfg { hc_set : hset; hc_obj : option (hObj E); hc_nl : list (hNl E); hc_scal : hSc E; hc_bnd : hB E;
                          hc_tvpf : option (hTm E -> hTVh E); hc_pf : option (hTm E -> hPS E) }.
  Record hiter := mkHiter { hi_x : hX E; hi_u : hU E; hi_z : hZ E; hi_pe : hPE E; hi_t : hTm E }.
  Record mhe := mkMhe {
    e_setup : bool; e_run1 : bool;                 (* flags setup (and prepare_nlp), initial_run *)
    e_cfg : hcfg; e_yf : ysource; e_it : hiter;
    e_prob : option hprob; e_ob : option (hB E);   (* the problem of the solver object; bounds in force *)
    e_ox : option (hOX E); e_lam : option (hLG E * hLX E);
    e_fields : bool * bool * bool;                 (* data fields: full solution, multipliers, statistics *)
    e_data : hrows }.

  (** _mhe.py:151-229 __init__, optimizer.py:42-80, model/_iteratedvariables.py:37-44. *)
  Definition mhe_init : mhe :=
    mkMhe false false (mkHcfg hset_init None [] (h_sc_one E) (h_b_free E) None None) YNone
      (mkHiter (h_x_zero E) (h_u_zero E) (h_z_zero E) (h_pe_zero E) (h_t_zero E)) None None None None (false, false, false) no_hrows.

  (** Assignments. *)
  Definition e_with_cfg (c : hcfg) (m : mhe) : mhe :=
    mkMhe (e_setup m) (e_run1 m) c (e_yf m) (e_it m) (e_prob m) (e_ob m) (e_ox m) (e_lam m) (e_fields m) (e_data m).
  Definition e_with_yf (y : ysource) (m : mhe) : mhe :=
    mkMhe (e_setup m) (e_run1 m) (e_cfg m) y (e_it m) (e_prob m) (e_ob m) (e_ox m) (e_lam m) (e_fields m) (e_data m).
  Definition e_with_it (i : hiter) (m : mhe) : mhe :=
    mkMhe (e_setup m) (e_run1 m) (e_cfg m) (e_yf m) i (e_prob m) (e_ob m) (e_ox m) (e_lam m) (e_fields m) (e_data m).
  Definition e_with_ob (b : option (hB E)) (m : mhe) : mhe :=
    mkMhe (e_setup m) (e_run1 m) (e_cfg m) (e_yf m) (e_it m) (e_prob m) b (e_ox m) (e_lam m) (e_fields m) (e_data m).
  Definition e_with_ox (o : option (hOX E)) (m : mhe) : mhe :=
    mkMhe (e_setup m) (e_run1 m) (e_cfg m) (e_yf m) (e_it m) (e_prob m) (e_ob m) o (e_lam m) (e_fields m) (e_data m).
  Definition e_with_data (d : hrows) (m : mhe) : mhe :=
    mkMhe (e_setup m) (e_run1 m) (e_cfg m) (e_yf m) (e_it m) (e_prob m) (e_ob m) (e_ox m) (e_lam m) (e_fields m) d.
  Definition e_solved (o : hOX E) (l : hLG E * hLX E) (m : mhe) : mhe :=
    mkMhe (e_setup m) true (e_cfg m) (e_yf m) (e_it m) (e_prob m) (e_ob m) (Some o) (Some l) (e_fields m) (e_data m).

  (** _mhe.py:477-483 set_param; assignment to an attribute of [mhe.settings] (no check). *)
  Definition mhe_setting (m : mhe) (f : hset -> hset) : mhe :=
    let c := e_cfg m in e_with_cfg (mkHcfg (f (hc_set c)) (hc_obj c) (hc_nl c) (hc_scal c) (hc_bnd c) (hc_tvpf c) (hc_pf c)) m.
  Definition mhe_param (m : mhe) (f : hset -> hset) : res mhe := if e_setup m then Err ExcAssertion else Ok (mhe_setting m f).
  (** _mhe.py:561-597 set_objective (both terms scalar and of the right variables, or [Bad]). *)
  Definition mhe_objective (m : mhe) (o : arg (hObj E)) : res mhe :=
    match o with
    | Bad => Err ExcAssertion
    | Good o => if e_setup m then Err ExcAssertion
                else let c := e_cfg m in Ok (e_with_cfg (mkHcfg (hc_set c) (Some o) (hc_nl c) (hc_scal c) (hc_bnd c) (hc_tvpf c) (hc_pf c)) m)
    end.
  (** optimizer.py:524-541 set_nl_cons. *)
  Definition mhe_nl_cons (m : mhe) (n : hNl E) : res mhe :=
    if e_setup m then Err ExcAssertion
    else let c := e_cfg m in Ok (e_with_cfg (mkHcfg (hc_set c) (hc_obj c) (hc_nl c ++ [n]) (hc_scal c) (hc_bnd c) (hc_tvpf c) (hc_pf c)) m).
  (** optimizer.py:419-439 scaling setter. *)
  Definition mhe_scaling (m : mhe) (g : hSc E -> hSc E) : res mhe :=
    if e_setup m then Err ExcAssertion
    else let c := e_cfg m in Ok (e_with_cfg (mkHcfg (hc_set c) (hc_obj c) (hc_nl c) (g (hc_scal c)) (hc_bnd c) (hc_tvpf c) (hc_pf c)) m).
  (** optimizer.py:322-353 bounds setter: after setup the bounds of the problem are renewed. *)
  Definition mhe_bounds (m : mhe) (g : hB E -> hB E) : mhe :=
    let c := e_cfg m in
    let m' := e_with_cfg (mkHcfg (hc_set c) (hc_obj c) (hc_nl c) (hc_scal c) (g (hc_bnd c)) (hc_tvpf c) (hc_pf c)) m in
    if e_setup m then e_with_ob (Some (g (hc_bnd c))) m' else m'.
  (** optimizer.py:672-676 set_tvp_fun; _mhe.py:730-740 set_p_fun. *)
  Definition mhe_fns (t : option (hTm E -> hTVh E)) (p : option (hTm E -> hPS E)) (m : mhe) : mhe :=
    let c := e_cfg m in e_with_cfg (mkHcfg (hc_set c) (hc_obj c) (hc_nl c) (hc_scal c) (hc_bnd c) t p) m.
  Definition mhe_tvp (m : mhe) (f : arg (hTm E -> hTVh E)) : res mhe :=
    match f with Good g => Ok (mhe_fns (Some g) (hc_pf (e_cfg m)) m) | Bad => Err ExcAssertion end.
  Definition mhe_p (m : mhe) (f : arg (hTm E -> hPS E)) : res mhe :=
    match f with Good g => Ok (mhe_fns (hc_tvpf (e_cfg m)) (Some g) m) | Bad => Err ExcAssertion end.
  (** _mhe.py:788-797 set_y_fun: only the value at time 0 is compared with the template of settings.n_horizon
      elements (with n_horizon None the template cannot be built). *)
  Definition mhe_y (m : mhe) (f : hTm E -> list (hY E)) : res mhe :=
    match hs_nhor (hc_set (e_cfg m)) with
    | None => Err ExcType
    | Some n => if Nat.eqb (length (f (h_t_zero E))) n then Ok (e_with_yf (YUser f) m) else Err ExcAssertion
    end.

  (** _mhe.py:800-859 _check_validity, 1027-1193 _prepare_nlp, 1195-1233 _create_nlp, 882-891 setup.
      The template of the default measurement function is created once; a later setup keeps it. *)
  Definition mhe_setup (m : mhe) : mhe * res unit :=
    let c := e_cfg m in
    match hs_nhor (hc_set c), hs_tstep (hc_set c) with
    | None, _ => (m, Err ExcValue)
    | _, None => (m, Err ExcValue)
    | Some n, Some _ =>
        match hc_obj c with
        | None => (m, Err ExcGeneric)
        | Some o =>
            if (match hc_tvpf c with None => true | _ => false end) && Nat.ltb 0 (h_ntvp E) then (m, Err ExcGeneric)
            else if (match hc_pf c with None => true | _ => false end) && Nat.ltb 0 (h_npset E) then (m, Err ExcGeneric)
            else if h_b_bad E (hc_bnd c) then (m, Err ExcGeneric)
            else
              let m1 := mhe_fns (Some (match hc_tvpf c with Some f => f | None => h_tvp_dummy E end))
                                (Some (match hc_pf c with Some f => f | None => h_p_dummy E end)) m in
              let yf := match e_yf m1 with
                        | YNone => if hs_meas (hc_set c)
                                   then Ok (YDefault (match y_default n (repeat (h_y_zero E) n) (d_y (e_data m1)) with Ok t => t | Err _ => repeat (h_y_zero E) n end))
                                   else Err ExcGeneric
                        | y => Ok y
                        end in
              match yf with
              | Err e => (m1, Err e)
              | Ok y =>
                  let pr := mkHprob o (hc_nl c) (hc_scal c) (hc_set c) in
                  let '(ff, fl, fs) := e_fields m1 in
                  (mkMhe true (e_run1 m1) (e_cfg m1) y (e_it m1) (Some pr) (Some (hc_bnd c)) (Some (h_ox_zero E pr)) (e_lam m1)
                     (ff || hs_full (hc_set c), fl || hs_lagr (hc_set c), fs || hs_stats (hc_set c)) no_hrows, Ok tt)
              end
        end
    end.

  (** _mhe.py:861-880 set_initial_guess. *)
  Definition mhe_guess (m : mhe) : res mhe :=
    if e_setup m then
      match e_ox m with
      | Some ox => let i := e_it m in Ok (e_with_ox (Some (h_guess E ox (hi_x i) (hi_u i) (hi_z i) (hi_pe i) (hc_scal (e_cfg m)))) m)
      | None => Err ExcType
      end
    else Err ExcAssertion.

  (** The measurements passed to the problem; the default source updates its template. *)
  Definition measure (m : mhe) : res (ysource * list (hY E)) :=
    match e_yf m with
    | YNone => Err ExcAttribute
    | YUser f => Ok (YUser f, f (hi_t (e_it m)))
    | YDefault templ =>
        match hs_nhor (hc_set (e_cfg m)) with
        | None => Err ExcType
        | Some n => let! t := y_default n templ (d_y (e_data m)) in Ok (YDefault t, t)
        end
    end.

  Definition h_optional {V} (setting field : bool) (add : hrows -> V -> hrows) (v : V) (d : hrows) : hrows * res unit :=
    if setting then (if field then (add d v, Ok tt) else (d, Err ExcAssertion)) else (d, Ok tt).
  Definition add_dy (d : hrows) (y : hY E) : hrows :=
    mkHrows (d_y d ++ [y]) (d_x d) (d_u d) (d_z d) (d_p d) (d_tvp d) (d_time d) (d_aux d) (d_optp d) (d_full d) (d_lam d) (d_stats d).
  Definition add_dfull (d : hrows) (v : hOX E * hAUX E) : hrows :=
    mkHrows (d_y d) (d_x d) (d_u d) (d_z d) (d_p d) (d_tvp d) (d_time d) (d_aux d) (d_optp d) (d_full d ++ [v]) (d_lam d) (d_stats d).
  Definition add_dlam (d : hrows) (v : hLG E) : hrows :=
    mkHrows (d_y d) (d_x d) (d_u d) (d_z d) (d_p d) (d_tvp d) (d_time d) (d_aux d) (d_optp d) (d_full d) (d_lam d ++ [v]) (d_stats d).
  Definition add_dstats (d : hrows) (v : hST E) : hrows :=
    mkHrows (d_y d) (d_x d) (d_u d) (d_z d) (d_p d) (d_tvp d) (d_time d) (d_aux d) (d_optp d) (d_full d) (d_lam d) (d_stats d ++ [v]).
  (** _mhe.py:960-969. *)
  Definition add_dmain (d : hrows) (x : hX E) (u : hU E) (z : hZ E) (p : hP E) (tv : hTV E) (t : hTm E) (a : hAUX E) (q : hpar) : hrows :=
    mkHrows (d_y d) (d_x d ++ [x]) (d_u d ++ [u]) (d_z d ++ [z]) (d_p d ++ [p]) (d_tvp d ++ [tv]) (d_time d ++ [t]) (d_aux d ++ [a]) (d_optp d ++ [q])
            (d_full d) (d_lam d) (d_stats d).

  (** _mhe.py:893-990 make_step with optimizer.py:731-787 solve.  A list of measurements whose length is not the
      problem's horizon cannot be assigned to opt_p_num['_y_meas'] (line 946). *)
  Definition mhe_step (m : mhe) (a : arg (hY E)) : mhe * res (hX E) :=
    if e_setup m then
      match a with
      | Bad => (m, Err ExcGeneric)
      | Good y0 =>
          let m1 := e_with_data (add_dy (e_data m) y0) m in
          let i := e_it m1 in let c := e_cfg m1 in
          match hc_tvpf c, hc_pf c, e_prob m1, e_ob m1, e_ox m1 with
          | Some tf, Some pf, Some pr, Some ob, Some ox =>
              let tvp0 := tf (hi_t i) in
              let p_set0 := pf (hi_t i) in
              match measure m1 with
              | Err e => (m1, Err e)
              | Ok (yf, ys) =>
                  let m2 := e_with_yf yf m1 in
                  if (match hs_nhor (hp_set pr) with Some n => Nat.eqb (length ys) n | None => false end) then
                    let q := mkHpar (h_x1 E (hc_scal c) ox) (hi_pe i) p_set0 tvp0 ys in
                    match h_S E pr ob ox (if e_run1 m2 then e_lam m2 else None) q with
                    | (ox', lg, lx, st) =>
                        let m3 := e_solved ox' (lg, lx) m2 in
                        let x_next := h_xN E (hc_scal c) ox' in
                        let pe_next := h_pe E (hc_scal c) ox' in
                        let u0 := h_uN E (hc_scal c) ox' in
                        let z0 := h_zN E (hc_scal c) ox' in
                        let aux0 := h_aux E pr ox' q in
                        let '(ff, fl, fs) := e_fields m3 in
                        let d1 := add_dmain (e_data m3) (hi_x i) u0 z0 (h_pcat E (hi_pe i) p_set0) (h_tv_last E tvp0) (hi_t i) aux0 q in
                        match h_optional (hs_full (hc_set c)) ff add_dfull (ox', aux0) d1 with
                        | (d2, Err e) => (e_with_data d2 m3, Err e)
                        | (d2, Ok _) =>
                            match h_optional (hs_lagr (hc_set c)) fl add_dlam lg d2 with
                            | (d3, Err e) => (e_with_data d3 m3, Err e)
                            | (d3, Ok _) =>
                                match h_optional (hs_stats (hc_set c)) fs add_dstats st d3 with
                                | (d4, Err e) => (e_with_data d4 m3, Err e)
                                | (d4, Ok _) =>
                                    match hs_tstep (hc_set c) with
                                    | None => (e_with_data d4 m3, Err ExcType)
                                    | Some dt => (e_with_it (mkHiter x_next u0 z0 pe_next (h_tadd E (hi_t i) dt)) (e_with_data d4 m3), Ok x_next)
                                    end
                                end
                            end
                        end
                    end
                  else (m2, Err ExcGeneric)
              end
          | _, _, _, _, _ => (m1, Err ExcAttribute)
          end
      end
    else (m, Err ExcAssertion).

  (** optimizer.py:441-446 reset_history. *)
  Definition mhe_reset (m : mhe) : mhe :=
    let i := e_it m in e_with_it (mkHiter (hi_x i) (hi_u i) (hi_z i) (hi_pe i) (h_t_zero E)) (e_with_data no_hrows m).

  (** Calls of the public API by a user who catches exceptions. *)
  Inductive hcall :=
  | HParam (f : hset -> hset)              (* set_param *)
  | HSetting (f : hset -> hset)            (* mhe.settings.* = ... *)
  | HObjective (o : arg (hObj E))
  | HNlCons (n : hNl E)
  | HScaling (g : hSc E -> hSc E)
  | HBounds (g : hB E -> hB E)
  | HTvp (f : arg (hTm E -> hTVh E))
  | HPfun (f : arg (hTm E -> hPS E))
  | HYfun (f : hTm E -> list (hY E))
  | HSetup
  | HGuess
  | HStep (y : arg (hY E))
  | HReset
  | HX0 (x : hX E) | HU0 (u : hU E) | HZ0 (z : hZ E) | HPe0 (p : hPE E) | HT0 (t : hTm E).   (* attribute assignments *)

  Definition hret (m : mhe) (r : res mhe) : mhe * res (option (hX E)) := match r with Ok m' => (m', Ok None) | Err e => (m, Err e) end.
  Definition do_hcall (m : mhe) (c : hcall) : mhe * res (option (hX E)) :=
    let i := e_it m in
    match c with
    | HParam f => hret m (mhe_param m f)
    | HSetting f => (mhe_setting m f, Ok None)
    | HObjective o => hret m (mhe_objective m o)
    | HNlCons n => hret m (mhe_nl_cons m n)
    | HScaling g => hret m (mhe_scaling m g)
    | HBounds g => (mhe_bounds m g, Ok None)
    | HTvp f => hret m (mhe_tvp m f)
    | HPfun f => hret m (mhe_p m f)
    | HYfun f => hret m (mhe_y m f)
    | HSetup => match mhe_setup m with (m', Ok _) => (m', Ok None) | (m', Err e) => (m', Err e) end
    | HGuess => hret m (mhe_guess m)
    | HStep y => match mhe_step m y with (m', Ok x) => (m', Ok (Some x)) | (m', Err e) => (m', Err e) end
    | HReset => (mhe_reset m, Ok None)
    | HX0 x => (e_with_it (mkHiter x (hi_u i) (hi_z i) (hi_pe i) (hi_t i)) m, Ok None)
    | HU0 u => (e_with_it (mkHiter (hi_x i) u (hi_z i) (hi_pe i) (hi_t i)) m, Ok None)
    | HZ0 z => (e_with_it (mkHiter (hi_x i) (hi_u i) z (hi_pe i) (hi_t i)) m, Ok None)
    | HPe0 p => (e_with_it (mkHiter (hi_x i) (hi_u i) (hi_z i) p (hi_t i)) m, Ok None)
    | HT0 t => (e_with_it (mkHiter (hi_x i) (hi_u i) (hi_z i) (hi_pe i) t) m, Ok None)
    end.
  Fixpoint hexec (h : list hcall) (m : mhe) : mhe * list (hcall * res (option (hX E))) :=
    match h with
    | [] => (m, [])
    | c :: r => let (m1, o) := do_hcall m c in let (m2, tr) := hexec r m1 in (m2, (c, o) :: tr)
    end.
End Mhe.
