(** * Model of do_mpc/differentiator/_nlpdifferentiator.py:719-870, class DoMPCDifferentiator, together with
    the controller or estimator it belongs to.

    The optimizer object (optimizer.py, controller/_mpc.py, estimator/_mhe.py; its life cycle in detail:
    OptModel.v) is reduced to what the differentiator reads: the problem, its bounds, the scaling, the last
    solution and the parameters.  The solver is an arbitrary function of what it is called with.
    Simplifications: what setup builds is given by the caller; a bound is changed by replacing all bounds
    (in the code: one at a time). *)
From Verif Require Import Base.
From mathcomp Require Import all_ssreflect all_algebra.
From Verif Require Import LinModel DiffModel.
Set Implicit Arguments.
Unset Strict Implicit.
Unset Printing Implicit Defensive.
Import GRing.Theory Num.Theory.
Local Open Scope ring_scope.

Section Dw.
  Variable F : realFieldType.
  Variable fn : nat -> F -> F.
  Variable dfn : nat -> nat.
  Variable lin : linsolver -> arr F -> arr F -> option (psens F).

  (** One call of the solver object (optimizer.py:754-771): problem, bounds, start point, parameters,
      multipliers of the previous run; and its results x, g, lam_g, lam_x. *)
  Record call := mkCall { c_nlp : nlp F; c_bnd : bnd F; c_x0 : seq F; c_p : seq F; c_lam : option (seq F * seq F) }.
  Record reply := mkReply { y_x : seq F; y_g : seq F; y_lg : seq F; y_lx : seq F }.
  Variable S_ : call -> reply.

  (** What setup makes: the symbolic problem (opt_x, opt_p, nlp_obj, nlp_cons) and opt_x_scaling. *)
  Record problem := mkProb { pr_nlp : nlp F; pr_scal : seq F }.

  (** The optimizer object: problem (after setup), _lb_opt_x, _ub_opt_x, nlp_cons_lb, nlp_cons_ub,
      opt_x_num, opt_p_num; opt_g_num, lam_g_num, lam_x_num exist after the first solve only. *)
  Record optobj := mkOb {
    ob_prob : option problem; ob_bnd : bnd F; ob_x : seq F; ob_p : seq F;
    ob_sol : option (seq F * seq F * seq F) }.
  (** The differentiator object: x_scaling_factors, problem and bounds of the moment of construction,
      status, sens_num. *)
  Record dobj := mkD { w_scal : seq F; w_d : differ F; w_st : status F; w_sens : oarr F }.

  Record world := mkW { wo : optobj; wd : option dobj }.
  Definition nobnd : bnd F := mkBnd [::] [::] [::] [::].
  Definition w_init : world := mkW (mkOb None nobnd [::] [::] None) None.

  Inductive act :=
  | WSetup (P : problem) (b : bnd F)     (* mpc.setup() *)
  | WBounds (b : bnd F)                  (* mpc.bounds[...] = ..., mpc.lb_opt_x[...] = ..., mpc.nlp_cons_lb = ... *)
  | WGuess (x : seq F)                   (* mpc.set_initial_guess(), mpc.opt_x_num = ... *)
  | WParam (p : seq F)                   (* mpc.opt_p_num = ... *)
  | WStep (p : seq F)                    (* mpc.make_step(...): parameters, then solve *)
  | WMake                                (* DoMPCDifferentiator(mpc) *)
  | WDiff (st : settings F).             (* nlp_diff.differentiate() with these settings *)

  Inductive obs := ODone | OCall (c : call) (y : reply) | OSens (dx dl : oarr F) | OErr (e : exn).

  (** optimizer.py:751-787 solve, called by make_step after opt_p_num is filled (controller/_mpc.py:985-1021,
      estimator/_mhe.py:936-949). *)
  Definition step_ (o : optobj) (p : seq F) : optobj * obs :=
    match ob_prob o with
    | None => (o, OErr ExcAssertion)
    | Some P =>
        let c := mkCall (pr_nlp P) (ob_bnd o) (ob_x o) p (if ob_sol o is Some (_, lg, lx) then Some (lg, lx) else None) in
        let y := S_ c in
        (mkOb (ob_prob o) (ob_bnd o) (y_x y) p (Some (y_g y, y_lg y, y_lx y)), OCall c y)
    end.

  (** setup: a new problem and new bounds, numerical copies with zeros; the results of an earlier solve are
      kept (controller/_mpc.py:1276-1279). *)
  Definition setup_ (o : optobj) (P : problem) (b : bnd F) : optobj :=
    mkOb (Some P) b (nseq (size (n_x (pr_nlp P))) 0) (nseq (size (n_p (pr_nlp P))) 0) (ob_sol o).

  (** _nlpdifferentiator.py:763-769 __init__, 791-811 _get_do_mpc_nlp, 862-870 _init_sens_sym_struct: scaling,
      problem and bounds are copied.  Before setup the optimizer has no opt_x_scaling. *)
  Definition make (o : optobj) : dobj + exn :=
    match ob_prob o with
    | None => inr ExcAttribute
    | Some P => inl (mkD (pr_scal P) (construct (pr_nlp P) (ob_bnd o)) (status0 F)
                       (OArr (size (n_x (pr_nlp P))) (size (n_p (pr_nlp P))) (fun _ _ => Some 0)))
    end.

  (** _nlpdifferentiator.py:813-860: solution and parameters are read from the optimizer at the time of the
      call (opt_g_num does not exist before the first solve); sens_num is written at the end. *)
  Definition diff_ (o : optobj) (w : dobj) (st : settings F) : dobj * obs :=
    match ob_sol o with
    | None => (w, OErr ExcAttribute)
    | Some (g, lg, lx) =>
        let sol := SolDict (mkSol (Some (ob_x o)) (Some lg) (Some lx) (Some g)) in
        match dompc_differentiate fn dfn lin (w_scal w) (w_d w) st (w_st w) sol (PCol (ob_p o)) with
        | (t, Ok (dx, dl)) => (mkD (w_scal w) (w_d w) t dx, OSens dx dl)
        | (t, Err e) => (mkD (w_scal w) (w_d w) t (w_sens w), OErr e)
        end
    end.

  Definition do_ (s : world) (a : act) : world * obs :=
    match a with
    | WSetup P b => (mkW (setup_ (wo s) P b) (wd s), ODone)
    | WBounds b => (mkW (mkOb (ob_prob (wo s)) b (ob_x (wo s)) (ob_p (wo s)) (ob_sol (wo s))) (wd s), ODone)
    | WGuess x => (mkW (mkOb (ob_prob (wo s)) (ob_bnd (wo s)) x (ob_p (wo s)) (ob_sol (wo s))) (wd s), ODone)
    | WParam p => (mkW (mkOb (ob_prob (wo s)) (ob_bnd (wo s)) (ob_x (wo s)) p (ob_sol (wo s))) (wd s), ODone)
    | WStep p => let (o, r) := step_ (wo s) p in (mkW o (wd s), r)
    | WMake => match make (wo s) with inl w => (mkW (wo s) (Some w), ODone) | inr e => (s, OErr e) end
    | WDiff st => match wd s with
                  | None => (s, OErr ExcName)
                  | Some w => let (w', r) := diff_ (wo s) w st in (mkW (wo s) (Some w'), r)
                  end
    end.
  Definition run_ (h : seq act) : world := foldl (fun s a => (do_ s a).1) w_init h.
  Definition last_ (h : seq act) (a : act) : obs := (do_ (run_ h) a).2.
End Dw.
