(** * Model of do_mpc/differentiator/_nlpdifferentiator.py and do_mpc/differentiator/helper.py.

    Numbers are elements of an arbitrary real field (exact arithmetic); NaN is [None] where the code
    can produce it.  A CasADi expression is a tree [ex] over symbols, numbers, sums, products and
    unary functions: [fn k] is the function with number k and [dfn k] the number of its derivative.
    A vector of the problem is the list of its numbers, an infinite bound is [None].
    The linear solvers (SciPy, CasADi, numpy least squares) are an arbitrary function [lin]. *)
From Verif Require Import Base.
From mathcomp Require Import all_ssreflect all_algebra.
From Verif Require Import LinModel.
Set Implicit Arguments.
Unset Strict Implicit.
Unset Printing Implicit Defensive.
Import GRing.Theory Num.Theory.
Local Open Scope ring_scope.

(** Symbols: those of the user ([inl]), and the fresh ones created for the multipliers of the
    constraints and of the bounds (_nlpdifferentiator.py:264-266). *)
Definition sym := (nat + (nat + nat))%type.
Definition usym (k : nat) : sym := inl k.
Definition gsym (k : nat) : sym := inr (inl k).
Definition xsym (k : nat) : sym := inr (inr k).

Section Diff.
  Variable F : realFieldType.
  Variable fn : nat -> F -> F.     (* the unary functions of CasADi *)
  Variable dfn : nat -> nat.       (* ... and their derivatives *)

  Inductive ex := Cst (c : F) | Sym (s : sym) | Add (a b : ex) | Mul (a b : ex) | Fn (k : nat) (a : ex).

  Fixpoint eval (rho : sym -> F) (e : ex) : F :=
    match e with
    | Cst c => c | Sym s => rho s
    | Add a b => eval rho a + eval rho b
    | Mul a b => eval rho a * eval rho b
    | Fn k a => fn k (eval rho a)
    end.

  (** casadi.depends_on(e, s): the symbol occurs in the expression. *)
  Fixpoint occ (s : sym) (e : ex) : bool :=
    match e with
    | Cst _ => false | Sym t => t == s
    | Add a b => occ s a || occ s b
    | Mul a b => occ s a || occ s b
    | Fn _ a => occ s a
    end.

  (** One entry of casadi.gradient / casadi.jacobian. *)
  Fixpoint D (s : sym) (e : ex) : ex :=
    match e with
    | Cst _ => Cst 0 | Sym t => Cst (if t == s then 1 else 0)
    | Add a b => Add (D s a) (D s b)
    | Mul a b => Add (Mul (D s a) b) (Mul a (D s b))
    | Fn k a => Mul (Fn (dfn k) a) (D s a)
    end.

  (** The dictionaries nlp and nlp_bounds (keys x, p, f, g; lbx, ubx, lbg, ubg).  x and p are lists
      of symbols. *)
  Record nlp := mkNlp { n_x : seq sym; n_p : seq sym; n_f : ex; n_g : seq ex }.
  Record bnd := mkBnd { b_lbx : seq (option F); b_ubx : seq (option F);
                        b_lbg : seq (option F); b_ubg : seq (option F) }.

  (** helper.py:14-62 NLPDifferentiatorSettings (with its default values). *)
  Record settings := mkSet {
    s_solver : string; s_licq : bool; s_sc : bool; s_resid : bool; s_rank : bool;
    s_fallback : bool; s_tol : F; s_lamzero : bool }.

  (** helper.py:64-113 NLPDifferentiatorStatus (sym_KKT is true after construction, reduced_nlp is
      [d_red] below).  The residual is the square of the Frobenius norm, [Some None] if it is NaN. *)
  Record status := mkStat {
    t_licq : option bool; t_sc : option bool; t_resid : option (option F);
    t_solved : bool; t_rank : option bool }.
  Definition status0 : status := mkStat None None None false None.

  (** The attributes of an NLPDifferentiator: nlp and nlp_bounds (reduced if d_red is present),
      and det_sym_idx_dict with the unreduced sizes. *)
  Record red := mkRed { r_detx : seq nat; r_detp : seq nat; r_nx : nat; r_np : nat }.
  Record differ := mkDiff { d_nlp : nlp; d_bnd : bnd; d_red : option red }.

  Definition gather (T : Type) (d : T) (l : seq T) (idx : seq nat) : seq T := [seq nth d l i | i <- idx].

  (** _nlpdifferentiator.py:182-202 _detect_undetermined_sym_var: does the i-th symbol occur in f or
      in some component of g. *)
  Definition used (P : nlp) (s : sym) : bool := occ s (n_f P) || has (occ s) (n_g P).
  Definition det_idx (P : nlp) (v : seq sym) : seq nat :=
    [seq i <- iota 0 (size v) | used P (nth (usym 0) v i)].
  Definition undet_idx (P : nlp) (v : seq sym) : seq nat :=
    [seq i <- iota 0 (size v) | ~~ used P (nth (usym 0) v i)].

  (** _nlpdifferentiator.py:204-240 _remove_unused_sym_vars (called by the constructor through
      _prepare_differentiator, lines 166-180). *)
  Definition construct (P : nlp) (b : bnd) : differ :=
    let dx := det_idx P (n_x P) in
    let dp := det_idx P (n_p P) in
    if (0 < size (undet_idx P (n_x P)) + size (undet_idx P (n_p P)))%N then
      mkDiff (mkNlp (gather (usym 0) (n_x P) dx) (gather (usym 0) (n_p P) dp) (n_f P) (n_g P))
             (mkBnd (gather None (b_lbx b) dx) (gather None (b_ubx b) dx) (b_lbg b) (b_ubg b))
             (Some (mkRed dx dp (size (n_x P)) (size (n_p P))))
    else mkDiff P b None.

  (** _nlpdifferentiator.py:264-266 the multiplier symbols, 276 the stacked vector z. *)
  Definition lam_g (P : nlp) : seq sym := [seq gsym i | i <- iota 0 (size (n_g P))].
  Definition lam_x (P : nlp) : seq sym := [seq xsym i | i <- iota 0 (size (n_x P))].
  Definition zsyms (P : nlp) : seq sym := n_x P ++ lam_g P ++ lam_x P.

  (** _nlpdifferentiator.py:287: L = f + lam_g' g + lam_x' x. *)
  Definition dotex (ls : seq sym) (es : seq ex) : ex :=
    foldr (fun q acc => Add (Mul (Sym q.1) q.2) acc) (Cst 0) (zip ls es).
  Definition lagr (P : nlp) : ex :=
    Add (Add (n_f P) (dotex (lam_g P) (n_g P))) (dotex (lam_x P) [seq Sym s | s <- n_x P]).

  (** Calling a casadi.Function: the symbols of its inputs get the given values. *)
  Definition envof (ss : seq sym) (vs : seq F) : sym -> F := fun s => nth 0 vs (index s ss).

  (** _nlpdifferentiator.py:295-300, 443-445: the matrices A (Hessian of L) and B, evaluated. *)
  Definition A_of (P : nlp) (z p : seq F) : arr F :=
    let rho := envof (zsyms P ++ n_p P) (z ++ p) in
    Arr (size (zsyms P)) (size (zsyms P))
        (fun i j => eval rho (D (nth (usym 0) (zsyms P) j) (D (nth (usym 0) (zsyms P) i) (lagr P)))).
  Definition B_of (P : nlp) (z p : seq F) : arr F :=
    let rho := envof (zsyms P ++ n_p P) (z ++ p) in
    Arr (size (zsyms P)) (size (n_p P))
        (fun i j => eval rho (D (nth (usym 0) (n_p P) j) (D (nth (usym 0) (zsyms P) i) (lagr P)))).

  (** _nlpdifferentiator.py:313-315: gradients of the constraints [g; x]. *)
  Definition cons_grad (P : nlp) (x p : seq F) : arr F :=
    let rho := envof (n_x P ++ n_p P) (x ++ p) in
    let cs := n_g P ++ [seq Sym s | s <- n_x P] in
    Arr (size cs) (size (n_x P)) (fun i j => eval rho (D (nth (usym 0) (n_x P) j) (nth (Cst 0) cs i))).

  (** _nlpdifferentiator.py:376-391: within the tolerance of a bound (an infinite bound is farther
      away than any tolerance). *)
  Definition near (tol v : F) (b : option F) : bool := if b is Some b then `|v - b| <= tol else false.
  Definition where_active (tol : F) (v : seq F) (lb ub : seq (option F)) : seq nat :=
    [seq i <- iota 0 (size v) | near tol (nth 0 v i) (nth None lb i) || near tol (nth 0 v i) (nth None ub i)].
  Definition where_inactive (tol : F) (v : seq F) (lb ub : seq (option F)) : seq nat :=
    [seq i <- iota 0 (size v) | ~~ near tol (nth 0 v i) (nth None lb i) && ~~ near tol (nth 0 v i) (nth None ub i)].

  (** The argument nlp_sol: a dictionary, or something else; a missing key is [None]. *)
  Record nsol := mkSol { o_x : option (seq F); o_lg : option (seq F); o_lx : option (seq F); o_g : option (seq F) }.
  Inductive solarg := SolDict (s : nsol) | SolOther.
  (** The argument p_num: a number, a column (numpy array or DM), or an object of another type. *)
  Inductive parg := PNum (v : F) | PCol (v : seq F) | POther.

  Record point := mkPt { q_x : seq F; q_lg : seq F; q_lx : seq F; q_g : seq F }.

  (** Results of the linear solvers: a matrix, or a one-dimensional array. *)
  Inductive psens := P2 (M : arr F) | P1 (v : seq F).
  Inductive linsolver := Scipy | CasadiQr | Lstsq.
  Definition parse_solver (s : string) : option linsolver :=
    if String.eqb s "scipy" then Some Scipy
    else if String.eqb s "casadi" then Some CasadiQr
    else if String.eqb s "lstsq" then Some Lstsq else None.
  Variable lin : linsolver -> arr F -> arr F -> option psens.   (* [None]: the solver raises *)

  (** A solution as param_sens after _solve_linear_system: NaNs if nothing was solved. *)
  Inductive sens := Sol (q : psens) | Nans (r c : nat).

  Definition neg (M : arr F) : arr F := Arr (nr M) (nc M) (fun i j => - ent M i j).

  (** _nlpdifferentiator.py:469-509 _solve_linear_system; the boolean is status.lse_solved. *)
  Definition solve_lse (A B : arr F) (s : string) : sens * bool :=
    match parse_solver s with
    | Some k => match lin k A (neg B) with
                | Some q => (Sol q, true)
                | None => (Nans (nr A) (nc B), false)
                end
    | None => (Nans (nr A) (nc B), false)
    end.

  (** Indexing a CasADi column with a list of indices: out of range raises RuntimeError. *)
  Definition take_idx (v : seq F) (idx : seq nat) : res (seq F) :=
    if all (fun i => (i < size v)%N) idx then Ok (gather 0 v idx) else Err ExcGeneric.

  Definition same_len (T U : Type) (a : seq T) (b : seq U) : res unit :=
    if size a == size b then Ok tt else Err ExcGeneric.

  (** _nlpdifferentiator.py:667-689: argument checks and reduction of the solution
      (317-345 _reduce_nlp_solution_to_determined).  The subtractions of lines 376-379 raise on
      vectors of different length (broadcasting of vectors of length 1 is not modelled). *)
  Definition prepare (d : differ) (sol : solarg) (pn : parg) : res (point * seq F) :=
    match sol with
    | SolOther => Err ExcValue
    | SolDict s =>
      match o_x s, o_lg s, o_lx s, o_g s with
      | Some x, Some lg, Some lx, Some g =>
        let! p := match pn with PNum v => Ok [:: v] | PCol v => Ok v | POther => Err ExcValue end in
        let! (x, lx, p) :=
          match d_red d with
          | Some r => let! x := take_idx x (r_detx r) in
                      let! lx := take_idx lx (r_detx r) in
                      let! p := take_idx p (r_detp r) in
                      Ok (x, lx, p)
          | None => Ok (x, lx, p)
          end in
        if size p != size (n_p (d_nlp d)) then Err ExcValue else
        let! _ := same_len g (n_g (d_nlp d)) in
        let! _ := same_len x (n_x (d_nlp d)) in
        Ok (mkPt x lg lx g, p)
      | _, _, _, _ => Err ExcValue
      end
    end.

  (** _nlpdifferentiator.py:396-429 _extract_active_primal_dual_solution with 347-394.  With
      set_lam_zero the local variable lam_num is used before it is assigned.  A stacked vector of
      the wrong length is refused by the CasADi function of line 443. *)
  Definition active_cons (d : differ) (tol : F) (q : point) : seq nat :=
    where_active tol (q_g q) (b_lbg (d_bnd d)) (b_ubg (d_bnd d))
    ++ [seq (i + size (n_g (d_nlp d)))%N | i <- where_active tol (q_x q) (b_lbx (d_bnd d)) (b_ubx (d_bnd d))].
  Definition inactive_cons (d : differ) (tol : F) (q : point) : seq nat :=
    where_inactive tol (q_g q) (b_lbg (d_bnd d)) (b_ubg (d_bnd d))
    ++ [seq (i + size (n_g (d_nlp d)))%N | i <- where_inactive tol (q_x q) (b_lbx (d_bnd d)) (b_ubx (d_bnd d))].

  Definition extract (d : differ) (st : settings) (q : point) : res (seq F * seq nat) :=
    if s_lamzero st then Err ExcUnbound else
    let! _ := same_len (q_lg q) (n_g (d_nlp d)) in
    let! _ := same_len (q_lx q) (n_x (d_nlp d)) in
    Ok (q_x q ++ q_lg q ++ q_lx q, active_cons d (s_tol st) q).

  (** _nlpdifferentiator.py:447-467 _reduce_sensitivity_matrices. *)
  Definition keep_idx (d : differ) (act : seq nat) : seq nat :=
    iota 0 (size (n_x (d_nlp d))) ++ [seq (i + size (n_x (d_nlp d)))%N | i <- act].
  Definition sub_rows (M : arr F) (idx : seq nat) : arr F :=
    Arr (size idx) (nc M) (fun i j => ent M (nth 0%N idx i) j).
  Definition sub_both (M : arr F) (idx : seq nat) : arr F :=
    Arr (size idx) (size idx) (fun i j => ent M (nth 0%N idx i) (nth 0%N idx j)).

  (** _nlpdifferentiator.py:620-632 _check_LICQ (matrix_rank in exact arithmetic). *)
  Definition check_licq (d : differ) (x p : seq F) (act : seq nat) : bool :=
    let G := sub_rows (cons_grad (d_nlp d) x p) act in
    if (nr G == 0)%N then true
    else if (\rank (mx_of (nr G) (nc G) G) < nr G)%N then false else true.

  (** _nlpdifferentiator.py:634-648 _check_SC. *)
  Definition check_sc (tol : F) (lam : seq F) (act : seq nat) : bool :=
    all (fun i => tol <= `|nth 0 lam i|) act.

  (** _nlpdifferentiator.py:606-611 _check_rank. *)
  Definition check_rank (A : arr F) : bool := (\rank (mx_of (nr A) (nr A) A) == nr A)%N.

  (** _nlpdifferentiator.py:613-618 _track_residuals: the squared Frobenius norm of A S + B.  CasADi
      refuses factors of the wrong shape. *)
  Definition res_entry (A B : arr F) (S : nat -> nat -> F) (i j : nat) : F :=
    (\sum_(k < nc A) ent A i k * S k j) + ent B i j.
  Definition resid2 (A B : arr F) (S : nat -> nat -> F) : F :=
    \sum_(i < nr A) \sum_(j < nc B) (res_entry A B S i j) ^+ 2.
  Definition residuals (A B : arr F) (q : sens) : res (option F) :=
    match q with
    | Nans _ _ => Ok None
    | Sol (P2 M) => if (nr M == nc A) && (nc M == nc B) then Ok (Some (resid2 A B (ent M))) else Err ExcGeneric
    | Sol (P1 v) => if (size v == nc A) && (nc B == 1)%N
                    then Ok (Some (resid2 A B (fun i _ => nth 0 v i))) else Err ExcGeneric
    end.

  (** An array that may contain NaN. *)
  Record oarr := OArr { onr : nat; onc : nat; oent : nat -> nat -> option F }.

  (** _nlpdifferentiator.py:557-587 _map_dxdp, _map_dlamdp.  A one-dimensional array cannot be indexed
      with two indices. *)
  Definition map_sens (d : differ) (q : sens) (act : seq nat) : res (oarr * oarr) :=
    let nx := size (n_x (d_nlp d)) in
    let ng := size (n_g (d_nlp d)) in
    let np := size (n_p (d_nlp d)) in
    match q with
    | Sol (P1 _) => Err ExcIndex
    | Sol (P2 M) =>
      let! _ := py_assert (size act == nr M - nx)%N in
      Ok (OArr nx (nc M) (fun i j => Some (ent M i j)),
          OArr (ng + nx) np (fun r j => if r \in act then Some (ent M (nx + index r act) j) else Some 0))
    | Nans r c =>
      let! _ := py_assert (size act == r - nx)%N in
      Ok (OArr nx c (fun _ _ => None),
          OArr (ng + nx) np (fun r _ => if r \in act then None else Some 0))
    end.

  (** _nlpdifferentiator.py:589-604 _map_param_sens_to_full. *)
  Definition put (rows cols : seq nat) (M : oarr) (r c : nat) : oarr :=
    OArr r c (fun i j => if (i \in rows) && (j \in cols) then oent M (index i rows) (index j cols) else Some 0).
  Definition to_full (d : differ) (r : red) (dx dl : oarr) : oarr * oarr :=
    let ng := size (n_g (d_nlp d)) in
    (put (r_detx r) (r_detp r) dx (r_nx r) (r_np r),
     put (iota 0 ng ++ [seq (i + ng)%N | i <- r_detx r]) (r_detp r) dl (ng + r_nx r) (r_np r)).

  (** _nlpdifferentiator.py:651-703 differentiate, with 511-552 _calculate_sensitivities.  Returns the
      new status and the result. *)
  Definition differentiate (d : differ) (st : settings) (t : status) (sol : solarg) (pn : parg)
    : status * res (oarr * oarr) :=
    match prepare d sol pn with
    | Err e => (t, Err e)
    | Ok (q, p) =>
      match extract d st q with
      | Err e => (t, Err e)
      | Ok (z, act) =>
        let nx := size (n_x (d_nlp d)) in
        let licq := if s_licq st then Some (check_licq d (take nx z) p act) else t_licq t in
        let sc := if s_sc st then Some (check_sc (s_tol st) (drop nx z) act) else t_sc t in
        let A := sub_both (A_of (d_nlp d) z p) (keep_idx d act) in
        let B := sub_rows (B_of (d_nlp d) z p) (keep_idx d act) in
        let rk := if s_rank st then Some (check_rank A) else t_rank t in
        let (q1, ok1) := solve_lse A B (s_solver st) in
        let (q2, ok2) := if ~~ ok1 && s_fallback st then solve_lse A B "lstsq" else (q1, ok1) in
        match (if s_resid st then let! r := residuals A B q2 in Ok (Some r) else Ok (t_resid t)) with
        | Err e => (mkStat licq sc (t_resid t) ok2 rk, Err e)
        | Ok rs =>
          (mkStat licq sc rs ok2 rk,
           let! (dx, dl) := map_sens d q2 act in
           Ok (match d_red d with Some r => to_full d r dx dl | None => (dx, dl) end))
        end
      end
    end.

  (** _nlpdifferentiator.py:843-860 DoMPCDifferentiator.differentiate: the rows of dx_dp are multiplied
      by the scaling factors of the variables. *)
  Definition rescale (s : seq F) (M : oarr) : oarr :=
    OArr (onr M) (onc M) (fun i j => omap (fun v => v * nth 0 s i) (oent M i j)).
  Definition dompc_differentiate (scal : seq F) (d : differ) (st : settings) (t : status) (sol : solarg) (pn : parg)
    : status * res (oarr * oarr) :=
    let (t', r) := differentiate d st t sol pn in
    (t', let! (dx, dl) := r in Ok (rescale scal dx, dl)).
End Diff.
