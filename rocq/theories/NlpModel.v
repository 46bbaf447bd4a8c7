(** * Model of the optimisation problem built by the MPC controller.
    do_mpc/controller/_mpc.py [_prepare_nlp] 1088-1281, [_update_bounds] 1052-1086;
    do_mpc/optimizer.py [_setup_discretization] 789-985, [_setup_nl_cons] 543-586,
    [lb_opt_x]/[ub_opt_x] setters 233-266.

    The symbolic expressions of CasADi are represented by their value at a point: every
    definition below computes the number the expression evaluates to for given (scaled)
    optimisation variables and parameters.  Numbers are exact reals.  User supplied
    functions are arbitrary functions.  Vectors are functions from component to R. *)
From Coq Require Import Reals.
From Verif Require Import Base TreeModel.
Local Open Scope R_scope.

Definition vec := nat -> R.
Definition vmul (a b : vec) : vec := fun i => a i * b i.
Definition vdiv (a b : vec) : vec := fun i => a i / b i.
Definition vzero : vec := fun _ => 0.
(** components 0..n-1 of a vector, as the rows of a column vector *)
Definition rows (n : nat) (v : vec) : list R := map v (seq 0 n).
(** [castools.vertcat] of vectors with n components each, as a flat vector; of a single
    vector it is that vector *)
Definition vertcat (n : nat) (l : list vec) : vec :=
  match l with
  | [v] => v
  | _ => fun q => nth (q / n)%nat l vzero (q mod n)%nat
  end.
(** slice [v[off:off+n]] *)
Definition vslice (v : vec) (off : nat) : vec := fun i => v (off + i)%nat.
Definition rsum (l : list R) : R := fold_right Rplus 0 l.

(** A do-mpc model as seen by the optimizer: sizes, right-hand side and algebraic
    equations as functions of (x,u,z,tvp,p,w); model/_model.py [_rhs_fun], [_alg_fun]. *)
Record dyn_model := {
  n_x : nat; n_u : nat; n_z : nat;
  rhs : vec -> vec -> vec -> vec -> vec -> vec -> vec;
  alg : vec -> vec -> vec -> vec -> vec -> vec -> vec }.

(** One entry of [nl_cons_list] / [slack_vars_list] (optimizer.py:483-541); scalar
    expressions.  [nl_soft = Some (maximum_violation, penalty)] for a soft constraint;
    [None] as a bound is +infinity. *)
Record nl_con := {
  nl_g : vec -> vec -> vec -> vec -> vec -> R;
  nl_ub : option R;
  nl_soft : option (option R * R) }.

(** Discretisation (optimizer.py:819-822 / 823-985): [Colloc deg ni h C D] carries the
    numerical coefficients ([C j r], [D j], see Colloc.v for their computation). *)
Inductive discr :=
| Discrete
| Colloc (deg ni : nat) (h : R) (C : nat -> nat -> R) (D : nat -> R).

Inductive rterm_kind :=
| RDefault (factor : vec)
| RUser (f : vec -> vec -> vec -> vec -> vec -> vec -> R).

Record cfg := {
  N : nat; nr : nat; ncomb : nat;          (* n_horizon, n_robust, n_combinations *)
  open_loop : bool; single_slack : bool;
  chk_colloc : bool;                        (* cons_check_colloc_points *)
  nl_chk_colloc : bool;                     (* nl_cons_check_colloc_points *)
  mdl : dyn_model;
  sx : vec; su : vec; sz : vec;             (* scaling *)
  disc : discr;
  nlc : list nl_con;
  lterm : vec -> vec -> vec -> vec -> vec -> R;
  mterm : vec -> vec -> vec -> R;
  rterm : rterm_kind;
  xlb : nat -> option R; xub : nat -> option R;
  ulb : nat -> option R; uub : nat -> option R;
  zlb : nat -> option R; zub : nat -> option R;
  tlb : nat -> option R; tub : nat -> option R }.   (* terminal bounds *)

(** Scaled optimisation variables (_mpc.py:1119-1128): _x[k,s,i], _z[k,s,i], _u[k,s], _eps[k,s]. *)
Record point := {
  oX : nat -> nat -> nat -> vec;
  oZ : nat -> nat -> nat -> vec;
  oU : nat -> nat -> vec;
  oE : nat -> nat -> vec }.

(** Optimisation parameters (_mpc.py:1142-1147). *)
Record params := {
  pX0 : vec; pTvp : nat -> vec; pP : nat -> vec; pUprev : vec }.

(** ** Discretisation *)

(** n_total_coll_points, optimizer.py:822, 838 *)
Definition ncoll (d : discr) : nat :=
  match d with Discrete => 0 | Colloc deg ni _ _ _ => (deg + 1) * ni end%nat.

(** Position of a collocation state: the interval's initial state, or a slice of ik. *)
Inductive slot := SlotUnset | SlotX0 | SlotAt (off : nat).

Record layout := { l_x : nat -> nat -> slot; l_z : nat -> nat -> slot; l_xf : nat }.

Definition upd_slot (f : nat -> nat -> slot) (i j : nat) (v : slot) : nat -> nat -> slot :=
  fun i' j' => if ((i' =? i) && (j' =? j))%nat then v else f i' j'.

(** Loop state of optimizer.py:910-931. *)
Record lstate := { ls_x : nat -> nat -> slot; ls_z : nat -> nat -> slot; ls_off : nat; ls_offz : nat; ls_first : nat }.

(** optimizer.py:923-928 *)
Definition layout_j (nx nz i : nat) (st : lstate) (j : nat) : lstate :=
  {| ls_x := upd_slot (ls_x st) i j (SlotAt (ls_off st));
     ls_z := upd_slot (ls_z st) i j (SlotAt (ls_offz st));
     ls_offz := (ls_offz st + nz)%nat; ls_off := (ls_off st + nx)%nat; ls_first := ls_first st |}.

(** optimizer.py:921-931 *)
Definition layout_i (nx nz deg : nat) (st : lstate) (i : nat) : lstate :=
  let st' := fold_left (layout_j nx nz i) (seq (ls_first st) (deg + 1 - ls_first st)) st in
  {| ls_x := ls_x st'; ls_z := ls_z st'; ls_off := ls_off st'; ls_offz := ls_offz st'; ls_first := 0%nat |}.

(** optimizer.py:901-938; index error on [ik_split[0,0]] for ni = 0, the two final asserts. *)
Definition coll_layout (nx nz deg ni : nat) : res layout :=
  if (ni =? 0)%nat then Err ExcIndex else
  let st0 := {| ls_x := upd_slot (fun _ _ => SlotUnset) 0 0 SlotX0;
                ls_z := upd_slot (fun _ _ => SlotUnset) 0 0 (SlotAt 0);
                ls_off := 0%nat; ls_offz := nz; ls_first := 1%nat |} in
  let st := fold_left (layout_i nx nz deg) (seq 0 ni) st0 in
  let xkf := ls_off st in
  let off := (ls_off st + nx)%nat in
  let! _ := py_assert (off =? ni * (deg + 1) * nx)%nat in
  let! _ := py_assert (ls_offz st =? ni * (deg + 1) * nz)%nat in
  Ok {| l_x := ls_x st; l_z := ls_z st; l_xf := xkf |}.

Section Discretisation.
  Variable m : dyn_model.
  Variables sx su sz : vec.

  (** optimizer.py:805-817: model functions on scaled variables; _p_scaling is 1 for the MPC. *)
  Definition rhs_scaled (x u z tvp p w : vec) : vec :=
    vdiv (rhs m (vmul x sx) (vmul u su) (vmul z sz) tvp p w) sx.
  Definition alg_scaled (x u z tvp p w : vec) : vec :=
    alg m (vmul x sx) (vmul u su) (vmul z sz) tvp p w.

  (** value of a collocation slot; [None] if it was never assigned *)
  Definition slot_val (xk0 flat : vec) (sl : slot) : option vec :=
    match sl with SlotUnset => None | SlotX0 => Some xk0 | SlotAt off => Some (vslice flat off) end.
  Definition slot_set (sl : slot) : bool := match sl with SlotUnset => false | _ => true end.
  Definition slot_or_zero (xk0 flat : vec) (sl : slot) : vec :=
    match slot_val xk0 flat sl with Some v => v | None => vzero end.

  (** The integrator function: [xk0, ik, uk, zk, tvp, p, w] -> (gk, xkf).
      Discrete: optimizer.py:819-822.  Collocation: optimizer.py:940-982. *)
  Section CollGk.
    Variables (deg ni : nat) (h : R) (C : nat -> nat -> R) (D : nat -> R) (L : layout).
    Variables (xk0 ik uk zk tvp p w : vec).
    Definition xs (i j : nat) : vec := slot_or_zero xk0 ik (l_x L i j).
    Definition zs (i j : nat) : vec := slot_or_zero xk0 zk (l_z L i j).
    (** optimizer.py:948-950 *)
    Definition gk_alg (i j : nat) : list R :=
      rows (n_z m) (alg_scaled (xs i j) uk (zs i j) tvp p w).
    (** optimizer.py:956-962: h*f - sum_r C[r,j] x_r *)
    Definition gk_coll (i j : nat) : list R :=
      rows (n_x m) (fun a => h * rhs_scaled (xs i j) uk (zs i j) tvp p w a
                             - rsum (map (fun r => C r j * xs i r a) (seq 0 (deg + 1)))).
    (** optimizer.py:973-981: x_next - sum_r D[r] x_r *)
    Definition gk_cont (i : nat) : list R :=
      rows (n_x m) (fun a =>
        (if (i + 1 <? ni)%nat then xs (i+1) 0 a else vslice ik (l_xf L) a)
        - rsum (map (fun r => D r * xs i r a) (seq 0 (deg + 1)))).
    (** optimizer.py:946-982 *)
    Definition gk_element (i : nat) : list R :=
      gk_alg i 0 ++ flat_map (fun j => gk_coll i j ++ gk_alg i j) (seq 1 deg) ++ gk_cont i.
    Definition gk : list R := flat_map gk_element (seq 0 ni).
  End CollGk.

  Definition ifcn (d : discr) (xk0 : vec) (col_x : list vec) (uk : vec) (col_z : list vec)
      (tvp p w : vec) : res (list R * vec) :=
    match d with
    | Discrete =>
        let z := vertcat (n_z m) col_z in
        Ok (rows (n_z m) (alg_scaled xk0 uk z tvp p w), rhs_scaled xk0 uk z tvp p w)
    | Colloc deg ni h C D =>
        let! L := coll_layout (n_x m) (n_z m) deg ni in
        if forallb (fun i => forallb (fun j => slot_set (l_x L i j) && slot_set (l_z L i j))
                                     (seq 0 (deg + 1))) (seq 0 ni)
        then
          let ik := vertcat (n_x m) col_x in
          let zk := vertcat (n_z m) col_z in
          let g := gk deg ni h C D L xk0 ik uk zk tvp p w in
          (** optimizer.py:988 [assert(gk.shape[0] == ik.shape[0] + zk.shape[0])] *)
          let! _ := py_assert (List.length g =? ni * (deg+1) * n_x m + ni * (deg+1) * n_z m)%nat in
          Ok (g, vslice ik (l_xf L))
        else Err ExcType
    end.
End Discretisation.

(** ** Nonlinear constraints with slack: optimizer.py:553-586 *)

(** position of the slack of the i-th constraint among the soft ones (scalar slacks, in
    [slack_vars_list] order) *)
Definition slack_index (l : list nl_con) (i : nat) : nat :=
  List.length (filter (fun c => match nl_soft c with Some _ => true | None => false end) (firstn i l)).
Definition n_slack (l : list nl_con) : nat := slack_index l (List.length l).

(** value of [_nl_cons_fun]: expression minus its slack *)
Definition nl_cons_fun (l : list nl_con) (x u z tvp p eps : vec) : list R :=
  map (fun ic => let '(i, c) := ic in
         nl_g c x u z tvp p - match nl_soft c with Some _ => eps (slack_index l i) | None => 0 end)
      (combine (seq 0 (List.length l)) l).
Definition nl_cons_ub (l : list nl_con) : list (option R) := map nl_ub l.
Definition nl_cons_lb (l : list nl_con) : list (option R) := map (fun _ => None) l.

(** slack bounds [0, maximum_violation] *)
Definition soft_list (l : list nl_con) : list (option R * R) :=
  flat_map (fun c => match nl_soft c with Some s => [s] | None => [] end) l.
Definition eps_ub (l : list nl_con) (a : nat) : option R :=
  match nth_error (soft_list l) a with Some s => fst s | None => None end.
(** [epsterm_fun]: sum of penalty*eps *)
Definition epsterm (l : list nl_con) (eps : vec) : R :=
  rsum (map (fun ia => snd (snd ia) * eps (fst ia))
            (combine (seq 0 (List.length (soft_list l))) (soft_list l))).

(** ** The problem: _mpc.py:1088-1281 *)
Record nlp := { obj : R; cons : list R; cons_lb : list (option R); cons_ub : list (option R) }.

Section Prepare.
  Variable c : cfg.
  Variable t : tree.                     (* result of _setup_scenario_tree *)
  Variable par : params.
  Variable pt : point.

  Definition nmax : nat := (ncomb c ^ nr c)%nat.                        (* :1101 *)
  Definition n_u_scenarios : nat := if open_loop c then 1%nat else nmax. (* :1104-1108 *)
  Definition n_eps : nat := if single_slack c then 1%nat else N c.       (* :1111-1114 *)
  Definition nc : nat := ncoll (disc c).
  Definition last_x : nat := nc.                       (* index -1 of 1+nc entries *)
  Definition n_zpts : nat := Nat.max nc 1.
  Definition last_z : nat := (n_zpts - 1)%nat.          (* index -1 *)

  (** opt_x_unscaled, :1134-1139 *)
  Definition uX k s i : vec := vmul (oX pt k s i) (sx c).
  Definition uU k s : vec := vmul (oU pt k s) (su c).
  Definition uZ k s i : vec := vmul (oZ pt k s i) (sz c).
  Definition uE k s : vec := oE pt k s.                 (* scaling 1 *)

  (** [1. / n_scenarios[k+1]], :1185 *)
  Definition omega (k : nat) : R := 1 / INR (n_scenarios (ncomb c) (nr c) (k + 1)).

  Definition s_u (s : nat) : nat := if open_loop c then 0%nat else s.    (* :1195 *)
  Definition cur (k s b : nat) : nat := Z.to_nat (Z.of_nat b + t_boff t k s). (* :1198 *)
  Definition child (k s b : nat) : nat := Z.to_nat (t_child t k s b).
  Definition parent (k s : nat) : nat := Z.to_nat (t_parent t k s).
  Definition k_eps (k : nat) : nat := Nat.min k (n_eps - 1).             (* :1217 *)

  (** index expressions used in the body are inside the declared structure *)
  Definition indices_ok (k s b : nat) : bool :=
    ((s <? nmax) && (child k s b <? nmax) && (s_u s <? n_u_scenarios) && (k_eps k <? n_eps)
     && (cur k s b <? ncomb c)
     && ((k =? 0) || (parent k (s_u s) <? n_u_scenarios)))%nat.

  (** value of [ifcn(...)] in :1203-1205 *)
  Definition step_fun (k s b : nat) : res (list R * vec) :=
    ifcn (mdl c) (sx c) (su c) (sz c) (disc c)
         (oX pt k s last_x)
         (map (fun i => oX pt (k+1) (child k s b) i) (seq 0 nc))
         (oU pt k (s_u s))
         (map (fun i => oZ pt k (child k s b) i) (seq 0 n_zpts))
         (pTvp par k) (pP par (cur k s b)) vzero.

  (** nonlinear constraint blocks, :1217-1236 *)
  Definition nl_block (k s b i_x i_z : nat) : list R :=
    nl_cons_fun (nlc c) (uX k s i_x) (uU k (s_u s)) (uZ k s i_z) (pTvp par k)
                (pP par (cur k s b)) (uE (k_eps k) s).
  Definition nl_blocks (k s b : nat) : list (list R) :=
    if nl_chk_colloc c then map (fun i => nl_block k s b i i) (seq 0 nc)
    else [nl_block k s b last_x 0].

  (** constraints appended for one (k,s,b): list of (values, lower, upper) as appended *)
  Definition edge_cons (k s b : nat) : res (list (list R * list (option R) * list (option R))) :=
    if indices_ok k s b then
      let! (g, xf) := step_fun k s b in
      Ok ((g, map (fun _ => Some 0) g, map (fun _ => Some 0) g)                 (* :1208-1210 *)
          :: (rows (n_x (mdl c)) (fun a => xf a - oX pt (k+1) (child k s b) last_x a),
              repeat (Some 0) (n_x (mdl c)), repeat (Some 0) (n_x (mdl c)))      (* :1213-1215 *)
          :: map (fun vals => (vals, nl_cons_lb (nlc c), nl_cons_ub (nlc c))) (nl_blocks k s b))
    else Err ExcIndex.

  (** default / user defined rate penalty, :1254-1268 *)
  Definition rterm_edge (k s b : nat) : R :=
    match rterm c with
    | RUser f =>
        f (uX k s last_x) (uU k (s_u s))
          (if (k =? 0)%nat then vdiv (pUprev par) (su c) else oU pt (k-1) (parent k (s_u s)))
          (uZ k s last_z) (pTvp par k) (pP par (cur k s b))
    | RDefault r =>
        rsum (rows (n_u (mdl c)) (fun a =>
          r a * (oU pt k (s_u s) a -
                 (if (k =? 0)%nat then pUprev par a / su c a else oU pt (k-1) (parent k (s_u s)) a)) ^ 2))
    end.

  (** objective contributions of one (k,s,b), :1241-1268 *)
  Definition edge_obj (k s b : nat) : R :=
    omega k * lterm c (uX k s last_x) (uU k (s_u s)) (uZ k s last_z) (pTvp par k) (pP par (cur k s b))
    + epsterm (nlc c) (uE (k_eps k) s)
    + (if (k =? N c - 1)%nat
       then omega k * mterm c (uX (k+1) s last_x) (pTvp par (k+1)) (pP par (cur k s b)) else 0)
    + rterm_edge k s b.

  (** the loop nest :1189-1197 *)
  Definition edges : list (nat * nat * nat) :=
    flat_map (fun k => flat_map (fun s => map (fun b => (k, s, b))
        (seq 0 (n_branches (ncomb c) (nr c) k))) (seq 0 (n_scenarios (ncomb c) (nr c) k)))
      (seq 0 (N c)).

  (** initial condition, :1177-1180 *)
  Definition init_block : list R * list (option R) * list (option R) :=
    (rows (n_x (mdl c)) (fun a => oX pt 0 0 last_x a - pX0 par a / sx c a),
     repeat (Some 0) (n_x (mdl c)), repeat (Some 0) (n_x (mdl c))).

  Definition prepare_body : res nlp :=
    let! bl := mapM (fun e => let '(k, s, b) := e in edge_cons k s b) edges in
    let blocks := init_block :: List.concat bl in
    Ok {| obj := rsum (map (fun e => let '(k, s, b) := e in edge_obj k s b) edges);
          cons := flat_map (fun x => fst (fst x)) blocks;
          cons_lb := flat_map (fun x => snd (fst x)) blocks;
          cons_ub := flat_map snd blocks |}.
End Prepare.

(** the whole problem, with its scenario tree (:1098) *)
Definition prepare_nlp (c : cfg) (par : params) (pt : point) : res nlp :=
  let! t := setup_scenario_tree (ncomb c) (nr c) (N c) in prepare_body c t par pt.

(** ** Variable bounds: _mpc.py:1052-1086 with the setters optimizer.py:233-241, 259-266.
    A setter stores the value and divides it by the scaling factor; infinite stays infinite. *)
Definition scale_bound (s : R) (b : option R) : option R :=
  match b with Some v => Some (v / s) | None => None end.

Section Bounds.
  Variable c : cfg.
  Definition in_x_range (k i : nat) : bool :=            (* '_x', 1:N, :, : or -1 *)
    ((1 <=? k) && (k <? N c) && (chk_colloc c || (i =? last_x c)))%nat.
  Definition bx (gen ter : nat -> option R) (k i a : nat) : option R :=
    if ((k =? N c) && (i =? last_x c))%nat then scale_bound (sx c a) (ter a)
    else if in_x_range k i then scale_bound (sx c a) (gen a) else None.
  Definition lb_x (k s i a : nat) := bx (xlb c) (tlb c) k i a.
  Definition ub_x (k s i a : nat) := bx (xub c) (tub c) k i a.
  Definition bz (gen : nat -> option R) (i a : nat) : option R :=
    if (chk_colloc c || (i =? 0)%nat) then scale_bound (sz c a) (gen a) else None.
  Definition lb_z (k s i a : nat) := bz (zlb c) i a.
  Definition ub_z (k s i a : nat) := bz (zub c) i a.
  Definition lb_u (k s a : nat) := scale_bound (su c a) (ulb c a).
  Definition ub_u (k s a : nat) := scale_bound (su c a) (uub c a).
  Definition lb_eps (k s a : nat) : option R := Some 0.
  Definition ub_eps (k s a : nat) : option R := eps_ub (nlc c) a.
End Bounds.

Definition ge_lb (v : R) (b : option R) : Prop := match b with Some l => l <= v | None => True end.
Definition le_ub (v : R) (b : option R) : Prop := match b with Some u => v <= u | None => True end.

(** the solver's notion of feasibility: variables inside lbx/ubx, constraints inside lbg/ubg
    (optimizer.py:731-787 passes exactly these vectors to nlpsol) *)
Definition within_bounds (c : cfg) (pt : point) : Prop :=
  (forall k s i a, k <= N c -> s < nmax c -> i <= last_x c -> a < n_x (mdl c) ->
     ge_lb (oX pt k s i a) (lb_x c k s i a) /\ le_ub (oX pt k s i a) (ub_x c k s i a))%nat /\
  (forall k s i a, k < N c -> s < nmax c -> i < n_zpts c -> a < n_z (mdl c) ->
     ge_lb (oZ pt k s i a) (lb_z c k s i a) /\ le_ub (oZ pt k s i a) (ub_z c k s i a))%nat /\
  (forall k s a, k < N c -> s < n_u_scenarios c -> a < n_u (mdl c) ->
     ge_lb (oU pt k s a) (lb_u c k s a) /\ le_ub (oU pt k s a) (ub_u c k s a))%nat /\
  (forall k s a, k < n_eps c -> s < nmax c -> a < n_slack (nlc c) ->
     ge_lb (oE pt k s a) (lb_eps k s a) /\ le_ub (oE pt k s a) (ub_eps c k s a))%nat.

Fixpoint cons_sat (g : list R) (lb ub : list (option R)) : Prop :=
  match g, lb, ub with
  | [], [], [] => True
  | v :: g', l :: lb', u :: ub' => ge_lb v l /\ le_ub v u /\ cons_sat g' lb' ub'
  | _, _, _ => False
  end.

Definition feasible (c : cfg) (par : params) (pt : point) : Prop :=
  within_bounds c pt /\
  exists p, prepare_nlp c par pt = Ok p /\ cons_sat (cons p) (cons_lb p) (cons_ub p).
