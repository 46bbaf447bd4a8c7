(** * Theorems about the differentiator: C49, C50, C70, C71, C72, C73. *)
From Verif Require Import Base.
From mathcomp Require Import all_ssreflect all_algebra.
From Verif Require Import LinModel DiffModel DiffSpec DiffProofs DiffProofs2 DiffProofs3 DiffProofs4 DiffProofs5 DiffProofs6 DiffProofs7 DiffProofs8.
Set Implicit Arguments.
Unset Strict Implicit.
Unset Printing Implicit Defensive.
Import GRing.Theory Num.Theory.
Local Open Scope ring_scope.

(** ** C49: the active set.  For every differentiator, point of the right size and tolerance: each
    constraint and each bound is in exactly one of the two lists, it is in the active one exactly if
    the value is within the tolerance of a finite bound, and each list mentions it once. *)
Theorem C49_partition : forall (F : realFieldType) (d : differ F) (tol : F) (q : point F),
  size (q_g q) = size (n_g (d_nlp d)) -> size (q_x q) = size (n_x (d_nlp d)) ->
  let ng := size (n_g (d_nlp d)) in let nx := size (n_x (d_nlp d)) in
  let a := active_cons d tol q in let n := inactive_cons d tol q in
  [/\ forall k, (k < ng)%N -> (k \in a) = act_g tol (d_bnd d) (q_g q) k /\ (k \in n) = ~~ act_g tol (d_bnd d) (q_g q) k,
      forall i, (i < nx)%N -> ((i + ng)%N \in a) = act_x tol (d_bnd d) (q_x q) i
                           /\ ((i + ng)%N \in n) = ~~ act_x tol (d_bnd d) (q_x q) i,
      forall r, (r \in a) || (r \in n) = (r < ng + nx)%N,
      uniq (a ++ n)
    & size a + size n = ng + nx]%N.
Proof.
  move=> F d tol q Hg Hx ng nx a n.
  have Hin k: (k < ng)%N -> (k \in n) = ~~ act_g tol (d_bnd d) (q_g q) k.
    move=> Hk; rewrite mem_cat mem_where_inactive Hg -/ng Hk /= orb_idr // => /mapP[i _ E].
    by rewrite E ltnNge leq_addl in Hk.
  have Hix i: (i < nx)%N -> ((i + ng)%N \in n) = ~~ act_x tol (d_bnd d) (q_x q) i.
    move=> Hi; rewrite mem_cat mem_where_inactive Hg -/ng ltnNge leq_addl /=.
    by rewrite mem_map_addn mem_where_inactive Hx -/nx Hi.
  have Hnlt r: r \in n -> (r < ng + nx)%N.
    rewrite mem_cat => /orP[|/mapP[i]]; rewrite mem_where_inactive ?Hg ?Hx => /andP[Hr _].
      exact: ltn_addr.
    by move=> ->; rewrite addnC ltn_add2l.
  have Hcov r: (r \in a) || (r \in n) = (r < ng + nx)%N.
    apply/idP/idP => [/orP[/(act_lt Hg Hx)|/Hnlt]//|Hr].
    case: (ltnP r ng) => Hrg; first by rewrite (mem_act_g _ Hg) // Hin // orbN.
    have Hi: (r - ng < nx)%N by rewrite ltn_subLR.
    by rewrite -(subnK Hrg) (mem_act_x _ Hg Hx) // Hix // orbN.
  have Hdisj r: r \in a -> r \notin n.
    move=> Ha; have Hr := act_lt Hg Hx Ha.
    case: (ltnP r ng) => Hrg; first by rewrite Hin // -(mem_act_g _ Hg) // negbK.
    have Hi: (r - ng < nx)%N by rewrite ltn_subLR.
    by rewrite -(subnK Hrg) Hix // negbK -(mem_act_x _ Hg Hx) // subnK.
  have Hun: uniq n.
    have U2: uniq [seq (i + ng)%N | i <- where_inactive tol (q_x q) (b_lbx (d_bnd d)) (b_ubx (d_bnd d))].
      by rewrite (map_inj_uniq (@addIn ng)) filter_uniq // iota_uniq.
    rewrite /n /inactive_cons cat_uniq U2 andbT filter_uniq ?iota_uniq //=.
    by apply/hasPn => r /mapP[i _ ->]; rewrite /= mem_where_inactive Hg ltnNge leq_addl.
  have Hu: uniq (a ++ n).
    rewrite cat_uniq (act_uniq _ Hg) Hun andbT /=; apply/hasPn => r Hr.
    by apply/negP => /= /Hdisj; rewrite Hr.
  split=> //.
  - by move=> k Hk; rewrite (mem_act_g _ Hg) // Hin.
  - by move=> i Hi; rewrite (mem_act_x _ Hg Hx) // Hix.
  - rewrite -size_cat -(size_iota 0 (ng + nx)); apply: perm_size; apply: uniq_perm; rewrite ?iota_uniq //.
    by move=> r; rewrite mem_cat Hcov mem_iota.
Qed.
Print Assumptions C49_partition.

(** An equality constraint met up to the tolerance is active. *)
Theorem C49_equality_active : forall (F : realFieldType) (d : differ F) (tol : F) (q : point F) k c,
  size (q_g q) = size (n_g (d_nlp d)) -> (k < size (n_g (d_nlp d)))%N ->
  nth None (b_lbg (d_bnd d)) k = Some c -> nth None (b_ubg (d_bnd d)) k = Some c ->
  `|nth 0 (q_g q) k - c| <= tol -> k \in active_cons d tol q.
Proof. by move=> F d tol q k c Hg Hk El Eu H; rewrite (mem_act_g _ Hg) // /act_g /at_bound El Eu H. Qed.
Print Assumptions C49_equality_active.

(** ** C50: where the entries come from.  For every successful call (whatever the linear solver did):
    there is one table S -- the answer of the solver, or NaN everywhere if lse_solved is false -- whose
    rows are the variables that enter the problem, then the active constraints, then the active
    bounds of such variables, in order, and whose columns are the parameters that enter the problem;
    every entry of the returned matrices is its entry of S, and zero where the variable, constraint or
    parameter has no row or column. *)
Theorem C50_positions : forall (F : realFieldType) fn dfn lin (P : nlp F) (b : bnd F) x lg lx g p st t t' Mx Ml,
  differentiate fn dfn lin (construct P b) st t (SolDict (mkSol (Some x) (Some lg) (Some lx) (Some g))) (PCol p)
    = (t', Ok (Mx, Ml)) ->
  let nx := size (n_x P) in let ng := size (n_g P) in let np := size (n_p P) in
  let actg := act_g (s_tol st) b g in let actx := act_x (s_tol st) b x in
  exists S : nat -> nat -> option F,
    [/\ (t_solved t' -> exists k A B M, lin k A B = Some (P2 M) /\ forall i j, S i j = Some (ent M i j)),
        (t_solved t' = false -> forall i j, S i j = None),
        (forall i j, (i < nx)%N -> (j < np)%N ->
           oent Mx i j = if ux P i && up P j then S (rank (ux P) i) (rank (up P) j) else Some 0),
        (forall k j, (k < ng)%N -> (j < np)%N ->
           oent Ml k j = if actg k && up P j then S (rank (ux P) nx + rank actg k)%N (rank (up P) j) else Some 0)
      & (forall i j, (i < nx)%N -> (j < np)%N ->
           oent Ml (ng + i)%N j = if (ux P i && actx i) && up P j
             then S (rank (ux P) nx + (rank actg ng + rank (fun i => ux P i && actx i) i))%N (rank (up P) j) else Some 0)].
Proof. move=> F fn dfn lin P b x lg lx g p st t t' Mx Ml Hd /=; exact: (positions Hd). Qed.
Print Assumptions C50_positions.

(** A variable or parameter is counted exactly if it enters the objective or a constraint. *)
Theorem C50_used : forall (F : realFieldType) (P : nlp F) s, used P s <-> enters P s.
Proof. exact: used_enters. Qed.
Print Assumptions C50_used.

(** ** C70 (refuted): the documented setting set_lam_zero cannot be used: every call that gets past the
    checks of its arguments raises UnboundLocalError, whatever the problem and the solution. *)
Theorem C70_set_lam_zero_refuted : forall (F : realFieldType) fn dfn lin (d : differ F) st t sol pn q p,
  s_lamzero st -> prepare d sol pn = Ok (q, p) ->
  differentiate fn dfn lin d st t sol pn = (t, Err ExcUnbound).
Proof. by move=> F fn dfn lin d st t sol pn q p Hl Hp; rewrite /differentiate Hp /extract Hl. Qed.
Print Assumptions C70_set_lam_zero_refuted.

(** ... and it is the only obstacle: without it, for every problem, every solution of the right size and
    every combination of the other settings (checks, residuals, fallback, any linear solver, even one
    that raises or an unknown name), the call returns matrices of the documented shape, and the status
    reports exactly the checks that were asked for.  Assumed of the linear solvers: if one answers, its
    answer is a matrix of the right shape (SciPy's is not for a single parameter, see C73). *)
Definition answers_matrices (F : realFieldType) (lin : linsolver -> arr F -> arr F -> option (psens F)) : Prop :=
  forall k A B q, lin k A B = Some q -> exists M, [/\ q = P2 M, nr M = nc A & nc M = nc B].
Theorem C70_returns_partial : forall (F : realFieldType) fn dfn lin (P : nlp F) (b : bnd F) x lg lx g pn st t,
  let nx := size (n_x P) in let ng := size (n_g P) in let np := size (n_p P) in
  size x = nx -> size lg = ng -> size lx = nx -> size g = ng ->
  (exists p, size p = np /\ (pn = PCol p \/ exists v, p = [:: v] /\ pn = PNum v)) ->
  s_lamzero st = false -> answers_matrices lin ->
  exists t' Mx Ml,
    [/\ differentiate fn dfn lin (construct P b) st t (SolDict (mkSol (Some x) (Some lg) (Some lx) (Some g))) pn
          = (t', Ok (Mx, Ml)),
        [/\ onr Mx = nx, onc Mx = np, onr Ml = (ng + nx)%N & onc Ml = np],
        (if s_licq st then isSome (t_licq t') else t_licq t' == t_licq t),
        (if s_sc st then isSome (t_sc t') else t_sc t' == t_sc t)
      & (if s_rank st then isSome (t_rank t') else t_rank t' == t_rank t)
        /\ (if s_resid st then exists r, t_resid t' = Some r /\ (t_solved t' = isSome r) else t_resid t' = t_resid t)].
Proof.
  move=> F fn dfn lin P b x lg lx g pn st t nx ng np Hx Hlg Hlx Hg [p [Hp Hpn]] Hz Hlin.
  have Hpn' : match pn with PNum v => Ok [:: v] | PCol v => Ok v | POther => Err ExcValue end = Ok p.
    by case: Hpn => [->|[v [-> ->]]].
  pose d := construct P b.
  have [q [p' [Hprep Hq]]] : exists q p', prepare d (SolDict (mkSol (Some x) (Some lg) (Some lx) (Some g))) pn = Ok (q, p')
      /\ [/\ size (q_lg q) = size (n_g (d_nlp d)), size (q_lx q) = size (n_x (d_nlp d))
        & size (q_x q) = size (n_x (d_nlp d))].
    rewrite /prepare /= Hpn' /= /d /construct; case: ifP => Hred /=.
    - have Hall (v : seq F) s : size v = size s -> take_idx v (det_idx P s) = Ok (gather 0 v (det_idx P s)).
        move=> Hs; rewrite /take_idx; case: ifP => // /negP[]; apply/allP => i.
        by rewrite mem_fidx -Hs => /andP[].
      rewrite !Hall //= !size_map eqxx /= /same_len Hg eqxx /= !size_map eqxx /=.
      by eexists; eexists; split; [reflexivity|]; rewrite /= !size_map.
    - rewrite Hp eqxx /= /same_len Hg Hx !eqxx /=.
      by eexists; eexists; split; [reflexivity|].
  case: Hq => Hq1 Hq2 Hq3.
  have Hext : extract d st q = Ok (q_x q ++ q_lg q ++ q_lx q, active_cons d (s_tol st) q).
    by rewrite /extract Hz /same_len Hq1 Hq2 !eqxx.
  rewrite /differentiate -/d Hprep Hext.
  set act := active_cons _ _ _; set z := _ ++ _.
  set A := sub_both _ _; set B := sub_rows (B_of _ _ _ _ _) _.
  have HlseA s : (exists M, [/\ solve_lse lin A B s = (Sol (P2 M), true), nr M = nc A & nc M = nc B])
                 \/ solve_lse lin A B s = (Nans _ (nr A) (nc B), false).
    rewrite /solve_lse; case: (parse_solver s) => [k|]; last by right.
    case El: (lin _ _ _) => [qq|]; last by right.
    by have [M [-> H1 H2]] := Hlin _ _ _ _ El; left; exists M.
  pose r2 := (let (q1, ok1) := solve_lse lin A B (s_solver st) in
              if ~~ ok1 && s_fallback st then solve_lse lin A B "lstsq" else (q1, ok1)).
  have Hr2 : (exists M, [/\ r2 = (Sol (P2 M), true), nr M = nc A & nc M = nc B])
             \/ r2 = (Nans _ (nr A) (nc B), false).
    rewrite /r2; case: (HlseA (s_solver st)) => [[M [-> H1 H2]]|->] /=; first by left; exists M.
    by case: ifP => _; [exact: HlseA|right].
  case E1: (solve_lse lin A B (s_solver st)) => [q1 ok1].
  move: Hr2; rewrite /r2 E1; clear r2.
  have HnA : nr A = (size (n_x (d_nlp d)) + size act)%N by rewrite /= size_cat size_iota size_map.
  have HcA : nc A = nr A by [].
  have HcB : nc B = size (n_p (d_nlp d)) by [].
  have Hd1 : size (n_g (d_nlp d)) = ng by rewrite /d /construct; case: ifP.
  case E2: (if _ then _ else _) => [q2 ok2].
  have Hmap : (exists M, [/\ (q2, ok2) = (Sol (P2 M), true), nr M = nc A & nc M = nc B])
             \/ (q2, ok2) = (Nans _ (nr A) (nc B), false) ->
     (exists dx dl, [/\ map_sens d q2 act = Ok (dx, dl), onr dx = size (n_x (d_nlp d)), onc dx = size (n_p (d_nlp d)),
         onr dl = (ng + size (n_x (d_nlp d)))%N & onc dl = size (n_p (d_nlp d))])
     /\ exists r, residuals A B q2 = Ok r /\ ok2 = isSome r.
    case=> [[M [[-> ->] H1 H2]]|[-> ->]]; split.
    - rewrite /map_sens H1 HcA HnA addKn eqxx /=; eexists; eexists; split; [reflexivity| |by rewrite /= H2| |] => //=; by rewrite Hd1.
    - by rewrite /residuals H1 H2 !eqxx /=; eexists; split.
    - rewrite /map_sens -[size (keep_idx _ _)]/(nr A) HnA addKn eqxx /=; eexists; eexists; split; [reflexivity| | | |] => //=; by rewrite Hd1.
    - by eexists; split.
  move=> /Hmap [[dx [dl [Em H1 H2 H3 H4]]] [r [Er Eok]]].
  have Hfull : exists Mx Ml, (match d_red d with Some r => to_full d r dx dl | None => (dx, dl) end) = (Mx, Ml)
     /\ [/\ onr Mx = nx, onc Mx = np, onr Ml = (ng + nx)%N & onc Ml = np].
    move: H1 H2 H3 H4 Hd1; rewrite /d /construct; case: ifP => Hred /= H1 H2 H3 H4 Hd1.
      by eexists; eexists; split; [rewrite /to_full; reflexivity|].
    by eexists; eexists; split; [reflexivity|].
  have [Mx [Ml [Ef Hsh]]] := Hfull.
  rewrite Em /= Ef Er.
  case: (s_resid st) => /=.
  - eexists; exists Mx, Ml; split; [reflexivity|exact: Hsh|..] => /=.
    + by case: (s_licq st).
    + by case: (s_sc st).
    + by split; [case: (s_rank st)|exists r].
  - eexists; exists Mx, Ml; split; [reflexivity|exact: Hsh|..] => /=.
    + by case: (s_licq st).
    + by case: (s_sc st).
    + by split; [case: (s_rank st)|].
Qed.
Print Assumptions C70_returns_partial.

(** ** C71: the returned matrices are the sensitivities.  Whenever a call succeeds and the reported
    residual is zero, the matrices have the documented shape, contain numbers only, and for every
    direction dp the changes dx = dx_dp dp and dlam = dlam_dp dp keep, to first order, the optimality
    conditions of the problem the user passed: stationarity of the Lagrangian in every variable, the
    value of every active constraint and bound, the multiplier of every inactive one. *)
Theorem C71_first_order : forall (F : realFieldType) fn dfn lin (P : nlp F) (b : bnd F) x lg lx g p st t t' Mx Ml,
  wf P b ->
  differentiate fn dfn lin (construct P b) st t (SolDict (mkSol (Some x) (Some lg) (Some lx) (Some g))) (PCol p)
    = (t', Ok (Mx, Ml)) ->
  s_resid st -> t_resid t' = Some (Some 0) ->
  let nx := size (n_x P) in let ng := size (n_g P) in let np := size (n_p P) in
  [/\ onr Mx = nx, onc Mx = np, onr Ml = (ng + nx)%N & onc Ml = np]
  /\ exists DX DL : nat -> nat -> F,
       (forall i j, oent Mx i j = Some (DX i j)) /\ (forall r j, oent Ml r j = Some (DL r j)) /\
       forall dp, tracks fn dfn P (act_g (s_tol st) b g) (act_x (s_tol st) b x) x lg lx p
                    (along np DX dp) (along np DL dp) (fun i => along np DL dp (ng + i)) dp.
Proof.
  move=> F fn dfn lin P b x lg lx g p st t t' Mx Ml W Hd Hrs Hr0 nx ng np.
  have [H1 [H2 H3]] := main_shape Hd Hrs Hr0; split=> //.
  exists (fun i j => entry (oent Mx i j)), (fun i j => entry (oent Ml i j)); split=> //; split=> //.
  by have [] := main_tracks_unique W Hd Hrs Hr0.
Qed.
Print Assumptions C71_first_order.

(** ... and, if the rank check is on and reports full rank, they are the only ones: every change that
    keeps the optimality conditions agrees with them (for a variable that enters the problem; one that
    does not is free). *)
Theorem C71_unique : forall (F : realFieldType) fn dfn lin (P : nlp F) (b : bnd F) x lg lx g p st t t' Mx Ml,
  wf P b ->
  differentiate fn dfn lin (construct P b) st t (SolDict (mkSol (Some x) (Some lg) (Some lx) (Some g))) (PCol p)
    = (t', Ok (Mx, Ml)) ->
  s_resid st -> t_resid t' = Some (Some 0) -> s_rank st -> t_rank t' = Some true ->
  let nx := size (n_x P) in let ng := size (n_g P) in let np := size (n_p P) in
  exists DX DL : nat -> nat -> F,
    (forall i j, oent Mx i j = Some (DX i j)) /\ (forall r j, oent Ml r j = Some (DL r j)) /\
    forall dp dx dlg dlx,
      tracks fn dfn P (act_g (s_tol st) b g) (act_x (s_tol st) b x) x lg lx p dx dlg dlx dp ->
      [/\ forall i, (i < nx)%N -> enters P (nth (usym 0) (n_x P) i) -> dx i = along np DX dp i,
          forall k, (k < ng)%N -> dlg k = along np DL dp k
        & forall i, (i < nx)%N -> dlx i = along np DL dp (ng + i)].
Proof.
  move=> F fn dfn lin P b x lg lx g p st t t' Mx Ml W Hd Hrs Hr0 Hrk Ht nx ng np.
  have [H1 [H2 H3]] := main_shape Hd Hrs Hr0.
  exists (fun i j => entry (oent Mx i j)), (fun i j => entry (oent Ml i j)); split=> //; split=> //.
  move=> dp dx dlg dlx Htr.
  have [_ /(_ Hrk Ht dp dx dlg dlx Htr) [U1 U2 U3]] := main_tracks_unique W Hd Hrs Hr0; split=> //.
  by move=> i Hi /used_enters Hu; apply: U1.
Qed.
Print Assumptions C71_unique.

(** The condition "reported residual is zero" is met whenever the linear solver answers and its answers
    are exact: then no sign, row or column can be wrong in what it is asked. *)
Definition exact_answers (F : realFieldType) (lin : linsolver -> arr F -> arr F -> option (psens F)) : Prop :=
  forall k A B M, lin k A B = Some (P2 M) ->
    nr M = nc A /\ nc M = nc B
    /\ forall i j, (i < nr A)%N -> (j < nc B)%N -> \sum_(l < nc A) ent A i l * ent M l j = ent B i j.
Theorem C71_exact_solver : forall (F : realFieldType) fn dfn lin (P : nlp F) (b : bnd F) x lg lx g p st t t' Mx Ml,
  differentiate fn dfn lin (construct P b) st t (SolDict (mkSol (Some x) (Some lg) (Some lx) (Some g))) (PCol p)
    = (t', Ok (Mx, Ml)) ->
  exact_answers lin -> s_resid st -> t_solved t' -> t_resid t' = Some (Some 0).
Proof.
  move=> F fn dfn lin P b x lg lx g p st t t' Mx Ml + Hex Hrs Hsv.
  rewrite /differentiate; case: (prepare _ _ _) => [[q p']|//].
  case: (extract _ _ _) => [[z act]|//].
  set A := sub_both _ _; set B := sub_rows (B_of _ _ _ _ _) _.
  have Hlse s q1 ok1 : solve_lse lin A B s = (q1, ok1) -> ok1 -> exists k qq, q1 = Sol qq /\ lin k A (neg B) = Some qq.
    rewrite /solve_lse; case: (parse_solver s) => [k|[_ <-] //].
    by case El: (lin _ _ _) => [qq|] [<- <-] // _; exists k, qq.
  case E1: (solve_lse _ _ _ (s_solver st)) => [q1 ok1].
  case E2: (if ~~ ok1 && s_fallback st then _ else _) => [q2 ok2].
  have H2 : ok2 -> exists k qq, q2 = Sol qq /\ lin k A (neg B) = Some qq.
    move: E2; case: ifP => _; [exact: Hlse|case=> <- <-; exact: (Hlse _ _ _ E1)].
  rewrite Hrs; case Er: (residuals _ _ _) => [r|//] /=.
  case=> Et'; move: Hsv; rewrite -Et' /= => /H2 [k [qq [Eq Hl]]]; clear H2 E2; subst q2.
  case: qq Er Hl => [M|v //] /=.
  have Hz : lin k A (neg B) = Some (P2 M) -> resid2 A B (ent M) = 0.
    move=> /Hex [_ [_ Hs]]; rewrite /resid2; apply: big1 => i _; apply: big1 => j _.
    by rewrite /res_entry Hs //= addNr expr0n.
  by case: ifP => // _ [<-] /Hz ->.
Qed.
Print Assumptions C71_exact_solver.

(** The controller and estimator variant works on scaled variables; its matrix belongs to the physical
    variables, i.e. the scaled ones times their scaling factors. *)
Theorem C71_scaled : forall (F : realFieldType) fn dfn lin scal (P : nlp F) (b : bnd F) x lg lx g p st t t' Mx Ml,
  wf P b ->
  dompc_differentiate fn dfn lin scal (construct P b) st t (SolDict (mkSol (Some x) (Some lg) (Some lx) (Some g))) (PCol p)
    = (t', Ok (Mx, Ml)) ->
  s_resid st -> t_resid t' = Some (Some 0) ->
  let nx := size (n_x P) in let ng := size (n_g P) in let np := size (n_p P) in
  exists DX DL : nat -> nat -> F,
    (forall i j, oent Mx i j = Some (DX i j)) /\ (forall r j, oent Ml r j = Some (DL r j)) /\
    forall dp, exists dx : nat -> F,
      tracks fn dfn P (act_g (s_tol st) b g) (act_x (s_tol st) b x) x lg lx p
             dx (along np DL dp) (fun i => along np DL dp (ng + i)) dp
      /\ forall i, along np DX dp i = dx i * nth 0 scal i.
Proof.
  move=> F fn dfn lin scal P b x lg lx g p st t t' Mx Ml W.
  rewrite /dompc_differentiate.
  case Hd: (differentiate _ _ _ _ _ _ _ _) => [t1 r]; case: r Hd => [[Mx1 Ml1]|e] Hd; last by case.
  case=> Et EM EL Hrs Hr0; set np := size (n_p P).
  subst t1 Mx Ml.
  have [H1 [H2 H3]] := main_shape Hd Hrs Hr0.
  exists (fun i j => entry (oent Mx1 i j) * nth 0 scal i), (fun i j => entry (oent Ml1 i j)); split; [|split=> //].
    by move=> i j /=; rewrite H2.
  have [Htr _] := main_tracks_unique W Hd Hrs Hr0.
  move=> dp; exists (along np (fun i j => entry (oent Mx1 i j)) dp); split; first exact: Htr.
  by move=> i; rewrite /along mulr_suml; apply: eq_bigr => j _; rewrite mulrAC.
Qed.
Print Assumptions C71_scaled.

(** ** C72: the status after a successful call.  LICQ is true exactly if the gradients of the active
    constraints and bounds of the user's problem are linearly independent; SC exactly if every
    multiplier of an active constraint (and of an active bound of a variable that enters the problem)
    is at least the tolerance in absolute value; if lse_solved is false then no entry of a variable and
    parameter that enter the problem is a number. *)
Theorem C72_status : forall (F : realFieldType) fn dfn lin (P : nlp F) (b : bnd F) x lg lx g p st t t' Mx Ml,
  wf P b ->
  differentiate fn dfn lin (construct P b) st t (SolDict (mkSol (Some x) (Some lg) (Some lx) (Some g))) (PCol p)
    = (t', Ok (Mx, Ml)) ->
  let nx := size (n_x P) in let ng := size (n_g P) in let np := size (n_p P) in
  let actg := act_g (s_tol st) b g in let actx := act_x (s_tol st) b x in
  [/\ s_licq st -> exists v, t_licq t' = Some v /\ (v <-> licq fn dfn P actg actx x p),
      s_sc st -> exists v, t_sc t' = Some v /\
        (v <-> (forall k, (k < ng)%N -> actg k -> s_tol st <= `|nth 0 lg k|)
               /\ (forall i, (i < nx)%N -> enters P (nth (usym 0) (n_x P) i) -> actx i -> s_tol st <= `|nth 0 lx i|))
    & t_solved t' = false -> forall i j, (i < nx)%N -> (j < np)%N ->
        enters P (nth (usym 0) (n_x P) i) -> enters P (nth (usym 0) (n_p P) j) -> oent Mx i j = None].
Proof.
  move=> F fn dfn lin P b x lg lx g p st t t' Mx Ml W Hd nx ng np actg actx.
  have [q [p' [Hpr [Hlg Hlx] [HL HS] _ _]]] := diff_inv2 Hd.
  move: Hpr HL HS Hlg Hlx; rewrite /construct.
  have Hgen (d : differ F) : wf (d_nlp d) (d_bnd d) -> size (q_g q) = size (n_g (d_nlp d)) ->
     size (q_x q) = size (n_x (d_nlp d)) -> size p' = size (n_p (d_nlp d)) -> size (q_lg q) = size (n_g (d_nlp d)) ->
     (check_sc (s_tol st) (q_lg q ++ q_lx q) (active_cons d (s_tol st) q) <->
      (forall k, (k < size (n_g (d_nlp d)))%N -> act_g (s_tol st) (d_bnd d) (q_g q) k -> s_tol st <= `|nth 0 (q_lg q) k|)
      /\ (forall i, (i < size (n_x (d_nlp d)))%N -> act_x (s_tol st) (d_bnd d) (q_x q) i -> s_tol st <= `|nth 0 (q_lx q) i|)).
    move=> Wd H1 H2 H3 H4; split.
      move/allP=> H; split=> [k Hk Ha|i Hi Ha].
        by have := H k; rewrite (mem_act_g _ H1) // Ha nth_cat H4 Hk => /(_ isT).
      have := H (i + size (n_g (d_nlp d)))%N; rewrite (mem_act_x _ H1 H2) // Ha => /(_ isT).
      by rewrite nth_cat H4 ltnNge leq_addl /= addnK.
    case=> Hk Hi; apply/allP => r Hr; have Hlt := act_lt H1 H2 Hr.
    case: (ltnP r (size (n_g (d_nlp d)))) => Hrg; rewrite nth_cat H4.
      by rewrite Hrg; apply: Hk => //; rewrite -(mem_act_g _ H1).
    rewrite ltnNge Hrg /=; apply: Hi; first by rewrite ltn_subLR.
    by rewrite -(mem_act_x _ H1 H2) ?ltn_subLR // subnK.
  case: ifP => Hred /=.
  - rewrite /take_idx; case: ifP => //= Ax; case: ifP => //= Al; case: ifP => //= Ap.
    case: ifP => //= /eqP Hsp.
    rewrite /same_len; case: eqP => //= Hsg; case: eqP => //= Hsx [Eq Ep]; subst q p' => /=.
    set d' := mkDiff _ _ _; set q := mkPt _ _ _ _ => HL HS Hlg Hlx.
    have W' : wf (d_nlp d') (d_bnd d') by exact: wfR.
    have Hpsz: size (gather 0 p (det_idx P (n_p P))) = size (n_p (d_nlp d')) by rewrite !size_map.
    have Hszx: size (n_x (d_nlp d')) = size (det_idx P (n_x P)) by rewrite size_map.
    split.
    + move=> /HL ->; eexists; split; first by [].
      rewrite (@check_licq_spec F fn dfn d' W' (s_tol st) q _ Hsg Hsx Hpsz) (licq_R fn dfn W).
      have Hac i': (i' < size (n_x (d_nlp d')))%N -> act_x (s_tol st) (d_bnd d') (q_x q) i' = actx (nth 0%N (det_idx P (n_x P)) i').
        by rewrite Hszx => Hi; exact: act_x_R.
      split=> H cg cx Hcg Hcx; apply: H => // i Hi Ha; apply: Hcx => //.
        by rewrite -Hac.
      by rewrite Hac.
    + move=> /HS ->; eexists; split; first by [].
      rewrite (Hgen d' W' Hsg Hsx Hpsz Hlg).
      split=> [[Hk Hi]|[Hk Hi]]; split=> //.
      * move=> i Hi0 /used_enters Hu Ha.
        have Hin: i \in det_idx P (n_x P) by rewrite mem_fidx Hi0.
        have Hlt: (index i (det_idx P (n_x P)) < size (det_idx P (n_x P)))%N by rewrite index_mem.
        have := Hi (index i (det_idx P (n_x P))); rewrite Hszx => /(_ Hlt).
        rewrite (act_x_R b x (s_tol st)) // nth_index // => /(_ Ha).
        by rewrite /= /gather (nth_map 0%N) // nth_index.
      * move=> i'; rewrite Hszx => Hi'; rewrite (act_x_R b x (s_tol st)) // /= /gather (nth_map 0%N) // => Ha.
        have := mem_nth 0%N Hi'; rewrite mem_fidx => /andP[Hlt Hu].
        by apply: Hi => //; apply/used_enters.
    + move=> Hs i j Hi Hj /used_enters Hui /used_enters Huj.
      have [S [_ /(_ Hs) HN HX _ _]] := positions Hd.
      by rewrite HX // /ux /up Hui Huj HN.
  - case: ifP => //= /eqP Hsp.
    rewrite /same_len; case: eqP => //= Hsg; case: eqP => //= Hsx [Eq Ep]; subst q p' => /=.
    set d' := mkDiff _ _ _; set q := mkPt _ _ _ _ => HL HS Hlg Hlx.
    split.
    + move=> /HL ->; eexists; split; first by [].
      exact: (@check_licq_spec F fn dfn d' W (s_tol st) q _ Hsg Hsx Hsp).
    + move=> /HS ->; eexists; split; first by [].
      rewrite (Hgen d' W Hsg Hsx Hsp Hlg).
      split=> [[Hk Hi]|[Hk Hi]]; split=> //.
        by move=> i Hi0 _; exact: Hi.
      move=> i Hi0; apply: Hi => //; apply/used_enters.
      move/negbT: Hred; rewrite -eqn0Ngt addn_eq0 => /andP[/eqP Ux /eqP Up].
      exact: (no_undet Ux).
    + move=> Hs i j Hi Hj /used_enters Hui /used_enters Huj.
      have [S [_ /(_ Hs) HN HX _ _]] := positions Hd.
      by rewrite HX // /ux /up Hui Huj HN.
Qed.
Print Assumptions C72_status.

(** lse_solved after a successful call: true exactly if the linear solver named in the settings answered
    or, with the fallback switched on, the least-squares solver did; there is one system (A, B) all
    solvers are asked. *)
Definition solver_named (s : string) (k : linsolver) : Prop :=
  s = match k with Scipy => "scipy" | CasadiQr => "casadi" | Lstsq => "lstsq" end%string.
Theorem C72_lse_solved : forall (F : realFieldType) fn dfn lin (d : differ F) st t sol pn t' r,
  differentiate fn dfn lin d st t sol pn = (t', Ok r) ->
  exists A B, t_solved t' <->
    (exists k, solver_named (s_solver st) k /\ lin k A B <> None) \/ (s_fallback st /\ lin Lstsq A B <> None).
Proof.
  move=> F fn dfn lin d st t sol pn t' r; rewrite /differentiate; case: (prepare _ _ _) => [[q p]|e] //.
  case: (extract _ _ _) => [[z act]|e] //.
  set A := sub_both _ _; set B := sub_rows (B_of _ _ _ _ _) _ => H; exists A, (neg B); move: H.
  have Hs s : (solve_lse lin A B s).2 <-> exists k, solver_named s k /\ lin k A (neg B) <> None.
    rewrite /solve_lse /parse_solver.
    case: String.eqb_spec => [->|N1]; [|case: String.eqb_spec => [->|N2]; [|case: String.eqb_spec => [->|N3]]].
    - case E: (lin _ _ _); split=> //; [by move=> _; exists Scipy; split=> //; rewrite E|by case=> -[] [] //; rewrite E].
    - case E: (lin _ _ _); split=> //; [by move=> _; exists CasadiQr; split=> //; rewrite E|by case=> -[] [] //; rewrite E].
    - case E: (lin _ _ _); split=> //; [by move=> _; exists Lstsq; split=> //; rewrite E|by case=> -[] [] //; rewrite E].
    - by split=> // -[[] []].
  have Hl : (solve_lse lin A B "lstsq").2 <-> lin Lstsq A (neg B) <> None.
    by rewrite Hs; split=> [[] [] []//|H]; exists Lstsq.
  move: (Hs (s_solver st)); case: (solve_lse lin A B (s_solver st)) => [q1 ok1] /= Hs1.
  case E2: (if ~~ ok1 && s_fallback st then _ else _) => [q2 ok2].
  have Hok : ok2 <-> (exists k, solver_named (s_solver st) k /\ lin k A (neg B) <> None) \/ (s_fallback st /\ lin Lstsq A (neg B) <> None).
    move: E2 Hl; case: ifP => [/andP[N F1] -> /= Hl|N [_ <-] _].
      rewrite -Hs1 -Hl F1; split; [by right|case=> [H|[]//]]; by rewrite H in N.
    rewrite -Hs1; split; [by left|case=> [//|[F1 _]]]; by move: N; rewrite F1 andbT; case: ok1 {Hs1}.
  by case: (if s_resid st then _ else _) => [rs|e] // [<- _].
Qed.
Print Assumptions C72_lse_solved.

(** ** C73 (refuted): the length of the parameter vector is checked only after the unused parameters
    have been dropped: for a problem with an unused trailing parameter or variable, every longer vector
    is accepted and treated like its beginning. *)
Theorem C73_parameter_length_refuted : forall (F : realFieldType) (P : nlp F) (b : bnd F) sol p extra,
  d_red (construct P b) <> None -> size p = size (n_p P) ->
  prepare (construct P b) sol (PCol (p ++ extra)) = prepare (construct P b) sol (PCol p).
Proof.
  move=> F P b sol p extra; rewrite /construct; case: ifP => // _ _ Hp.
  rewrite /prepare; case: sol => // s /=; case: (o_x s) => // x; case: (o_lg s) => // lg; case: (o_lx s) => // lx; case: (o_g s) => // g.
  have -> : take_idx (p ++ extra) (det_idx P (n_p P)) = take_idx p (det_idx P (n_p P)).
    have Hall v : all (fun i => i < size (p ++ v))%N (det_idx P (n_p P)).
      by apply/allP => i; rewrite mem_fidx -Hp size_cat => /andP[Hi _]; apply: ltn_addr.
    have := Hall extra; have := Hall [::]; rewrite cats0 /take_idx => -> ->; congr Ok.
    rewrite /gather; apply/eq_in_map => i; rewrite mem_fidx -Hp => /andP[Hi _].
    by rewrite nth_cat Hi.
  by [].
Qed.
Print Assumptions C73_parameter_length_refuted.

(** Without unused variables and parameters, a vector of the wrong length is refused. *)
Theorem C73_parameter_length_partial : forall (F : realFieldType) fn dfn lin (P : nlp F) (b : bnd F) st t s p,
  d_red (construct P b) = None -> size p <> size (n_p P) ->
  o_x s <> None -> o_lg s <> None -> o_lx s <> None -> o_g s <> None ->
  differentiate fn dfn lin (construct P b) st t (SolDict s) (PCol p) = (t, Err ExcValue).
Proof.
  move=> F fn dfn lin P b st t s p; rewrite /construct; case: ifP => // _ _ Hp H1 H2 H3 H4.
  rewrite /differentiate /prepare /=; case: (o_x s) H1 => // x _; case: (o_lg s) H2 => // lg _.
  case: (o_lx s) H3 => // lx _; case: (o_g s) H4 => // g _ /=.
  by case: eqP.
Qed.
Print Assumptions C73_parameter_length_partial.

(** One-dimensional answers (SciPy's spsolve for a single right-hand side) make the call raise. *)
Theorem C73_scipy_single_parameter_refuted : forall (F : realFieldType) fn dfn lin (P : nlp F) (b : bnd F) st t sol pn t' r,
  (forall A B, exists v, lin Scipy A B = Some (P1 v)) -> s_solver st = "scipy"%string ->
  differentiate fn dfn lin (construct P b) st t sol pn = (t', r) -> exists e, r = Err e.
Proof.
  move=> F fn dfn lin P b st t sol pn t' r Hs Hn.
  rewrite /differentiate; case: (prepare _ _ _) => [[q p]|e [_ <-]]; last by exists e.
  case: (extract _ _ _) => [[z act]|e [_ <-]]; last by exists e.
  rewrite Hn /solve_lse /=.
  set A := sub_both _ _; set B := sub_rows (B_of _ _ _ _ _) _.
  have [v ->] := Hs A (neg B) => /=.
  by case: (if s_resid st then _ else _) => [rs|e] [_ <-]; eexists.
Qed.
Print Assumptions C73_scipy_single_parameter_refuted.
