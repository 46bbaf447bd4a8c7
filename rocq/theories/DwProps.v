(** * Theorems about DoMPCDifferentiator and the controller or estimator it belongs to: C88. *)
From Verif Require Import Base.
From mathcomp Require Import all_ssreflect all_algebra.
From Verif Require Import LinModel DiffModel DiffSpec DiffProofs DiffProofs8 DiffProps DiffExamples DwModel.
Set Implicit Arguments.
Unset Strict Implicit.
Unset Printing Implicit Defensive.
Import GRing.Theory Num.Theory.
Local Open Scope ring_scope.

Section T.
  Variable F : realFieldType.
  Variable fn : nat -> F -> F.
  Variable dfn : nat -> nat.
  Variable lin : linsolver -> arr F -> arr F -> option (psens F).
  Variable S_ : call F -> reply F.
  Notation run_ := (run_ fn dfn lin S_).
  Notation last_ := (last_ fn dfn lin S_).
  Notation do_ := (do_ fn dfn lin S_).

  (** Calls that change neither problem nor bounds and make no new differentiator. *)
  Definition same_problem (a : act F) : bool := match a with WSetup _ _ | WBounds _ | WMake => false | _ => true end.
  (** Calls of differentiate. *)
  Definition is_diff (a : act F) : bool := if a is WDiff _ then true else false.
  (** The problem set up last. *)
  Definition set_up (h : seq (act F)) (P : problem F) : Prop :=
    exists h1 b h2, h = h1 ++ WSetup P b :: h2 /\ all (fun a => if a is WSetup _ _ then false else true) h2.

  Lemma run_cat h1 h2 : run_ (h1 ++ h2) = foldl (fun s a => (do_ s a).1) (run_ h1) h2.
  Proof. by rewrite /DwModel.run_ foldl_cat. Qed.

  Lemma prob_kept (h : seq (act F)) s : all (fun a => if a is WSetup _ _ then false else true) h ->
    ob_prob (wo (foldl (fun s a => (do_ s a).1) s h)) = ob_prob (wo s).
  Proof.
    elim: h s => [//|a h IH] s /= /andP[Ha Hh]; rewrite IH //.
    case: a Ha => //= [p _|_|st _].
    - by rewrite /step_; case E: (ob_prob (wo s)) => [P|] /=; rewrite ?E.
    - by rewrite /make; case E: (ob_prob (wo s)) => [P|] /=; rewrite ?E.
    - by case: (wd s) => [w|//]; rewrite /diff_; case: (ob_sol (wo s)) => [[[g lg] lx]|//];
        case: (dompc_differentiate _ _ _ _ _ _ _ _ _) => t [[dx dl]|e].
  Qed.
  Lemma set_up_prob h P : set_up h P -> ob_prob (wo (run_ h)) = Some P.
  Proof. by case=> h1 [b [h2 [-> Hh]]]; rewrite run_cat /= prob_kept. Qed.

  Definition frozen (s s' : world F) : Prop :=
    ob_prob (wo s') = ob_prob (wo s) /\ ob_bnd (wo s') = ob_bnd (wo s)
    /\ forall w, wd s = Some w -> exists2 w', wd s' = Some w' & w_scal w' = w_scal w /\ w_d w' = w_d w.
  Lemma frozen_refl s : frozen s s. Proof. by split=> //; split=> // w ->; exists w. Qed.
  Lemma diff_frozen o w st : w_scal (diff_ fn dfn lin o w st).1 = w_scal w /\ w_d (diff_ fn dfn lin o w st).1 = w_d w.
  Proof.
    by rewrite /diff_; case: (ob_sol o) => [[[g lg] lx]|//]; case: (dompc_differentiate _ _ _ _ _ _ _ _ _) => t [[dx dl]|e].
  Qed.
  Lemma frozen_do s a : same_problem a -> frozen s (do_ s a).1.
  Proof.
    case: a => //= [x|p|p|st] _; try (by split=> //; split=> // w ->; exists w).
    - rewrite /step_; case E: (ob_prob (wo s)) => [P|] /=; split=> //; split=> // w ->; by exists w.
    - case E: (wd s) => [w|] /=; last by split=> //; split=> // w; rewrite E.
      case E2: (diff_ _ _ _ _ _ _) => [w' r] /=; split=> //; split=> // w0; rewrite E => -[<-].
      exists w' => //; have := diff_frozen (wo s) w st; by rewrite E2.
  Qed.
  Lemma frozen_run (h : seq (act F)) s : all same_problem h -> frozen s (foldl (fun s a => (do_ s a).1) s h).
  Proof.
    elim: h s => [s _|a h IH s /= /andP[Ha Hh]]; first exact: frozen_refl.
    have [A1 [A2 A3]] := frozen_do s Ha; have [B1 [B2 B3]] := IH (do_ s a).1 Hh.
    split; [by rewrite B1|split; [by rewrite B2|]] => w /A3 [w1 /B3 [w2 E2 [Q1 Q2]] [Q3 Q4]].
    exists w2 => //; by rewrite Q1 Q2.
  Qed.
  Lemma diffs_keep (h : seq (act F)) s : all is_diff h ->
    wo (foldl (fun s a => (do_ s a).1) s h) = wo s.
  Proof.
    elim: h s => [//|a h IH] s /= /andP[Ha Hh]; rewrite IH //; case: a Ha => //= st _.
    by case: (wd s) => [w|//]; case: (diff_ _ _ _ _ _ _).
  Qed.
  Lemma is_diff_same h : all is_diff h -> all same_problem h.
  Proof. by apply: sub_all => -[]. Qed.

  Lemma reads : forall h0 h1 h2 p st c y dx dl P w,
    set_up h0 P -> all same_problem h1 -> all is_diff h2 ->
    last_ (h0 ++ WMake F :: h1) (WStep p) = OCall c y ->
    let h := h0 ++ WMake F :: h1 ++ WStep p :: h2 in
    last_ h (WDiff st) = OSens dx dl ->
    wd (run_ (h ++ [:: WDiff st])) = Some w ->
    [/\ c_nlp c = pr_nlp P, c_p c = p, w_sens w = dx
      & exists t, dompc_differentiate fn dfn lin (pr_scal P) (construct (c_nlp c) (c_bnd c)) st t
          (SolDict (mkSol (Some (y_x y)) (Some (y_lg y)) (Some (y_lx y)) (Some (y_g y)))) (PCol p) = (w_st w, Ok (dx, dl))].
  Proof.
    move=> h0 h1 h2 p st c y dx dl P w HP H1 H2 Hstep h Hdiff Hw.
    have E0 := set_up_prob HP.
    (* the world after WMake *)
    set s1 := (do_ (run_ h0) (WMake F)).1.
    have Es1 : s1 = mkW (wo (run_ h0)) (Some (mkD (pr_scal P) (construct (pr_nlp P) (ob_bnd (wo (run_ h0)))) (status0 F)
                       (OArr (size (n_x (pr_nlp P))) (size (n_p (pr_nlp P))) (fun _ _ => Some 0)))).
      by rewrite /s1 /= /make E0.
    set s2 := foldl (fun s a => (do_ s a).1) s1 h1.
    have [F1 [F2 F3]] : frozen s1 s2 by apply: frozen_run.
    have [w2 Ew2 [Sw2 Dw2]] := F3 _ (f_equal (@wd F) Es1).
    have Ep : ob_prob (wo s2) = Some P by rewrite F1 Es1 /= E0.
    have R2 : run_ (h0 ++ WMake F :: h1) = s2 by rewrite run_cat.
    move: Hstep; rewrite /DwModel.last_ R2 /= /step_ Ep /= => -[Ec Ey].
    set s3 := (do_ s2 (WStep p)).1.
    have Es3 : s3 = mkW (mkOb (Some P) (ob_bnd (wo s2)) (y_x y) p (Some (y_g y, y_lg y, y_lx y))) (Some w2).
      by rewrite /s3 /= /step_ Ep /= Ey Ew2.
    set s4 := foldl (fun s a => (do_ s a).1) s3 h2.
    have [_ [_ G3]] : frozen s3 s4 by apply/frozen_run/is_diff_same.
    have [w4 Ew4 [Sw4 Dw4]] := G3 w2 (f_equal (@wd F) Es3).
    have Eo4 : wo s4 = wo s3 by apply: diffs_keep.
    have R4 : run_ h = s4 by rewrite /h run_cat /= foldl_cat.
    move: Hdiff Hw; rewrite run_cat R4 /DwModel.last_ R4 /= Ew4 /diff_ Eo4 Es3 /=.
    have -> : w_scal w4 = pr_scal P by rewrite Sw4 Sw2.
    have Eb : w_d w4 = construct (c_nlp c) (c_bnd c) by rewrite Dw4 Dw2 -Ec /= F2 Es1.
    rewrite Eb.
    case Ed: (dompc_differentiate _ _ _ _ _ _ _ _ _) => [t [[dx' dl']|e]] //= -[<- <-] [Ew].
    rewrite -Ew /=; split=> //; [by rewrite -Ec|by rewrite -Ec|]; by exists (w_st w4).
  Qed.

  (** ** C88: the sensitivities belong to the problem that was solved last.  Take any history in which a
      differentiator is made after setup and after that neither setup nor bounds are changed; then a
      make_step, then any number of calls of differentiate with any settings.  Whenever such a call
      succeeds and the residual is zero, the matrix returned, which is also what sens_num holds, contains
      the derivatives of the physical variables: for every direction the changes (scaled back by the
      factors of the problem set up last) keep the optimality conditions of the problem the solver was
      last called with valid to first order, at the solution it returned, for the parameters and with the
      active set of the bounds it was called with. *)
  Theorem C88_last_solve_partial : forall h0 h1 h2 p st c y dx dl P w,
    set_up h0 P -> all same_problem h1 -> all is_diff h2 ->
    last_ (h0 ++ WMake F :: h1) (WStep p) = OCall c y ->
    let h := h0 ++ WMake F :: h1 ++ WStep p :: h2 in
    last_ h (WDiff st) = OSens dx dl ->
    wf (c_nlp c) (c_bnd c) -> s_resid st ->
    wd (run_ (h ++ [:: WDiff st])) = Some w -> t_resid (w_st w) = Some (Some 0) ->
    let nx := size (n_x (c_nlp c)) in let ng := size (n_g (c_nlp c)) in let np := size (n_p (c_nlp c)) in
    c_nlp c = pr_nlp P /\ c_p c = p /\ w_sens w = dx
    /\ exists DX DL : nat -> nat -> F,
      (forall i j, oent dx i j = Some (DX i j)) /\ (forall r j, oent dl r j = Some (DL r j)) /\
      forall dp, exists d : nat -> F,
        tracks fn dfn (c_nlp c) (act_g (s_tol st) (c_bnd c) (y_g y)) (act_x (s_tol st) (c_bnd c) (y_x y)) (y_x y) (y_lg y) (y_lx y) p
               d (along np DL dp) (fun i => along np DL dp (ng + i)) dp
        /\ forall i, along np DX dp i = d i * nth 0 (pr_scal P) i.
  Proof.
    move=> h0 h1 h2 p st c y dx dl P w HP H1 H2 Hstep h Hdiff W Hrs Hw Hr0 nx ng np.
    have [E1 E2 E3 [t Ed]] := reads HP H1 H2 Hstep Hdiff Hw.
    by split=> //; split=> //; split=> //; exact: (C71_scaled W Ed Hrs Hr0).
  Qed.

  (** ... and if the rank check is on and reports full rank they are the only ones: every change that keeps
      these conditions has, in every variable that enters the problem, the physical change returned. *)
  Theorem C88_unique_partial : forall h0 h1 h2 p st c y dx dl P w,
    set_up h0 P -> all same_problem h1 -> all is_diff h2 ->
    last_ (h0 ++ WMake F :: h1) (WStep p) = OCall c y ->
    let h := h0 ++ WMake F :: h1 ++ WStep p :: h2 in
    last_ h (WDiff st) = OSens dx dl ->
    wf (c_nlp c) (c_bnd c) -> s_resid st -> s_rank st ->
    wd (run_ (h ++ [:: WDiff st])) = Some w -> t_resid (w_st w) = Some (Some 0) -> t_rank (w_st w) = Some true ->
    exists DX : nat -> nat -> F, (forall i j, oent dx i j = Some (DX i j)) /\
      forall dp d dlg dlx,
        tracks fn dfn (c_nlp c) (act_g (s_tol st) (c_bnd c) (y_g y)) (act_x (s_tol st) (c_bnd c) (y_x y)) (y_x y) (y_lg y) (y_lx y) p d dlg dlx dp ->
        forall i, (i < size (n_x (c_nlp c)))%N -> enters (c_nlp c) (nth (usym 0) (n_x (c_nlp c)) i) ->
          along (size (n_p (c_nlp c))) DX dp i = d i * nth 0 (pr_scal P) i.
  Proof.
    move=> h0 h1 h2 p st c y dx dl P w HP H1 H2 Hstep h Hdiff W Hrs Hrk Hw Hr0 Ht.
    have [_ _ _ [t]] := reads HP H1 H2 Hstep Hdiff Hw.
    rewrite /dompc_differentiate; case Ed: (differentiate _ _ _ _ _ _ _ _) => [t1 [[Mx Ml]|e]] //= -[Et Ex El].
    rewrite -Et in Hr0 Ht.
    have [DX [DL [HX [HL HU]]]] := C71_unique W Ed Hrs Hr0 Hrk Ht.
    exists (fun i j => DX i j * nth 0 (pr_scal P) i); split; first by move=> i j; rewrite -Ex /= HX.
    move=> dp d dlg dlx /HU [U1 _ _] i Hi He; rewrite (U1 i Hi He) /along mulr_suml; apply: eq_bigr => j _; by rewrite mulrAC.
  Qed.

  (** Before setup no differentiator can be made; before the first solve differentiate raises; a call that
      raises leaves sens_num as it was. *)
  Theorem C88_refused : 
    (forall h, all (fun a => if a is WSetup _ _ then false else true) h -> last_ h (WMake F) = OErr F ExcAttribute)
    /\ (forall h st, all (fun a => if a is WStep _ then false else true) h ->
          last_ h (WDiff st) = OErr F ExcAttribute \/ last_ h (WDiff st) = OErr F ExcName)
    /\ (forall h st e w, last_ h (WDiff st) = OErr F e -> wd (run_ h) = Some w ->
          exists2 w', wd (run_ (h ++ [:: WDiff st])) = Some w' & w_sens w' = w_sens w).
  Proof.
    split; [|split].
    - move=> h Hh; rewrite /DwModel.last_ /= /make.
      have -> : ob_prob (wo (run_ h)) = None by rewrite /DwModel.run_ prob_kept.
      by [].
    - move=> h st Hh; have E : ob_sol (wo (run_ h)) = None.
        rewrite /DwModel.run_; have : ob_sol (wo (w_init F)) = None by [].
        elim: h (w_init F) Hh => [//|a h IH] s /= /andP[Ha Hh] Hs; apply: IH => //.
        case: a Ha => //= [_|st' _]; first by rewrite /make; case: (ob_prob (wo s)).
        by case: (wd s) => [w|//]; case: (diff_ _ _ _ _ _ _).
      rewrite /DwModel.last_ /=; case: (wd (run_ h)) => [w|]; last by right.
      by left; rewrite /diff_ E.
    - move=> h st e w; rewrite run_cat /DwModel.last_ /= => + Ew; rewrite Ew /diff_.
      case: (ob_sol (wo (run_ h))) => [[[g lg] lx]|]; last by move=> _; exists w.
      case: (dompc_differentiate _ _ _ _ _ _ _ _ _) => t [[dx dl]|e'] //= _; by eexists.
  Qed.
End T.

(** ** False of the code: bounds changed after the differentiator was made are not seen.
    minimise (x - p)^2 with bounds on x only. *)
Definition e2 : ex Q := let d := Add (v 0) (Mul (Cst (-1 : Q)) (v 1)) in Mul d d.
Definition P2_ : nlp Q := mkNlp [:: usym 0] [:: usym 1] e2 [::].
Definition upto (u : Q) : bnd Q := mkBnd [:: None] [:: Some u] [::] [::].
(** The exact solution of systems with one or two unknowns. *)
Definition lin2M (A B : arr Q) : arr Q :=
  let a := ent A 0 0 in let b := ent A 0 1 in let c := ent A 1 0 in let d := ent A 1 1 in
  Arr (nr A) (nc B) (fun i j =>
    if nr A == 1%N then ent B 0 j / a
    else if i == 0%N then (d * ent B 0 j - b * ent B 1 j) / (a * d - b * c)
    else (a * ent B 1 j - c * ent B 0 j) / (a * d - b * c)).
Definition lin2 (k : linsolver) (A B : arr Q) : option (psens Q) := Some (P2 (lin2M A B)).
(** The exact solver of these problems: the parameter, cut off at the upper bound. *)
Definition S2 (c : call Q) : reply Q :=
  let p := nth 0 (c_p c) 0 in
  let u := if nth None (b_ubx (c_bnd c)) 0 is Some u then u else p in
  if u <= p then mkReply [:: u] [::] [::] [:: 2%:R * (p - u)] else mkReply [:: p] [::] [::] [:: 0].
Definition set2 : settings Q := mkSet "casadi" false false false false true (1%:R / 1000%:R) false.
Definition start2 : seq (act Q) := [:: WSetup (mkProb P2_ [:: 1]) (upto 10%:R); WMake Q].

Lemma last_diff fn dfn lin S_ (h : seq (act Q)) w st : wd (run_ fn dfn lin S_ h) = Some w ->
  last_ fn dfn lin S_ h (WDiff st) = (diff_ fn dfn lin (wo (run_ fn dfn lin S_ h)) w st).2.
Proof. by rewrite /last_ /do_ => ->; case: (diff_ _ _ _ _ _ _). Qed.

(** Every change that tracks the optimum of a problem with an active bound leaves x where it is. *)
Lemma bound_active fn dfn (b : bnd Q) tol x g lg lx p d dlg dlx dp : act_x tol b x 0 ->
  tracks fn dfn P2_ (act_g tol b g) (act_x tol b x) x lg lx p d dlg dlx dp -> d 0%N = 0.
Proof. by move=> Ha [_ _ /(_ 0%N isT Ha) ->]. Qed.

(** What differentiate returns for this problem with the upper bound u when it was made, read off at the
    point x with parameter p and multiplier l: the bound active or not. *)
Lemma diff2 (w : dobj Q) u x p l act :
  w_d w = construct P2_ (upto u) -> w_scal w = [:: 1] ->
  where_active (s_tol set2) [:: x] [:: None] [:: Some u] = act ->
  let o := mkOb (Some (mkProb P2_ [:: 1])) (upto u) [:: x] [:: p] (Some ([::], [::], [:: l])) in
  forall o', ob_x o' = ob_x o -> ob_p o' = ob_p o -> ob_sol o' = ob_sol o ->
  exists dx dl, (diff_ fn0 dfn0 lin2 o' w set2).2 = OSens dx dl
    /\ oent dx 0 0 = Some (ent (lin2M (sub_both (A_of fn0 dfn0 P2_ [:: x; l] [:: p]) (keep_idx (construct P2_ (upto u)) act))
                                (neg (sub_rows (B_of fn0 dfn0 P2_ [:: x; l] [:: p]) (keep_idx (construct P2_ (upto u)) act)))) 0 0 * 1).
Proof.
  move=> Ed Es Ea o o' Ex Ep Eo.
  rewrite /diff_ Ex Ep Eo /o /= /dompc_differentiate /differentiate Ed Es.
  have -> : prepare (construct P2_ (upto u)) (SolDict (mkSol (Some [:: x]) (Some [::]) (Some [:: l]) (Some [::]))) (PCol [:: p])
    = Ok (mkPt [:: x] [::] [:: l] [::], [:: p]) by [].
  have -> : extract (construct P2_ (upto u)) set2 (mkPt [:: x] [::] [:: l] [::]) = Ok ([:: x; l], act).
    rewrite /extract /= /active_cons /= -/(where_active _ _ _ _) -Ea; congr (Ok (_, _)).
    by elim: (where_active _ _ _ _) => [//|i r /= ->]; rewrite addn0.
  set d := construct P2_ (upto u); set A := sub_both _ _; set B := sub_rows (B_of _ _ _ _ _) _.
  rewrite -[d_red d]/(@None red) -[s_licq set2]/false -[s_sc set2]/false -[s_rank set2]/false -[s_resid set2]/false
    -[s_fallback set2]/true -[s_solver set2]/"casadi"%string.
  have -> : solve_lse lin2 A B "casadi" = (Sol (P2 (lin2M A (neg B))), true) by [].
  rewrite -[~~ true && true]/false; cbv beta iota.
  rewrite /map_sens.
  have -> : (size act == nr (lin2M A (neg B)) - size (n_x (d_nlp d)))%N = true.
    by rewrite -[nr _]/(1 + size (map (fun i => i + 1)%N act))%N size_map addKn eqxx.
  by eexists _, _; split; reflexivity.
Qed.

(** The bound x <= 10 becomes x <= 1 after the differentiator was made; the parameter is 3.  The solver
    finds x = 1 at the bound, where no change of the parameter moves x; differentiate returns dx/dp = 1. *)
Theorem C88_bounds_refuted :
  exists c y dx dl,
    last_ fn0 dfn0 lin2 S2 (start2 ++ [:: WBounds (upto 1)]) (WStep [:: 3%:R]) = OCall c y
    /\ last_ fn0 dfn0 lin2 S2 (start2 ++ [:: WBounds (upto 1); WStep [:: 3%:R]]) (WDiff set2) = OSens dx dl
    /\ c_bnd c = upto 1 /\ y_x y = [:: 1] /\ oent dx 0 0 = Some 1
    /\ forall d dlg dlx dp, tracks fn0 dfn0 (c_nlp c) (act_g (s_tol set2) (c_bnd c) (y_g y)) (act_x (s_tol set2) (c_bnd c) (y_x y))
         (y_x y) (y_lg y) (y_lx y) [:: 3%:R] d dlg dlx dp -> d 0%N = 0.
Proof.
  have [dx [dl [E1 E2]]] : exists dx dl, last_ fn0 dfn0 lin2 S2 (start2 ++ [:: WBounds (upto 1); WStep [:: 3%:R]]) (WDiff set2) = OSens dx dl
      /\ oent dx 0 0 = Some 1.
    have [dx [dl [E1 E2]]] := @diff2 (mkD [:: 1] (construct P2_ (upto 10%:R)) (status0 Q) (OArr 1 1 (fun _ _ => Some 0))) 10%:R 1 3%:R 4%:R [::]
      erefl erefl ltac:(apply/eqP; vm_compute; reflexivity) (wo (run_ fn0 dfn0 lin2 S2 (start2 ++ [:: WBounds (upto 1); WStep [:: 3%:R]]))) ltac:(apply/eqP; vm_compute; reflexivity) ltac:(apply/eqP; vm_compute; reflexivity) ltac:(apply/eqP; vm_compute; reflexivity).
    exists dx, dl; split; last by rewrite E2; congr Some; apply/eqP; vm_compute.
    by rewrite -E1; apply: last_diff; reflexivity.
  eexists _, _, dx, dl; split; [reflexivity|]; split; [exact: E1|split; [reflexivity|split; [by apply/eqP; vm_compute|split; [exact: E2|]]]].
  move=> d dlg dlx dp; apply: bound_active; by vm_compute.
Qed.

(** The same with a second setup instead: the differentiator keeps the first problem. *)
Theorem C88_setup_refuted :
  exists c y dx dl,
    last_ fn0 dfn0 lin2 S2 (start2 ++ [:: WSetup (mkProb P2_ [:: 1]) (upto 1)]) (WStep [:: 3%:R]) = OCall c y
    /\ last_ fn0 dfn0 lin2 S2 (start2 ++ [:: WSetup (mkProb P2_ [:: 1]) (upto 1); WStep [:: 3%:R]]) (WDiff set2) = OSens dx dl
    /\ oent dx 0 0 = Some 1
    /\ forall d dlg dlx dp, tracks fn0 dfn0 (c_nlp c) (act_g (s_tol set2) (c_bnd c) (y_g y)) (act_x (s_tol set2) (c_bnd c) (y_x y))
         (y_x y) (y_lg y) (y_lx y) [:: 3%:R] d dlg dlx dp -> d 0%N = 0.
Proof.
  have [dx [dl [E1 E2]]] : exists dx dl, last_ fn0 dfn0 lin2 S2 (start2 ++ [:: WSetup (mkProb P2_ [:: 1]) (upto 1); WStep [:: 3%:R]]) (WDiff set2) = OSens dx dl
      /\ oent dx 0 0 = Some 1.
    have [dx [dl [E1 E2]]] := @diff2 (mkD [:: 1] (construct P2_ (upto 10%:R)) (status0 Q) (OArr 1 1 (fun _ _ => Some 0))) 10%:R 1 3%:R 4%:R [::]
      erefl erefl ltac:(apply/eqP; vm_compute; reflexivity) (wo (run_ fn0 dfn0 lin2 S2 (start2 ++ [:: WSetup (mkProb P2_ [:: 1]) (upto 1); WStep [:: 3%:R]]))) ltac:(apply/eqP; vm_compute; reflexivity) ltac:(apply/eqP; vm_compute; reflexivity) ltac:(apply/eqP; vm_compute; reflexivity).
    exists dx, dl; split; last by rewrite E2; congr Some; apply/eqP; vm_compute.
    by rewrite -E1; apply: last_diff; reflexivity.
  eexists _, _, dx, dl; split; [reflexivity|]; split; [exact: E1|split; [exact: E2|]].
  move=> d dlg dlx dp; apply: bound_active; by vm_compute.
Qed.

(** A new initial guess between make_step and differentiate is taken for the solution: here a guess at the
    bound makes the bound active, 0 instead of 1 is returned. *)
Theorem C88_guess_refuted :
  exists dx dl dx' dl',
    last_ fn0 dfn0 lin2 S2 (start2 ++ [:: WStep [:: 3%:R]]) (WDiff set2) = OSens dx dl /\ oent dx 0 0 = Some 1
    /\ last_ fn0 dfn0 lin2 S2 (start2 ++ [:: WStep [:: 3%:R]; WGuess [:: 10%:R]]) (WDiff set2) = OSens dx' dl' /\ oent dx' 0 0 = Some 0.
Proof.
  pose w := mkD [:: 1] (construct P2_ (upto 10%:R)) (status0 Q) (OArr 1 1 (fun _ _ => Some 0)).
  have [dx [dl [E1 E2]]] := @diff2 w 10%:R 3%:R 3%:R 0 [::] erefl erefl ltac:(apply/eqP; vm_compute; reflexivity) (wo (run_ fn0 dfn0 lin2 S2 (start2 ++ [:: WStep [:: 3%:R]]))) ltac:(apply/eqP; vm_compute; reflexivity) ltac:(apply/eqP; vm_compute; reflexivity) ltac:(apply/eqP; vm_compute; reflexivity).
  have [dx' [dl' [E1' E2']]] := @diff2 w 10%:R 10%:R 3%:R 0 [:: 0%N] erefl erefl ltac:(apply/eqP; vm_compute; reflexivity)
    (wo (run_ fn0 dfn0 lin2 S2 (start2 ++ [:: WStep [:: 3%:R]; WGuess [:: 10%:R]]))) ltac:(apply/eqP; vm_compute; reflexivity) ltac:(apply/eqP; vm_compute; reflexivity) ltac:(apply/eqP; vm_compute; reflexivity).
  exists dx, dl, dx', dl'; split; first (by rewrite -E1; apply: last_diff; reflexivity).
  split; first by rewrite E2; congr Some; apply/eqP; vm_compute.
  split; first by rewrite -E1'; apply: last_diff; reflexivity.
  by rewrite E2'; congr Some; apply/eqP; vm_compute.
Qed.

(** The hypotheses of C88_last_solve_partial and C88_unique_partial: the problem of DiffExamples.v with scaling 2, 1, 1. *)
Definition S1 (c : call Q) : reply Q := mkReply [:: -1; 1; 5%:R] [:: 0] [:: -2%:R] [:: 0; 0; 0].
Example C88_nonvacuous : exists c y dx dl w,
  let P := mkProb exP [:: 2%:R; 1; 1] in let h0 := [:: WSetup P exB] in let p := [:: 1; 7%:R] in
  set_up h0 P
  /\ last_ fn0 dfn0 exlin S1 (h0 ++ [:: WMake Q]) (WStep p) = OCall c y
  /\ last_ fn0 dfn0 exlin S1 (h0 ++ [:: WMake Q; WStep p]) (WDiff exset) = OSens dx dl
  /\ wf (c_nlp c) (c_bnd c)
  /\ wd (run_ fn0 dfn0 exlin S1 ((h0 ++ [:: WMake Q; WStep p]) ++ [:: WDiff exset])) = Some w
  /\ t_resid (w_st w) = Some (Some 0) /\ t_rank (w_st w) = Some true
  /\ oent dx 0 0 = Some (- 2%:R) /\ oent dx 1 0 = Some 1.
Proof.
  have [t' [Mx [Ml [W [E [R0 [Rk [_ [E1 E2 _ _ _]]]]]]]]] := C71_nonvacuous.
  pose P := mkProb exP [:: 2%:R; 1; 1]; pose p := [:: 1; 7%:R] : seq Q.
  pose c := mkCall exP exB [:: 0; 0; 0] p None.
  pose w0 := mkD [:: 2%:R; 1; 1] (construct exP exB) (status0 Q) (OArr 3 2 (fun _ _ => Some 0)).
  pose o := mkOb (Some P) exB [:: -1; 1; 5%:R] p (Some ([:: 0], [:: -2%:R], [:: 0; 0; 0])).
  pose h := [:: WSetup P exB; WMake Q; WStep p].
  have D : diff_ fn0 dfn0 exlin o w0 exset = (mkD [:: 2%:R; 1; 1] (construct exP exB) t' (rescale [:: 2%:R; 1; 1] Mx), OSens (rescale [:: 2%:R; 1; 1] Mx) Ml).
    rewrite /diff_ /o /w0; cbn [ob_sol ob_x ob_p w_scal w_d w_st w_sens]; rewrite /dompc_differentiate; by rewrite E.
  have R : run_ fn0 dfn0 exlin S1 h = mkW o (Some w0) by reflexivity.
  exists c, (S1 c), (rescale [:: 2%:R; 1; 1] Mx), Ml, (mkD [:: 2%:R; 1; 1] (construct exP exB) t' (rescale [:: 2%:R; 1; 1] Mx)).
  split; first (exists [::], exB, [::]; exact: (conj erefl erefl)).
  split; first reflexivity.
  split; first (rewrite (@last_diff _ _ _ _ h w0) ?R; [rewrite -[wo _]/o D; exact: erefl|exact: erefl]).
  split; first exact: W.
  split; first (rewrite run_cat -/h R; change (wd (let (w', r) := diff_ fn0 dfn0 exlin o w0 exset in (mkW o (Some w'), r)).1 = Some (mkD [:: 2%:R; 1; 1] (construct exP exB) t' (rescale [:: 2%:R; 1; 1] Mx))); rewrite D; exact: erefl).
  split; [exact: R0|split; [exact: Rk|]].
  rewrite /rescale; cbn [oent]; rewrite E1 E2; cbn [omap obind oapp nth].
  by split; congr Some; rewrite ?mulN1r ?mulr1.
Qed.

Print Assumptions C88_last_solve_partial.
Print Assumptions C88_unique_partial.
Print Assumptions C88_refused.
Print Assumptions C88_bounds_refuted.
Print Assumptions C88_setup_refuted.
Print Assumptions C88_guess_refuted.
Print Assumptions C88_nonvacuous.
