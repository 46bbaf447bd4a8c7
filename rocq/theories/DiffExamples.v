(** * The hypotheses of the theorems about the differentiator are met: a problem with an unused
    variable and an unused parameter,
        minimise x0^2 + x1^2 + 4 q0 x0   subject to  x0 + x1 = 0,
    at q0 = 1: x0 = -1, x1 = 1, multiplier -2. *)
From Verif Require Import Base.
From mathcomp Require Import all_ssreflect all_algebra.
From Verif Require Import LinModel DiffModel DiffSpec DiffProofs DiffProofs8 DiffProps.
Set Implicit Arguments.
Unset Strict Implicit.
Unset Printing Implicit Defensive.
Import GRing.Theory Num.Theory.
Local Open Scope ring_scope.

Notation Q := rat_realFieldType.
Definition fn0 : nat -> Q -> Q := fun _ v => v.
Definition dfn0 : nat -> nat := fun k => k.
Definition v (k : nat) : ex Q := Sym Q (usym k).
Definition exF : ex Q := Add (Add (Mul (v 0) (v 0)) (Mul (v 1) (v 1))) (Mul (Mul (Cst (4%:R : Q)) (v 3)) (v 0)).
Definition exP : nlp Q :=
  mkNlp [:: usym 0; usym 1; usym 2] [:: usym 3; usym 4] exF [:: Add (v 0) (v 1)].
Definition exB : bnd Q :=
  mkBnd [:: None; None; Some 0] [:: None; None; None] [:: Some 0] [:: Some 0].

Definition exS : arr Q := Arr 3 1 (fun i _ => nth 0 [:: - 1; 1; - 2%:R] i).
Definition exlin : linsolver -> arr Q -> arr Q -> option (psens Q) := fun _ _ _ => Some (P2 exS).
Definition exset : settings Q := mkSet "casadi" true true true true true (1%:R / 1000%:R) false.
Definition exsol : solarg Q :=
  SolDict (mkSol (Some [:: -1; 1; 5%:R]) (Some [:: -2%:R]) (Some [:: 0; 0; 0]) (Some [:: 0])).

Lemma exwf : wf exP exB.
Proof. split=> //= [s|k s]. 
- by rewrite /exF /=; case: s.
- by case: k => [|[]] //= _; case: s.
Qed.

Lemma ex_construct : construct exP exB =
  mkDiff (mkNlp [:: usym 0; usym 1] [:: usym 3] exF [:: Add (v 0) (v 1)])
         (mkBnd [:: None; None] [:: None; None] [:: Some 0] [:: Some 0])
         (Some (mkRed [:: 0; 1]%N [:: 0]%N 3 2)).
Proof. by []. Qed.

Definition exq : point Q := mkPt [:: -1; 1] [:: -2%:R] [:: 0; 0] [:: 0].
Lemma ex_prepare : prepare (construct exP exB) exsol (PCol [:: 1; 7%:R]) = Ok (exq, [:: 1]).
Proof. reflexivity. Qed.
Definition exz : seq Q := [:: -1; 1; -2%:R; 0; 0].
Lemma ex_extract : extract (construct exP exB) exset exq = Ok (exz, [:: 0%N]).
Proof. reflexivity. Qed.

Definition exA : arr Q := sub_both (A_of fn0 dfn0 (d_nlp (construct exP exB)) exz [:: 1]) [:: 0; 1; 2]%N.
Definition exBm : arr Q := sub_rows (B_of fn0 dfn0 (d_nlp (construct exP exB)) exz [:: 1]) [:: 0; 1; 2]%N.

Record tab (A B : arr Q) : Prop := {
  tab_nr : nr A = 3%N; tab_nc : nc A = 3%N; tab_ncB : nc B = 1%N;
  tab_0 : forall i, (i < 3)%N -> ent A i 0 = nth 0 [:: 2%:R; 0; 1] i;
  tab_1 : forall i, (i < 3)%N -> ent A i 1 = nth 0 [:: 0; 2%:R; 1] i;
  tab_2 : forall i, (i < 3)%N -> ent A i 2 = nth 0 [:: 1; 1; 0] i;
  tab_B : forall i, (i < 3)%N -> ent B i 0 = nth 0 [:: 4%:R; 0; 0] i }.

Lemma ex_tab : tab exA exBm.
Proof. split=> // i; case: i => [|[|[|]]] // _; apply/eqP; vm_compute; reflexivity. Qed.

Lemma ex_res0 A B : tab A B -> resid2 A B (ent exS) = 0.
Proof.
  case: A => ra ca A; case: B => rb cb B [] /= -> -> -> H0 H1 H2 HB.
  rewrite /resid2 big1 // => [[i Hi]] _; rewrite big1 // => [[j Hj]] _.
  rewrite /res_entry !big_ord_recl big_ord0 /=.
  have -> : j = 0%N by case: j Hj.
  rewrite -[bump 0 (bump 0 0)]/2%N -[bump 0 0]/1%N.
  rewrite (H0 i Hi) (H1 i Hi) (H2 i Hi) (HB i Hi).
  case: i Hi => [|[|[|]]] // _; apply/eqP; vm_compute; reflexivity.
Qed.

Lemma ex_rank A B : tab A B -> check_rank A.
Proof.
  case: A => ra ca A; case: B => rb cb B [] /= -> _ _ H0 H1 H2 HB.
  rewrite /check_rank /=; apply/row_free_ker => u Hu.
  have Hc (j : 'I_3) : \sum_(i < 3) u 0 i * A i j = 0.
    move/rowP/(_ j): Hu; rewrite !mxE => E; rewrite -[RHS]E; apply: eq_bigr => i _; by rewrite !mxE.
  have C0 := Hc ord0; have C1 := Hc (inord 1); have C2 := Hc (inord 2).
  move: C0 C1 C2; rewrite !inordK // !big_ord_recl !big_ord0 /= -[bump 0 (bump 0 0)]/2%N -[bump 0 0]/1%N.
  rewrite !H0 // !H1 // !H2 //=.
  set a := u 0 _; set c := u 0 _; set d := u 0 _; rewrite !mulr1 !mulr0 !addr0 ?add0r => C0 C1 C2.
  have Ea : a = - c by apply/eqP; rewrite -addr_eq0 C2.
  have Ec : c = 0.
    have : c * 2%:R = a * 2%:R by apply: (addIr d); rewrite C0 C1.
    rewrite Ea mulNr => /eqP; rewrite -addr_eq0 -mulrDr mulf_eq0 => /orP[/eqP//|]; by vm_compute.
  have Ea0 : a = 0 by rewrite Ea Ec oppr0.
  have Ed : d = 0 by move: C0; rewrite Ea0 mul0r add0r.
  apply/rowP => i; rewrite mxE; case: i => [[|[|[|]]] Hi] //.
  - by rewrite -Ea0 /a; congr (u _ _); apply/val_inj.
  - by rewrite -Ec /c; congr (u _ _); apply/val_inj.
  - by rewrite -Ed /d; congr (u _ _); apply/val_inj.
Qed.

Example C71_nonvacuous : exists t' Mx Ml,
  wf exP exB /\
  differentiate fn0 dfn0 exlin (construct exP exB) exset (status0 Q) exsol (PCol [:: 1; 7%:R]) = (t', Ok (Mx, Ml))
  /\ t_resid t' = Some (Some 0) /\ t_rank t' = Some true /\ t_solved t'
  /\ [/\ oent Mx 0 0 = Some (- 1), oent Mx 1 0 = Some 1, oent Mx 0 1 = Some 0, oent Mx 2 0 = Some 0 & oent Ml 0 0 = Some (- 2%:R)].
Proof.
  have -> : differentiate fn0 dfn0 exlin (construct exP exB) exset (status0 Q) exsol (PCol [:: 1; 7%:R])
    = match (let! r := residuals exA exBm (Sol (P2 exS)) in Ok (Some r)) with
      | Err e => (mkStat (Some (check_licq fn0 dfn0 (construct exP exB) (take 2 exz) [:: 1] [:: 0%N]))
                         (Some (check_sc (s_tol exset) (drop 2 exz) [:: 0%N])) None true (Some (check_rank exA)), Err e)
      | Ok rs => (mkStat (Some (check_licq fn0 dfn0 (construct exP exB) (take 2 exz) [:: 1] [:: 0%N]))
                         (Some (check_sc (s_tol exset) (drop 2 exz) [:: 0%N])) rs true (Some (check_rank exA)),
                  let! (dx, dl) := map_sens (construct exP exB) (Sol (P2 exS)) [:: 0%N] in
                  Ok (to_full (construct exP exB) (mkRed [:: 0; 1]%N [:: 0]%N 3 2) dx dl))
      end.
    by rewrite /differentiate ex_prepare ex_extract.
  have -> : residuals exA exBm (Sol (P2 exS)) = Ok (Some 0) by rewrite /residuals /= (ex_res0 ex_tab).
  rewrite (ex_rank ex_tab).
  eexists _, _, _; split; first exact: exwf.
  split; first by [].
  by [].
Qed.
Print Assumptions C71_nonvacuous.

(** C50, C72: the same call, a successful solve with one active constraint, an unused variable and an unused parameter. *)
Example C50_nonvacuous : exists t' Mx Ml,
  differentiate fn0 dfn0 exlin (construct exP exB) exset (status0 Q) exsol (PCol [:: 1; 7%:R]) = (t', Ok (Mx, Ml))
  /\ t_solved t' /\ oent Mx 1 0 = Some 1 /\ oent Mx 2 0 = Some 0.
Proof.
  have [t' [Mx [Ml [_ [E [_ [_ [T [_ H1 _ H2 _]]]]]]]]] := C71_nonvacuous.
  exact: (ex_intro _ t' (ex_intro _ Mx (ex_intro _ Ml (conj E (conj T (conj H1 H2)))))).
Qed.
Example C72_nonvacuous : exists t' Mx Ml,
  wf exP exB /\
  differentiate fn0 dfn0 exlin (construct exP exB) exset (status0 Q) exsol (PCol [:: 1; 7%:R]) = (t', Ok (Mx, Ml))
  /\ s_licq exset /\ s_sc exset.
Proof.
  have [t' [Mx [Ml [W [E _]]]]] := C71_nonvacuous.
  exact: (ex_intro _ t' (ex_intro _ Mx (ex_intro _ Ml (conj W (conj E (conj isT isT)))))).
Qed.

(** C71_exact_solver: a solver with exact answers for every regular system exists. *)
Definition inv_lin (k : linsolver) (A B : arr Q) : option (psens Q) :=
  if (nc A == nr A) && (nr B == nr A) && (mx_of (nr A) (nr A) A \in unitmx)
  then Some (P2 (Arr (nr A) (nc B) (fun i j =>
         if insub i is Some i then if insub j is Some j then (invmx (mx_of (nr A) (nr A) A) *m mx_of (nr A) (nc B) B) i j else 0 else 0)))
  else None.
Example C71_exact_nonvacuous : exact_answers inv_lin
  /\ forall k A B, nc A = nr A -> nr B = nr A -> check_rank A -> inv_lin k A B <> None.
Proof.
  split.
  - move=> k A B M; rewrite /inv_lin; case: ifP => // /andP[/andP[/eqP H1 /eqP H2] HU] [<-] /=; split=> //; split=> // i j Hi Hj.
    set V := mx_of _ _ A in HU *; set W := mx_of _ _ B.
    have E : (V *m (invmx V *m W)) (Ordinal Hi) (Ordinal Hj) = ent B i j by rewrite mulKVmx // mxE.
    rewrite -{}E mxE H1; apply: eq_bigr => l _.
    rewrite mxE (insubT (fun i => i < nr A)%N (ltn_ord l)) (insubT (fun j => j < nc B)%N Hj) /=.
    by congr (_ * _); congr (fun_of_matrix _ _ _); apply/val_inj.
  - move=> k A B H1 H2; rewrite /check_rank /inv_lin H1 H2 !eqxx /= => Hr.
    have -> : mx_of (nr A) (nr A) A \in unitmx by rewrite -row_full_unit /row_full.
    by [].
Qed.
Print Assumptions C71_exact_nonvacuous.

(** C49: at this point the equality constraint is active and neither bound is. *)
Example C49_nonvacuous : active_cons (construct exP exB) (s_tol exset) exq = [:: 0%N]
  /\ inactive_cons (construct exP exB) (s_tol exset) exq = [:: 1; 2]%N.
Proof. by []. Qed.

(** C70: the same call with the documented setting set_lam_zero raises. *)
Example C70_nonvacuous :
  differentiate fn0 dfn0 exlin (construct exP exB) (mkSet "casadi" true true true true true (1%:R / 1000%:R) true)
    (status0 Q) exsol (PCol [:: 1; 7%:R]) = (status0 Q, Err ExcUnbound).
Proof. apply: C70_set_lam_zero_refuted => //; exact: ex_prepare. Qed.

(** C70_returns_partial: a linear solver that answers regular systems only meets its condition, the
    solution has the right sizes; so does one that always raises. *)
Example C70_returns_nonvacuous : answers_matrices inv_lin /\ answers_matrices (fun _ (_ _ : arr Q) => None)
  /\ (exists x lg lx g, exsol = SolDict (mkSol (Some x) (Some lg) (Some lx) (Some g))
       /\ [/\ size x = size (n_x exP), size lg = size (n_g exP), size lx = size (n_x exP) & size g = size (n_g exP)])
  /\ s_lamzero exset = false.
Proof.
  split; [|split=> //; split=> //].
  - move=> k A B q; rewrite /inv_lin; case: ifP => // /andP[/andP[/eqP H1 _] _] [<-].
    by eexists; split; [reflexivity|rewrite /= H1|].
  - by eexists _, _, _, _; split; [reflexivity|].
Qed.

(** C73: the problem has an unused parameter, so three parameter values are accepted instead of two. *)
Example C73_nonvacuous : n_p exP <> [::] /\ d_red (construct exP exB) <> None
  /\ prepare (construct exP exB) exsol (PCol [:: 1; 7%:R; 9%:R]) = Ok (exq, [:: 1]).
Proof. by split=> //; split. Qed.
