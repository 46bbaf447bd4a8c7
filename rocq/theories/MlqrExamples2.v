(** * The hypotheses of C104 are met (2): the objects of MlqrExamples. *)
From Coq Require Import Reals Lra Lia.
From Verif Require Import Base NlpModel NlpSpec NlpProps RobustProps PlanSpec BestSpec MpcModel MpcSpec MpcProofs MpcHistSpec LinkModel LinkProps LinkBestProps MlqrExamples.
From mathcomp Require Import all_ssreflect all_algebra.
From Verif Require Import RealField LqrModel LqrSpec LqrProofs LqrProofs2 LqrProps LqrstabSpec LqrstabProofs MlqrSpec MlqrProofs MlqrProps.
Set Implicit Arguments.
Unset Strict Implicit.
Unset Printing Implicit Defensive.
Import Order.TTheory GRing.Theory Num.Theory.
Local Open Scope ring_scope.

Definition e4_Q : 'M[R]_1 := (Rdiv (IZR 4) (IZR 3))%:M.
Definition e4_P : 'M[R]_1 := (IZR 2)%:M.

Lemma qf11 (a : R) (x : 'cV[R]_1) : qf a%:M x = a * (x 0 0 * x 0 0).
Proof. by rewrite /qf mul_mx_scalar -scalemxAl !mxE big_ord_recl big_ord0 addr0 !mxE. Qed.
Lemma psd11 (a : R) : Rle 0 a -> psd (a%:M : 'M[R]_1).
Proof. move=> H x. rewrite qf11. apply: mulr_ge0; first exact/RleE. rewrite -expr2. exact: sqr_ge0. Qed.
Lemma pd11 (a : R) : Rlt 0 a -> pd (a%:M : 'M[R]_1).
Proof.
  move=> H x Hx. rewrite qf11. apply: mulr_gt0; first exact/RltE. rewrite -expr2 lt_def sqr_ge0 andbT expf_eq0 /=.
  apply/negP => /eqP E. move/eqP: Hx. apply. apply/matrixP => i j. by rewrite !ord1 E mxE.
Qed.
Lemma sym11 (a : R) : symmetric (a%:M : 'M[R]_1). Proof. exact: tr_scalar_mx. Qed.

Lemma e4_ready rho : Rle 0 rho -> mpc_ready (L := l4 rho) (l4_calls rho) (l4_m rho) (l4_tr rho) 1.
Proof.
  move=> H. constructor.
  - by [].
  - exact: l4_run.
  - exact: l4_wf.
  - by [].
  - move=> t q. rewrite l4_scaling. exact: Rlt_0_1.
  - by vm_compute.
  - split; first by []. by split.
  - move=> c xx u0 t ox l PO par _. exact: l4_solver.
Qed.
Lemma e4_linear : linear_model (1%:M : 'M[R]_1) (1%:M : 'M[R]_1) l4_mdl.
Proof.
  do 3 (split; first by []). move=> x u z tvp p i. rewrite !mul1mx !mxE ord1. by [].
Qed.
Lemma e4_costs rho costs : objective_of (l4_tr rho) = Some costs -> quadratic_costs e4_Q 1%:M e4_P (col_of 1 [:: (0:R)]) (col_of 1 [:: (0:R)]) costs.
Proof.
  move=> E. have {E} <- : l4_obj rho = costs by move: E => [].
  have Z : col_of 1 [:: (0:R)] = 0 by apply/matrixP => i j; rewrite !mxE ord1.
  split.
  - move=> x u z tvp p. rewrite Z !subr0 /e4_Q !qf11 !mxE mul1r /= !Rmult_1_r. by [].
  - move=> x tvp p. rewrite Z !subr0 /e4_P !qf11 !mxE /= !Rmult_1_r. by [].
Qed.
Lemma e4_inactive rho c par us : problem_of (l4 rho) (l4_tr rho) c -> inactive (n := 1) (m := 1) c par 1%:M 1%:M us.
Proof.
  move=> PO. have [HN [Hr [Hcm [Ho [Hs [Hnl [Hm [Hd [Hc [Hok [Hpos [X [U [T _]]]]]]]]]]]]]] := l4_facts rho c PO.
  split; [|split; [|split; [|split]]].
  - move=> k a _ _. by case: (U a) => -> ->.
  - move=> k a _ _. by case: (X a) => -> ->.
  - move=> a _. by case: (T a) => -> ->.
  - move=> k con ub _. by rewrite Hc.
  - move=> con v pen. by rewrite Hc.
Qed.
Lemma e4_dare : solves_dare (1%:M : 'M[R]_1) (1%:M : 'M[R]_1) e4_Q 1%:M e4_P.
Proof.
  rewrite /solves_dare /e4_P /e4_Q. rewrite !trmx1 !mul1mx !mulmx1 -raddfD /= invmx_scalar -!scalar_mxM -raddfB -raddfD /=. congr _%:M.
  have N3 : (1 + IZR 2 : R) = IZR 3. { rewrite -[GRing.add _ _]/(Rplus R1 (IZR 2)). lra. }
  have E3 : (1 + IZR 2 : R)^-1 = Rinv (IZR 3). { rewrite N3 /GRing.inv /= /Rinvx. have H3 : (IZR 3 : R) != 0. { apply/eqP => E. exact: (IZR_neq 3 0 _ E). } by rewrite H3. }
  rewrite E3. change (IZR 2 = Rplus (Rminus (IZR 2) (Rmult (Rmult (IZR 2) (Rinv (IZR 3))) (IZR 2))) (Rdiv (IZR 4) (IZR 3))). lra.
Qed.

(** rho = 0 for the standard modes, rho = 1 for the rate mode; the cheapest input sequences exist and meet the constraints
    (there are none). *)
Example C104_nonvacuous (x : vec) :
  let dare : forall k, 'M[R]_k -> 'M[R]_(k,1) -> 'M[R]_k -> 'M[R]_1 -> res 'M[R]_k := fun k _ _ _ _ => if k =P 1%N is ReflectT E then Ok (castmx (esym E, esym E) e4_P) else Err ExcValue in
  (symmetric e4_Q /\ psd e4_Q /\ symmetric (1%:M : 'M[R]_1) /\ pd (1%:M : 'M[R]_1) /\ symmetric e4_P /\ psd e4_P /\ dare 1%N 1%:M 1%:M e4_Q 1%:M = Ok e4_P /\ solves_dare (1%:M : 'M[R]_1) (1%:M : 'M[R]_1) e4_Q 1%:M e4_P) /\
  (col_of 1 [:: (0:R)] = 1%:M *m col_of 1 [:: (0:R)] + 1%:M *m col_of 1 [:: (0:R)]) /\
  (forall rho, Rle 0 rho -> mpc_ready (L := l4 rho) (l4_calls rho) (l4_m rho) (l4_tr rho) 1 /\ linear_model (1%:M : 'M[R]_1) (1%:M : 'M[R]_1) (k_mdl (l4 rho)) /\
     (forall costs, objective_of (l4_tr rho) = Some costs -> quadratic_costs e4_Q 1%:M e4_P (col_of 1 [:: (0:R)]) (col_of 1 [:: (0:R)]) costs) /\
     (forall a, rterm_of (l4_tr rho) a = rho)) /\
  (let cost := lq_cost 1%:M 1%:M e4_Q 1%:M e4_P 1 (col_of 1 [:: (0:R)]) (col_of 1 [:: (0:R)]) (cv 1 x) in
   forall c, problem_of (l4 0) (l4_tr 0) c -> exists us, (forall vs, cost us <= cost vs) /\ inactive c (next_params (l4_m 0) (l4_tr 0) x) 1%:M 1%:M us) /\
  (let cost := rate_cost 1%:M 1%:M e4_Q 1%:M (diag_mx (\row_(i < 1) (rterm_of (l4_tr 1) i / MpcHistSpec.scaling_of (l4_tr 1) Vu i ^+ 2))) e4_P 1 (col_of 1 [:: (0:R)]) (col_of 1 [:: (0:R)])
     (cv 1 (m_u0 (l4_m 1))) (cv 1 x) in
   forall c, problem_of (l4 1) (l4_tr 1) c -> exists us, (forall vs, cost us <= cost vs) /\ inactive c (next_params (l4_m 1) (l4_tr 1) x) 1%:M 1%:M us).
Proof.
  move=> dare.
  have HQ : Rle 0 (Rdiv (IZR 4) (IZR 3)) by lra. have HP : Rle 0 (IZR 2) by lra.
  have Hst : col_of 1 [:: (0:R)] = 1%:M *m col_of 1 [:: (0:R)] + 1%:M *m col_of 1 [:: (0:R)] :> 'cV[R]_1.
  { have -> : col_of 1 [:: (0:R)] = 0 :> 'cV[R]_1 by apply/matrixP => i j; rewrite !mxE ord1. by rewrite !mulmx0 addr0. }
  have ps1 : pd (1%:M : 'M[R]_1) by apply: pd11; exact: Rlt_0_1.
  split. { split; first exact: sym11. split; first exact: psd11. split; first exact: sym11. split; first exact: ps1. split; first exact: sym11. split; first exact: psd11.
    split; last exact: e4_dare. rewrite /dare. case: eqP => // E. congr Ok. rewrite (eq_irrelevance E erefl). exact: castmx_id. }
  split; first exact: Hst.
  split. { move=> rho Hr. split; first exact: e4_ready. split; first exact: e4_linear. split; first exact: e4_costs. by []. }
  split.
  - move=> cost c PO.
    have := @optimal_sp _ 1 1 1%:M 1%:M e4_Q 1%:M (sym11 _) (psd11 HQ) (sym11 _) ps1 e4_P 0 (col_of 1 [:: (0:R)]) (col_of 1 [:: (0:R)]) (cv 1 x) (sym11 _) (psd11 HP) Hst.
    move=> [[us [_ Hus]] _]. exists us. split; [exact: Hus|exact: (e4_inactive _ _ PO)].
  - set dR := diag_mx _. move=> cost c PO.
    have Ed : dR = 1%:M.
    { apply/matrixP => i j. rewrite !mxE !ord1 l4_scaling. have -> : rterm_of (l4_tr 1) 0%N = 1 by []. rewrite -[IZR 1]/(1 : R) expr1n divr1. by []. }
    have HW : psd (1%:M : 'M[R]_1) by apply: pd_psd.
    have Hs : symmetric dR by rewrite Ed; exact: sym11. have Hp : pd dR by rewrite Ed.
    have := @optimal_rate _ 1 1 1%:M 1%:M e4_Q 1%:M dR e4_P 0 (col_of 1 [:: (0:R)]) (col_of 1 [:: (0:R)]) (cv 1 (m_u0 (l4_m 1))) (cv 1 x) (sym11 _) (psd11 HQ) (sym11 _) HW Hs Hp (sym11 _) (psd11 HP) Hst.
    move=> [[us [_ Hus]] _]. exists us. split; [exact: Hus|exact: (e4_inactive _ _ PO)].
Qed.
