(** * The hypotheses of C105 are met: the controller of MlqrExamples drives x+ = x + u to the origin. *)
From Coq Require Import Reals Lra Lia.
From Verif Require Import Base NlpModel NlpSpec MpcModel MpcSpec MpcHistSpec LinkModel LinkProps MlqrExamples.
From mathcomp Require Import all_ssreflect all_algebra.
From Verif Require Import RealField LqrModel LqrSpec LqrProofs LqrProofs2 LqrProps LqrstabSpec LqrstabProofs MlqrSpec MlqrProofs MlqrProps MlqrLoopProofs MlqrLoopProps MlqrExamples2.
Set Implicit Arguments.
Unset Strict Implicit.
Unset Printing Implicit Defensive.
Import Order.TTheory GRing.Theory Num.Theory.
Local Open Scope ring_scope.

Definition e5_dare : forall k, 'M[R]_k -> 'M[R]_(k,1) -> 'M[R]_k -> 'M[R]_1 -> res 'M[R]_k :=
  fun k _ _ _ _ => if k =P 1%N is ReflectT E then Ok (castmx (esym E, esym E) e4_P) else Err ExcValue.

Lemma e5_terminal : terminal_decrease (1%:M : 'M[R]_1) (1%:M : 'M[R]_1) e4_Q 1%:M e4_P.
Proof.
  exists (Ropp (Rdiv (IZR 2) (IZR 3)))%:M => z. rewrite /e4_Q /e4_P !qf11 !mul1mx !mul_scalar_mx !mxE.
  set y := z 0 0. apply/RleE.
  change (Rle (Rplus (Rplus (Rmult (Rdiv (IZR 4) (IZR 3)) (Rmult y y)) (Rmult 1 (Rmult (Rmult (Ropp (Rdiv (IZR 2) (IZR 3))) y) (Rmult (Ropp (Rdiv (IZR 2) (IZR 3))) y))))
    (Rmult (IZR 2) (Rmult (Rplus y (Rmult (Ropp (Rdiv (IZR 2) (IZR 3))) y)) (Rplus y (Rmult (Ropp (Rdiv (IZR 2) (IZR 3))) y)))))
    (Rmult (IZR 2) (Rmult y y))).
  apply: Req_le. field.
Qed.

(** The theorems apply to this controller: from every state, the MPC and the infinite-horizon LQR drive the plant through the
    same states to the origin, and in rate mode the MPC follows the LQR that starts with the same previous input. *)
Example C105_nonvacuous (x : 'cV[R]_1) :
  let z := [:: (0 : R)] in
  (terminal_decrease (1%:M : 'M[R]_1) (1%:M : 'M[R]_1) e4_Q 1%:M e4_P /\ pd e4_Q) /\
  (exists s0 s, LqrModel.set_objective e4_Q 1%:M None (lqr_init (1%:M : 'M[R]_1) (1%:M : 'M[R]_1) None 1) = Ok s0 /\ LqrModel.setup e5_dare s0 = Ok s /\
     let s2 := fst (LqrModel.set_setpoint (Some z) (Some z) s) in
     exists xs us, xs 0%N = x /\ (forall k, exists s' m', loop 1%:M 1%:M s2 x k = Ok (s', xs k, mkseq us k) /\ mpc_loop (L := l4 0) 1%:M 1%:M (l4_m 0) x k = Ok (m', xs k, mkseq us k)) /\
       converges_to xs (col_of 1 z) /\ converges_to us (col_of 1 z)) /\
  (let dR := diag_mx (\row_(i < 1) (rterm_of (l4_tr 1) i / MpcHistSpec.scaling_of (l4_tr 1) Vu i ^+ 2)) in
   exists s0 s, LqrModel.set_objective e4_Q 1%:M (Some e4_P) (set_rterm dR (lqr_init (1%:M : 'M[R]_1) (1%:M : 'M[R]_1) (Some 1%N) 1)) = Ok s0 /\ LqrModel.setup e5_dare s0 = Ok s /\
     let s2 := fst (LqrModel.set_setpoint (Some z) (Some z) s) in
     exists xs us, xs 0%N = x /\ forall k, exists s' m', loop 1%:M 1%:M s2 x k = Ok (s', xs k, mkseq us k) /\ mpc_loop (L := l4 1) 1%:M 1%:M (l4_m 1) x k = Ok (m', xs k, mkseq us k)).
Proof.
  move=> z.
  have HQ : Rlt 0 (Rdiv (IZR 4) (IZR 3)) by lra. have HP : Rle 0 (IZR 2) by lra.
  have [[sQ [pQ [s1 [p1 [sP [pP [Hd Hare]]]]]]] [Hst [Hall [_ _]]]] := C104_nonvacuous (vec_of x).
  have pdQ : pd e4_Q by exact: pd11.
  have HW : psd (1%:M : 'M[R]_1) by apply: pd_psd.
  split; first by split; [exact: e5_terminal|exact: pdQ].
  split.
  - have [Rdy [HL [Hc Hr]]] := Hall 0 (Rle_refl 0).
    have [s0 [s [E0 [E1 H]]]] := @C105_riccati_loops_coincide (l4 0) _ _ _ 0 1 1 e5_dare 1%:M 1%:M e4_Q 1%:M e4_P z z 1 x erefl erefl sQ pQ s1 p1 Hd sP pP Hare erefl erefl Hst Rdy HL Hc (fun a _ => Hr a).
    exists s0, s. split; first exact: E0. split; first exact: E1. 
    have [xs [us [H0 [Hl [Hm [_ Hcv]]]]]] := H [::].
    exists xs, us. split; first exact: H0. split; last exact: Hcv.
    move=> k. have [s' Es] := Hl k. have [|m' Em] := Hm _ k; last by exists s', m'.
    move=> j c t up PO cost.
    have := @optimal_sp _ 1 1 1%:M 1%:M e4_Q 1%:M sQ pQ s1 p1 e4_P 0 (col_of 1 z) (col_of 1 z) (xs j) sP pP Hst.
    move=> [[vs [_ Hus]] _]. exists vs. split; [exact: Hus|exact: (e4_inactive _ _ PO)].
  - move=> dR.
    have Ed : dR = 1%:M.
    { apply/matrixP => i j. rewrite !mxE !ord1 l4_scaling. have -> : rterm_of (l4_tr 1) 0%N = 1 by []. rewrite -[IZR 1]/(1 : R) expr1n divr1. by []. }
    have Hs : symmetric dR by rewrite Ed. have Hp : pd dR by rewrite Ed.
    have [Rdy [HL [Hc Hr]]] := Hall 1 (Rlt_le _ _ Rlt_0_1).
    have Hr1 a : (a < 1)%N -> Rlt 0 (rterm_of (l4_tr 1) a) by move=> _; rewrite Hr; exact: Rlt_0_1.
    have [s0 [s [E0 [E1 H]]]] := @C105_rate_loops_coincide (l4 1) _ _ _ 0 1 1 e5_dare 1%:M 1%:M e4_Q 1%:M dR e4_P z z 1 x erefl erefl sQ pQ s1 HW sP pP erefl erefl Hst Rdy HL Hc Hr1 erefl.
    exists s0, s. split; first exact: E0. split; first exact: E1. 
    have Hu0 : lu0 s = cv 1 (m_u0 (l4_m 1)).
    { apply/matrixP => i j. rewrite mxE. have -> : lu0 s = 0. { move: E0 E1. rewrite /LqrModel.set_objective /= => -[<-]. rewrite /LqrModel.setup /=. case: (discrete_gain _ _ _ _ _ _ _) => [K|//] /= [<-]. by []. } rewrite mxE. by []. }
    have [xs [us [H0 [Hl Hm]]]] := H [::] Hu0.
    exists xs, us. split; first exact: H0.
    move=> k. have [s' Es] := Hl k. have [|m' Em] := Hm _ k; last by exists s', m'.
    move=> j c t up PO cost.
    have := @optimal_rate _ 1 1 1%:M 1%:M e4_Q 1%:M dR e4_P 0 (col_of 1 z) (col_of 1 z) (before (lu0 s) us j) (xs j) sQ pQ s1 HW Hs Hp sP pP Hst.
    move=> [[vs [_ Hus]] _]. exists vs. split; [exact: Hus|exact: (e4_inactive _ _ PO)].
Qed.
