(** * C12: orthogonal collocation is exact on polynomials. *)
From mathcomp Require Import all_ssreflect all_algebra.
From Verif Require Import CollocModel.
Set Implicit Arguments.
Unset Strict Implicit.
Unset Printing Implicit Defensive.
Import GRing.Theory.
Local Open Scope ring_scope.

Section Exactness.
  Variable F : fieldType.
  Variable tau : nat -> F.
  Variable deg : nat.
  Hypothesis tau_distinct : forall i j, (i <= deg)%N -> (j <= deg)%N -> tau i = tau j -> i = j.

  Local Notation L := (lagrange tau deg).

  Lemma lagrange_prod j :
    L j = \prod_(r <- iota 0 deg.+1 | r != j) ((tau j - tau r)^-1 *: ('X - (tau r)%:P)).
  Proof.
    rewrite /lagrange.
    have H : forall s a, foldl (fun L r => if r != j then L * ((tau j - tau r)^-1 *: ('X - (tau r)%:P)) else L) a s
             = a * \prod_(r <- s | r != j) ((tau j - tau r)^-1 *: ('X - (tau r)%:P)).
    { elim=> [|r s IH] a; first by rewrite big_nil mulr1.
      rewrite /= IH big_cons. case: (r != j); [by rewrite mulrA | by []]. }
    by rewrite H mul1r.
  Qed.

  Lemma lagrange_size j : (j <= deg)%N -> (size (L j) <= deg.+1)%N.
  Proof.
    move=> Hj. rewrite /lagrange.
    have H : forall s (a : {poly F}), (size (foldl (fun (L : {poly F}) r => if r != j then (L * ((tau j - tau r)^-1 *: ('X - (tau r)%:P)))%R else L) a s)
             <= size a + count (predC (pred1 j)) s)%N.
    { elim=> [|r s IH] a; first by rewrite /= addn0.
      rewrite /=. apply: (leq_trans (IH _)). case: (r != j) => /=; last by rewrite add0n.
      rewrite addnA leq_add2r. apply: (leq_trans (size_mul_leq _ _)).
      have S2 : (size ((tau j - tau r)^-1 *: ('X - (tau r)%:P)) <= 2)%N
        by apply: (leq_trans (size_scale_leq _ _)); rewrite size_XsubC.
      rewrite -subn1 leq_subLR addnA add1n addn1.
      apply: (leq_trans (leq_add (leqnn (size a)) S2)). by rewrite addn2. }
    apply: (leq_trans (H _ _)). rewrite size_poly1.
    have := count_predC (pred1 j) (iota 0 deg.+1).
    rewrite size_iota (count_uniq_mem _ (iota_uniq _ _)) mem_iota /= add0n ltnS Hj => E.
    by rewrite -E.
  Qed.

  Lemma lagrange_eval j i : (j <= deg)%N -> (i <= deg)%N -> (L j).[tau i] = (i == j)%:R.
  Proof.
    move=> Hj Hi. rewrite lagrange_prod horner_prod.
    case: eqP => [->|/eqP Hij].
    - rewrite big_seq_cond big1 //. move=> r /andP [Hr Hrj]. rewrite hornerZ hornerXsubC mulVf //.
      rewrite subr_eq0. apply/eqP => E. move: Hr. rewrite mem_iota /= add0n ltnS => Hr.
      by move/eqP: Hrj; apply; apply: tau_distinct.
    - have Hin : i \in iota 0 deg.+1 by rewrite mem_iota add0n ltnS.
      rewrite (big_rem i Hin) /= Hij hornerZ hornerXsubC subrr mulr0. exact: mul0r.
  Qed.

  Lemma interpolation (p : {poly F}) : (size p <= deg.+1)%N ->
    p = \sum_(j < deg.+1) p.[tau j] *: L j.
  Proof.
    move=> Hp. apply/eqP. rewrite -subr_eq0. apply/eqP.
    pose q := p - \sum_(j < deg.+1) p.[tau j] *: L j.
    rewrite -/q. apply: (@roots_geq_poly_eq0 _ q [seq tau i | i <- iota 0 deg.+1]).
    - apply/allP => x /mapP [i Hi ->]. move: Hi; rewrite mem_iota /= add0n ltnS => Hi.
      rewrite /root /q hornerD hornerN horner_sum.
      rewrite (bigD1 (Ordinal (n:=deg.+1) (m:=i) Hi)) //= hornerZ lagrange_eval // eqxx mulr1 big1 ?addr0 ?subrr //.
      move=> j Hj. rewrite hornerZ lagrange_eval //; last by rewrite -ltnS.
      case: eqP => [E|_]; last by rewrite mulr0.
      by move/eqP: Hj; case; apply: val_inj.
    - rewrite map_inj_in_uniq ?iota_uniq // => a b.
      rewrite !mem_iota /= !add0n !ltnS => Ha Hb. exact: tau_distinct.
    - rewrite size_map size_iota. apply: (leq_trans (size_add _ _)). rewrite size_opp geq_max Hp /=.
      apply: (leq_trans (size_sum _ _ _)). apply/bigmax_leqP => j _.
      apply: (leq_trans (size_scale_leq _ _)). apply: lagrange_size. by rewrite -ltnS.
  Qed.
End Exactness.

(** C12: for every field, degree and set of pairwise distinct points, the coefficients
    differentiate every polynomial of degree <= deg exactly at every point and extrapolate it
    exactly to the end of the element. *)
Theorem C12_collocation_exact :
  forall (F : fieldType) (tau : nat -> F) (deg : nat),
  (forall i j, (i <= deg)%N -> (j <= deg)%N -> tau i = tau j -> i = j) ->
  forall p : {poly F}, (size p <= deg.+1)%N ->
  (forall r, (r <= deg)%N -> \sum_(j < deg.+1) coefC tau deg j r * p.[tau j] = (p^`()).[tau r]) /\
  \sum_(j < deg.+1) coefD tau deg j * p.[tau j] = p.[1].
Proof.
  move=> F tau deg Hd p Hp. split.
  - move=> r Hr. rewrite {2}(interpolation Hd Hp) linear_sum horner_sum. apply: eq_bigr => j _.
    by rewrite /= derivZ hornerZ mulrC.
  - rewrite {2}(interpolation Hd Hp) horner_sum. apply: eq_bigr => j _. by rewrite hornerZ mulrC.
Qed.
Print Assumptions C12_collocation_exact.

(** C12, physical time: if the solution x(t) on the element starting at t0 with length h is a
    polynomial of degree <= deg, its values at the collocation times t0 + h*tau_j satisfy the
    collocation equations  h * x'(t_r) = sum_j C[j,r] x(t_j)  and the end value is
    x(t0 + h) = sum_j D[j] x(t_j). *)
Theorem C12_polynomial_solutions_reproduced :
  forall (F : fieldType) (tau : nat -> F) (deg : nat),
  (forall i j, (i <= deg)%N -> (j <= deg)%N -> tau i = tau j -> i = j) ->
  forall (x : {poly F}) (t0 h : F), (size x <= deg.+1)%N ->
  let t j := t0 + h * tau j in
  (forall r, (r <= deg)%N -> h * (x^`()).[t r] = \sum_(j < deg.+1) coefC tau deg j r * x.[t j]) /\
  x.[t0 + h] = \sum_(j < deg.+1) coefD tau deg j * x.[t j].
Proof.
  move=> F tau deg Hd x t0 h Hx t.
  pose q := x \Po (t0%:P + h *: 'X).
  have Hq : (size q <= deg.+1)%N.
  { have S2 : (size (t0%:P + h *: 'X : {poly F})%R <= 2)%N.
    { apply: (leq_trans (size_add _ _)). rewrite geq_max (leq_trans (size_polyC_leq1 _)) //=.
      by apply: (leq_trans (size_scale_leq _ _)); rewrite size_polyX. }
    apply: (leq_trans (size_comp_poly_leq _ _)).
    case Ex : (size x) => [|n]; first by rewrite mul0n.
    rewrite ltnS /=. apply: (leq_trans (_ : _ <= n * 1)%N).
    - rewrite leq_mul2l. apply/orP; right. by rewrite -subn1 leq_subLR.
    - by rewrite muln1 -ltnS -Ex. }
  have Ev : forall s, q.[s] = x.[t0 + h * s].
  { move=> s. by rewrite /q horner_comp hornerD hornerC hornerZ hornerX. }
  have [H1 H2] := C12_collocation_exact Hd Hq. split.
  - move=> r Hr. transitivity (q^`()).[tau r].
    + rewrite /q deriv_comp hornerM horner_comp !derivD derivC derivZ derivX add0r.
      by rewrite hornerD !hornerZ hornerC hornerX hornerC mulr1 mulrC.
    + rewrite -H1 //. apply: eq_bigr => j _. by rewrite Ev.
  - transitivity (q.[1]); first by rewrite Ev mulr1.
    rewrite -H2. apply: eq_bigr => j _. by rewrite Ev.
Qed.
Print Assumptions C12_polynomial_solutions_reproduced.
(** points 0, 1, 2, ..., deg are distinct in the rationals: hypotheses are satisfiable for all deg *)
Example C12_nonvacuous : forall deg i j, (i <= deg)%N -> (j <= deg)%N -> (i%:R : rat) = j%:R -> i = j.
Proof. move=> deg i j _ _ /eqP. by rewrite Num.Theory.eqr_nat => /eqP. Qed.
