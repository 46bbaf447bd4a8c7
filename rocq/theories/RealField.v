(** * The real numbers of the standard library as a mathcomp real field (no model code).
    The choice operator mathcomp asks for is Hilbert's epsilon of the standard library. *)
From Coq Require Import Reals ClassicalEpsilon FunctionalExtensionality Lra.
From mathcomp Require Import all_ssreflect all_algebra.
Set Implicit Arguments.
Unset Strict Implicit.
Unset Printing Implicit Defensive.
Import Order.TTheory GRing.Theory Num.Theory.
Delimit Scope R_scope with coqR.

Definition Reqb (x y : R) : bool := if Req_EM_T x y is left _ then true else false.
Lemma ReqbP : Equality.axiom Reqb.
Proof. move=> x y. rewrite /Reqb. case: Req_EM_T => H; by [left|right]. Qed.
Canonical R_eqMixin := EqMixin ReqbP.
Canonical R_eqType := Eval hnf in EqType R R_eqMixin.

Fact R_inhabited : inhabited R. Proof. exact: (inhabits 0%coqR). Qed.
Definition pickR (P : pred R) (n : nat) : option R := let x := epsilon R_inhabited P in if P x then Some x else None.
Fact pickR_some P n x : pickR P n = Some x -> P x.
Proof. rewrite /pickR. case: ifP => // Px [<-]. exact: Px. Qed.
Fact pickR_ex (P : pred R) : (exists x, P x) -> exists n, pickR P n.
Proof. move=> H. exists 0%N. by rewrite /pickR (epsilon_spec R_inhabited P H). Qed.
Fact pickR_ext (P Q : pred R) : P =1 Q -> pickR P =1 pickR Q.
Proof. move=> PQ n. have -> : P = Q by apply: functional_extensionality. by []. Qed.
Definition R_choiceMixin : choiceMixin R := Choice.Mixin pickR_some pickR_ex pickR_ext.
Canonical R_choiceType := Eval hnf in ChoiceType R R_choiceMixin.

Fact RplusA : associative Rplus. Proof. move=> x y z. by rewrite Rplus_assoc. Qed.
Definition R_zmodMixin := ZmodMixin RplusA Rplus_comm Rplus_0_l Rplus_opp_l.
Canonical R_zmodType := Eval hnf in ZmodType R R_zmodMixin.

Fact RmultA : associative Rmult. Proof. move=> x y z. by rewrite Rmult_assoc. Qed.
Fact RmultDl : left_distributive Rmult Rplus. Proof. move=> x y z. exact: Rmult_plus_distr_r. Qed.
Fact RmultDr : right_distributive Rmult Rplus. Proof. move=> x y z. exact: Rmult_plus_distr_l. Qed.
Fact R1_neq_0 : 1%coqR != 0%coqR. Proof. apply/eqP. exact: R1_neq_R0. Qed.
Definition R_ringMixin := RingMixin RmultA Rmult_1_l Rmult_1_r RmultDl RmultDr R1_neq_0.
Canonical R_ringType := Eval hnf in RingType R R_ringMixin.
Canonical R_comRingType := Eval hnf in ComRingType R Rmult_comm.

Definition Rinvx (x : R) : R := if x != 0%coqR then Rinv x else x.
Definition unit_R : pred R := fun x => x != 0%coqR.
Fact RmultRinvx : {in unit_R, left_inverse 1%coqR Rinvx Rmult}.
Proof. move=> x H. have {}H : x != 0%coqR by exact: H. rewrite /Rinvx H. apply: Rinv_l. by apply/eqP. Qed.
Fact RinvxRmult : {in unit_R, right_inverse 1%coqR Rinvx Rmult}.
Proof. move=> x H. have {}H : x != 0%coqR by exact: H. rewrite /Rinvx H. apply: Rinv_r. by apply/eqP. Qed.
Fact intro_unit_R x y : (y * x = 1 /\ x * y = 1)%coqR -> unit_R x.
Proof. move=> [_ H]. apply/eqP => E. move: H. rewrite E Rmult_0_l => H. exact: (R1_neq_R0 (esym H)). Qed.
Fact Rinvx_out : {in predC unit_R, Rinvx =1 id}.
Proof. move=> x H. have {}H : ~~ (x != 0%coqR) by exact: H. by rewrite /Rinvx (negPf H). Qed.
Definition R_unitRingMixin := UnitRingMixin RmultRinvx RinvxRmult intro_unit_R Rinvx_out.
Canonical R_unitRingType := Eval hnf in UnitRingType R R_unitRingMixin.
Canonical R_comUnitRingType := Eval hnf in [comUnitRingType of R].
Fact R_idomain (x y : R) : (x * y = 0)%coqR -> (x == 0%coqR) || (y == 0%coqR).
Proof. move=> /Rmult_integral [->|->]; by rewrite eqxx ?orbT. Qed.
Canonical R_idomainType := Eval hnf in IdomainType R R_idomain.
Fact R_field : GRing.Field.mixin_of [unitRingType of R]. Proof. by []. Qed.
Canonical R_fieldType := Eval hnf in FieldType R R_field.

Definition Rleb (x y : R) : bool := if Rle_dec x y is left _ then true else false.
Definition Rltb (x y : R) : bool := (y != x) && Rleb x y.
Lemma RlebP x y : reflect (x <= y)%coqR (Rleb x y).
Proof. rewrite /Rleb. case: Rle_dec => H; by [left|right]. Qed.
Fact Rleb_add x y : Rleb 0%coqR x -> Rleb 0%coqR y -> Rleb 0%coqR (x + y)%coqR.
Proof. move=> /RlebP H /RlebP K. apply/RlebP. lra. Qed.
Fact Rleb_mul x y : Rleb 0%coqR x -> Rleb 0%coqR y -> Rleb 0%coqR (x * y)%coqR.
Proof. move=> /RlebP H /RlebP K. apply/RlebP. exact: Rmult_le_pos. Qed.
Fact Rleb_anti x : Rleb 0%coqR x -> Rleb x 0%coqR -> x = 0%coqR.
Proof. move=> /RlebP H /RlebP K. lra. Qed.
Fact Rleb_sub x y : Rleb 0%coqR (y - x)%coqR = Rleb x y.
Proof. apply/RlebP/RlebP; lra. Qed.
Fact Rleb_total x : Rleb 0%coqR x || Rleb x 0%coqR.
Proof. case: (Rle_dec 0%coqR x) => H; apply/orP; [left|right]; apply/RlebP; lra. Qed.
Fact Rabs_pos_id x : Rleb 0%coqR x -> Rabs x = x.
Proof. move=> /RlebP H. apply: Rabs_right. lra. Qed.
Fact Rltb_def x y : Rltb x y = (y != x) && Rleb x y. Proof. by []. Qed.
Definition R_leMixin : realLeMixin [idomainType of R] :=
  RealLeMixin Rleb_add Rleb_mul Rleb_anti Rleb_sub Rleb_total Rabs_Ropp Rabs_pos_id Rltb_def.
Canonical R_porderType := POrderType ring_display R R_leMixin.
Canonical R_latticeType := LatticeType R R_leMixin.
Canonical R_distrLatticeType := DistrLatticeType R R_leMixin.
Canonical R_orderType := OrderType R R_leMixin.
Canonical R_numDomainType := NumDomainType R R_leMixin.
Canonical R_normedZmodType := NormedZmodType R R R_leMixin.
Canonical R_numFieldType := Eval hnf in [numFieldType of R].
Canonical R_realDomainType := Eval hnf in [realDomainType of R].
Canonical R_realFieldType := Eval hnf in [realFieldType of R].

Local Open Scope ring_scope.
Lemma RleE (x y : R) : reflect (Rle x y) (x <= y). Proof. exact: RlebP. Qed.
Lemma RltE (x y : R) : reflect (Rlt x y) (x < y).
Proof.
  apply: (iffP idP) => [H|H].
  - move: (H). rewrite lt_neqAle => /andP [/eqP N /RleE K]. lra.
  - rewrite lt_neqAle. apply/andP; split; [apply/eqP|apply/RleE]; lra.
Qed.
