(** * Lemmas for C104: the cost of a plan for a linear model is the LQR's cost. *)
From Coq Require Import Reals Lra Lia.
From Verif Require Import Base NlpModel NlpSpec NlpProps RobustProps PlanSpec BestSpec.
From mathcomp Require Import all_ssreflect all_algebra.
From mathcomp Require Import ring.
From Verif Require Import RealField LqrSpec LqrProofs LqrProofs2 MlqrSpec.
Set Implicit Arguments.
Unset Strict Implicit.
Unset Printing Implicit Defensive.
Import Order.TTheory GRing.Theory Num.Theory.
Local Open Scope ring_scope.

Lemma rsum_cat l1 l2 : rsum (l1 ++ l2) = rsum l1 + rsum l2.
Proof. elim: l1 => [|a l IH] /=; first by rewrite add0r. rewrite IH. exact: addrA. Qed.
Lemma total_big N (f : nat -> R) : NlpSpec.total N f = \sum_(k < N) f k.
Proof.
  rewrite /NlpSpec.total. elim: N => [|N IH]; first by rewrite big_ord0.
  rewrite big_ord_recr -IH seq_S List.map_app. rewrite [LHS]rsum_cat. congr (_ + _). exact: Rplus_0_r.
Qed.
Lemma cv_of k (v : 'cV[R]_k) : cv k (vec_of v) = v.
Proof. apply/matrixP => i j. rewrite !mxE /vec_of ord1. case: insubP => [q _ E|/negP []]; last by []. congr (v _ 0). exact: val_inj. Qed.
Lemma vec_ofE k (v : 'cV[R]_k) (i : 'I_k) : vec_of v i = v i 0.
Proof. rewrite /vec_of. case: insubP => [q _ E|/negP []]; last by []. congr (v _ 0). exact: val_inj. Qed.
Lemma cv_agree k x y : agree k x y -> cv k x = cv k y.
Proof. move=> H. apply/matrixP => i j. rewrite !mxE. apply: H. exact/ssrnat.ltP. Qed.
Lemma agree_vec k x : agree k (vec_of (cv k x)) x.
Proof. move=> a /ssrnat.ltP Ha. by rewrite -[a in LHS]/(val (Ordinal Ha)) vec_ofE mxE. Qed.

Section Costs.
  Variables n m : nat.
  Variable A : 'M[R]_n.
  Variable B : 'M[R]_(n,m).
  Variables (Q P : 'M[R]_n) (W dR : 'M[R]_m) (xss : 'cV[R]_n) (uss : 'cV[R]_m).

  Definition mpc_cost (N : nat) (uprev : 'cV[R]_m) (x : 'cV[R]_n) (us : nat -> 'cV[R]_m) : R :=
    (\sum_(k < N) (qf Q (traj A B x us k - xss) + qf W (us k - uss) + qf dR (us k - before uprev us k)) + qf P (traj A B x us N - xss))%R.

  Lemma mpc_cost_std N uprev x us : dR = 0 -> mpc_cost N uprev x us = lq_cost A B Q W P N xss uss x us.
  Proof.
    move=> E. rewrite /mpc_cost /lq_cost E. congr (_ + _). apply: eq_bigr => k _.
    by rewrite [X in _ + X](_ : _ = 0) ?addr0 // /qf mulmx0 mul0mx mxE.
  Qed.
  Lemma before_sum N uprev (us : nat -> 'cV[R]_m) (g : 'cV[R]_m -> R) :
    \sum_(k < N) g (before uprev us k) + g (before uprev us N) = g uprev + \sum_(k < N) g (us k).
  Proof.
    transitivity (\sum_(k < N.+1) g (before uprev us k)); first by rewrite big_ord_recr.
    by rewrite big_ord_recl /=.
  Qed.
  Lemma mpc_cost_rate N uprev x us : mpc_cost N uprev x us + qf W (uprev - uss) = rate_cost A B Q W dR P N xss uss uprev x us.
  Proof.
    rewrite /mpc_cost /rate_cost !big_split /=.
    have H := before_sum N uprev us (fun v => qf W (v - uss)). cbv beta in H.
    move: H. set e := \sum_(k < N) qf W (before uprev us k - uss). set b := \sum_(k < N) qf W (us k - uss). set f := qf W (before uprev us N - uss). set w := qf W (uprev - uss).
    move: e b f w (\sum_(i < N) qf Q _) (\sum_(i < N) qf dR _) (qf P _) => e b f w a d p H.
    have E : e = w + b - f by rewrite -H addrK.
    rewrite E. clear. ring.
  Qed.
End Costs.

Section Plan.
  Variable c : cfg.
  Variable par : params.
  Variable r : vec.
  Variables n m : nat.
  Variable A : 'M[R]_n.
  Variable B : 'M[R]_(n,m).
  Variables (Q P : 'M[R]_n) (W : 'M[R]_m) (xss : 'cV[R]_n) (uss : 'cV[R]_m).
  Hypothesis Hr : nr c = 0%N.
  Hypothesis HL : linear_model A B (mdl c).
  Hypothesis HQ : quadratic_costs Q W P xss uss (lterm c, mterm c).

  (** the weights of input changes *)
  Definition rate_weight : 'M[R]_m := diag_mx (\row_(i < m) (r i / (su c i) ^+ 2)).
  Hypothesis Hsu : forall a, (a < m)%N -> su c a <> 0.

  Lemma rate_qf u v : rate_penalty c r u v = qf rate_weight (cv m u - cv m v).
  Proof.
    case: HL => _ [Hm _]. rewrite /rate_penalty total_big Hm /qf mxE. apply: eq_bigr => i _.
    rewrite mul_mx_diag !mxE.
    have H := Hsu (ltn_ord i). rewrite -[Rmult]/(@GRing.mul R_ringType) /Rdiv.
    have E : Rinv (su c i) = (su c i)^-1. { rewrite /GRing.inv /= /Rinvx. by move/eqP: H => ->. }
    rewrite E -exprVn. move: (su c i)^-1 => s.
    have E2 (y : R) : pow y 2 = y * y by exact: (f_equal (Rmult y) (Rmult_1_r y)).
    rewrite E2. move: (u i) (v i) (r i) => a b e. change (e * ((a - b) * s * ((a - b) * s)) = (a - b) * (e * s ^+ 2) * (a - b)). ring.
  Qed.

  Definition hist0 k : list nat := List.map (fun _ => 0%N) (List.seq 0 k).
  Lemma hist0_len k : List.length (hist0 k) = k. Proof. by rewrite List.map_length List.seq_length. Qed.

  Section OnePlan.
    Variable policy zpol : list nat -> vec.
    Let us k : 'cV[R]_m := cv m (policy (hist0 k)).
    Let x := plant (mdl c) (pX0 par) (fun k => policy (hist0 k)) (fun k => zpol (hist0 (k + 1))) (pTvp par) (fun _ => pP par 0%N).
    Lemma plant_traj k : cv n (x k) = traj A B (cv n (pX0 par)) us k.
    Proof.
      rewrite /x. elim: k => [//|k IH] /=. rewrite -IH. case: HL => _ [_ [_ Hf]]. apply/matrixP => i j. rewrite ord1 [LHS]mxE. by rewrite Hf.
    Qed.
    Lemma plan_cost_lin slack : plan_cost c par r policy zpol slack =
      mpc_cost A B Q P W rate_weight xss uss (N c) (cv m (pUprev par)) (cv n (pX0 par)) us +
      NlpSpec.total (N c) (fun k => slack_charge 0 (nlc c) (slack (hist0 k))).
    Proof.
      rewrite /plan_cost Hr.
      have -> : sequences (ncomb c) 0 = [:: [::]] by [].
      have E : realise c [::] = fun _ => 0%N by rewrite /realise Hr.
      rewrite /= /scenario_cost E. rewrite [Rplus _ 0]Rplus_0_r.
      have -> : forall a : R, Rmult (Rdiv 1 1) a = a by move=> a; rewrite /Rdiv Rinv_1 !Rmult_1_l.
      rewrite Hr. cbv zeta. rewrite -/(hist0 _).
      case: HQ => Hl Hm. rewrite /= in Hl Hm.
      set S := fun k : nat => slack_charge 0 (nlc c) (slack (hist0 k)).
      set T1 := NlpSpec.total _ _. set T2 := mterm _ _ _ _. set T3 := NlpSpec.total _ _.
      have E1 : T1 = \sum_(k < N c) (qf Q (traj A B (cv n (pX0 par)) us k - xss) + qf W (us k - uss)).
      { rewrite /T1 total_big. apply: eq_bigr => k _. rewrite Hl. by rewrite -plant_traj. }
      have E2 : T2 = qf P (traj A B (cv n (pX0 par)) us (N c) - xss).
      { rewrite /T2 Hm. by rewrite -plant_traj. }
      have E3 : T3 = \sum_(k < N c) qf rate_weight (us k - before (cv m (pUprev par)) us k) + NlpSpec.total (N c) S.
      { rewrite /T3 !total_big addrC -big_split. apply: eq_bigr => k _.
        rewrite Nat.min_0_r [INR _]/=  Rmult_1_l rate_qf. congr (_ + qf _ (_ - _)).
        case: k => [[|k] Hk] //=. rewrite Nat.sub_0_r. by []. }
      rewrite E1 E2 E3 /mpc_cost [in RHS]big_split /=.
      move: (\sum_(k < N c) (qf Q _ + _)) (\sum_(k < N c) qf rate_weight _) (qf P _) (NlpSpec.total (N c) S) => a b d e.
      change (a + d + (b + e) = a + b + d + e). ring.
    Qed.
  End OnePlan.

  (** ** The plan that follows given inputs *)
  Hypothesis Hxu : forall con, List.In con (nlc c) -> xu_constraint (mdl c) con.
  Variable us : nat -> 'cV[R]_m.
  Hypothesis Hin : inactive c par A B us.
  Definition follow (h : list nat) : vec := vec_of (us (List.length h)).

  Lemma real0 ps k : realisation c ps -> ps k = 0%N.
  Proof. move=> [_ H]. rewrite Hr in H. rewrite (H k) ?Hr //. exact/ssrnat.leP. Qed.
  Lemma real_hist ps k : realisation c ps -> List.map ps (List.seq 0 k) = hist0 k.
  Proof. move=> H. apply: List.map_ext => j. exact: real0. Qed.
  Lemma follow_traj z ps k : realisation c ps ->
    agree n (plant (mdl c) (pX0 par) (fun k => follow (List.map ps (List.seq 0 k))) z (pTvp par) (fun k => pP par (ps k)) k)
            (vec_of (traj A B (cv n (pX0 par)) us k)).
  Proof.
    move=> Hps. elim: k => [|k IH].
    - move=> a Ha. rewrite /= -(agree_vec (k := n) (pX0 par)) //.
    - move=> a /ssrnat.ltP Ha. rewrite -[a in LHS]/(val (Ordinal Ha)) -[a in RHS]/(val (Ordinal Ha)) vec_ofE /=.
      case: HL => _ [_ [_ Hf]]. rewrite (Hf _ _ _ _ _ (Ordinal Ha)). rewrite (cv_agree IH) cv_of /follow cv_of List.map_length List.seq_length. by [].
  Qed.
  Lemma follow_robust : robust_plan c par follow (fun _ => vzero).
  Proof.
    case: (HL) => Hn [Hm [Hz _]]. case: Hin => Iu [Ix [It [Ig Ip]]].
    split; first by move=> _ h h' E; rewrite /follow E.
    move=> ps Hps. cbv zeta. rewrite Hn Hm Hz.
    have TR k := follow_traj (fun k0 => (fun _ => vzero) (List.map ps (List.seq 0 (k0 + 1)))) k Hps.
    split; first by move=> k a _ /ssrnat.ltP.
    split. { move=> k a /ssrnat.ltP Hk /ssrnat.ltP Ha. rewrite /follow List.map_length List.seq_length. exact: Iu. }
    split. { move=> k a [/ssrnat.leP H1 /ssrnat.ltP H2] Ha. rewrite (TR k a Ha). apply: Ix; [by rewrite H1 H2|exact/ssrnat.ltP]. }
    split. { move=> a Ha. rewrite (TR _ a Ha). apply: It. exact/ssrnat.ltP. }
    split; first by move=> k a _ /ssrnat.ltP.
    move=> k con /ssrnat.ltP Hk Hi. rewrite /respects. case Eu: (nl_ub con) => [ub|]; last by [].
    have G : Rle (nl_g con (plant (mdl c) (pX0 par) (fun k0 : nat => follow (List.map ps (List.seq 0 k0))) (fun _ => vzero) (pTvp par) (fun k0 => pP par (ps k0)) k)
       (follow (List.map ps (List.seq 0 k))) vzero (pTvp par k) (pP par (ps k))) ub.
    { have X := Hxu Hi. rewrite (X _ (vec_of (traj A B (cv n (pX0 par)) us k)) _ (vec_of (us k)) _ vzero).
      - rewrite real0 //. exact: Ig Hk Hi Eu.
      - rewrite Hn. exact: TR.
      - rewrite Hm /follow List.map_length List.seq_length. by []. }
    case Es: (nl_soft con) => [[vmax pen]|]; last exact: G.
    exists 0. case: (Ip _ _ _ Hi Es) => Hp Hv. split; first exact: Rle_refl. split; first exact: Hv. rewrite [Rplus ub _]Rplus_0_r. exact: G.
  Qed.
  Lemma follow_slack : slack_plan c par follow (fun _ => vzero) (fun _ _ => 0).
  Proof.
    case: (HL) => Hn [Hm [Hz _]]. case: Hin => Iu [Ix [It [Ig Ip]]].
    split; first by [].
    move=> ps Hps. cbv zeta. move=> k i con vmax pen /ssrnat.ltP Hk Hi Es.
    have {}Hi := List.nth_error_In _ _ Hi.
    have TR := follow_traj (fun k0 => (fun _ => vzero) (List.map ps (List.seq 0 (k0 + 1)))) k Hps.
    case: (Ip _ _ _ Hi Es) => Hp Hv. split; first exact: Rle_refl. split; first exact: Hv.
    case Eu: (nl_ub con) => [ub|]; last by []. rewrite /le_ub /= [Rminus _ 0]Rminus_0_r.
    have X := Hxu Hi. rewrite (X _ (vec_of (traj A B (cv n (pX0 par)) us k)) _ (vec_of (us k)) _ vzero).
    - rewrite real0 //. exact: Ig Hk Hi Eu.
    - rewrite Hn. exact: TR.
    - rewrite Hm /follow List.map_length List.seq_length. by [].
  Qed.

  Lemma charge_nonneg eps l a :
    (forall con vmax pen, List.In con l -> nl_soft con = Some (vmax, pen) -> Rle 0 pen) ->
    (forall i con vmax pen, List.nth_error l i = Some con -> nl_soft con = Some (vmax, pen) ->
       Rle 0 (eps (a + List.length (soft_list (List.firstn i l)))%coq_nat)) ->
    Rle 0 (slack_charge a l eps).
  Proof.
    elim: l a => [|con l IH] a Hp He /=; first exact: Rle_refl.
    case Es: (nl_soft con) => [[vmax pen]|] /=.
    - have H1 := He 0%N con vmax pen erefl Es. rewrite /= in H1. rewrite Nat.add_0_r in H1.
      have H2 := Hp con vmax pen (or_introl erefl) Es.
      have H3 : Rle 0 (slack_charge (S a) l eps).
      { apply: IH => [con' v' p' Hi'|i con' v' p' Hi' Es']; first by apply: Hp; right.
        have := He i.+1 con' v' p' Hi' Es'. by rewrite /= /soft_list /= Es /= Nat.add_succ_r. }
      have := Rmult_le_pos _ _ H2 H1. lra.
    - apply: IH => [con' v' p' Hi'|i con' v' p' Hi' Es']; first by apply: Hp; right.
      have := He i.+1 con' v' p' Hi' Es'. by rewrite /= /soft_list /= Es /=.
  Qed.
  Lemma total_nonneg N f : (forall k, (k < N)%N -> Rle 0 (f k)) -> Rle 0 (NlpSpec.total N f).
  Proof.
    rewrite total_big => H. apply/RleE. apply: sumr_ge0 => i _. apply/RleE. exact: H.
  Qed.

  Let J := mpc_cost A B Q P W rate_weight xss uss (N c) (cv m (pUprev par)) (cv n (pX0 par)).
  Lemma mpc_cost_ext vs ws : vs =1 ws -> J vs = J ws.
  Proof.
    move=> E. rewrite /J /mpc_cost. have T := traj_ext A B (cv n (pX0 par)) E. have T2 := before_ext (cv m (pUprev par)) E.
    rewrite T. congr (_ + _). apply: eq_bigr => k _. by rewrite T T2 E.
  Qed.
  Lemma slack_nonneg policy zpol slack : slack_plan c par policy zpol slack ->
    Rle 0 (NlpSpec.total (N c) (fun k => slack_charge 0 (nlc c) (slack (hist0 k)))).
  Proof.
    move=> Hs. apply: total_nonneg => k Hk. apply: charge_nonneg.
    - move=> con vmax pen Hi Es. case: Hin => _ [_ [_ [_ Ip]]]. by case: (Ip _ _ _ Hi Es).
    - move=> i con vmax pen Hi Es.
      have R0 : realisation c (fun _ => 0%N). { split; rewrite Hr; [by move=> q /ssrnat.ltP|by []]. }
      have := proj2 Hs _ R0. cbv zeta => /(_ k i con vmax pen (elimT ssrnat.ltP Hk) Hi Es) [H _]. exact: H.
  Qed.
  Lemma follow_cost : plan_cost c par r follow (fun _ => vzero) (fun _ _ => 0) = J us.
  Proof.
    rewrite plan_cost_lin -/J.
    have H3 : NlpSpec.total (N c) (fun k => slack_charge 0 (nlc c) (fun _ => 0)) = 0.
    { rewrite total_big big1 // => k _. move: 0%N. elim: (nlc c) => [//|con l IH] a /=. case: (nl_soft con) => [q|]; last exact: IH.
      rewrite IH. rewrite Rmult_0_r Rplus_0_r. by []. }
    rewrite H3 addr0. apply: mpc_cost_ext => k. by rewrite /follow cv_of hist0_len.
  Qed.
  Lemma cost_above policy zpol slack : slack_plan c par policy zpol slack ->
    Rle (J (fun k => cv m (policy (hist0 k)))) (plan_cost c par r policy zpol slack).
  Proof.
    move=> Hs. rewrite plan_cost_lin -/J. rewrite -[X in Rle X _]Rplus_0_r. apply: Rplus_le_compat_l. exact: slack_nonneg Hs.
  Qed.
  Lemma best_plan_best policy zpol slack v : (forall vs, J us <= J vs) -> optimal_plan c par r policy zpol slack v ->
    forall vs, J (fun k => cv m (policy (hist0 k))) <= J vs.
  Proof.
    move=> Hus [Hp [Hs [Ev Hbest]]] vs.
    have H1 := Hbest _ _ _ follow_robust follow_slack. rewrite -Ev follow_cost in H1.
    apply/RleE. apply: (Rle_trans _ _ _ (cost_above Hs)). apply: (Rle_trans _ _ _ H1). apply/RleE. exact: Hus.
  Qed.
  Lemma follow_optimal : (forall vs, J us <= J vs) -> optimal_plan c par r follow (fun _ => vzero) (fun _ _ => 0) (J us).
  Proof.
    move=> Hus. split; first exact: follow_robust. split; first exact: follow_slack. split; first exact: follow_cost.
    move=> policy zpol slack _ Hs. apply: Rle_trans (cost_above Hs). apply/RleE. exact: Hus.
  Qed.
End Plan.
