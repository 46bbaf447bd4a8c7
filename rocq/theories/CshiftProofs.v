(** * Proofs for C97: the shifted collocation plan. *)
From Coq Require Import Reals Lra Lia.
From Verif Require Import Base TreeModel TreeSpec TreeProofs TreeProofs2 NlpModel NlpSpec NlpProofs NlpProofs2 NlpProofs3 NlpProofs4 NlpProps RobustProps PlanSpec PlanProofs PlanProofs2 CplanSpec CplanProofs CshiftSpec.
Local Open Scope R_scope.

Section Shift.
  Variable c : cfg.
  Variables (deg ni : nat) (h : R) (C : nat -> nat -> R) (D : nat -> R).
  Variables par par' : params.
  Variables policy state : list nat -> vec.
  Variables X Z : list nat -> nat -> nat -> vec.
  Variables (law : vec -> vec) (xlaw zlaw : vec -> nat -> nat -> nat -> vec) (goes_to : vec -> nat -> vec) (i : nat).
  Hypothesis Hok : cfg_ok c.
  Hypothesis Hcov : covers_all c.
  Hypothesis Hi : admissible c i.
  Hypothesis Hplan : robust_collocation_plan c deg ni h C D par policy state X Z.
  Hypothesis Hlast : chk_colloc c = true -> forall ps, realisation c ps -> forall e j a, (e < ni)%nat -> (j <= deg)%nat -> (1 <= e + j)%nat -> (a < n_x (mdl c))%nat ->
    inside (xlb c a) (xub c a) (X (map ps (seq 0 (N c))) e j a).
  Hypothesis Hterm : terminal_invariant_collocation c deg ni h C D (pTvp par (N c)) (pP par) law xlaw zlaw goes_to.
  Hypothesis Hnext : next_problem c par par' (state [i]).
  Let HN : (1 <= N c)%nat := proj1 Hok.

  (** the state at the end of the old horizon *)
  Definition endstate (l : list nat) : vec := state (i :: firstn (N c - 1) l).
  Definition cpolicy' (l : list nat) : vec := if (List.length l <? N c - 1)%nat then policy (i :: l) else law (endstate l).
  Definition cstate' (l : list nat) : vec := if (List.length l <? N c)%nat then state (i :: l) else goes_to (endstate l) (last l 0%nat).
  Definition cX' (l : list nat) : nat -> nat -> vec := if (List.length l <? N c)%nat then X (i :: l) else xlaw (endstate l) (last l 0%nat).
  Definition cZ' (l : list nat) : nat -> nat -> vec := if (List.length l <? N c)%nat then Z (i :: l) else zlaw (endstate l) (last l 0%nat).

  Lemma shift_cplan : robust_collocation_plan c deg ni h C D par' cpolicy' cstate' cX' cZ'.
  Proof.
    destruct Hnext as (Hx0 & Htv & HP). destruct Hplan as (Hol & Hini & Hrun). split; [|split].
    { intros Ho l l' E. unfold cpolicy'. rewrite <- E. destruct (List.length l <? N c - 1)%nat.
      - apply (Hol Ho). cbn [List.length]. rewrite E. reflexivity.
      - apply (proj1 Hterm Ho). }
    { intros a Ha. unfold cstate'. cbn [List.length]. destruct (Nat.ltb_spec 0 (N c)); [|lia]. symmetry. apply Hx0. exact Ha. }
    intros ps' Hps' k Hk now next p.
    destruct (extend_realisation c ps' i Hok Hcov Hps' Hi) as (ps & Hps & E0 & ES).
    assert (Ecat : forall k, (k <= N c - 1)%nat -> i :: map ps' (seq 0 k) = map ps (seq 0 (S k))).
    { apply cons_ps; [exact E0|]. intros k' Hk'. apply ES. lia. }
    assert (Hadm : admissible c (ps' k)) by (apply (realisation_admissible c ps' k Hok Hps')).
    assert (Hp : p = pP par (ps' k)) by (unfold p; apply HP; apply Hadm).
    assert (Hst : cstate' now = state (map ps (seq 0 (k + 1)))).
    { unfold cstate', now. rewrite map_length, seq_length. destruct (Nat.ltb_spec k (N c)); [|lia]. rewrite Ecat by lia. f_equal. f_equal. f_equal. lia. }
    destruct (Nat.lt_ge_cases (k + 1) (N c)) as [Hk1|Hk1].
    - assert (EP : ps' k = ps (k + 1)%nat) by (replace (k + 1)%nat with (S k) by lia; symmetry; apply ES; lia).
      assert (Hu : cpolicy' now = policy (map ps (seq 0 (k + 1)))).
      { unfold cpolicy', now. rewrite map_length, seq_length. destruct (Nat.ltb_spec k (N c - 1)); [|lia]. rewrite Ecat by lia. f_equal. f_equal. f_equal. lia. }
      assert (Hst' : cstate' next = state (map ps (seq 0 (k + 1 + 1)))).
      { unfold cstate', next. rewrite map_length, seq_length. destruct (Nat.ltb_spec (k + 1) (N c)); [|lia]. rewrite Ecat by lia. f_equal. f_equal. f_equal. lia. }
      assert (HX : cX' next = X (map ps (seq 0 (k + 1 + 1)))).
      { unfold cX', next. rewrite map_length, seq_length. destruct (Nat.ltb_spec (k + 1) (N c)); [|lia]. rewrite Ecat by lia. f_equal. f_equal. f_equal. lia. }
      assert (HZ : cZ' next = Z (map ps (seq 0 (k + 1 + 1)))).
      { unfold cZ', next. rewrite map_length, seq_length. destruct (Nat.ltb_spec (k + 1) (N c)); [|lia]. rewrite Ecat by lia. f_equal. f_equal. f_equal. lia. }
      pose proof (Hrun ps Hps (k + 1)%nat Hk1) as HR. cbv zeta in HR. rewrite <- EP, <- Hp, <- Hu, <- Hst, <- Hst', <- HX, <- HZ in HR. rewrite <- (Htv k Hk) in HR.
      destruct HR as (R1 & R2 & R3 & R4 & R5 & R6 & R7).
      split; [exact R1|]. split; [exact R2|]. split; [intros _; apply R3; lia|]. split; [lia|]. split; [exact R5|]. split; [exact R6|].
      intros Hch e j He Hj. destruct (R7 Hch e j He Hj) as [Q1 Q2]. split; [exact Q1|]. intros _ Hej a Ha.
      destruct (Nat.lt_ge_cases (k + 1 + 1) (N c)) as [H2|H2]; [apply Q2; auto|].
      rewrite HX. replace (k + 1 + 1)%nat with (N c) by lia. apply Hlast; auto.
    - set (xe := endstate now).
      assert (Exe : xe = state (map ps (seq 0 (N c)))).
      { unfold xe, endstate, now. rewrite firstn_all2 by (rewrite map_length, seq_length; lia). rewrite Ecat by lia. f_equal. f_equal. f_equal. lia. }
      assert (Exe' : endstate next = xe).
      { unfold xe, endstate, now, next. rewrite firstn_ps by lia. rewrite firstn_all2 by (rewrite map_length, seq_length; lia). do 4 f_equal. lia. }
      assert (El : last next 0%nat = ps' k).
      { unfold next. replace (k + 1)%nat with (S k) by lia. rewrite seq_snoc, map_app. cbn [map]. apply last_last. }
      assert (Hlen : (List.length next <? N c)%nat = false) by (unfold next; rewrite map_length, seq_length; apply Nat.ltb_ge; lia).
      assert (Hu : cpolicy' now = law xe).
      { unfold cpolicy', now. rewrite map_length, seq_length. destruct (Nat.ltb_spec k (N c - 1)); [lia|]. reflexivity. }
      assert (Hst' : cstate' next = goes_to xe (ps' k)) by (unfold cstate'; rewrite Hlen, Exe', El; reflexivity).
      assert (HX : cX' next = xlaw xe (ps' k)) by (unfold cX'; rewrite Hlen, Exe', El; reflexivity).
      assert (HZ : cZ' next = zlaw xe (ps' k)) by (unfold cZ'; rewrite Hlen, Exe', El; reflexivity).
      rewrite Hu, Hst', HX, HZ, Hp. rewrite Hst. replace (k + 1)%nat with (N c) by lia. rewrite <- Exe.
      rewrite (Htv k Hk). replace (k + 1)%nat with (N c) by lia.
      assert (Hin : in_terminal c xe).
      { intros a Ha. pose proof (Hrun ps Hps (N c - 1)%nat ltac:(lia)) as HR. cbv zeta in HR. destruct HR as (_ & _ & _ & R4 & _).
        specialize (R4 ltac:(lia) a Ha). replace (N c - 1 + 1)%nat with (N c) in R4 by lia. rewrite Exe. exact R4. }
      destruct (proj2 Hterm xe Hin) as (T1 & T2 & T3). destruct (T3 (ps' k) Hadm) as (T4 & T5 & T6 & T7 & T8).
      split; [exact T4|]. split; [exact T2|]. split; [intros _; exact T1|]. split; [intros _; exact T7|]. split; [exact T5|]. split; [exact T6|].
      intros Hch e j He Hj. destruct (T8 Hch e j He Hj) as [Q1 Q2]. split; [exact Q2|]. intros; lia.
  Qed.
End Shift.
