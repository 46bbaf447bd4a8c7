(** * Proofs for C90: the shifted plan. *)
From Coq Require Import Reals Lra Lia.
From Verif Require Import Base TreeModel TreeSpec TreeProofs TreeProofs2 NlpModel NlpSpec NlpProofs NlpProofs2 NlpProofs3 NlpProofs4 NlpProps RobustProps PlanSpec PlanProofs.
Local Open Scope R_scope.

Lemma realisation_admissible c ps k : cfg_ok c -> realisation c ps -> admissible c (ps k).
Proof.
  intros (_ & Hc & _) [H1 H2]. destruct (Nat.lt_ge_cases k (nr c)) as [Hk|Hk]; [split; [auto|lia]|].
  rewrite (H2 k Hk). destruct (Nat.eqb_spec (nr c) 0) as [E|E]; split; auto; try lia. apply H1. lia.
Qed.
Lemma extend_realisation c ps' i : cfg_ok c -> covers_all c -> realisation c ps' -> admissible c i ->
  exists ps, realisation c ps /\ ps 0%nat = i /\ forall k, (k + 1 < N c)%nat -> ps (S k) = ps' k.
Proof.
  intros Hok Hcov Hps [Hi Hi0]. pose proof (fun k => realisation_admissible c ps' k Hok Hps) as Hadm.
  destruct (Nat.eq_dec (nr c) 0) as [E0|E0].
  - exists ps'. destruct Hps as [H1 H2].
    assert (A : forall k, ps' k = 0%nat) by (intros k; rewrite H2 by lia; rewrite E0; reflexivity).
    split; [split; auto|]. rewrite A. split; [symmetry; auto|]. intros k _. rewrite !A. reflexivity.
  - set (f := fun k => match k with O => i | S k' => ps' k' end).
    assert (Hf : forall k, (f k < ncomb c)%nat) by (intros [|k]; [exact Hi|apply Hadm]).
    exists (fun k => f (Nat.min k (nr c - 1))). split; [split|split].
    + intros k _. apply Hf.
    + intros k Hk. destruct (Nat.eqb_spec (nr c) 0); [lia|]. f_equal. lia.
    + reflexivity.
    + intros k Hk. destruct Hcov as [E|[E|E]]; [lia| |].
      * pose proof (Hf (Nat.min (S k) (nr c - 1))). pose proof (proj1 (Hadm k)). lia.
      * replace (Nat.min (S k) (nr c - 1)) with (S k) by lia. reflexivity.
Qed.
Lemma cons_ps (ps ps' : nat -> nat) i n : ps 0%nat = i -> (forall k, (k < n)%nat -> ps (S k) = ps' k) -> forall k, (k <= n)%nat ->
  i :: map ps' (seq 0 k) = map ps (seq 0 (S k)).
Proof.
  intros H0 HS k Hk. cbn [seq map]. rewrite H0. f_equal. rewrite <- seq_shift, map_map. apply map_ext_in. intros j Hj. apply in_seq in Hj. symmetry. apply HS. lia.
Qed.

Section Shift.
  Variable c : cfg.
  Variables par par' : params.
  Variables policy zpol : list nat -> vec.
  Variables (law : vec -> vec) (zlaw : vec -> nat -> vec) (i : nat).
  Hypothesis Hok : cfg_ok c.
  Hypothesis Hwf : wf_model (mdl c).
  Hypothesis Hcon : forall con, In con (nlc c) -> xu_constraint (mdl c) con.
  Hypothesis Hcov : covers_all c.
  Hypothesis Hi : admissible c i.
  Hypothesis Hplan : robust_plan c par policy zpol.
  Hypothesis Hterm : terminal_invariant c (pTvp par (N c)) (pP par) law zlaw.
  Hypothesis Hnext : next_problem c par par' (rhs (mdl c) (pX0 par) (policy []) (zpol [i]) (pTvp par 0%nat) (pP par i) vzero).
  Let HN : (1 <= N c)%nat := proj1 Hok.

  Definition policy' (h : list nat) : vec :=
    if (List.length h <? N c - 1)%nat then policy (i :: h) else law (hplant c par policy zpol (i :: firstn (N c - 1) h)).
  Definition zpol' (h : list nat) : vec :=
    if (List.length h <? N c)%nat then zpol (i :: h) else zlaw (hplant c par policy zpol (i :: firstn (N c - 1) h)) (last h 0%nat).

  Lemma respects_ext con x x' u z z' tvp p : In con (nlc c) -> agree (n_x (mdl c)) x x' -> respects con x' u z' tvp p -> respects con x u z tvp p.
  Proof.
    intros Hin Hx. unfold respects. rewrite (Hcon con Hin x x' u u z z' tvp p Hx (fun _ _ => eq_refl)). auto.
  Qed.

  Lemma shift_plan : robust_plan c par' policy' zpol'.
  Proof.
    destruct Hnext as (Hx0 & Htv & HP). split.
    { intros Ho h h' E. unfold policy'. rewrite <- E. destruct (List.length h <? N c - 1)%nat.
      - apply (proj1 Hplan Ho). cbn [List.length]. rewrite E. reflexivity.
      - apply (proj1 Hterm Ho). }
    intros ps' Hps' u' z' p' x'.
    destruct (extend_realisation c ps' i Hok Hcov Hps' Hi) as (ps & Hps & E0 & ES).
    assert (Ecat : forall k, (k <= N c - 1)%nat -> i :: map ps' (seq 0 k) = map ps (seq 0 (S k))).
    { apply cons_ps; [exact E0|]. intros k Hk. apply ES. lia. }
    pose proof (proj2 Hplan ps Hps) as HR. cbv zeta in HR. fold u' z' p' x' in HR.
    set (u := fun k => policy (map ps (seq 0 k))) in *. set (z := fun k => zpol (map ps (seq 0 (k + 1)))) in *.
    set (p := fun k => pP par (ps k)) in *. set (x := plant (mdl c) (pX0 par) u z (pTvp par) p) in *.
    destruct HR as (R1 & R2 & R3 & R4 & R5 & R6).
    assert (Hu : forall k, (k + 1 < N c)%nat -> u' k = u (k + 1)%nat).
    { intros k Hk. unfold u', policy'. rewrite map_length, seq_length. destruct (Nat.ltb_spec k (N c - 1)); [|lia].
      rewrite Ecat by lia. unfold u. replace (k + 1)%nat with (S k) by lia. reflexivity. }
    assert (Hz : forall k, (k + 1 < N c)%nat -> z' k = z (k + 1)%nat).
    { intros k Hk. unfold z', zpol'. rewrite map_length, seq_length. destruct (Nat.ltb_spec (k + 1) (N c)); [|lia].
      rewrite Ecat by lia. unfold z. replace (S (k + 1))%nat with (k + 1 + 1)%nat by lia. reflexivity. }
    assert (Hp : forall k, (k + 1 < N c)%nat -> p' k = p (k + 1)%nat).
    { intros k Hk. unfold p', p. rewrite HP by (apply (realisation_admissible c ps' k Hok Hps')). f_equal. replace (k + 1)%nat with (S k) by lia. symmetry. apply ES. lia. }
    assert (EN : hplant c par policy zpol (i :: map ps' (seq 0 (N c - 1))) = x (N c)).
    { rewrite Ecat by lia. rewrite hplant_ps by exact Hok. replace (S (N c - 1)) with (N c) by lia. reflexivity. }
    set (kl := (N c - 1)%nat).
    assert (Hul : u' kl = law (x (N c))).
    { unfold u', policy'. rewrite map_length, seq_length. unfold kl. rewrite Nat.ltb_irrefl. rewrite firstn_all2 by (rewrite map_length, seq_length; lia). rewrite EN. reflexivity. }
    assert (Hzl : z' kl = zlaw (x (N c)) (ps' kl)).
    { unfold z', zpol'. rewrite map_length, seq_length. destruct (Nat.ltb_spec (kl + 1) (N c)); [unfold kl in *; lia|].
      unfold kl. rewrite firstn_ps by lia. rewrite EN. f_equal. replace (N c - 1 + 1)%nat with (S (N c - 1)) by lia. rewrite seq_snoc, map_app. cbn [map]. apply last_last. }
    assert (Hpl : p' kl = pP par (ps' kl)) by (unfold p'; apply HP; apply (realisation_admissible c ps' kl Hok Hps')).
    assert (Hx : forall k, (k <= N c - 1)%nat -> agree (n_x (mdl c)) (x' k) (x (k + 1)%nat)).
    { intros k. induction k as [|k IH]; intros Hk.
      - intros a Ha. change (x' 0%nat) with (pX0 par'). rewrite (Hx0 a Ha). unfold x. cbn [plant Nat.add]. unfold u, z, p. cbn [seq map Nat.add]. rewrite E0. reflexivity.
      - intros a Ha. change (x (S k + 1)%nat) with (rhs (mdl c) (x (k + 1)%nat) (u (k + 1)%nat) (z (k + 1)%nat) (pTvp par (k + 1)%nat) (p (k + 1)%nat) vzero).
        change (x' (S k)) with (rhs (mdl c) (x' k) (u' k) (z' k) (pTvp par' k) (p' k) vzero).
        rewrite Hu, Hz, Hp, Htv by lia. apply Hwf; [apply IH; lia|intros ? ?; reflexivity|exact Ha]. }
    assert (Hxl : agree (n_x (mdl c)) (x' kl) (x (N c))).
    { replace (N c) with (kl + 1)%nat by (unfold kl; lia). apply Hx. unfold kl. lia. }
    destruct (proj2 Hterm (x (N c)) R4) as (T1 & T2 & T3). destruct (T3 (ps' kl) (realisation_admissible c ps' kl Hok Hps')) as (T4 & T5 & T6 & T7). clear T3.
    assert (Htl : pTvp par' kl = pTvp par (N c)) by (rewrite Htv by (unfold kl; lia); f_equal; unfold kl; lia).
    assert (Hsplit : forall k, (k < N c)%nat -> (k + 1 < N c)%nat \/ k = kl) by (intros k Hk; unfold kl; lia).
    split; [|split; [|split; [|split; [|split]]]].
    - intros k a Hk Ha. destruct (Hsplit k Hk) as [H| ->].
      + rewrite Hu, Hz, Hp, Htv by lia. rewrite <- (R1 (k + 1)%nat a H Ha). apply Hwf; [apply Hx; lia|intros ? ?; reflexivity|exact Ha].
      + rewrite Hul, Hzl, Hpl, Htl. rewrite <- (T4 a Ha). apply Hwf; [exact Hxl|intros ? ?; reflexivity|exact Ha].
    - intros k a Hk Ha. destruct (Hsplit k Hk) as [H| ->]; [rewrite Hu by exact H; apply R2; auto|rewrite Hul; apply T2; exact Ha].
    - intros k a Hk Ha. destruct (Hsplit k ltac:(lia)) as [H| ->].
      + rewrite (Hx k ltac:(lia) a Ha). apply R3; [lia|exact Ha].
      + rewrite (Hxl a Ha). apply T1. exact Ha.
    - intros a Ha. replace (N c) with (S kl) by (unfold kl; lia).
      change (x' (S kl)) with (rhs (mdl c) (x' kl) (u' kl) (z' kl) (pTvp par' kl) (p' kl) vzero). rewrite Hul, Hzl, Hpl, Htl.
      rewrite (proj1 (Hwf (x' kl) (x (N c)) (law (x (N c))) (zlaw (x (N c)) (ps' kl)) (zlaw (x (N c)) (ps' kl)) (pTvp par (N c)) (pP par (ps' kl)) vzero Hxl (fun _ _ => eq_refl)) a Ha).
      apply T7. exact Ha.
    - intros k a Hk Ha. destruct (Hsplit k Hk) as [H| ->]; [rewrite Hz by exact H; apply R5; auto|rewrite Hzl; apply T5; exact Ha].
    - intros k con Hk Hin. destruct (Hsplit k Hk) as [H| ->].
      + rewrite Hu, Hz, Hp, Htv by lia. apply (respects_ext con (x' k) (x (k + 1)%nat) _ _ (z (k + 1)%nat)); [exact Hin|apply Hx; lia|apply R6; auto].
      + rewrite Hul, Hzl, Hpl, Htl. apply (respects_ext con (x' kl) (x (N c)) _ _ (zlaw (x (N c)) (ps' kl))); [exact Hin|exact Hxl|apply T6; exact Hin].
  Qed.
End Shift.
