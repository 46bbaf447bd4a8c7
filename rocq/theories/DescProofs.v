(** * Proofs for C92: the cost of the shifted plan. *)
From Coq Require Import Reals Lra Lia.
From Verif Require Import Base TreeModel TreeSpec TreeProofs TreeProofs2 NlpModel NlpSpec NlpProofs NlpProofs2 NlpProofs3 NlpProofs4 NlpProps RobustProps PlanSpec PlanProofs PlanProofs2 PlanProps BestSpec BestProofs BestProofs2 BestProps DescSpec.
Local Open Scope R_scope.

Lemma rsum_app l l' : rsum (l ++ l') = rsum l + rsum l'.
Proof. unfold rsum. induction l as [|x l IH]; cbn [app fold_right]; [ring|]. rewrite IH. ring. Qed.
Lemma total_last n f : total (S n) f = total n f + f n.
Proof. unfold total. rewrite seq_snoc, map_app, rsum_app. cbn. lra. Qed.
Lemma total_first n f : total (S n) f = f 0%nat + total n (fun k => f (S k)).
Proof. unfold total. cbn [seq map]. rewrite <- seq_shift, map_map. reflexivity. Qed.
Lemma total_ext n f g : (forall k, (k < n)%nat -> f k = g k) -> total n f = total n g.
Proof. intros H. unfold total. f_equal. apply map_ext_in. intros k Hk. apply in_seq in Hk. apply H. lia. Qed.
Lemma total_plus n f g : total n (fun k => f k + g k) = total n f + total n g.
Proof. induction n as [|n IH]; [unfold total; cbn; lra|]. rewrite !total_last, IH. lra. Qed.
Lemma total_plus3 n f g h : total n (fun k => f k + g k + h k) = total n f + total n (fun k => g k + h k).
Proof. induction n as [|n IH]; [unfold total; cbn; lra|]. rewrite !total_last, IH. lra. Qed.

Section One.
  Variable c : cfg.
  Hypothesis Hok : cfg_ok c.
  Hypothesis H1 : one_scenario c.
  Lemma one_covers : covers_all c.
  Proof. destruct H1; [left|right; left]; assumption. Qed.
  Lemma zeros_real : realisation c (fun _ => 0%nat).
  Proof. destruct Hok as (_ & Hc & _). split; [intros; lia|]. intros. destruct (nr c =? 0)%nat; reflexivity. Qed.
  Lemma real_zeros ps k : realisation c ps -> ps k = 0%nat.
  Proof.
    intros Hps. destruct (realisation_admissible c ps k Hok Hps) as [A B]. destruct H1 as [E|E]; [apply B; exact E|lia].
  Qed.
  Lemma real_map ps k : realisation c ps -> map ps (seq 0 k) = map (fun _ => 0%nat) (seq 0 k).
  Proof. intros Hps. apply map_ext. intros a. apply real_zeros. exact Hps. Qed.
  Lemma one_pow k : (ncomb c ^ Nat.min k (nr c))%nat = 1%nat.
  Proof. destruct H1 as [-> | ->]; [rewrite Nat.min_0_r; reflexivity|apply Nat.pow_1_l]. Qed.
  Lemma sequences_1 m : sequences 1 m = [repeat 0%nat m].
  Proof.
    induction m as [|m IH]; [reflexivity|]. cbn [sequences]. rewrite IH. cbn [flat_map app map seq]. f_equal.
    clear. induction m as [|m IH]; [reflexivity|]. cbn [repeat app]. f_equal. exact IH.
  Qed.
  Lemma one_cost par r policy zpol slack : plan_cost c par r policy zpol slack =
    let u := fun k => policy (map (fun _ => 0%nat) (seq 0 k)) in
    let z := fun k => zpol (map (fun _ => 0%nat) (seq 0 (k + 1))) in
    let x := plant (mdl c) (pX0 par) u z (pTvp par) (fun _ => pP par 0%nat) in
    total (N c) (fun k => lterm c (x k) (u k) (z k) (pTvp par k) (pP par 0%nat) + slack_charge 0 (nlc c) (slack (map (fun _ => 0%nat) (seq 0 k)))
                          + rate_penalty c r (u k) (if (k =? 0)%nat then pUprev par else u (k - 1)%nat))
    + mterm c (x (N c)) (pTvp par (N c)) (pP par 0%nat).
  Proof.
    unfold plan_cost.
    assert (E : exists l, sequences (ncomb c) (nr c) = [l] /\ forall k, realise c l k = 0%nat).
    { destruct H1 as [E|E].
      - rewrite E. exists []. split; [reflexivity|]. intros k. unfold realise. rewrite E. reflexivity.
      - rewrite E, sequences_1. eexists. split; [reflexivity|]. intros k. unfold realise. destruct (nr c =? 0)%nat; [reflexivity|].
        apply nth_repeat. }
    destruct E as (l & -> & El). assert (P1 : (ncomb c ^ nr c)%nat = 1%nat) by (rewrite <- (Nat.min_id (nr c)) at 1; apply one_pow). rewrite P1.
    cbn [map]. unfold scenario_cost. cbv zeta.
    assert (Em : forall k, map (realise c l) (seq 0 k) = map (fun _ => 0%nat) (seq 0 k)) by (intros k; apply map_ext; exact El).
    set (u := fun k => policy (map (fun _ => 0%nat) (seq 0 k))). set (z := fun k => zpol (map (fun _ => 0%nat) (seq 0 (k + 1)))).
    set (x := plant (mdl c) (pX0 par) u z (pTvp par) (fun _ => pP par 0%nat)).
    assert (Ex : forall k, plant (mdl c) (pX0 par) (fun k => policy (map (realise c l) (seq 0 k))) (fun k => zpol (map (realise c l) (seq 0 (k + 1)))) (pTvp par) (fun k => pP par (realise c l k)) k = x k).
    { intros k. apply plant_ext; intros j _; unfold u, z; rewrite ?Em, ?El; reflexivity. }
    cbn [rsum fold_right map INR]. unfold rsum. cbn [fold_right]. rewrite Ex, El.
    rewrite (total_ext (N c) _ (fun k => lterm c (x k) (u k) (z k) (pTvp par k) (pP par 0%nat))) by (intros k _; rewrite Ex, !Em, El; reflexivity).
    rewrite (total_ext (N c) (fun k => INR _ * _) (fun k => slack_charge 0 (nlc c) (slack (map (fun _ => 0%nat) (seq 0 k))) + rate_penalty c r (u k) (if (k =? 0)%nat then pUprev par else u (k - 1)%nat))).
    - rewrite total_plus3. unfold u, z. lra.
    - intros k _. rewrite one_pow. cbn [INR]. rewrite !Em. unfold u. ring.
  Qed.
End One.

Lemma slack_charge_nonneg l : forall a eps, (forall con v pen, In con l -> nl_soft con = Some (v, pen) -> 0 <= pen) ->
  (forall b, (b < a + List.length (soft_list l))%nat -> 0 <= eps b) -> 0 <= slack_charge a l eps.
Proof.
  induction l as [|con l IH]; intros a eps Hp He; cbn [slack_charge]; [lra|].
  unfold soft_list in *. cbn [flat_map] in He.
  destruct (nl_soft con) as [[v pen]|] eqn:Es; cbn [app List.length snd] in *.
  - specialize (Hp con v pen (or_introl eq_refl) Es) as Hp0.
    assert (0 <= pen * eps a) by (apply Rmult_le_pos; [exact Hp0|apply He; lia]).
    assert (0 <= slack_charge (S a) l eps). { apply IH; [intros; eapply Hp; [right; eassumption|eassumption]|]. intros b Hb. apply He. lia. }
    lra.
  - apply IH; [intros; eapply Hp; [right; eassumption|eassumption]|]. intros b Hb. apply He. exact Hb.
Qed.
Lemma slack_charge_zero l : forall a, slack_charge a l (fun _ => 0) = 0.
Proof. induction l as [|con l IH]; intros a; cbn [slack_charge]; [reflexivity|]. destruct (nl_soft con); rewrite ?IH; lra. Qed.

Lemma le_ub_less v s ub : 0 <= s -> le_ub v ub -> le_ub (v - s) ub.
Proof. destruct ub as [ub|]; cbn; [lra|trivial]. Qed.

Section Shift.
  Variable c : cfg.
  Variables par par' : params.
  Variables policy zpol : list nat -> vec.
  Variable slack : list nat -> nat -> R.
  Variables (law : vec -> vec) (zlaw : vec -> nat -> vec) (r : vec).
  Hypothesis Hok : cfg_ok c.
  Hypothesis H1 : one_scenario c.
  Hypothesis Hwf : wf_model (mdl c).
  Hypothesis Hcon : forall con, In con (nlc c) -> xu_constraint (mdl c) con.
  Hypothesis Hvio : violations_ok c.
  Hypothesis Hpen : penalties_ok c.
  Hypothesis Hxu : xu_cost c.
  Hypothesis Hplan : robust_plan c par policy zpol.
  Hypothesis Hslack : slack_plan c par policy zpol slack.
  Hypothesis Hterm : terminal_invariant c (pTvp par (N c)) (pP par) law zlaw.
  Hypothesis Hdec : terminal_decrease c r (pTvp par (N c)) (pTvp par' (N c)) (pP par 0%nat) law zlaw.
  Hypothesis Hnext : next_problem c par par' (rhs (mdl c) (pX0 par) (policy []) (zpol [0%nat]) (pTvp par 0%nat) (pP par 0%nat) vzero).
  Hypothesis Hprev : agree (n_u (mdl c)) (pUprev par') (policy []).
  Let HN : (1 <= N c)%nat := proj1 Hok.

  Definition slack' (h : list nat) : nat -> R :=
    if single_slack c then slack [] else if (List.length h <? N c - 1)%nat then slack (0%nat :: h) else fun _ => 0.
  Notation pol' := (policy' c par policy zpol law 0).
  Notation zpl' := (zpol' c par policy zpol zlaw 0).
  Notation zs k := (map (fun _ : nat => 0%nat) (seq 0 k)).

  Lemma zs_cons k : 0%nat :: zs k = zs (S k).
  Proof. cbn [seq map]. f_equal. rewrite <- seq_shift, map_map. reflexivity. Qed.

  Lemma place_zs k : place c (zs k) = 0%nat.
  Proof.
    unfold place. assert (Q : forall m j s, s = 0%nat -> fold_left (fun s i => (s * ncomb c + i)%nat) (firstn m (map (fun _ : nat => 0%nat) (seq j k))) s = 0%nat); [|apply Q; reflexivity].
    induction k as [|k IH]; intros m j s ->; [destruct m; reflexivity|]. destruct m; [reflexivity|]. cbn [seq map firstn fold_left]. apply IH. lia.
  Qed.
  Lemma one_slack k a : single_slack c = true -> slack (zs k) a = slack [] a.
  Proof. intros E. apply (proj1 Hslack E). rewrite place_zs. unfold place. rewrite firstn_nil. reflexivity. Qed.

  Let u := fun k => policy (zs k).
  Let z := fun k => zpol (zs (k + 1)).
  Let p0 := pP par 0%nat.
  Let x := plant (mdl c) (pX0 par) u z (pTvp par) (fun _ => p0).
  Let u' := fun k => pol' (zs k).
  Let z' := fun k => zpl' (zs (k + 1)).
  Let x' := plant (mdl c) (pX0 par') u' z' (pTvp par') (fun _ => pP par' 0%nat).
  Let kl := (N c - 1)%nat.

  Lemma sh_p : pP par' 0%nat = p0.
  Proof. destruct Hnext as (_ & _ & H). apply H. apply Hok. Qed.
  Lemma sh_tvp k : (k < N c)%nat -> pTvp par' k = pTvp par (k + 1)%nat.
  Proof. destruct Hnext as (_ & H & _). apply H. Qed.
  Lemma sh_u k : (k + 1 < N c)%nat -> u' k = u (k + 1)%nat.
  Proof.
    intros Hk. unfold u', policy'. rewrite map_length, seq_length. destruct (Nat.ltb_spec k (N c - 1)); [|lia].
    rewrite zs_cons. unfold u. replace (k + 1)%nat with (S k) by lia. reflexivity.
  Qed.
  Lemma sh_z k : (k + 1 < N c)%nat -> z' k = z (k + 1)%nat.
  Proof.
    intros Hk. unfold z', zpol'. rewrite map_length, seq_length. destruct (Nat.ltb_spec (k + 1) (N c)); [|lia].
    rewrite zs_cons. unfold z. replace (S (k + 1))%nat with (k + 1 + 1)%nat by lia. reflexivity.
  Qed.
  Lemma sh_hN : hplant c par policy zpol (0%nat :: firstn (N c - 1) (zs (N c - 1))) = x (N c).
  Proof.
    rewrite firstn_all2 by (rewrite map_length, seq_length; lia). rewrite zs_cons, hplant_ps by exact Hok. replace (S (N c - 1)) with (N c) by lia. reflexivity.
  Qed.
  Lemma sh_ul : u' kl = law (x (N c)).
  Proof. unfold u', policy', kl. rewrite map_length, seq_length, Nat.ltb_irrefl, sh_hN. reflexivity. Qed.
  Lemma sh_zl : z' kl = zlaw (x (N c)) 0%nat.
  Proof.
    unfold z', zpol'. rewrite map_length, seq_length. destruct (Nat.ltb_spec (kl + 1) (N c)); [unfold kl in *; lia|].
    unfold kl. rewrite firstn_ps by lia. rewrite <- sh_hN, firstn_all2 by (rewrite map_length, seq_length; lia). f_equal.
    replace (N c - 1 + 1)%nat with (S (N c - 1)) by lia. rewrite seq_snoc, map_app. cbn [map]. apply last_last.
  Qed.
  Lemma sh_x k : (k <= N c - 1)%nat -> agree (n_x (mdl c)) (x' k) (x (k + 1)%nat).
  Proof.
    induction k as [|k IH]; intros Hk.
    - intros a Ha. change (x' 0%nat) with (pX0 par'). destruct Hnext as (Hx0 & _). rewrite (Hx0 a Ha). reflexivity.
    - intros a Ha. change (x (S k + 1)%nat) with (rhs (mdl c) (x (k + 1)%nat) (u (k + 1)%nat) (z (k + 1)%nat) (pTvp par (k + 1)%nat) p0 vzero).
      change (x' (S k)) with (rhs (mdl c) (x' k) (u' k) (z' k) (pTvp par' k) (pP par' 0%nat) vzero).
      rewrite sh_u, sh_z, sh_p, sh_tvp by lia. apply Hwf; [apply IH; lia|intros ? ?; reflexivity|exact Ha].
  Qed.
  Lemma sh_xl : agree (n_x (mdl c)) (x' kl) (x (N c)).
  Proof. replace (N c) with (kl + 1)%nat by (unfold kl; lia). apply sh_x. unfold kl. lia. Qed.
  Lemma sh_tl : pTvp par' kl = pTvp par (N c).
  Proof. rewrite sh_tvp by (unfold kl; lia). f_equal. unfold kl. lia. Qed.
  Lemma sh_xN : agree (n_x (mdl c)) (x' (N c)) (rhs (mdl c) (x (N c)) (law (x (N c))) (zlaw (x (N c)) 0%nat) (pTvp par (N c)) p0 vzero).
  Proof.
    intros a Ha. replace (x' (N c)) with (x' (S kl)) by (f_equal; unfold kl; lia).
    change (x' (S kl)) with (rhs (mdl c) (x' kl) (u' kl) (z' kl) (pTvp par' kl) (pP par' 0%nat) vzero). rewrite sh_ul, sh_zl, sh_p, sh_tl.
    apply Hwf; [exact sh_xl|intros ? ?; reflexivity|exact Ha].
  Qed.
  Lemma sh_ok : in_terminal c (x (N c)) /\ (forall k a, (k < N c)%nat -> (a < n_u (mdl c))%nat -> inside (ulb c a) (uub c a) (u k a)).
  Proof. destruct (proj2 Hplan _ (zeros_real c Hok)) as (_ & B & _ & T & _). split; [exact T|exact B]. Qed.

  Lemma sh_slack : slack_plan c par' pol' zpl' slack'.
  Proof.
    split; [intros E h h' a _; unfold slack'; rewrite E; reflexivity|].
    intros ps Hps. cbv zeta. intros k i con vmax pen Hk Hi Es.
    assert (Hin : In con (nlc c)) by (eapply nth_error_In; exact Hi).
    assert (Ep : forall j, map ps (seq 0 j) = zs j) by (intros j; apply (real_map c Hok H1); exact Hps).
    assert (Ex : plant (mdl c) (pX0 par') (fun k => pol' (map ps (seq 0 k))) (fun k => zpl' (map ps (seq 0 (k + 1)))) (pTvp par') (fun k => pP par' (ps k)) k = x' k).
    { apply plant_ext; intros j _; rewrite ?Ep, ?(real_zeros c Hok H1 ps j Hps); reflexivity. }
    rewrite Ex, !Ep, (real_zeros c Hok H1 ps k Hps). fold (u' k) (z' k).
    pose proof (proj2 Hslack _ (zeros_real c Hok)) as Q. cbv zeta in Q.
    destruct (Nat.ltb_spec k (N c - 1)) as [Hlt|Hge].
    - assert (Esl : forall a, slack' (zs k) a = slack (zs (S k)) a).
      { intros a. unfold slack'. destruct (single_slack c) eqn:E1; [symmetry; apply one_slack; exact E1|].
        rewrite map_length, seq_length. destruct (Nat.ltb_spec k (N c - 1)); [|lia]. rewrite zs_cons. reflexivity. }
      rewrite Esl. specialize (Q (S k) i con vmax pen ltac:(lia) Hi Es).
      fold u z p0 in Q. destruct Q as (Q1 & Q2 & Q3). split; [exact Q1|]. split; [exact Q2|].
      rewrite sh_u, sh_z, sh_p, sh_tvp by lia.
      rewrite (Hcon con Hin (x' k) (x (k + 1)%nat) (u (k + 1)%nat) (u (k + 1)%nat) (z (k + 1)%nat) (z (k + 1)%nat)) by (try (intros ? ?; reflexivity); apply sh_x; lia).
      replace (k + 1)%nat with (S k) by lia. exact Q3.
    - replace k with kl by (unfold kl; lia).
      specialize (Q 0%nat i con vmax pen ltac:(lia) Hi Es). destruct Q as (Q1 & Q2 & _). cbn [seq map] in Q1, Q2.
      set (s0 := slack' (zs kl) (List.length (soft_list (firstn i (nlc c))))).
      assert (Hs0 : 0 <= s0 /\ le_ub s0 vmax).
      { unfold s0, slack'. destruct (single_slack c); [split; assumption|].
        rewrite map_length, seq_length. unfold kl. rewrite Nat.ltb_irrefl. split; [lra|].
        destruct vmax as [v|]; cbn; [eapply Hvio; eassumption|exact Logic.I]. }
      split; [apply Hs0|]. split; [apply Hs0|].
      + destruct sh_ok as [T B]. destruct (Hdec (x (N c)) (u kl) T) as [D _]; [intros a Ha; apply B; [unfold kl; lia|exact Ha]|].
        specialize (D con Hin). rewrite sh_ul, sh_zl, sh_p, sh_tl.
        rewrite (Hcon con Hin (x' kl) (x (N c)) (law (x (N c))) (law (x (N c))) (zlaw (x (N c)) 0%nat) (zlaw (x (N c)) 0%nat)) by (try (intros ? ?; reflexivity); exact sh_xl).
        apply le_ub_less; [apply Hs0|]. exact D.
  Qed.
  Lemma charge_ext l : forall a e e', (forall b, e b = e' b) -> slack_charge a l e = slack_charge a l e'.
  Proof. induction l as [|con l IH]; intros a e e' He; cbn [slack_charge]; [reflexivity|]. destruct (nl_soft con) as [[v pen]|]; rewrite ?He; erewrite IH by exact He; reflexivity. Qed.
  Lemma sh_charge k : (k < kl)%nat -> slack_charge 0 (nlc c) (slack' (zs k)) = slack_charge 0 (nlc c) (slack (zs (S k))).
  Proof.
    intros Hk. apply charge_ext. intros b. unfold slack'. destruct (single_slack c) eqn:E1; [symmetry; apply one_slack; exact E1|].
    rewrite map_length, seq_length. destruct (Nat.ltb_spec k (N c - 1)); [|unfold kl in Hk; lia]. rewrite zs_cons. reflexivity.
  Qed.
  Lemma sh_charge_last : slack_charge 0 (nlc c) (slack' (zs kl)) <= slack_charge 0 (nlc c) (slack (zs 0)).
  Proof.
    unfold slack'. destruct (single_slack c); [apply Rle_refl|]. rewrite map_length, seq_length. unfold kl. rewrite Nat.ltb_irrefl, slack_charge_zero.
    apply slack_charge_nonneg; [exact Hpen|]. intros b Hb. cbn [Nat.add] in Hb.
    destruct (soft_which (nlc c) b Hb) as (i & con & vmax & pen & Q1 & Q2 & _ & Q3).
    pose proof (proj2 Hslack _ (zeros_real c Hok)) as Q. cbv zeta in Q. specialize (Q 0%nat i con vmax pen ltac:(lia) Q1 Q2). destruct Q as (Q & _).
    cbn [seq map] in *. rewrite <- Q3 in Q. exact Q.
  Qed.

  Lemma rate_ext v v1 w w1 : agree (n_u (mdl c)) v v1 -> agree (n_u (mdl c)) w w1 -> rate_penalty c r v w = rate_penalty c r v1 w1.
  Proof. intros A B. unfold rate_penalty. apply total_ext. intros a Ha. rewrite (A a Ha), (B a Ha). reflexivity. Qed.

  Lemma sh_cost : plan_cost c par' r pol' zpl' slack' + step_cost c r (pX0 par) (policy []) (pUprev par) (pTvp par 0%nat) (pP par 0%nat)
    <= plan_cost c par r policy zpol slack.
  Proof.
    rewrite !(one_cost c H1). cbv zeta. fold u z. fold p0. fold x. fold u' z'. fold x'.
    set (st := fun k => lterm c (x k) (u k) (z k) (pTvp par k) p0 + slack_charge 0 (nlc c) (slack (zs k)) + rate_penalty c r (u k) (if (k =? 0)%nat then pUprev par else u (k - 1)%nat)).
    set (st' := fun k => lterm c (x' k) (u' k) (z' k) (pTvp par' k) (pP par' 0%nat) + slack_charge 0 (nlc c) (slack' (zs k)) + rate_penalty c r (u' k) (if (k =? 0)%nat then pUprev par' else u' (k - 1)%nat)).
    cut (total (N c) st' + mterm c (x' (N c)) (pTvp par' (N c)) (pP par' 0%nat) + step_cost c r (pX0 par) (policy []) (pUprev par) (pTvp par 0%nat) (pP par 0%nat)
         <= total (N c) st + mterm c (x (N c)) (pTvp par (N c)) (pP par 0%nat)); [intros Q; exact Q|].
    assert (EN : N c = S kl) by (unfold kl; lia).
    assert (E1 : total (N c) st = st 0%nat + total kl (fun k => st (S k))) by (rewrite EN; apply total_first).
    assert (E2 : total (N c) st' = total kl st' + st' kl) by (rewrite EN; apply total_last).
    assert (Ept : forall k, agree (n_u (mdl c)) (if (k =? 0)%nat then pUprev par' else u' (k - 1)%nat) (u k) \/ (N c <= k)%nat).
    { intros [|k]; [left; exact Hprev|]. destruct (Nat.lt_ge_cases (S k) (N c)) as [Hk|Hk]; [|right; lia]. left. cbn [Nat.eqb].
      replace (S k - 1)%nat with k by lia. rewrite sh_u by lia. replace (k + 1)%nat with (S k) by lia. intros ? ?. reflexivity. }
    assert (E3 : total kl st' = total kl (fun k => st (S k))).
    { apply total_ext. intros k Hk. unfold st, st'. cbn [Nat.eqb]. replace (S k - 1)%nat with k by lia.
      assert (Hk' : (k + 1 < N c)%nat) by (unfold kl in Hk; lia).
      rewrite sh_p, (sh_tvp k), (sh_z k Hk'), (sh_u k Hk') by lia. replace (k + 1)%nat with (S k) by lia.
      rewrite (proj1 Hxu (x' k) (x (S k)) (u (S k)) (u (S k)) (z (S k)) (z (S k))).
      2:{ replace (S k) with (k + 1)%nat by lia. apply sh_x. lia. }
      2:{ intros ? ?. reflexivity. }
      f_equal; [f_equal|].
      - apply sh_charge. exact Hk.
      - apply rate_ext; [intros ? ?; reflexivity|]. destruct (Ept k); [assumption|lia]. }
    destruct sh_ok as [T B].
    destruct (Hdec (x (N c)) (u kl) T) as [_ D]; [intros a Ha; apply B; [unfold kl; lia|exact Ha]|].
    assert (E4 : st' kl <= step_cost c r (x (N c)) (law (x (N c))) (u kl) (pTvp par (N c)) (pP par 0%nat) + slack_charge 0 (nlc c) (slack (zs 0))).
    { unfold st', step_cost. rewrite sh_ul, sh_zl, sh_p, sh_tl.
      rewrite (proj1 Hxu (x' kl) (x (N c)) (law (x (N c))) (law (x (N c))) (zlaw (x (N c)) 0%nat) vzero); [|exact sh_xl|intros ? ?; reflexivity].
      rewrite (rate_ext (law (x (N c))) (law (x (N c))) (if (kl =? 0)%nat then pUprev par' else u' (kl - 1)%nat) (u kl)).
      - unfold p0. pose proof sh_charge_last. lra.
      - intros ? ?. reflexivity.
      - destruct (Ept kl) as [Q|Q]; [exact Q|unfold kl in Q; lia]. }
    assert (E5 : mterm c (x' (N c)) (pTvp par' (N c)) (pP par' 0%nat) = mterm c (rhs (mdl c) (x (N c)) (law (x (N c))) (zlaw (x (N c)) 0%nat) (pTvp par (N c)) p0 vzero) (pTvp par' (N c)) (pP par 0%nat)).
    { rewrite sh_p. unfold p0. apply Hxu. exact sh_xN. }
    assert (E6 : step_cost c r (pX0 par) (policy []) (pUprev par) (pTvp par 0%nat) (pP par 0%nat) + slack_charge 0 (nlc c) (slack (zs 0)) = st 0%nat).
    { unfold st, step_cost. cbn [Nat.eqb]. change (x 0%nat) with (pX0 par). change (u 0%nat) with (policy []). fold p0.
      rewrite (proj1 Hxu (pX0 par) (pX0 par) (policy []) (policy []) (z 0%nat) vzero) by (intros ? ?; reflexivity).
      lra. }
    fold p0 in D, E4, E5. rewrite E1, E2, E3, E5, <- E6. unfold p0 in *. lra.
  Qed.
End Shift.
