(** * Proofs for C89: feasible points and robust plans. *)
From Coq Require Import Reals Lra Lia.
From Verif Require Import Base TreeModel TreeSpec TreeProofs TreeProofs2 NlpModel NlpSpec NlpProofs NlpProofs2 NlpProofs3 NlpProofs4 NlpProps RobustProps PlanSpec.
Local Open Scope R_scope.

Lemma plant_ext m x0 u u' z z' tvp p p' k : (forall j, (j < k)%nat -> u j = u' j) -> (forall j, (j < k)%nat -> z j = z' j) -> (forall j, (j < k)%nat -> p j = p' j) ->
  plant m x0 u z tvp p k = plant m x0 u' z' tvp p' k.
Proof.
  induction k as [|k IH]; intros Hu Hz Hp; [reflexivity|]. cbn [plant]. rewrite IH by auto. rewrite Hu, Hz, Hp by lia. reflexivity.
Qed.

(** The largest value of f on a list, at least 0. *)
Definition max_on {A} (f : A -> R) (l : list A) : R := fold_right (fun a m => Rmax (f a) m) 0 l.
Lemma max_on_spec {A} (l : list A) (f : A -> R) : 0 <= max_on f l /\ forall x, In x l -> f x <= max_on f l.
Proof.
  induction l as [|a l (H0 & HM)]; [split; [cbn; lra|intros ? []]|]. cbn [max_on fold_right]. fold (max_on f l).
  split; [apply Rle_trans with (max_on f l); [exact H0|apply Rmax_r]|].
  intros x [<-|H]; [apply Rmax_l|apply Rle_trans with (max_on f l); [auto|apply Rmax_r]].
Qed.

Lemma nth_rep (v n j : nat) : (j < n)%nat -> nth j (repeat v n) 0%nat = v.
Proof. revert j. induction n as [|n IH]; intros j Hj; [lia|]. destruct j as [|j]; [reflexivity|]. cbn. apply IH. lia. Qed.

Lemma walk_ext c f g m : (forall i, (i < m)%nat -> f i = g i) -> walk (ncomb c) (nr c) f m = walk (ncomb c) (nr c) g m.
Proof. induction m as [|m IHm]; intros Hfg; [reflexivity|]. cbn [walk]. rewrite IHm by auto. rewrite Hfg by lia. reflexivity. Qed.

Section Nodes.
  Variable c : cfg.
  Hypothesis Hok : cfg_ok c.
  Let HN : (1 <= N c)%nat := proj1 Hok.
  Let Hc : (1 <= ncomb c)%nat := proj1 (proj2 Hok).

  Lemma fan_pos k : (1 <= fan_of c k)%nat.
  Proof. unfold fan_of, fan. destruct (k <? nr c)%nat; lia. Qed.
  Lemma width_step k : width_of c (S k) = (width_of c k * fan_of c k)%nat.
  Proof.
    unfold width_of, fan_of, nodes, fan. destruct (Nat.ltb_spec k (nr c)).
    - replace (Nat.min (S k) (nr c)) with (S k) by lia. replace (Nat.min k (nr c)) with k by lia. cbn [Nat.pow]. lia.
    - replace (Nat.min (S k) (nr c)) with (nr c) by lia. replace (Nat.min k (nr c)) with (nr c) by lia. lia.
  Qed.
  Lemma width_pos k : (1 <= width_of c k)%nat.
  Proof. induction k; [unfold width_of, nodes; cbn; lia|]. rewrite width_step. pose proof (fan_pos k). nia. Qed.

  (** The history of a node. *)
  Fixpoint hist (k s : nat) : list nat :=
    match k with
    | O => []
    | S k' => hist k' (s / fan_of c k') ++ [comb c k' (s / fan_of c k') (s mod fan_of c k')]
    end.
  Lemma hist_length k : forall s, List.length (hist k s) = k.
  Proof. induction k; intros s; [reflexivity|]. cbn [hist]. rewrite app_length, IHk. cbn. lia. Qed.
  Lemma child_div k s b : (b < fan_of c k)%nat -> ((childnode c k s b) / fan_of c k = s /\ (childnode c k s b) mod fan_of c k = b)%nat.
  Proof.
    intros Hb. unfold childnode. split.
    - rewrite Nat.div_add_l by lia. rewrite Nat.div_small by lia. lia.
    - rewrite Nat.add_comm, Nat.mod_add by lia. apply Nat.mod_small. lia.
  Qed.
  Lemma hist_child k s b : (b < fan_of c k)%nat -> hist (S k) (childnode c k s b) = hist k s ++ [comb c k s b].
  Proof. intros Hb. cbn [hist]. destruct (child_div k s b Hb) as [-> ->]. reflexivity. Qed.
  Lemma child_width k s b : (s < width_of c k)%nat -> (b < fan_of c k)%nat -> (childnode c k s b < width_of c (S k))%nat.
  Proof. intros Hs Hb. rewrite width_step. unfold childnode. nia. Qed.

  Lemma hist_after k s : (nr c <= k)%nat -> (s < width_of c k)%nat ->
    hist k s = hist (nr c) s ++ repeat (if (nr c =? 0)%nat then 0%nat else (s mod ncomb c)%nat) (k - nr c).
  Proof.
    intros Hk. replace k with (nr c + (k - nr c))%nat at 1 2 by lia. generalize (k - nr c)%nat. clear k Hk.
    intros d. induction d as [|d IH]; intros Hs; [cbn [repeat]; rewrite app_nil_r, Nat.add_0_r; reflexivity|].
    replace (nr c + S d)%nat with (S (nr c + d)) in * by lia. cbn [hist].
    assert (F : fan_of c (nr c + d) = 1%nat) by (unfold fan_of, fan; destruct (Nat.ltb_spec (nr c + d) (nr c)); lia).
    rewrite F, Nat.div_1_r, Nat.mod_1_r. rewrite width_step, F, Nat.mul_1_r in Hs. rewrite (IH Hs).
    rewrite <- app_assoc. f_equal. replace (S d) with (d + 1)%nat by lia. rewrite repeat_app. f_equal. cbn [repeat]. f_equal.
    unfold comb. destruct (Nat.ltb_spec (nr c + d) (nr c)); [lia|]. reflexivity.
  Qed.

  Lemma comb_lt k s b : (b < fan_of c k)%nat -> (comb c k s b < ncomb c)%nat.
  Proof.
    intros Hb. unfold comb. unfold fan_of, fan in Hb. destruct (k <? nr c)%nat; [lia|]. destruct (nr c =? 0)%nat; [lia|]. apply Nat.mod_upper_bound. lia.
  Qed.
  Lemma hist_lt k : forall s j, (j < k)%nat -> (nth j (hist k s) 0 < ncomb c)%nat.
  Proof.
    induction k as [|k IH]; intros s j Hj; [lia|]. cbn [hist].
    destruct (Nat.eq_dec j k) as [->|].
    - rewrite app_nth2; rewrite hist_length; [|lia]. rewrite Nat.sub_diag. cbn [nth]. apply comb_lt. apply Nat.mod_upper_bound. pose proof (fan_pos k). lia.
    - rewrite app_nth1; [|rewrite hist_length; lia]. apply IH. lia.
  Qed.

  (** Every node is reached by a realisation. *)
  Lemma realised k s : (s < width_of c k)%nat -> exists ps, realisation c ps /\ map ps (seq 0 k) = hist k s.
  Proof.
    intros Hs. set (ps := fun j => if (nr c =? 0)%nat then 0%nat else nth (Nat.min j (nr c - 1)) (hist k s) 0%nat).
    exists ps. split; [split|].
    - intros j Hj. unfold ps. destruct (Nat.eqb_spec (nr c) 0); [lia|]. destruct (Nat.lt_ge_cases (Nat.min j (nr c - 1)) k).
      + apply hist_lt. assumption.
      + rewrite nth_overflow; [lia|]. rewrite hist_length. assumption.
    - intros j Hj. unfold ps. destruct (Nat.eqb_spec (nr c) 0) as [|Hn]; [reflexivity|]. f_equal. lia.
    - apply nth_ext with (d := 0%nat) (d' := 0%nat); [rewrite map_length, seq_length, hist_length; reflexivity|].
      rewrite map_length, seq_length. intros j Hj. rewrite (nth_indep _ 0%nat (ps 0%nat)) by (rewrite map_length, seq_length; exact Hj).
      rewrite map_nth, seq_nth by exact Hj. cbn [Nat.add]. unfold ps.
      destruct (Nat.le_gt_cases (nr c) k) as [Hk|Hk].
      + rewrite (hist_after k s Hk Hs). destruct (Nat.eqb_spec (nr c) 0) as [E0|E0].
        * rewrite E0. cbn [hist app]. rewrite Nat.sub_0_r. symmetry. apply nth_repeat.
        * rewrite app_nth1 by (rewrite hist_length; lia). destruct (Nat.lt_ge_cases j (nr c)) as [Hj'|Hj'].
          { rewrite app_nth1 by (rewrite hist_length; lia). f_equal. lia. }
          { replace (Nat.min j (nr c - 1)) with (nr c - 1)%nat by lia. rewrite app_nth2 by (rewrite hist_length; lia).
            rewrite hist_length. rewrite (nth_rep (s mod ncomb c)%nat (k - nr c) (j - nr c)) by lia.
            destruct (nr c) as [|n] eqn:En; [lia|]. cbn [hist]. rewrite app_nth2 by (rewrite hist_length; lia). rewrite hist_length.
            replace (S n - 1 - n)%nat with 0%nat by lia. cbn [nth]. unfold comb, fan_of, fan. rewrite En.
            destruct (Nat.ltb_spec n (S n)); [reflexivity|lia]. }
      + destruct (Nat.eqb_spec (nr c) 0); [lia|]. f_equal. lia.
  Qed.

  (** The node of a realisation. *)
  Definition branch (h : list nat) (i : nat) : nat := if (i <? nr c)%nat then nth i h 0%nat else 0%nat.
  Definition nodeof (h : list nat) : nat := walk (ncomb c) (nr c) (branch h) (List.length h).
  Definition psnode (ps : nat -> nat) (k : nat) : nat := walk (ncomb c) (nr c) (fun i => if (i <? nr c)%nat then ps i else 0%nat) k.
  Lemma nodeof_ps ps k : nodeof (map ps (seq 0 k)) = psnode ps k.
  Proof.
    unfold nodeof, psnode. rewrite map_length, seq_length. apply (walk_ext c). intros i Hi. unfold branch.
    destruct (i <? nr c)%nat; [|reflexivity]. rewrite (nth_indep _ 0%nat (ps 0%nat)) by (rewrite map_length, seq_length; exact Hi).
    rewrite map_nth, seq_nth by exact Hi. reflexivity.
  Qed.
  Lemma psnode_step ps k : realisation c ps -> (psnode ps k < width_of c k)%nat ->
    exists b, (b < fan_of c k)%nat /\ psnode ps (S k) = childnode c k (psnode ps k) b /\ comb c k (psnode ps k) b = ps k.
  Proof.
    intros [Hr He] Hw. exists (if (k <? nr c)%nat then ps k else 0%nat). split; [|split].
    - unfold fan_of, fan. destruct (Nat.ltb_spec k (nr c)); [auto|lia].
    - reflexivity.
    - unfold comb. destruct (Nat.ltb_spec k (nr c)) as [Hk|Hk]; [reflexivity|]. rewrite (He k Hk). destruct (Nat.eqb_spec (nr c) 0) as [E0|E0]; [reflexivity|].
      assert (E : psnode ps k = psnode ps (nr c)).
      { replace k with (nr c + (k - nr c))%nat by lia. generalize (k - nr c)%nat. clear. intros d. induction d as [|d IH]; [f_equal; lia|].
        replace (nr c + S d)%nat with (S (nr c + d)) by lia. unfold psnode in *. cbn [walk]. rewrite IH. unfold fan.
        destruct (Nat.ltb_spec (nr c + d) (nr c)); lia. }
      rewrite E. destruct (nr c) as [|n] eqn:En; [lia|]. unfold psnode. rewrite En. cbn [walk]. unfold fan at 1. destruct (Nat.ltb_spec n (S n)); [|lia].
      rewrite Nat.add_comm, Nat.mod_add by lia. replace (S n - 1)%nat with n by lia. apply Nat.mod_small. apply Hr. lia.
  Qed.
  Lemma psnode_lt ps k : realisation c ps -> (psnode ps k < width_of c k)%nat.
  Proof.
    intros Hr. induction k as [|k IH]; [unfold psnode, width_of, nodes; cbn; lia|].
    destruct (psnode_step ps k Hr IH) as (b & Hb & -> & _). apply child_width; assumption.
  Qed.
End Nodes.


Lemma firstn_ps (ps : nat -> nat) j k : (j <= k)%nat -> firstn j (map ps (seq 0 k)) = map ps (seq 0 j).
Proof.
  intros Hj. rewrite firstn_map. f_equal. replace k with (j + (k - j))%nat by lia. rewrite seq_app, firstn_app, seq_length, Nat.sub_diag. cbn [firstn].
  rewrite app_nil_r, firstn_all2; [reflexivity|rewrite seq_length; lia].
Qed.
Lemma seq_snoc k : seq 0 (S k) = seq 0 k ++ [k].
Proof. replace (S k) with (k + 1)%nat by lia. rewrite seq_app. reflexivity. Qed.

(** ** A feasible point gives a plan. *)
Section ToPlan.
  Variable c : cfg.
  Variable par : params.
  Variable pt : point.
  Hypothesis Hok : cfg_ok c.
  Hypothesis Hpos : scaling_pos c.
  Hypothesis Hd : disc c = Discrete.
  Hypothesis Hwf : wf_model (mdl c).
  Hypothesis Hnl : nl_chk_colloc c = false.
  Hypothesis Hcon : forall con, In con (nlc c) -> xu_constraint (mdl c) con.
  Hypothesis Hf : feasible c par pt.
  Let HN : (1 <= N c)%nat := proj1 Hok.
  Let Hc : (1 <= ncomb c)%nat := proj1 (proj2 Hok).
  Definition pol (h : list nat) : vec := physU c pt (List.length h) (uidx c (nodeof c h)).
  Definition zp (h : list nat) : vec := physZ c pt (List.length h - 1) (nodeof c h) 0.

  Lemma to_plan : robust_plan c par pol zp.
  Proof.
    split.
    { intros Ho h h' E. unfold pol, uidx. rewrite Ho, E. reflexivity. }
    intros ps Hps u z p x.
    pose proof (proj1 (feasible_iff c par pt Hok Hpos) Hf) as (((HB1 & HB2 & HB3 & HB4) & _ & HE) & Hini & Hedge).
    set (node := psnode c ps).
    assert (Hu : forall k, u k = physU c pt k (uidx c (node k))).
    { intros k. unfold u, pol. rewrite nodeof_ps, map_length, seq_length. reflexivity. }
    assert (Hz : forall k, z k = physZ c pt k (node (k + 1)%nat) 0).
    { intros k. unfold z, zp. rewrite nodeof_ps, map_length, seq_length. replace (k + 1 - 1)%nat with k by lia. reflexivity. }
    assert (Hw : forall k, (node k < width_of c k)%nat) by (intros k; apply psnode_lt; assumption).
    assert (Hmax : forall k, (node k < nmax c)%nat) by (intros k; pose proof (Hw k); pose proof (nodes_le_nmax c HN Hc k); unfold width_of in *; lia).
    assert (Hed : forall k, (k < N c)%nat -> exists b, is_edge c k (node k) b /\ node (S k) = childnode c k (node k) b /\ comb c k (node k) b = ps k).
    { intros k Hk. destruct (psnode_step c Hok ps k Hps (Hw k)) as (b & Hb & E1 & E2). exists b. repeat split; auto. }
    assert (Hx : forall k, (k <= N c)%nat -> agree (n_x (mdl c)) (x k) (stateX c pt k (node k))).
    { intros k. induction k as [|k IH]; intros Hk.
      - intros a Ha. symmetry. exact (Hini a Ha).
      - intros a Ha. destruct (Hed k ltac:(lia)) as (b & He & E1 & E2). destruct (Hedge _ _ _ He) as [Hm _].
        unfold model_step, model_step_with in Hm. rewrite Hd in Hm. destruct Hm as [Hm _]. rewrite E1. replace (S k) with (k + 1)%nat at 2 by lia.
        rewrite (Hm a Ha). unfold x. cbn [plant]. fold x. rewrite Hu, Hz. unfold p. rewrite E2. replace (k + 1)%nat with (S k) by lia. rewrite E1.
        apply Hwf; [apply IH; lia|intros ? ?; reflexivity|exact Ha]. }
    split; [|split; [|split; [|split; [|split]]]].
    - intros k a Hk Ha. destruct (Hed k ltac:(lia)) as (b & He & E1 & E2). destruct (Hedge _ _ _ He) as [Hm _].
      unfold model_step, model_step_with in Hm. rewrite Hd in Hm. destruct Hm as [_ Hm]. specialize (Hm a Ha).
      rewrite <- Hm. rewrite Hu, Hz. unfold p. rewrite E2. replace (k + 1)%nat with (S k) by lia. rewrite E1.
      apply Hwf; [apply Hx; lia|intros ? ?; reflexivity|exact Ha].
    - intros k a Hk Ha. rewrite Hu. apply HB1; auto. unfold uidx, n_u_scenarios. pose proof (Hmax k). destruct (open_loop c); lia.
    - intros k a Hk Ha. rewrite (Hx k ltac:(lia) a Ha). apply HB2; auto.
    - intros a Ha. rewrite (Hx (N c) ltac:(lia) a Ha). apply HB3; auto.
    - intros k a Hk Ha. rewrite Hz. apply HB4; auto.
    - intros k con Hk Hin. pose proof Hin as Hin'. apply In_nth_error in Hin as [i Hi].
      destruct (Hed k Hk) as (b & He & E1 & E2).
      destruct (Hedge _ _ _ He) as [_ Hstep]. specialize (Hstep i con Hi). rewrite Hnl in Hstep. unfold nl_holds in Hstep.
      rewrite E2 in Hstep. fold (p k) in Hstep. rewrite <- (Hu k) in Hstep.
      rewrite <- (Hcon con Hin' (x k) _ (u k) _ (z k) _ (pTvp par k) (p k) (Hx k ltac:(lia)) (fun _ _ => eq_refl)) in Hstep.
      unfold respects. unfold slack_of in Hstep. destruct (nl_ub con) as [ub|]; [|exact I]. cbn [le_ub] in Hstep.
      destruct (nl_soft con) as [[vmax pen]|] eqn:Es; [|lra].
      set (q := Nat.min k ((if single_slack c then 1 else N c) - 1)) in *. set (ai := List.length (soft_list (firstn i (nlc c)))) in *.
      assert (Hsplit : soft_list (nlc c) = soft_list (firstn i (nlc c)) ++ (vmax, pen) :: soft_list (skipn (S i) (nlc c))).
      { pose proof (nth_error_split (nlc c) i Hi) as (l1 & l2 & E & El). rewrite E.
        rewrite firstn_app, El, Nat.sub_diag. cbn [firstn]. rewrite app_nil_r, firstn_all2 by lia.
        rewrite skipn_app, El. rewrite skipn_all2 by lia. replace (S i - i)%nat with 1%nat by lia. cbn [skipn app].
        unfold soft_list. rewrite flat_map_app. cbn [flat_map]. rewrite Es. reflexivity. }
      assert (Hq : (q < (if single_slack c then 1 else N c))%nat) by (unfold q; destruct (single_slack c); lia).
      assert (Hai : (ai < List.length (soft_list (nlc c)))%nat).
      { rewrite Hsplit, app_length. cbn [List.length]. unfold ai. lia. }
      pose proof (HE q (node k) ai Hq (Hmax k) Hai) as [H0 H1].
      assert (Hnth : nth_error (soft_list (nlc c)) ai = Some (vmax, pen)).
      { rewrite Hsplit, nth_error_app2 by (unfold ai; lia). unfold ai. rewrite Nat.sub_diag. reflexivity. }
      rewrite Hnth in H1. cbn [fst ge_lb] in H0, H1. exists (oE pt q (node k) ai). split; [exact H0|]. split; [exact H1|]. lra.
  Qed.
  Lemma to_plan_first : pol [] = physU c pt 0 0.
  Proof. unfold pol, nodeof, uidx. cbn. destruct (open_loop c); reflexivity. Qed.
End ToPlan.

(** ** A plan gives a feasible point. *)
Section ToPoint.
  Variable c : cfg.
  Variable par : params.
  Variables policy zpol : list nat -> vec.
  Hypothesis Hok : cfg_ok c.
  Hypothesis Hpos : scaling_pos c.
  Hypothesis Hd : disc c = Discrete.
  Hypothesis Hwf : wf_model (mdl c).
  Hypothesis Hwu : wf_inputs (mdl c).
  Hypothesis Hnl : nl_chk_colloc c = false.
  Hypothesis Hcon : forall con, In con (nlc c) -> xu_constraint (mdl c) con.
  Hypothesis Hvio : violations_ok c.
  Hypothesis Hplan : robust_plan c par policy zpol.
  Let HN : (1 <= N c)%nat := proj1 Hok.
  Let Hc : (1 <= ncomb c)%nat := proj1 (proj2 Hok).

  Definition hplant (h : list nat) : vec :=
    plant (mdl c) (pX0 par) (fun j => policy (firstn j h)) (fun j => zpol (firstn (j + 1) h)) (pTvp par) (fun j => pP par (nth j h 0%nat)) (List.length h).
  Lemma hplant_ps ps k : hplant (map ps (seq 0 k)) =
    plant (mdl c) (pX0 par) (fun k => policy (map ps (seq 0 k))) (fun k => zpol (map ps (seq 0 (k + 1)))) (pTvp par) (fun k => pP par (ps k)) k.
  Proof.
    unfold hplant. rewrite map_length, seq_length. apply plant_ext; intros j Hj; cbn beta.
    - rewrite firstn_ps by lia. reflexivity.
    - rewrite firstn_ps by lia. reflexivity.
    - rewrite (nth_indep _ 0%nat (ps 0%nat)) by (rewrite map_length, seq_length; exact Hj). rewrite map_nth, seq_nth by exact Hj. reflexivity.
  Qed.
  Definition clip (k s : nat) : nat := if (s <? width_of c k)%nat then s else 0%nat.
  Lemma clip_lt k s : (clip k s < width_of c k)%nat.
  Proof. unfold clip. destruct (Nat.ltb_spec s (width_of c k)); [assumption|]. pose proof (width_pos c Hok k). lia. Qed.
  Lemma clip_id k s : (s < width_of c k)%nat -> clip k s = s.
  Proof. intros H. unfold clip. destruct (Nat.ltb_spec s (width_of c k)); [reflexivity|lia]. Qed.

  Definition the_point (M : R) : point :=
    {| oX := fun k s _ a => hplant (hist c k (clip k s)) a / sx c a;
       oZ := fun k s _ a => zpol (hist c (k + 1) (clip (k + 1) s)) a / sz c a;
       oU := fun k s a => policy (hist c k (clip k s)) a / su c a;
       oE := fun k s a => match nth_error (soft_list (nlc c)) a with Some (Some v, _) => v | _ => M end |}.
  Lemma tp_x M k s i : agree (n_x (mdl c)) (physX c (the_point M) k s i) (hplant (hist c k (clip k s))).
  Proof. intros a Ha. unfold physX. cbn [oX the_point]. field. pose proof (proj1 Hpos a Ha). lra. Qed.
  Lemma tp_z M k s i : agree (n_z (mdl c)) (physZ c (the_point M) k s i) (zpol (hist c (k + 1) (clip (k + 1) s))).
  Proof. intros a Ha. unfold physZ. cbn [oZ the_point]. field. pose proof (proj2 (proj2 Hpos) a Ha). lra. Qed.
  Lemma tp_u M k s : agree (n_u (mdl c)) (physU c (the_point M) k s) (policy (hist c k (clip k s))).
  Proof. intros a Ha. unfold physU. cbn [oU the_point]. field. pose proof (proj1 (proj2 Hpos) a Ha). lra. Qed.
  Lemma tp_uidx M k s : (s < width_of c k)%nat -> agree (n_u (mdl c)) (physU c (the_point M) k (uidx c s)) (policy (hist c k s)).
  Proof.
    intros Hs a Ha. rewrite (tp_u M k (uidx c s) a Ha). unfold uidx. destruct (open_loop c) eqn:Eo.
    - rewrite (proj1 Hplan Eo (hist c k (clip k 0)) (hist c k s)); [reflexivity|]. rewrite !hist_length by exact Hok. reflexivity.
    - rewrite clip_id by assumption. reflexivity.
  Qed.

  Definition need (e : nat * nat * nat * nl_con) : R :=
    let '(k, s, b, con) := e in
    match nl_ub con with
    | Some ub => nl_g con (hplant (hist c k s)) (policy (hist c k s)) (zpol (hist c (S k) (childnode c k s b))) (pTvp par k) (pP par (comb c k s b)) - ub
    | None => 0
    end.
  Definition all_edges : list (nat * nat * nat * nl_con) :=
    list_prod (list_prod (list_prod (seq 0 (N c)) (seq 0 (nmax c))) (seq 0 (ncomb c))) (nlc c).

  Definition point_of : point := the_point (max_on need all_edges).
  Lemma to_point : feasible c par point_of /\ agree (n_u (mdl c)) (physU c point_of 0 0) (policy []).
  Proof.
    destruct (max_on_spec all_edges need) as (HM0 & HM). unfold point_of. set (M := max_on need all_edges) in *. split.
    2:{ intros a Ha. rewrite (tp_u M 0 0 a Ha). reflexivity. }
    assert (Hst : forall k s, stateX c (the_point M) k s = physX c (the_point M) k s 0) by (intros k s; unfold stateX; rewrite Hd; reflexivity).
    apply (feasible_iff c par _ Hok Hpos).
    assert (HZ : forall k s i a, (k < N c)%nat -> (a < n_z (mdl c))%nat -> inside (zlb c a) (zub c a) (physZ c (the_point M) k s i a)).
    { intros k s i a Hk Ha. rewrite (tp_z M k s i a Ha). pose proof (clip_lt (k + 1) s) as Hl.
      destruct (realised c Hok _ _ Hl) as (ps & Hps & E). destruct (proj2 Hplan ps Hps) as (_ & _ & _ & _ & H & _).
      specialize (H k a Hk Ha). cbn beta in H. rewrite E in H. exact H. }
    split; [split; [split; [|split; [|split]]|split]|split].
    - intros k s a Hk _ Ha. rewrite (tp_u M k s a Ha). destruct (realised c Hok _ _ (clip_lt k s)) as (ps & Hps & E).
      destruct (proj2 Hplan ps Hps) as (_ & H & _). specialize (H k a Hk Ha). cbn beta in H. rewrite E in H. exact H.
    - intros k s a Hk _ Ha. rewrite Hst, (tp_x M k s 0 a Ha). destruct (realised c Hok _ _ (clip_lt k s)) as (ps & Hps & E).
      destruct (proj2 Hplan ps Hps) as (_ & _ & H & _). specialize (H k a Hk Ha). rewrite <- hplant_ps, E in H. exact H.
    - intros s a _ Ha. rewrite Hst, (tp_x M _ s 0 a Ha). destruct (realised c Hok _ _ (clip_lt (N c) s)) as (ps & Hps & E).
      destruct (proj2 Hplan ps Hps) as (_ & _ & _ & H & _). specialize (H a Ha). rewrite <- hplant_ps, E in H. exact H.
    - intros k s a Hk _ Ha. apply HZ; assumption.
    - intros _. split.
      + intros k s i a _ _ Hi. rewrite Hd in Hi. cbn in Hi. lia.
      + intros k s i a Hk _ _ Ha. apply HZ; assumption.
    - intros k s a _ _ Ha. cbn [oE the_point]. destruct (nth_error (soft_list (nlc c)) a) as [[[v|] pen]|] eqn:E; cbn [fst].
      + apply nth_error_In in E. unfold soft_list in E. apply in_flat_map in E as (con & Hin & E).
        destruct (nl_soft con) as [q|] eqn:Es; [|destruct E]. destruct E as [E|[]]. subst q.
        pose proof (Hvio con v pen Hin Es). split; cbn; lra.
      + split; cbn; [exact HM0|exact I].
      + split; cbn; [exact HM0|exact I].
    - intros a Ha. rewrite Hst, (tp_x M 0 0 0 a Ha). reflexivity.
    - intros k s b He. pose proof He as (Hk & Hs & Hb).
      pose proof (child_width c Hok k s b Hs Hb) as Hcw.
      destruct (realised c Hok _ _ Hcw) as (ps & Hps & E). pose proof (hist_child c Hok k s b Hb) as Eh. rewrite Eh, seq_snoc, map_app in E.
      cbn [map] in E. apply app_inj_tail in E as [Eh' Ec].
      assert (EZ : map ps (seq 0 (k + 1)) = hist c (S k) (childnode c k s b)).
      { replace (k + 1)%nat with (S k) by lia. rewrite seq_snoc, map_app, Eh, Eh'. cbn [map]. rewrite Ec. reflexivity. }
      destruct (proj2 Hplan ps Hps) as (HA & _ & _ & _ & _ & HC).
      split.
      + unfold model_step, model_step_with. rewrite Hd. unfold discrete_step. rewrite !Hst.
        assert (HX : agree (n_x (mdl c)) (physX c (the_point M) k s 0) (hplant (hist c k s))).
        { intros a Ha. rewrite (tp_x M k s 0 a Ha), clip_id by assumption. reflexivity. }
        assert (HZ' : agree (n_z (mdl c)) (physZ c (the_point M) k (childnode c k s b) 0) (zpol (hist c (S k) (childnode c k s b)))).
        { intros a Ha. rewrite (tp_z M k _ 0 a Ha). replace (k + 1)%nat with (S k) by lia. rewrite clip_id by assumption. reflexivity. }
        pose proof (tp_uidx M k s Hs) as HU.
        split; intros a Ha.
        * rewrite (tp_x M _ _ 0 a Ha). replace (k + 1)%nat with (S k) by lia. rewrite clip_id by assumption.
          rewrite (proj1 (Hwf _ _ (physU c (the_point M) k (uidx c s)) _ _ (pTvp par k) (pP par (comb c k s b)) vzero HX HZ') a Ha).
          rewrite (proj1 (Hwu (hplant (hist c k s)) _ _ (zpol (hist c (S k) (childnode c k s b))) (pTvp par k) (pP par (comb c k s b)) vzero HU) a Ha).
          rewrite <- Eh', <- EZ, <- Ec. replace (k + 1)%nat with (S k) by lia. rewrite !hplant_ps. cbn [plant]. replace (k + 1)%nat with (S k) by lia. reflexivity.
        * rewrite (proj2 (Hwf _ _ (physU c (the_point M) k (uidx c s)) _ _ (pTvp par k) (pP par (comb c k s b)) vzero HX HZ') a Ha).
          rewrite (proj2 (Hwu (hplant (hist c k s)) _ _ (zpol (hist c (S k) (childnode c k s b))) (pTvp par k) (pP par (comb c k s b)) vzero HU) a Ha).
          specialize (HA k a Hk Ha). cbn beta in HA. rewrite <- hplant_ps in HA. rewrite <- Eh', <- EZ, <- Ec. exact HA.
      + intros i con Hi. rewrite Hnl. unfold nl_holds. pose proof (nth_error_In _ _ Hi) as Hin.
        specialize (HC k con Hk Hin). cbv zeta in HC. rewrite <- hplant_ps, Eh', Ec, EZ in HC.
        rewrite Hst. rewrite (Hcon con Hin _ (hplant (hist c k s)) _ (policy (hist c k s)) _ (zpol (hist c (S k) (childnode c k s b))) (pTvp par k) (pP par (comb c k s b))).
        2:{ intros a Ha. rewrite (tp_x M k s 0 a Ha), clip_id by assumption. reflexivity. }
        2:{ apply tp_uidx. assumption. }
        unfold respects in HC. unfold slack_of. destruct (nl_ub con) as [ub|] eqn:Eub; [|exact I]. cbn [le_ub].
        destruct (nl_soft con) as [[vmax pen]|] eqn:Es; [|lra]. destruct HC as (eps & H0 & Hv & HC).
        cbn [oE the_point].
        assert (Hnth : nth_error (soft_list (nlc c)) (List.length (soft_list (firstn i (nlc c)))) = Some (vmax, pen)).
        { pose proof (nth_error_split (nlc c) i Hi) as (l1 & l2 & E1 & El). rewrite E1.
          rewrite firstn_app, El, Nat.sub_diag. cbn [firstn]. rewrite app_nil_r, firstn_all2 by lia.
          unfold soft_list. rewrite flat_map_app. rewrite nth_error_app2 by lia. rewrite Nat.sub_diag. cbn [flat_map]. rewrite Es. reflexivity. }
        rewrite Hnth. destruct vmax as [v|]; [cbn [le_ub] in Hv; lra|].
        assert (Hin4 : In (k, s, b, con) all_edges).
        { unfold all_edges. apply in_prod; [apply in_prod; [apply in_prod|]|exact Hin]; apply in_seq.
          - lia.
          - pose proof (nodes_le_nmax c HN Hc k). unfold width_of in Hs. lia.
          - unfold fan_of, fan in Hb. destruct (k <? nr c)%nat; lia. }
        pose proof (HM _ Hin4) as HM'. unfold need in HM'. rewrite Eub in HM'. lra.
  Qed.
End ToPoint.
