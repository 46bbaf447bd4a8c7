(** * Proofs for C91: points and plans with slacks. *)
From Coq Require Import Reals Lra Lia.
From Verif Require Import Base TreeModel TreeSpec TreeProofs TreeProofs2 NlpModel NlpSpec NlpProofs NlpProofs2 NlpProofs3 NlpProofs4 NlpProps RobustProps PlanSpec PlanProofs BestSpec BestProofs.
Local Open Scope R_scope.

Lemma soft_split c i con vmax pen : nth_error (nlc c) i = Some con -> nl_soft con = Some (vmax, pen) ->
  nth_error (soft_list (nlc c)) (List.length (soft_list (firstn i (nlc c)))) = Some (vmax, pen) /\
  (List.length (soft_list (firstn i (nlc c))) < List.length (soft_list (nlc c)))%nat.
Proof.
  intros Hi Es. assert (H : nth_error (soft_list (nlc c)) (List.length (soft_list (firstn i (nlc c)))) = Some (vmax, pen)).
  { pose proof (nth_error_split (nlc c) i Hi) as (l1 & l2 & E1 & El). rewrite E1.
    rewrite firstn_app, El, Nat.sub_diag. cbn [firstn]. rewrite app_nil_r, firstn_all2 by lia.
    unfold soft_list. rewrite flat_map_app. rewrite nth_error_app2 by lia. rewrite Nat.sub_diag. cbn [flat_map]. rewrite Es. reflexivity. }
  split; [exact H|]. apply nth_error_Some. rewrite H. discriminate.
Qed.
(** Every slack variable belongs to a soft constraint. *)
Lemma soft_which l a : (a < List.length (soft_list l))%nat -> exists i con vmax pen, nth_error l i = Some con /\ nl_soft con = Some (vmax, pen) /\
  nth_error (soft_list l) a = Some (vmax, pen) /\ a = List.length (soft_list (firstn i l)).
Proof.
  revert a. induction l as [|con l IH]; intros a Ha; [cbn in Ha; lia|]. unfold soft_list in *. cbn [flat_map] in *.
  destruct (nl_soft con) as [[vmax pen]|] eqn:Es; cbn [app List.length] in Ha.
  - destruct a as [|a].
    + exists 0%nat, con, vmax, pen. repeat split; auto.
    + destruct (IH a ltac:(lia)) as (i & con' & v & q & H1 & H2 & H3 & H4). exists (S i), con', v, q. split; [exact H1|]. split; [exact H2|]. split; [exact H3|].
      cbn [firstn flat_map]. rewrite Es. cbn [app List.length]. rewrite <- H4. reflexivity.
  - destruct (IH a Ha) as (i & con' & v & q & H1 & H2 & H3 & H4). exists (S i), con', v, q. split; [exact H1|]. split; [exact H2|]. split; [exact H3|].
    cbn [firstn flat_map]. rewrite Es. exact H4.
Qed.

Section Both.
  Variable c : cfg.
  Variable par : params.
  Variable r : vec.
  Hypothesis Hok : cfg_ok c.
  Hypothesis Hpos : scaling_pos c.
  Hypothesis Hd : disc c = Discrete.
  Hypothesis Hwf : wf_model (mdl c).
  Hypothesis Hwu : wf_inputs (mdl c).
  Hypothesis Hnl : nl_chk_colloc c = false.
  Hypothesis Hcon : forall con, In con (nlc c) -> xu_constraint (mdl c) con.
  Hypothesis Hnr : (nr c < N c)%nat.
  Let HN : (1 <= N c)%nat := proj1 Hok.
  Let Hc : (1 <= ncomb c)%nat := proj1 (proj2 Hok).

  Lemma plan_alike pt : feasible c par pt ->
    exists slack, slack_plan c par (pol c pt) (zp c pt) slack /\ alike c par pt (pol c pt) (zp c pt) slack.
  Proof.
    intros Hf. pose proof (proj1 (feasible_iff c par pt Hok Hpos) Hf) as ((_ & _ & HE) & Hini & Hedge).
    exists (fun h a => oE pt (srow c (List.length h)) (nodeof c h) a).
    assert (HS : forall ps, realisation c ps ->
      let u := fun k => pol c pt (map ps (seq 0 k)) in
      let z := fun k => zp c pt (map ps (seq 0 (k + 1))) in
      let p := fun k => pP par (ps k) in
      let x := plant (mdl c) (pX0 par) u z (pTvp par) p in
      forall k, (k <= N c)%nat -> agree (n_x (mdl c)) (x k) (stateX c pt k (psnode c ps k))).
    { intros ps Hps u z p x k. induction k as [|k IH]; intros Hk.
      - intros a Ha. symmetry. exact (Hini a Ha).
      - intros a Ha. destruct (psnode_step c Hok ps k Hps (psnode_lt c Hok _ _ Hps)) as (b & Hb & E1 & E2).
        assert (He : is_edge c k (psnode c ps k) b) by (split; [lia|]; split; [apply psnode_lt; assumption|exact Hb]).
        destruct (Hedge _ _ _ He) as [Hm _].
        unfold model_step, model_step_with in Hm. rewrite Hd in Hm. destruct Hm as [Hm _]. rewrite E1. replace (S k) with (k + 1)%nat at 2 by lia.
        rewrite (Hm a Ha). unfold x. cbn [plant]. fold x. unfold u, z, pol, zp. rewrite !nodeof_ps, !map_length, !seq_length. unfold p. rewrite E2.
        replace (k + 1 - 1)%nat with k by lia. replace (k + 1)%nat with (S k) by lia. rewrite E1.
        apply Hwf; [apply IH; lia|intros ? ?; reflexivity|exact Ha]. }
    split; [split|].
    - intros Es h h' a Eh. rewrite !nodeof_place, Eh. unfold srow. rewrite Es, !Nat.min_0_r. reflexivity.
    - intros ps Hps u z p x k i con vmax pen Hk Hi Es eps.
      destruct (soft_split c i con vmax pen Hi Es) as [Hn Hlt].
      assert (Eeps : eps = oE pt (srow c k) (psnode c ps k) (List.length (soft_list (firstn i (nlc c))))).
      { unfold eps. rewrite nodeof_ps, map_length, seq_length. reflexivity. }
      rewrite Eeps. clear eps Eeps.
      assert (Hw : (psnode c ps k < nmax c)%nat).
      { pose proof (psnode_lt c Hok ps k Hps) as Hw. pose proof (nodes_le_nmax c HN Hc k). unfold width_of in Hw. lia. }
      pose proof (HE (srow c k) (psnode c ps k) _ (srow_lt c k HN) Hw Hlt) as [H0 H1]. rewrite Hn in H1. cbn [fst ge_lb] in H0, H1.
      split; [exact H0|]. split; [exact H1|].
      destruct (psnode_step c Hok ps k Hps (psnode_lt c Hok _ _ Hps)) as (b & Hb & E1 & E2).
      assert (He : is_edge c k (psnode c ps k) b) by (split; [lia|]; split; [apply psnode_lt; assumption|exact Hb]).
      destruct (Hedge _ _ _ He) as [_ Hstep]. specialize (Hstep i con Hi). rewrite Hnl in Hstep. unfold nl_holds, slack_of in Hstep. rewrite Es, E2 in Hstep. fold (srow c k) in Hstep.
      rewrite (Hcon con (nth_error_In _ _ Hi) (x k) (stateX c pt k (psnode c ps k)) (u k) (physU c pt k (uidx c (psnode c ps k))) (z k) (physZ c pt k (psnode c ps k) 0) (pTvp par k) (p k)).
      + exact Hstep.
      + apply HS; [exact Hps|lia].
      + unfold u, pol. rewrite nodeof_ps, map_length, seq_length. intros ? ?. reflexivity.
    - intros ps Hps. split; [|split].
      + apply HS. exact Hps.
      + intros k Hk. unfold pol. rewrite nodeof_ps, map_length, seq_length. intros ? ?. reflexivity.
      + intros k a Hk Ha. rewrite nodeof_ps, map_length, seq_length. reflexivity.
  Qed.

  Lemma psnode_hist ps k : realisation c ps -> hist c k (psnode c ps k) = map ps (seq 0 k).
  Proof.
    intros Hps. induction k as [|k IH]; [reflexivity|].
    destruct (psnode_step c Hok ps k Hps (psnode_lt c Hok _ _ Hps)) as (b & Hb & E1 & E2).
    rewrite E1, hist_child by assumption. rewrite IH, E2, seq_snoc, map_app. reflexivity.
  Qed.

  Lemma point_alike policy zpol slack : robust_plan c par policy zpol -> slack_plan c par policy zpol slack ->
    exists pt, feasible c par pt /\ agree (n_u (mdl c)) (physU c pt 0 0) (policy []) /\ alike c par pt policy zpol slack.
  Proof.
    intros Hp [Hsh Hs].
    assert (Hvio : violations_ok c).
    { intros con v pen Hin Es. apply In_nth_error in Hin as [i Hi].
      pose proof (Hs _ (leaf_real c Hok 0%nat) 0%nat i con (Some v) pen ltac:(lia) Hi Es) as (H0 & H1 & _). cbn [le_ub] in H1. lra. }
    destruct (to_point c par policy zpol Hok Hpos Hd Hwf Hwu Hnl Hcon Hvio Hp) as [Hf Hu].
    pose proof (proj1 (feasible_iff c par _ Hok Hpos) Hf) as ((HB & HC & HE) & Hini & Hedge).
    set (pt0 := point_of c par policy zpol) in *.
    set (pt := {| oX := oX pt0; oZ := oZ pt0; oU := oU pt0; oE := fun k s a => slack (hist c (sstep c k) (clip c (sstep c k) s)) a |}).
    assert (Hnode : forall ps k, realisation c ps -> hist c k (clip c k (psnode c ps k)) = map ps (seq 0 k)).
    { intros ps k Hps. rewrite clip_id by (try exact Hok; apply psnode_lt; assumption). apply psnode_hist. exact Hps. }
    exists pt. split; [|split; [exact Hu|]].
    - apply (feasible_iff c par _ Hok Hpos). split; [split; [exact HB|split; [exact HC|]]|split; [exact Hini|]].
      + intros k s a Hk _ Ha. cbn [oE pt]. assert (Hks : (sstep c k < N c)%nat) by (unfold sstep; destruct (single_slack c); lia). clear Hk. generalize dependent (sstep c k). clear k. intros k Hk.
        destruct (soft_which (nlc c) a Ha) as (i & con & vmax & pen & Hi & Es & Hn & Ea).
        destruct (realised c Hok _ _ (clip_lt c Hok k s)) as (ps & Hps & E). rewrite <- E, Hn. cbn [fst].
        pose proof (Hs ps Hps k i con vmax pen Hk Hi Es) as (H0 & H1 & _). rewrite <- Ea in H0, H1. split; [exact H0|exact H1].
      + intros k s b He. destruct (Hedge k s b He) as [Hm Hn]. split; [exact Hm|]. intros i con Hi. specialize (Hn i con Hi). rewrite Hnl in *.
        unfold nl_holds in *. destruct (nl_soft con) as [[vmax pen]|] eqn:Es.
        2:{ unfold slack_of in *. rewrite Es in *. exact Hn. }
        clear Hn. pose proof He as (Hk & Hw & Hb).
        destruct (realised c Hok _ _ (child_width c Hok k s b Hw Hb)) as (ps & Hps & E). pose proof (hist_child c Hok k s b Hb) as Eh. rewrite Eh, seq_snoc, map_app in E.
        cbn [map] in E. apply app_inj_tail in E as [Eh' Ec].
        pose proof (Hs ps Hps k i con vmax pen Hk Hi Es) as (_ & _ & H2).
        unfold slack_of. rewrite Es. fold (srow c k). cbn [oE pt]. rewrite shared_slack by assumption.
        rewrite Ec, Eh' in H2. rewrite <- (hplant_ps c par policy zpol) in H2. rewrite Eh' in H2.
        rewrite (Hcon con (nth_error_In _ _ Hi) _ (hplant c par policy zpol (hist c k s)) _ (policy (hist c k s)) _ (zpol (map ps (seq 0 (k + 1))))).
        * exact H2.
        * intros a Ha. unfold stateX. rewrite Hd. cbn [ncoll]. change (physX c pt k s 0 a) with (physX c pt0 k s 0 a). unfold pt0, point_of.
          rewrite (tp_x c par policy zpol Hpos _ k s 0 a Ha), clip_id by assumption. reflexivity.
        * intros a Ha. change (physU c pt k (uidx c s) a) with (physU c pt0 k (uidx c s) a). unfold pt0, point_of. apply (tp_uidx c par policy zpol Hok Hpos Hp _ k s Hw a Ha).
        * exact Hok.
    - intros ps Hps. split; [|split].
      + intros k Hk a Ha. unfold stateX. rewrite Hd. cbn [ncoll]. change (physX c pt k (psnode c ps k) 0 a) with (physX c pt0 k (psnode c ps k) 0 a). unfold pt0, point_of.
        rewrite (tp_x c par policy zpol Hpos _ k _ 0 a Ha), (Hnode ps k Hps), hplant_ps by exact Hok. reflexivity.
      + intros k Hk a Ha. change (physU c pt k (uidx c (psnode c ps k)) a) with (physU c pt0 k (uidx c (psnode c ps k)) a). unfold pt0, point_of.
        rewrite (tp_uidx c par policy zpol Hok Hpos Hp _ k _ (psnode_lt c Hok ps k Hps) a Ha), psnode_hist by exact Hps. reflexivity.
      + intros k a Hk Ha. cbn [oE pt]. rewrite shared_slack by (try assumption; apply psnode_lt; assumption). rewrite psnode_hist by assumption. reflexivity.
  Qed.
  Hypothesis Hr : rterm c = RDefault r.
  Hypothesis Hcost : xu_cost c.
  Lemma plan_of_point pt : feasible c par pt ->
    exists slack, slack_plan c par (pol c pt) (zp c pt) slack /\ has_objective c par pt (plan_cost c par r (pol c pt) (zp c pt) slack).
  Proof. intros Hf. destruct (plan_alike pt Hf) as (slack & Hs & HA). exists slack. split; [exact Hs|]. apply cost_eq; assumption. Qed.
  Lemma point_of_plan policy zpol slack : robust_plan c par policy zpol -> slack_plan c par policy zpol slack ->
    exists pt, feasible c par pt /\ agree (n_u (mdl c)) (physU c pt 0 0) (policy []) /\ has_objective c par pt (plan_cost c par r policy zpol slack).
  Proof.
    intros Hp Hs. destruct (point_alike policy zpol slack Hp Hs) as (pt & Hf & Hu & HA). exists pt. split; [exact Hf|]. split; [exact Hu|].
    apply cost_eq; assumption.
  Qed.
End Both.
