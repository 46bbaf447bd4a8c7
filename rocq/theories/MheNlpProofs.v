(** * Proofs about the estimation problem: one window step is the step of a one-step MPC problem with fixed noise. *)
From Coq Require Import Reals Lra FunctionalExtensionality.
From Verif Require Import Base TreeModel TreeSpec TreeProofs TreeProofs2 NlpModel NlpSpec NlpProofs NlpProofs2 NlpProofs3 NlpProofs4 MheNlpModel MheNlpSpec.
Local Open Scope R_scope.
Import List NlpModel.

Section OneStep.
  Variable c : mcfg.
  Hypothesis Hok : mcfg_ok c.
  Variable par : mpar.
  Variable pt : mpoint.
  Variable k : nat.

  (** The model with noise and parameters of step k frozen. *)
  Let w := mW pt k.
  Let mdl1 : dyn_model := {| n_x := n_x (hmdl c); n_u := n_u (hmdl c); n_z := n_z (hmdl c);
    rhs := fun x u z tvp p _ => rhs (hmdl c) x u z tvp p w; alg := fun x u z tvp p _ => alg (hmdl c) x u z tvp p w |}.
  Let c1 : cfg := {| N := 1; nr := 0; ncomb := 1; open_loop := false; single_slack := false; chk_colloc := false; nl_chk_colloc := false;
    mdl := mdl1; sx := hsx c; su := hsu c; sz := hsz c; disc := hdisc c; nlc := []; lterm := fun _ _ _ _ _ => 0; mterm := fun _ _ _ => 0;
    rterm := RDefault (fun _ => 0); xlb := fun _ => None; xub := fun _ => None; ulb := fun _ => None; uub := fun _ => None;
    zlb := fun _ => None; zub := fun _ => None; tlb := fun _ => None; tub := fun _ => None |}.
  Let pt1 : point := {| oX := fun k' _ i => match k' with O => mX pt k i | _ => mX pt (k + 1) i end; oZ := fun k' _ i => mZ pt k i; oU := fun _ _ => mU pt k; oE := fun _ _ => vzero |}.
  Let par1 : params := {| pX0 := vzero; pTvp := fun _ => mTvp par k; pP := fun _ => vmul (p_scaled c par pt) (p_scaling c); pUprev := vzero |}.

  Lemma p_phys_eq : vmul (p_scaled c par pt) (p_scaling c) = model_p c par (ePe c pt).
  Proof.
    apply functional_extensionality. intros i. unfold vmul, p_scaled, p_scaling, pcat, model_p, vdiv, one, ePe. destruct (psel c i); field.
  Qed.

  Lemma c1_ok : cfg_ok c1.
  Proof.
    destruct Hok as (H1 & H2 & H3). split; [cbn; lia|]. split; [cbn; lia|]. split; [exact H1|]. cbn [disc c1].
    destruct (hdisc c); [exact I|]. destruct H3 as (A & B & W). split; [exact A|]. split; [exact B|].
    intros x x' u z z' tvp p w' Hx Hz. cbn. apply (W x x' u z z' tvp p w Hx Hz).
  Qed.

  Lemma h_step_sat : exists g xf, h_step c par pt k = Ok (g, xf) /\
    (Forall (fun v => v = 0) g /\ (forall a, (a < n_x (hmdl c))%nat -> xf a - mX pt (k+1) (hlast c) a = 0) <-> est_step c par pt k).
  Proof.
    destruct (tree_exists 1 0 1) as [t Ht]; [lia..|].
    assert (He : is_edge c1 0 0 0) by (unfold is_edge, width_of, fan_of, nodes, fan; cbn; lia).
    destruct (step_sat c1 c1_ok t Ht par1 pt1 0 0 0 He) as (g & xf & E & _ & Hs).
    exists g, xf. split.
    - rewrite <- E. reflexivity.
    - assert (Hs' : (Forall (fun v => v = 0) g /\ (forall a, (a < n_x (hmdl c))%nat -> xf a - mX pt (k+1) (hlast c) a = 0)) <-> model_step c1 par1 pt1 0 0 0).
      { rewrite <- Hs. rewrite (child_is c1 ltac:(cbn; lia) ltac:(cbn; lia) t Ht 0 0 0 He). exact (iff_refl _). }
      clear Hs. rewrite Hs'. unfold model_step, model_step_with, est_step. change (disc c1) with (hdisc c).
      destruct (hdisc c) as [|deg ni h C D] eqn:Ed.
      + unfold est_discrete_step, ex. rewrite Ed, <- p_phys_eq. exact (iff_refl _).
      + unfold colloc_step, est_colloc_step, est_cx, ex, agree. rewrite Ed, <- p_phys_eq.
        exact (iff_refl _).
  Qed.
End OneStep.

Section Whole.
  Variable c : mcfg.
  Hypothesis Hok : mcfg_ok c.
  Variable par : mpar.
  Variable pt : mpoint.

  Lemma soft_close l : soft_list (map (close_nl par) l) = m_soft l.
  Proof. unfold soft_list, m_soft. rewrite flat_map_concat_map, flat_map_concat_map, map_map. reflexivity. Qed.

  Lemma h_nl_sat k ix iz :
    cons_sat (h_nl_at c par pt k ix iz) (nl_cons_lb (h_nlc c par)) (nl_cons_ub (h_nlc c par)) <->
    (forall i n, nth_error (hnl c) i = Some n -> est_nl c par pt (mPe pt) (eX c pt k ix) (eZ c pt k iz) i k n).
  Proof.
    unfold h_nl_at, nl_cons_fun. rewrite cons_sat_combine. unfold h_nlc. split.
    - intros H i n E. specialize (H i (close_nl par n)). rewrite nth_error_map, E in H. specialize (H eq_refl).
      cbn [Nat.add nl_g nl_ub nl_soft close_nl] in H. rewrite slack_index_soft, firstn_map, soft_close in H. exact H.
    - intros H i con E. rewrite nth_error_map in E. destruct (nth_error (hnl c) i) as [n|] eqn:En; [|discriminate]. injection E as <-.
      cbn [Nat.add nl_g nl_ub nl_soft close_nl]. rewrite slack_index_soft, firstn_map, soft_close. exact (H i n En).
  Qed.

  Lemma h_cons_sat k : exists bl, h_cons c par pt k = Ok bl /\ Forall block_ok bl /\
    (Forall block_sat bl <-> est_step c par pt k /\ est_meas c par pt (p_scaled c par pt) k /\ est_nl_step c par pt (mPe pt) k).
  Proof.
    destruct (h_step_sat c Hok par pt k) as (g & xf & E & Hg). unfold h_cons. rewrite E. cbn [bind].
    assert (NL : exists nl, h_nl_blocks c par pt k = Ok nl /\ Forall (fun v => List.length v = List.length (h_nlc c par)) nl /\
       (Forall (fun v => cons_sat v (nl_cons_lb (h_nlc c par)) (nl_cons_ub (h_nlc c par))) nl <-> est_nl_step c par pt (mPe pt) k)).
    { unfold h_nl_blocks, est_nl_step. destruct (hnlchk c) eqn:Ec.
      - destruct (hnc c) as [|n] eqn:En.
        + exfalso. destruct Hok as (_ & H2 & H3). specialize (H2 Ec). unfold hnc in En. destruct (hdisc c); [contradiction|]. cbn in En. nia.
        + eexists. split; [reflexivity|]. split.
          * apply Forall_app. split; [rewrite Forall_map; apply Forall_forall; intros; apply nl_fun_length|constructor; [apply nl_fun_length|constructor]].
          * rewrite Forall_app, Forall_map, Forall_forall, Forall_cons_iff. split.
            -- intros [H _] i nn Ei q Hq. apply (proj1 (h_nl_sat k q q)); [|exact Ei]. apply H. apply in_seq. fold (hnc c) in Hq. lia.
            -- intros H. assert (A : forall q, (q < hnc c)%nat -> cons_sat (h_nl_at c par pt k q q) (nl_cons_lb (h_nlc c par)) (nl_cons_ub (h_nlc c par))).
               { intros q Hq. apply h_nl_sat. intros i nn Ei. apply (H i nn Ei). exact Hq. }
               split; [intros q Hq; apply in_seq in Hq; apply A; lia|]. split; [apply A; lia|constructor].
      - eexists. split; [reflexivity|]. split; [repeat constructor; apply nl_fun_length|].
        rewrite !Forall_cons_iff. rewrite !h_nl_sat. split.
        + intros [H _]. exact H.
        + intros H. repeat split; try exact H. constructor. }
    destruct NL as (nl & -> & HL & HN). cbn [bind]. eexists. split; [reflexivity|]. split.
    - constructor; [unfold block_ok; cbn [fst snd]; rewrite !map_length; auto|].
      constructor; [unfold block_ok; cbn [fst snd]; rewrite !repeat_length, rows_length; auto|].
      constructor; [unfold block_ok; cbn [fst snd]; rewrite !repeat_length, rows_length; auto|].
      rewrite Forall_map. eapply Forall_impl; [|exact HL]. intros v Hv. unfold block_ok; cbn [fst snd]. unfold nl_cons_lb, nl_cons_ub. rewrite !map_length. auto.
    - rewrite !Forall_cons_iff, Forall_map. unfold block_sat; cbn [fst snd]. rewrite zero_sat, !zero_rows_sat, HN, <- Hg.
      unfold est_meas, h_meas.
      assert (M : (forall a, (a < hny c)%nat -> hmeas c (mXu c pt (k+1) (hlast c)) (mUu c pt k) (mZu c pt k 0) (mTvp par k) (p_scaled c par pt) (mV pt k) a - mY par k a = 0) <->
         (forall a, (a < hny c)%nat -> hmeas c (ex c pt (k+1)) (eU c pt k) (eZ c pt k 0) (mTvp par k) (p_scaled c par pt) (mV pt k) a = mY par k a)).
      { split; intros H a Ha; specialize (H a Ha).
        - change (hmeas c (ex c pt (k+1)) (eU c pt k) (eZ c pt k 0)) with (hmeas c (mXu c pt (k+1) (hlast c)) (mUu c pt k) (mZu c pt k 0)). lra.
        - change (hmeas c (ex c pt (k+1)) (eU c pt k) (eZ c pt k 0)) with (hmeas c (mXu c pt (k+1) (hlast c)) (mUu c pt k) (mZu c pt k 0)) in H. lra. }
      rewrite M. tauto.
  Qed.

  Lemma mhe_sat : exists p, mhe_nlp c par pt = Ok p /\ obj p = h_obj c par pt /\
    List.length (cons_lb p) = List.length (cons p) /\ List.length (cons_ub p) = List.length (cons p) /\
    (cons_sat (cons p) (cons_lb p) (cons_ub p) <->
     forall k, (k < hN c)%nat -> est_step c par pt k /\ est_meas c par pt (p_scaled c par pt) k /\ est_nl_step c par pt (mPe pt) k).
  Proof.
    destruct (mapM_exists (h_cons c par pt) (fun k bl => Forall block_ok bl /\
       (Forall block_sat bl <-> est_step c par pt k /\ est_meas c par pt (p_scaled c par pt) k /\ est_nl_step c par pt (mPe pt) k)) (seq 0 (hN c))) as (bls & E & F).
    { intros k _. destruct (h_cons_sat k) as (bl & A & B & C). exists bl. auto. }
    unfold mhe_nlp. rewrite E. cbn [bind]. eexists. split; [reflexivity|]. split; [reflexivity|]. cbn [cons cons_lb cons_ub].
    assert (OK : Forall block_ok (List.concat bls)).
    { clear E. revert F. generalize (seq 0 (hN c)). intros l F. induction F as [|k bl l bls [A _] _ IH]; cbn; [constructor|]. apply Forall_app. auto. }
    assert (LN : forall l, Forall block_ok l -> List.length (flat_map (fun x => snd (fst x)) l) = List.length (flat_map (fun x => fst (fst x)) l) /\
                                   List.length (flat_map snd l) = List.length (flat_map (fun x => fst (fst x)) l)).
    { clear. intros l F. induction F as [|b l [A B] _ [IH1 IH2]]; [split; reflexivity|]. cbn [flat_map]. rewrite !app_length. lia. }
    destruct (LN _ OK) as [L1 L2]. split; [exact L1|]. split; [exact L2|]. rewrite (cons_sat_blocks _ OK). clear OK L1 L2 LN E.
    assert (G : Forall block_sat (List.concat bls) <-> forall k, In k (seq 0 (hN c)) -> est_step c par pt k /\ est_meas c par pt (p_scaled c par pt) k /\ est_nl_step c par pt (mPe pt) k).
    { revert F. generalize (seq 0 (hN c)). intros l F. induction F as [|k bl l bls [_ A] _ IH]; cbn [List.concat]; [split; [intros _ k []|constructor]|].
      rewrite Forall_app, A, IH. split.
      - intros [H1 H2] j [<-|Hj]; auto.
      - intros H. split; [apply H; left; reflexivity|]. intros j Hj. apply H. right. exact Hj. }
    rewrite G. split; intros H k Hk; apply H; [apply in_seq; lia|apply in_seq in Hk; lia].
  Qed.

  Lemma scale_inside s lb ub v : 0 < s -> (ge_lb v (scale_bound s lb) /\ le_ub v (scale_bound s ub) <-> inside lb ub (v * s)).
  Proof.
    intros Hs. unfold inside. assert (A : ge_lb v (scale_bound s lb) <-> ge_lb (v * s) lb).
    { destruct lb as [l|]; cbn; [|tauto]. split; intros H.
      - apply (Rmult_le_compat_r s) in H; [|lra]. unfold Rdiv in H. rewrite Rmult_assoc, Rinv_l, Rmult_1_r in H; lra.
      - apply (Rmult_le_reg_r s); [exact Hs|]. unfold Rdiv. rewrite Rmult_assoc, Rinv_l, Rmult_1_r; lra. }
    assert (B : le_ub v (scale_bound s ub) <-> le_ub (v * s) ub).
    { destruct ub as [l|]; cbn; [|tauto]. split; intros H.
      - apply (Rmult_le_compat_r s) in H; [|lra]. unfold Rdiv in H. rewrite Rmult_assoc, Rinv_l, Rmult_1_r in H; lra.
      - apply (Rmult_le_reg_r s); [exact Hs|]. unfold Rdiv. rewrite Rmult_assoc, Rinv_l, Rmult_1_r; lra. }
    rewrite A, B. tauto.
  Qed.
  Lemma within_iff : mscal_pos c ->
    (mhe_within c pt <->
     (forall k i, (k <= hN c)%nat -> (i <= ncoll (hdisc c))%nat -> (hchk c = true \/ (1 <= k < hN c)%nat /\ i = ncoll (hdisc c)) -> est_state_bounds c pt k i) /\
     (forall k i, (k < hN c)%nat -> (i < Nat.max (ncoll (hdisc c)) 1)%nat -> (hchk c = true \/ i = 0%nat) -> est_alg_bounds c pt k i) /\
     est_other_bounds c pt).
  Proof.
    intros (P1 & P2 & P3 & P4). unfold mhe_within, est_other_bounds, est_state_bounds, est_alg_bounds, mbx, mbz, mbu, mbp, hlast, hnz, hnc, h_neps.
    split.
    - intros (A & B & C & D & E). split; [|split; [|split; [|split]]].
      + intros k i Hk Hi H a Ha. unfold eX. apply (scale_inside (hsx c a)); [auto|]. specialize (A k i a Hk Hi Ha). destruct (hchk c); [exact A|].
        destruct H as [H|[H ->]]; [discriminate|]. destruct (Nat.leb_spec 1 k), (Nat.ltb_spec k (hN c)); try lia. rewrite Nat.eqb_refl in A. exact A.
      + intros k i Hk Hi H a Ha. unfold eZ. apply (scale_inside (hsz c a)); [auto|]. specialize (B k i a Hk Hi Ha). destruct (hchk c); [exact B|].
        destruct H as [H| ->]; [discriminate|]. exact B.
      + intros k a Hk Ha. unfold eU. apply (scale_inside (hsu c a)); [auto|]. auto.
      + intros a Ha. unfold ePe. apply (scale_inside (hspe c a)); [auto|]. auto.
      + intros k a Hk Ha. apply E; auto.
    - intros (A & B & C & D & E). split; [|split; [|split; [|split]]].
      + intros k i a Hk Hi Ha. destruct (hchk c) eqn:Q.
        * apply scale_inside; [auto|]. apply A; auto.
        * destruct ((1 <=? k) && (k <? hN c) && (i =? ncoll (hdisc c)))%nat eqn:R; [|split; exact I].
          apply andb_prop in R as [R R3]. apply andb_prop in R as [R1 R2]. apply Nat.leb_le in R1. apply Nat.ltb_lt in R2. apply Nat.eqb_eq in R3.
          apply scale_inside; [auto|]. apply A; auto.
      + intros k i a Hk Hi Ha. destruct (hchk c) eqn:Q.
        * apply scale_inside; [auto|]. apply B; auto.
        * destruct (Nat.eqb_spec i 0); [|split; exact I]. apply scale_inside; [auto|]. apply B; auto.
      + intros k a Hk Ha. apply scale_inside; [auto|]. apply C; auto.
      + intros a Ha. apply scale_inside; [auto|]. apply D; auto.
      + intros k a Hk Ha. apply E; auto.
  Qed.
End Whole.
