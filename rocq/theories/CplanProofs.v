(** * Proofs for C95: feasible points and robust collocation plans. *)
From Coq Require Import Reals Lra Lia.
From Verif Require Import Base TreeModel TreeSpec TreeProofs TreeProofs2 NlpModel NlpSpec NlpProofs NlpProofs2 NlpProofs3 NlpProofs4 NlpProps RobustProps PlanSpec PlanProofs CplanSpec.
Local Open Scope R_scope.

Lemma removelast_ps (ps : nat -> nat) k : removelast (map ps (seq 0 (k + 1))) = map ps (seq 0 k).
Proof. replace (k + 1)%nat with (S k) by lia. rewrite seq_snoc, map_app. cbn [map]. apply removelast_last. Qed.

Lemma rsum_map_ext (f g : nat -> R) l : (forall r, In r l -> f r = g r) -> rsum (map f l) = rsum (map g l).
Proof. intros H. f_equal. apply map_ext_in. exact H. Qed.

(** ** A feasible point gives a plan. *)
Section ToPlan.
  Variable c : cfg.
  Variable par : params.
  Variable pt : point.
  Variables (deg ni : nat) (h : R) (C : nat -> nat -> R) (D : nat -> R).
  Hypothesis Hok : cfg_ok c.
  Hypothesis Hpos : scaling_pos c.
  Hypothesis Hd : disc c = Colloc deg ni h C D.
  Hypothesis Hwf : wf_model (mdl c).
  Hypothesis Hnl : nl_chk_colloc c = false.
  Hypothesis Hcon : forall con, In con (nlc c) -> xu_constraint (mdl c) con.
  Hypothesis Hf : feasible c par pt.
  Let HN : (1 <= N c)%nat := proj1 Hok.
  Let Hc : (1 <= ncomb c)%nat := proj1 (proj2 Hok).

  Definition stp (l : list nat) : vec := stateX c pt (List.length l) (nodeof c l).
  Definition Xp (l : list nat) (i j : nat) : vec :=
    if ((i =? 0) && (j =? 0))%nat then stp (removelast l) else physX c pt (List.length l) (nodeof c l) (i * (deg + 1) + j - 1)%nat.
  Definition Zp (l : list nat) (i j : nat) : vec := physZ c pt (List.length l - 1) (nodeof c l) (i * (deg + 1) + j)%nat.

  Lemma to_cplan : robust_collocation_plan c deg ni h C D par (pol c pt) stp Xp Zp.
  Proof.
    assert (Hd' : (1 <= ni)%nat /\ (1 <= deg)%nat) by (pose proof Hok as (_ & _ & _ & H); rewrite Hd in H; tauto).
    destruct Hd' as [Hni Hdeg].
    pose proof (proj1 (feasible_iff c par pt Hok Hpos) Hf) as (((HB1 & HB2 & HB3 & HB4) & HCB & HE) & Hini & Hedge).
    split; [|split].
    { intros Ho l l' E. unfold pol, uidx. rewrite Ho, E. reflexivity. }
    { intros a Ha. exact (Hini a Ha). }
    intros ps Hps k Hk now next p.
    set (node := psnode c ps).
    assert (Hw : forall k, (node k < width_of c k)%nat) by (intros k0; apply psnode_lt; assumption).
    assert (Hmax : forall k, (node k < nmax c)%nat) by (intros k0; pose proof (Hw k0); pose proof (nodes_le_nmax c HN Hc k0); unfold width_of in *; lia).
    destruct (psnode_step c Hok ps k Hps (Hw k)) as (b & Hb & E1 & E2). fold node in E1, E2.
    assert (He : is_edge c k (node k) b) by (repeat split; auto).
    assert (Hu : pol c pt now = physU c pt k (uidx c (node k))).
    { unfold pol, now. rewrite nodeof_ps, map_length, seq_length. reflexivity. }
    assert (Hx : stp now = stateX c pt k (node k)).
    { unfold stp, now. rewrite nodeof_ps, map_length, seq_length. reflexivity. }
    assert (Hx1 : stp next = stateX c pt (k + 1) (childnode c k (node k) b)).
    { unfold stp, next. rewrite nodeof_ps, map_length, seq_length. replace (k + 1)%nat with (S k) by lia. fold node. rewrite E1. reflexivity. }
    assert (HX : forall i j, Xp next i j = collx c pt deg k (node k) b i j).
    { intros i j. unfold Xp, collx, next. rewrite removelast_ps, nodeof_ps, map_length, seq_length. fold now. rewrite Hx.
      replace (k + 1)%nat with (S k) by lia. fold node. rewrite E1. reflexivity. }
    assert (HZ : forall i j, Zp next i j = collz c pt deg k (node k) b i j).
    { intros i j. unfold Zp, collz, next. rewrite nodeof_ps, map_length, seq_length. replace (k + 1)%nat with (S k) by lia. fold node. rewrite E1.
      replace (S k - 1)%nat with k by lia. reflexivity. }
    destruct (Hedge _ _ _ He) as [Hm Hn].
    unfold model_step, model_step_with in Hm. rewrite Hd in Hm. destruct Hm as (M1 & M2 & M3 & M4). rewrite E2 in *. fold p in M1, M2. rewrite <- Hu in *.
    assert (Hcw : (childnode c k (node k) b < nmax c)%nat) by (rewrite <- E1; apply Hmax).
    split; [|split; [|split; [|split; [|split; [|split]]]]].
    - split; [|split; [|split; [|split]]].
      + rewrite HX, Hx. intros a Ha. reflexivity.
      + intros i j a Hi Hj Ha. rewrite HX, HZ. apply M1; assumption.
      + intros i j a Hi Hj Ha. rewrite HX, HZ. rewrite (M2 i j a Hi Hj Ha). apply rsum_map_ext. intros r _. rewrite HX. reflexivity.
      + intros i a Hi Ha. rewrite HX. rewrite (M3 i a ltac:(lia) Ha). apply rsum_map_ext. intros r _. rewrite HX. reflexivity.
      + intros a Ha. rewrite Hx1, (M4 a Ha). replace ni with (ni - 1 + 1)%nat at 1 by lia. rewrite (M3 (ni - 1)%nat a ltac:(lia) Ha).
        apply rsum_map_ext. intros r _. rewrite HX. reflexivity.
    - intros a Ha. rewrite Hu. apply HB1; auto. unfold uidx, n_u_scenarios. pose proof (Hmax k). destruct (open_loop c); lia.
    - intros Hk1 a Ha. rewrite Hx. apply HB2; auto.
    - intros HkN a Ha. rewrite Hx1, HkN. apply HB3; auto.
    - intros a Ha. rewrite HZ. apply HB4; auto.
    - intros con Hin. pose proof Hin as Hin'. apply In_nth_error in Hin as [i Hi].
      specialize (Hn i con Hi). rewrite Hnl in Hn. unfold nl_holds in Hn.
      rewrite E2 in Hn. fold p in Hn. rewrite <- Hu, <- Hx in Hn.
      rewrite (Hcon con Hin' (stp now) (stp now) (pol c pt now) (pol c pt now) _ (Zp next 0%nat 0%nat) (pTvp par k) p (fun _ _ => eq_refl) (fun _ _ => eq_refl)) in Hn.
      unfold respects. unfold slack_of in Hn. destruct (nl_ub con) as [ub|]; [|exact I]. cbn [le_ub] in Hn.
      destruct (nl_soft con) as [[vmax pen]|] eqn:Es; [|lra].
      set (q := Nat.min k ((if single_slack c then 1 else N c) - 1)) in *. set (ai := List.length (soft_list (firstn i (nlc c)))) in *.
      assert (Hsplit : soft_list (nlc c) = soft_list (firstn i (nlc c)) ++ (vmax, pen) :: soft_list (skipn (S i) (nlc c))).
      { pose proof (nth_error_split (nlc c) i Hi) as (l1 & l2 & E & El). rewrite E.
        rewrite firstn_app, El, Nat.sub_diag. cbn [firstn]. rewrite app_nil_r, firstn_all2 by lia.
        rewrite skipn_app, El. rewrite skipn_all2 by lia. replace (S i - i)%nat with 1%nat by lia. cbn [skipn app].
        unfold soft_list. rewrite flat_map_app. cbn [flat_map]. rewrite Es. reflexivity. }
      assert (Hq : (q < (if single_slack c then 1 else N c))%nat) by (unfold q; destruct (single_slack c); lia).
      assert (Hai : (ai < List.length (soft_list (nlc c)))%nat).
      { rewrite Hsplit, app_length. cbn [List.length]. unfold ai. lia. }
      pose proof (HE q (node k) ai Hq (Hmax k) Hai) as [H0 H1].
      assert (Hnth : nth_error (soft_list (nlc c)) ai = Some (vmax, pen)).
      { rewrite Hsplit, nth_error_app2 by (unfold ai; lia). unfold ai. rewrite Nat.sub_diag. reflexivity. }
      rewrite Hnth in H1. cbn [fst ge_lb] in H0, H1. exists (oE pt q (node k) ai). split; [exact H0|]. split; [exact H1|]. lra.
    - intros Hchk i j Hi Hj. destruct (HCB Hchk) as [HC1 HC2]. split.
      + intros a Ha. rewrite HZ. apply HC2; auto. rewrite Hd. cbn [ncoll]. nia.
      + intros Hk1 Hij a Ha. rewrite HX. unfold collx.
        destruct (Nat.eqb_spec i 0) as [->|]; [destruct (Nat.eqb_spec j 0) as [->|]; [lia|]|]; cbn [andb];
          (apply HC1; [lia|exact Hcw| |exact Ha]); rewrite Hd; cbn [ncoll]; nia.
  Qed.
End ToPlan.

(** ** A plan gives a feasible point. *)
Section ToPoint.
  Variable c : cfg.
  Variable par : params.
  Variables (deg ni : nat) (h : R) (C : nat -> nat -> R) (D : nat -> R).
  Variables policy state : list nat -> vec.
  Variables X Z : list nat -> nat -> nat -> vec.
  Hypothesis Hok : cfg_ok c.
  Hypothesis Hpos : scaling_pos c.
  Hypothesis Hd : disc c = Colloc deg ni h C D.
  Hypothesis Hwf : wf_model (mdl c).
  Hypothesis Hwu : wf_inputs (mdl c).
  Hypothesis Hnl : nl_chk_colloc c = false.
  Hypothesis Hcon : forall con, In con (nlc c) -> xu_constraint (mdl c) con.
  Hypothesis Hvio : violations_ok c.
  Hypothesis Hplan : robust_collocation_plan c deg ni h C D par policy state X Z.
  Let HN : (1 <= N c)%nat := proj1 Hok.
  Let Hc : (1 <= ncomb c)%nat := proj1 (proj2 Hok).
  Let nc : nat := ((deg + 1) * ni)%nat.

  Definition xat (l : list nat) (q : nat) : vec :=
    if (nc - 1 <=? q)%nat then state l else X l ((q + 1) / (deg + 1))%nat ((q + 1) mod (deg + 1))%nat.
  Definition zat (l : list nat) (q : nat) : vec := Z l (q / (deg + 1))%nat (q mod (deg + 1))%nat.
  Definition the_cpoint (M : R) : point :=
    {| oX := fun k s q a => xat (hist c k (clip c k s)) q a / sx c a;
       oZ := fun k s q a => zat (hist c (k + 1) (clip c (k + 1) s)) q a / sz c a;
       oU := fun k s a => policy (hist c k (clip c k s)) a / su c a;
       oE := fun k s a => match nth_error (soft_list (nlc c)) a with Some (Some v, _) => v | _ => M end |}.
  Lemma cp_x M k s i : agree (n_x (mdl c)) (physX c (the_cpoint M) k s i) (xat (hist c k (clip c k s)) i).
  Proof. intros a Ha. unfold physX. cbn [oX the_cpoint]. field. pose proof (proj1 Hpos a Ha). lra. Qed.
  Lemma cp_z M k s i : agree (n_z (mdl c)) (physZ c (the_cpoint M) k s i) (zat (hist c (k + 1) (clip c (k + 1) s)) i).
  Proof. intros a Ha. unfold physZ. cbn [oZ the_cpoint]. field. pose proof (proj2 (proj2 Hpos) a Ha). lra. Qed.
  Lemma cp_u M k s : agree (n_u (mdl c)) (physU c (the_cpoint M) k s) (policy (hist c k (clip c k s))).
  Proof. intros a Ha. unfold physU. cbn [oU the_cpoint]. field. pose proof (proj1 (proj2 Hpos) a Ha). lra. Qed.
  Lemma cp_uidx M k s : (s < width_of c k)%nat -> agree (n_u (mdl c)) (physU c (the_cpoint M) k (uidx c s)) (policy (hist c k s)).
  Proof.
    intros Hs a Ha. rewrite (cp_u M k (uidx c s) a Ha). unfold uidx. destruct (open_loop c) eqn:Eo.
    - rewrite (proj1 Hplan Eo (hist c k (clip c k 0)) (hist c k s)); [reflexivity|]. rewrite !hist_length by exact Hok. reflexivity.
    - rewrite clip_id by assumption. reflexivity.
  Qed.
  Lemma cp_st M k s : agree (n_x (mdl c)) (stateX c (the_cpoint M) k s) (state (hist c k (clip c k s))).
  Proof.
    intros a Ha. unfold stateX. rewrite (cp_x M k s _ a Ha). unfold xat. rewrite Hd. cbn [ncoll]. fold nc.
    destruct (Nat.leb_spec (nc - 1) nc); [reflexivity|lia].
  Qed.

  Definition cneed (e : nat * nat * nat * nl_con) : R :=
    let '(k, s, b, con) := e in
    match nl_ub con with
    | Some ub => nl_g con (state (hist c k s)) (policy (hist c k s)) (Z (hist c (S k) (childnode c k s b)) 0%nat 0%nat) (pTvp par k) (pP par (comb c k s b)) - ub
    | None => 0
    end.

  Definition cpoint_of : point := the_cpoint (max_on cneed (all_edges c)).
  Lemma to_cpoint : feasible c par cpoint_of /\ agree (n_u (mdl c)) (physU c cpoint_of 0 0) (policy []).
  Proof.
    assert (Hd' : (1 <= ni)%nat /\ (1 <= deg)%nat) by (pose proof Hok as (_ & _ & _ & H); rewrite Hd in H; tauto).
    destruct Hd' as [Hni Hdeg].
    destruct Hplan as (_ & Hinit & Hrun).
    destruct (max_on_spec (all_edges c) cneed) as (HM0 & HM). unfold cpoint_of. set (M := max_on cneed (all_edges c)) in *. split.
    2:{ intros a Ha. rewrite (cp_u M 0 0 a Ha). reflexivity. }
    (* the plan at a node of step k + 1 *)
    assert (Hnode : forall k s, (k < N c)%nat -> (s < width_of c (k + 1))%nat -> exists ps, realisation c ps /\ map ps (seq 0 (k + 1)) = hist c (k + 1) s).
    { intros k s Hk Hs. apply realised; assumption. }
    assert (HZb : forall k s i a, (k < N c)%nat -> (i = 0 \/ (chk_colloc c = true /\ i < nc))%nat -> (a < n_z (mdl c))%nat ->
              inside (zlb c a) (zub c a) (physZ c (the_cpoint M) k s i a)).
    { intros k s i a Hk Hi Ha. rewrite (cp_z M k s i a Ha). pose proof (clip_lt c Hok (k + 1) s) as Hl.
      destruct (Hnode _ _ Hk Hl) as (ps & Hps & E). pose proof (Hrun ps Hps k Hk) as HR. cbv zeta in HR. rewrite E in HR.
      destruct HR as (_ & _ & _ & _ & H & _ & Hchk). unfold zat. destruct Hi as [->|[Hch Hi]].
      - rewrite Nat.div_small, Nat.mod_small by lia. apply H. exact Ha.
      - apply Hchk; [exact Hch| | |exact Ha].
        + apply Nat.div_lt_upper_bound; [lia|]. exact Hi.
        + pose proof (Nat.mod_upper_bound i (deg + 1)). lia. }
    apply (feasible_iff c par _ Hok Hpos).
    split; [split; [split; [|split; [|split]]|split]|split].
    - intros k s a Hk _ Ha. rewrite (cp_u M k s a Ha). destruct (realised c Hok _ _ (clip_lt c Hok k s)) as (ps & Hps & E).
      pose proof (Hrun ps Hps k Hk) as HR. cbv zeta in HR. rewrite E in HR. apply HR. exact Ha.
    - intros k s a Hk _ Ha. rewrite (cp_st M k s a Ha). destruct (realised c Hok _ _ (clip_lt c Hok k s)) as (ps & Hps & E).
      pose proof (Hrun ps Hps k ltac:(lia)) as HR. cbv zeta in HR. rewrite E in HR. apply HR; [lia|exact Ha].
    - intros s a _ Ha. rewrite (cp_st M _ s a Ha). destruct (realised c Hok _ _ (clip_lt c Hok (N c) s)) as (ps & Hps & E).
      pose proof (Hrun ps Hps (N c - 1)%nat ltac:(lia)) as HR. cbv zeta in HR. replace (N c - 1 + 1)%nat with (N c) in HR by lia. rewrite E in HR. apply HR; [reflexivity|exact Ha].
    - intros k s a Hk _ Ha. apply HZb; auto.
    - intros Hch. split.
      + intros k s i a Hk _ Hi Ha. rewrite Hd in Hi. cbn [ncoll] in Hi. fold nc in Hi. rewrite (cp_x M k s i a Ha).
        destruct (realised c Hok _ _ (clip_lt c Hok k s)) as (ps & Hps & E). unfold xat. destruct (Nat.leb_spec (nc - 1) i) as [Hge|Hlt].
        * pose proof (Hrun ps Hps k ltac:(lia)) as HR. cbv zeta in HR. rewrite E in HR. apply HR; [lia|exact Ha].
        * pose proof (Hrun ps Hps (k - 1)%nat ltac:(lia)) as HR. cbv zeta in HR. replace (k - 1 + 1)%nat with k in HR by lia. rewrite E in HR.
          destruct HR as (_ & _ & _ & _ & _ & _ & Hchk). apply Hchk; [exact Hch| | |lia| |exact Ha].
          { apply Nat.div_lt_upper_bound; [lia|]. fold nc. lia. }
          { pose proof (Nat.mod_upper_bound (i + 1) (deg + 1)). lia. }
          { pose proof (Nat.div_mod (i + 1) (deg + 1) ltac:(lia)) as Hdm. destruct ((i + 1) / (deg + 1))%nat; [destruct ((i + 1) mod (deg + 1))%nat; lia|lia]. }
      + intros k s i a Hk _ Hi Ha. apply HZb; auto. right. split; [exact Hch|]. rewrite Hd in Hi. cbn [ncoll] in Hi. fold nc in Hi.
        assert (1 <= nc)%nat by (unfold nc; nia). lia.
    - intros k s a _ _ Ha. cbn [oE the_cpoint]. destruct (nth_error (soft_list (nlc c)) a) as [[[v|] pen]|] eqn:E; cbn [fst].
      + apply nth_error_In in E. unfold soft_list in E. apply in_flat_map in E as (con & Hin & E).
        destruct (nl_soft con) as [q|] eqn:Es; [|destruct E]. destruct E as [E|[]]. subst q.
        pose proof (Hvio con v pen Hin Es). split; cbn; lra.
      + split; cbn; [exact HM0|exact I].
      + split; cbn; [exact HM0|exact I].
    - intros a Ha. rewrite (cp_st M 0 0 a Ha). apply Hinit. exact Ha.
    - intros k s b He. pose proof He as (Hk & Hs & Hb).
      pose proof (child_width c Hok k s b Hs Hb) as Hcw.
      destruct (realised c Hok _ _ Hcw) as (ps & Hps & E). pose proof (hist_child c Hok k s b Hb) as Eh. rewrite Eh, seq_snoc, map_app in E.
      cbn [map] in E. apply app_inj_tail in E as [Eh' Ec].
      assert (EZ : map ps (seq 0 (k + 1)) = hist c (S k) (childnode c k s b)).
      { replace (k + 1)%nat with (S k) by lia. rewrite seq_snoc, map_app, Eh, Eh'. cbn [map]. rewrite Ec. reflexivity. }
      pose proof (Hrun ps Hps k Hk) as HR. cbv zeta in HR. rewrite EZ, Eh', Ec in HR. set (nx := hist c (S k) (childnode c k s b)) in *.
      destruct HR as ((R0 & R1 & R2 & R3 & R4) & _ & _ & _ & _ & HC & _).
      split.
      + unfold model_step, model_step_with. rewrite Hd. unfold colloc_step.
        assert (HX : forall i j, (i < ni)%nat -> (j <= deg)%nat -> agree (n_x (mdl c)) (collx c (the_cpoint M) deg k s b i j) (X nx i j)).
        { intros i j Hi Hj a Ha. unfold collx. destruct ((i =? 0) && (j =? 0))%nat eqn:E0.
          - apply andb_true_iff in E0 as [Ei Ej]. apply Nat.eqb_eq in Ei, Ej. subst i j. rewrite (cp_st M k s a Ha), clip_id by assumption.
            symmetry. apply R0. exact Ha.
          - assert (Hij : (1 <= i + j)%nat) by (destruct i, j; cbn in E0; [discriminate|lia|lia|lia]).
            rewrite (cp_x M _ _ _ a Ha). replace (k + 1)%nat with (S k) by lia. rewrite clip_id by assumption. fold nx. unfold xat.
            assert (Hq : (1 <= i * (deg + 1) + j /\ i * (deg + 1) + j < nc)%nat) by (unfold nc; nia).
            destruct (Nat.leb_spec (nc - 1) (i * (deg + 1) + j - 1)); [lia|].
            replace (i * (deg + 1) + j - 1 + 1)%nat with (j + i * (deg + 1))%nat by lia.
            rewrite Nat.div_add, Nat.mod_add, Nat.div_small, Nat.mod_small by lia. reflexivity. }
        assert (HZ' : forall i j, (j <= deg)%nat -> agree (n_z (mdl c)) (collz c (the_cpoint M) deg k s b i j) (Z nx i j)).
        { intros i j Hj a Ha. unfold collz. rewrite (cp_z M k _ _ a Ha). replace (k + 1)%nat with (S k) by lia. rewrite clip_id by assumption. fold nx.
          unfold zat. replace (i * (deg + 1) + j)%nat with (j + i * (deg + 1))%nat by lia.
          rewrite Nat.div_add, Nat.mod_add, Nat.div_small, Nat.mod_small by lia. reflexivity. }
        pose proof (cp_uidx M k s Hs) as HU.
        assert (HS : forall (w : nat -> R) i a, (i < ni)%nat -> (a < n_x (mdl c))%nat ->
                  rsum (map (fun r => w r * collx c (the_cpoint M) deg k s b i r a) (seq 0 (deg + 1))) = rsum (map (fun r => w r * X nx i r a) (seq 0 (deg + 1)))).
        { intros w i a Hi Ha. apply rsum_map_ext. intros r Hr. apply in_seq in Hr. rewrite (HX i r Hi ltac:(lia) a Ha). reflexivity. }
        assert (Hend : agree (n_x (mdl c)) (collx c (the_cpoint M) deg k s b ni 0) (state nx)).
        { intros a Ha. unfold collx. destruct (Nat.eqb_spec ni 0); [lia|]. cbn [andb]. rewrite (cp_x M _ _ _ a Ha). replace (k + 1)%nat with (S k) by lia.
          rewrite clip_id by assumption. fold nx. unfold xat. destruct (Nat.leb_spec (nc - 1) (ni * (deg + 1) + 0 - 1)); [reflexivity|unfold nc in *; nia]. }
        split; [|split; [|split]].
        * intros i j a Hi Hj Ha. rewrite <- (R1 i j a Hi Hj Ha).
          rewrite (proj2 (Hwf _ _ (physU c (the_cpoint M) k (uidx c s)) _ _ (pTvp par k) (pP par (comb c k s b)) vzero (HX i j Hi Hj) (HZ' i j Hj)) a Ha).
          apply (proj2 (Hwu (X nx i j) _ _ (Z nx i j) (pTvp par k) (pP par (comb c k s b)) vzero HU) a Ha).
        * intros i j a Hi Hj Ha. rewrite (HS (fun r => C r j) i a Hi Ha), (R2 i j a Hi Hj Ha). f_equal.
          rewrite (proj1 (Hwf _ _ (physU c (the_cpoint M) k (uidx c s)) _ _ (pTvp par k) (pP par (comb c k s b)) vzero (HX i j Hi ltac:(lia)) (HZ' i j ltac:(lia))) a Ha).
          apply (proj1 (Hwu (X nx i j) _ _ (Z nx i j) (pTvp par k) (pP par (comb c k s b)) vzero HU) a Ha).
        * intros i a Hi Ha. rewrite (HS D i a Hi Ha). destruct (Nat.eq_dec (i + 1) ni) as [Ei|Ei].
          { rewrite Ei, (Hend a Ha), (R4 a Ha). replace (ni - 1)%nat with i by lia. reflexivity. }
          { rewrite (HX (i + 1)%nat 0%nat ltac:(lia) ltac:(lia) a Ha). apply R3; [lia|exact Ha]. }
        * intros a Ha. rewrite (Hend a Ha), (cp_st M _ _ a Ha). replace (k + 1)%nat with (S k) by lia. rewrite clip_id by assumption. reflexivity.
      + intros i con Hi. rewrite Hnl. unfold nl_holds. pose proof (nth_error_In _ _ Hi) as Hin.
        specialize (HC con Hin).
        rewrite (Hcon con Hin _ (state (hist c k s)) _ (policy (hist c k s)) _ (Z nx 0%nat 0%nat) (pTvp par k) (pP par (comb c k s b))).
        2:{ intros a Ha. rewrite (cp_st M k s a Ha), clip_id by assumption. reflexivity. }
        2:{ apply cp_uidx. assumption. }
        unfold respects in HC. unfold slack_of. destruct (nl_ub con) as [ub|] eqn:Eub; [|exact I]. cbn [le_ub].
        destruct (nl_soft con) as [[vmax pen]|] eqn:Es; [|lra]. destruct HC as (eps & H0 & Hv & HC).
        cbn [oE the_cpoint].
        assert (Hnth : nth_error (soft_list (nlc c)) (List.length (soft_list (firstn i (nlc c)))) = Some (vmax, pen)).
        { pose proof (nth_error_split (nlc c) i Hi) as (l1 & l2 & E1 & El). rewrite E1.
          rewrite firstn_app, El, Nat.sub_diag. cbn [firstn]. rewrite app_nil_r, firstn_all2 by lia.
          unfold soft_list. rewrite flat_map_app. rewrite nth_error_app2 by lia. rewrite Nat.sub_diag. cbn [flat_map]. rewrite Es. reflexivity. }
        rewrite Hnth. destruct vmax as [v|]; [cbn [le_ub] in Hv; lra|].
        assert (Hin4 : In (k, s, b, con) (all_edges c)).
        { unfold all_edges. apply in_prod; [apply in_prod; [apply in_prod|]|exact Hin]; apply in_seq.
          - lia.
          - pose proof (nodes_le_nmax c HN Hc k). unfold width_of in Hs. lia.
          - unfold fan_of, fan in Hb. destruct (k <? nr c)%nat; lia. }
        pose proof (HM _ Hin4) as HM'. unfold cneed in HM'. rewrite Eub in HM'. fold nx in HM'. lra.
  Qed.
End ToPoint.
