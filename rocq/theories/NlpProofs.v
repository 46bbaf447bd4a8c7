(** * Proofs about the generated optimisation problem. *)
From Coq Require Import Reals Lra FunctionalExtensionality.
From Verif Require Import Base TreeModel TreeSpec TreeProofs TreeProofs2 NlpModel NlpSpec.
Local Open Scope R_scope.

(** ** Lists of constraints *)
Lemma cons_sat_length g lb ub : cons_sat g lb ub ->
  List.length g = List.length lb /\ List.length g = List.length ub.
Proof.
  revert lb ub. induction g as [|v g IH]; intros [|l lb] [|u ub] H; simpl in *; try tauto.
  destruct H as (_ & _ & H). apply IH in H. lia.
Qed.

Lemma cons_sat_app g1 l1 u1 g2 l2 u2 :
  List.length g1 = List.length l1 -> List.length g1 = List.length u1 ->
  cons_sat (g1 ++ g2) (l1 ++ l2) (u1 ++ u2) <-> cons_sat g1 l1 u1 /\ cons_sat g2 l2 u2.
Proof.
  revert l1 u1. induction g1 as [|v g1 IH]; intros [|l l1] [|u u1] H1 H2; simpl in *; try discriminate.
  - tauto.
  - rewrite IH by lia. tauto.
Qed.

Definition block_ok (x : list R * list (option R) * list (option R)) : Prop :=
  List.length (fst (fst x)) = List.length (snd (fst x)) /\
  List.length (fst (fst x)) = List.length (snd x).
Definition block_sat (x : list R * list (option R) * list (option R)) : Prop :=
  cons_sat (fst (fst x)) (snd (fst x)) (snd x).

Lemma cons_sat_blocks bl : Forall block_ok bl ->
  cons_sat (flat_map (fun x => fst (fst x)) bl) (flat_map (fun x => snd (fst x)) bl) (flat_map snd bl)
  <-> Forall block_sat bl.
Proof.
  induction bl as [|b bl IH]; intros H; simpl.
  - split; constructor.
  - inversion H as [|? ? [H1 H2] Hb]; subst. rewrite cons_sat_app by assumption.
    rewrite IH by assumption. split.
    + intros [? ?]. constructor; assumption.
    + intros X. inversion X; subst. tauto.
Qed.

Lemma zero_sat g : cons_sat g (map (fun _ => Some 0) g) (map (fun _ => Some 0) g) <-> Forall (fun v => v = 0) g.
Proof.
  induction g as [|v g IH]; simpl.
  - split; constructor.
  - rewrite IH. split.
    + intros (H1 & H2 & H3). constructor; [lra|assumption].
    + intros X. inversion X; subst. repeat split; auto; lra.
Qed.

Lemma rows_length n v : List.length (rows n v) = n.
Proof. unfold rows. rewrite map_length, seq_length. reflexivity. Qed.

Lemma map_const_repeat {A B} (l : list A) (b : B) : map (fun _ => b) l = repeat b (List.length l).
Proof. induction l; simpl; congruence. Qed.

Lemma rows_zero n v : Forall (fun x => x = 0) (rows n v) <-> (forall a, (a < n)%nat -> v a = 0).
Proof.
  unfold rows. rewrite Forall_map, Forall_forall. split.
  - intros H a Ha. apply H. apply in_seq. lia.
  - intros H a Ha. apply in_seq in Ha. apply H. lia.
Qed.

Lemma zero_rows_sat n v :
  cons_sat (rows n v) (repeat (Some 0) n) (repeat (Some 0) n) <-> (forall a, (a < n)%nat -> v a = 0).
Proof.
  rewrite <- rows_zero. rewrite <- (rows_length n v) at 2 3. rewrite <- map_const_repeat.
  apply zero_sat.
Qed.

Lemma in_edges c k s b : In (k, s, b) (edges c) <-> is_edge c k s b.
Proof.
  unfold edges, is_edge, width_of, fan_of. rewrite in_flat_map. split.
  - intros (k' & Hk & H). apply in_flat_map in H. destruct H as (s' & Hs & H).
    apply in_map_iff in H. destruct H as (b' & E & Hb). injection E as -> -> ->.
    apply in_seq in Hk, Hs, Hb. unfold nodes, fan, n_scenarios, n_branches in *. lia.
  - intros (Hk & Hs & Hb). exists k. split; [apply in_seq; lia|].
    apply in_flat_map. exists s. split; [apply in_seq; unfold n_scenarios; unfold nodes in Hs; lia|].
    apply in_map_iff. exists b. split; [reflexivity|]. apply in_seq. unfold n_branches. unfold fan in Hb. lia.
Qed.

Lemma mapM_ok {A B} (f : A -> res B) (g : A -> B) l :
  (forall x, In x l -> f x = Ok (g x)) -> mapM f l = Ok (map g l).
Proof.
  induction l as [|x l IH]; intros H; simpl; [reflexivity|].
  rewrite H by (simpl; auto). rewrite IH by (intros; apply H; simpl; auto). reflexivity.
Qed.

(** ** Tree indices used in the problem *)
Section Indices.
  Variable c : cfg.
  Hypothesis HN : (1 <= N c)%nat.
  Hypothesis Hc : (1 <= ncomb c)%nat.
  Variable t : tree.
  Hypothesis Ht : setup_scenario_tree (ncomb c) (nr c) (N c) = Ok t.

  Lemma child_is k s b : is_edge c k s b -> child t k s b = childnode c k s b.
  Proof.
    intros (Hk & Hs & Hb). unfold child, childnode, fan_of.
    rewrite (child_eq _ _ _ Hc HN t Ht) by assumption. rewrite Nat2Z.id. reflexivity.
  Qed.

  Lemma cur_is k s b : is_edge c k s b -> cur t k s b = comb c k s b.
  Proof.
    intros (Hk & Hs & Hb). unfold cur, comb.
    rewrite (boff_eq _ _ _ Hc HN t Ht) by assumption. unfold offset_of.
    unfold fan_of, fan in Hb.
    destruct (Nat.eqb_spec (nr c) 0) as [E|E].
    - destruct (Nat.ltb_spec k (nr c)); [lia|]. rewrite Z.add_0_r, Nat2Z.id. lia.
    - destruct (Nat.ltb_spec k (nr c)).
      + rewrite Z.add_0_r, Nat2Z.id. reflexivity.
      + unfold n_branches. destruct (Nat.ltb_spec 0 (nr c)); [|lia].
        rewrite <- Nat2Z.inj_add, Nat2Z.id. lia.
  Qed.

  Lemma nodes_le_nmax k : (nodes (ncomb c) (nr c) k <= nmax c)%nat.
  Proof. unfold nodes, nmax. apply Nat.pow_le_mono_r; lia. Qed.

  Lemma nmax_pos : (1 <= nmax c)%nat.
  Proof. pose proof (nodes_le_nmax 0). unfold nodes in H. simpl in H. lia. Qed.

  Lemma childnode_range k s b : is_edge c k s b -> (childnode c k s b < width_of c (k+1))%nat.
  Proof. intros (Hk & Hs & Hb). apply (child_in_range _ _ (N c)); auto. Qed.

  Lemma comb_range k s b : is_edge c k s b -> (comb c k s b < ncomb c)%nat.
  Proof.
    intros (Hk & Hs & Hb). unfold comb. unfold fan_of, fan in Hb.
    destruct (Nat.ltb_spec k (nr c)); [assumption|].
    destruct (Nat.eqb_spec (nr c) 0); [lia|]. apply Nat.mod_upper_bound. lia.
  Qed.

  Lemma parent_is k s : (1 <= k)%nat -> (k <= N c)%nat -> (s < width_of c k)%nat ->
    parent t k s = (s / fan_of c (k-1))%nat.
  Proof.
    intros H1 H2 H3. unfold parent. replace k with (k - 1 + 1)%nat at 1 by lia.
    rewrite (parent_eq _ _ _ Hc HN t Ht); [apply Nat2Z.id|lia|].
    replace (k - 1 + 1)%nat with k by lia. exact H3.
  Qed.

  Lemma parent_range k s : (1 <= k)%nat -> (k <= N c)%nat -> (s < width_of c k)%nat ->
    (parent t k s < width_of c (k-1))%nat.
  Proof.
    intros H1 H2 H3. rewrite parent_is by assumption.
    pose proof (fan_pos (ncomb c) (nr c) Hc (k-1)) as Hf. unfold fan_of.
    unfold width_of in *. replace k with (k-1+1)%nat in H3 at 1 by lia. rewrite nodes_S in H3.
    apply Nat.div_lt_upper_bound; lia.
  Qed.

  Lemma indices_in_range k s b : is_edge c k s b -> indices_ok c t k s b = true.
  Proof.
    intros He. pose proof He as (Hk & Hs & Hb). unfold indices_ok.
    rewrite child_is, cur_is by assumption.
    pose proof (childnode_range _ _ _ He). pose proof (comb_range _ _ _ He).
    pose proof (nodes_le_nmax k). pose proof (nodes_le_nmax (k+1)). unfold width_of in *.
    pose proof nmax_pos.
    rewrite !andb_true_iff, orb_true_iff, !Nat.ltb_lt, Nat.eqb_eq.
    assert (Hu : (s_u c s < n_u_scenarios c)%nat)
      by (unfold s_u, n_u_scenarios; destruct (open_loop c); lia).
    assert (Heps : (k_eps c k < n_eps c)%nat)
      by (unfold k_eps, n_eps; destruct (single_slack c); lia).
    repeat split; try lia.
    destruct (Nat.eq_dec k 0) as [|Hk0]; [auto|right].
    unfold s_u, n_u_scenarios. destruct (open_loop c).
    - rewrite parent_is; [|lia..|].
      + rewrite Nat.div_0_l; [lia|]. pose proof (fan_pos (ncomb c) (nr c) Hc (k-1)). unfold fan_of. lia.
      + unfold width_of. pose proof (ns_pos (ncomb c) (nr c) k Hc). unfold n_scenarios, nodes in *. lia.
    - pose proof (parent_range k s ltac:(lia) ltac:(lia) Hs) as Hp.
      pose proof (nodes_le_nmax (k-1)). unfold width_of in Hp. lia.
  Qed.
End Indices.

(** ** Collocation layout *)
Section Layout.
  Variables nx nz deg : nat.

  (** slot table after processing elements 0..i-1 and points < j of element i *)
  Definition lx_spec (i j : nat) : slot :=
    if ((i =? 0) && (j =? 0))%nat then SlotX0 else SlotAt ((i * (deg+1) + j - 1) * nx).
  Definition lz_spec (i j : nat) : slot := SlotAt ((i * (deg+1) + j) * nz).

  Lemma layout_j_loop i st f n :
    let st' := fold_left (layout_j nx nz i) (seq f n) st in
    ls_off st' = (ls_off st + n * nx)%nat /\ ls_offz st' = (ls_offz st + n * nz)%nat /\
    ls_first st' = ls_first st /\
    (forall i' j, ls_x st' i' j = if ((i' =? i) && (f <=? j) && (j <? f + n))%nat
        then SlotAt (ls_off st + (j - f) * nx) else ls_x st i' j) /\
    (forall i' j, ls_z st' i' j = if ((i' =? i) && (f <=? j) && (j <? f + n))%nat
        then SlotAt (ls_offz st + (j - f) * nz) else ls_z st i' j).
  Proof.
    induction n as [|n IH]; cbn zeta in *.
    - simpl. repeat split; try lia; intros;
      destruct (Nat.leb_spec f j), (Nat.ltb_spec j (f + 0)); try lia; rewrite ?andb_false_r; reflexivity.
    - rewrite seq_S, fold_left_app. cbn [fold_left].
      set (st1 := fold_left (layout_j nx nz i) (seq f n) st) in *. clearbody st1.
      destruct IH as (H1 & H2 & H3 & H4 & H5). unfold layout_j; cbn [ls_off ls_offz ls_first ls_x ls_z].
      repeat split; try lia.
      + intros i' j. unfold upd_slot. rewrite H4, H1.
        destruct (Nat.eqb_spec i' i), (Nat.eqb_spec j (f+n)), (Nat.leb_spec f j), (Nat.ltb_spec j (f+n)),
          (Nat.ltb_spec j (f + S n)); cbn [andb]; try lia; try reflexivity; subst; repeat f_equal; lia.
      + intros i' j. unfold upd_slot. rewrite H5, H2.
        destruct (Nat.eqb_spec i' i), (Nat.eqb_spec j (f+n)), (Nat.leb_spec f j), (Nat.ltb_spec j (f+n)),
          (Nat.ltb_spec j (f + S n)); cbn [andb]; try lia; try reflexivity; subst; repeat f_equal; lia.
  Qed.

  Definition lstate0 : lstate :=
    {| ls_x := upd_slot (fun _ _ => SlotUnset) 0 0 SlotX0;
       ls_z := upd_slot (fun _ _ => SlotUnset) 0 0 (SlotAt 0);
       ls_off := 0%nat; ls_offz := nz; ls_first := 1%nat |}.

  Lemma layout_i_loop n : (1 <= n)%nat ->
    let st := fold_left (layout_i nx nz deg) (seq 0 n) lstate0 in
    ls_off st = ((n * (deg+1) - 1) * nx)%nat /\ ls_offz st = (n * (deg+1) * nz)%nat /\ ls_first st = 0%nat /\
    (forall i j, (i < n)%nat -> (j <= deg)%nat -> ls_x st i j = lx_spec i j) /\
    (forall i j, (i < n)%nat -> (j <= deg)%nat -> ls_z st i j = lz_spec i j).
  Proof.
    intros Hn. destruct n as [|n]; [lia|]. clear Hn. induction n as [|n IH]; cbn zeta in *.
    - change (seq 0 1) with [0%nat]. cbn [fold_left]. unfold layout_i.
      pose proof (layout_j_loop 0 lstate0 (ls_first lstate0) (deg + 1 - ls_first lstate0)) as H.
      cbn zeta in H. set (st := fold_left _ _ _) in *. clearbody st. cbn [ls_off ls_offz ls_first ls_x ls_z].
      destruct H as (H1 & H2 & H3 & H4 & H5). cbn [lstate0 ls_first ls_off ls_offz ls_x ls_z] in *.
      replace (deg + 1 - 1)%nat with deg in * by lia.
      split; [rewrite H1; replace (1 * (deg + 1) - 1)%nat with deg by lia; lia|]. split; [rewrite H2; nia|]. split; [reflexivity|]. split.
      + intros i j Hi Hj. assert (i = 0)%nat by lia. subst i. rewrite H4. unfold lx_spec, upd_slot.
        destruct (Nat.leb_spec 1 j), (Nat.ltb_spec j (1 + deg)), (Nat.eqb_spec j 0); cbn [andb Nat.eqb]; try lia; try reflexivity.
      + intros i j Hi Hj. assert (i = 0)%nat by lia. subst i. rewrite H5. unfold lz_spec, upd_slot.
        destruct (Nat.leb_spec 1 j), (Nat.ltb_spec j (1 + deg)), (Nat.eqb_spec j 0); cbn [andb Nat.eqb]; try lia; try reflexivity.
        all: f_equal; nia.
    - rewrite seq_S, fold_left_app. cbn [fold_left].
      set (st1 := fold_left (layout_i nx nz deg) (seq 0 (S n)) lstate0) in *. clearbody st1.
      destruct IH as (I1 & I2 & I3 & I4 & I5). unfold layout_i.
      pose proof (layout_j_loop (0 + S n) st1 (ls_first st1) (deg + 1 - ls_first st1)) as H.
      cbn zeta in H. set (st := fold_left _ _ _) in *. clearbody st. cbn [ls_off ls_offz ls_first ls_x ls_z].
      destruct H as (H1 & H2 & H3 & H4 & H5). rewrite I3 in *.
      replace (deg + 1 - 0)%nat with (deg + 1)%nat in * by lia.
      split; [rewrite H1, I1, <- Nat.mul_add_distr_r; f_equal; lia|].
      split; [rewrite H2, I2, <- Nat.mul_add_distr_r; f_equal; lia|]. split; [reflexivity|]. split.
      + intros i j Hi Hj. rewrite H4. destruct (Nat.eqb_spec i (0 + S n)) as [E|E].
        * subst i. destruct (Nat.leb_spec 0 j), (Nat.ltb_spec j (0 + (deg+1))); try lia.
          cbn [andb]. unfold lx_spec. destruct (Nat.eqb_spec (0 + S n) 0); [lia|]. cbn [andb].
          f_equal. rewrite I1, <- Nat.mul_add_distr_r. f_equal. lia.
        * cbn [andb]. apply I4; lia.
      + intros i j Hi Hj. rewrite H5. destruct (Nat.eqb_spec i (0 + S n)) as [E|E].
        * subst i. destruct (Nat.leb_spec 0 j), (Nat.ltb_spec j (0 + (deg+1))); try lia.
          cbn [andb]. unfold lz_spec. f_equal. rewrite I2, <- Nat.mul_add_distr_r. f_equal. lia.
        * cbn [andb]. apply I5; lia.
  Qed.

  Lemma coll_layout_ok ni : (1 <= ni)%nat ->
    exists L, coll_layout nx nz deg ni = Ok L /\
      (forall i j, (i < ni)%nat -> (j <= deg)%nat -> l_x L i j = lx_spec i j /\ l_z L i j = lz_spec i j) /\
      l_xf L = ((ni * (deg+1) - 1) * nx)%nat.
  Proof.
    intros Hni. unfold coll_layout. destruct (Nat.eqb_spec ni 0); [lia|].
    pose proof (layout_i_loop ni Hni) as H. fold lstate0. cbn zeta in *.
    set (st := fold_left _ _ _) in *. clearbody st. destruct H as (H1 & H2 & H3 & H4 & H5).
    rewrite H1, H2.
    assert (E1 : ((ni * (deg + 1) - 1) * nx + nx =? ni * (deg + 1) * nx)%nat = true).
    { apply Nat.eqb_eq. destruct (ni * (deg+1))%nat eqn:E; [nia|]. simpl. rewrite Nat.sub_0_r. lia. }
    rewrite E1, Nat.eqb_refl. cbn [py_assert bind].
    eexists. split; [reflexivity|]. cbn [l_x l_z l_xf]. split; [|reflexivity].
    intros i j Hi Hj. split; [apply H4|apply H5]; assumption.
  Qed.
End Layout.
