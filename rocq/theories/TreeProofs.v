(** * Lemmas about the scenario tree loops: closed forms. *)
From Verif Require Import Base TreeModel.

Lemma fold_seq_S {A} (f : A -> nat -> A) n a :
  fold_left f (seq 0 (S n)) a = f (fold_left f (seq 0 n) a) n.
Proof. rewrite seq_S, fold_left_app. reflexivity. Qed.

Lemma ns_pos c nr k : 1 <= c -> 1 <= n_scenarios c nr k.
Proof. intros H. unfold n_scenarios. enough (c ^ Nat.min k nr <> 0) by lia.
  apply Nat.pow_nonzero; lia. Qed.

Lemma nb_pos c nr k : 1 <= c -> 1 <= n_branches c nr k.
Proof. intros H. unfold n_branches. destruct (k <? nr); lia. Qed.

Lemma ns_S c nr k : n_scenarios c nr (S k) = n_scenarios c nr k * n_branches c nr k.
Proof.
  unfold n_scenarios, n_branches. destruct (Nat.ltb_spec k nr).
  - rewrite !Nat.min_l by lia. simpl. lia.
  - rewrite !Nat.min_r by lia. lia.
Qed.

Lemma ns_mono c nr k k' : 1 <= c -> k <= k' -> n_scenarios c nr k <= n_scenarios c nr k'.
Proof. intros Hc Hk. unfold n_scenarios. apply Nat.pow_le_mono_r; lia. Qed.

Lemma nb_le_0 c nr k : 1 <= c -> n_branches c nr k <= n_branches c nr 0.
Proof. intros Hc. unfold n_branches.
  destruct (Nat.ltb_spec k nr), (Nat.ltb_spec 0 nr); lia. Qed.

Section P.
  Variables c nr nk : nat.
  Hypothesis Hc : 1 <= c.
  Notation ns := (n_scenarios c nr).
  Notation nb := (n_branches c nr).

  (** ** Loop over branches *)
  Lemma loop_b_spec k s t cnt n :
    let r := fold_left (body_b c nr nk k s) (seq 0 n) (t, cnt) in
    snd r = cnt + n /\
    (forall k' s' b', t_child (fst r) k' s' b' =
       if (k' =? k) && (s' =? s) && (b' <? n) then Z.of_nat (cnt + b') else t_child t k' s' b') /\
    (forall k' j, t_parent (fst r) k' j =
       if (k' =? k+1) && (cnt <=? j) && (j <? cnt + n) then Z.of_nat s else t_parent t k' j) /\
    (forall k' j, t_struct (fst r) k' j =
       if ((k' =? k) || (k' =? k+1)) && (cnt <=? j) && (j <? cnt + n) then Z.of_nat s else t_struct t k' j) /\
    t_boff (fst r) = t_boff t /\
    (t_oob t = false -> k < nk -> s < width c nr nk -> n <= bwidth c nr -> cnt + n <= width c nr nk ->
       t_oob (fst r) = false).
  Proof.
    induction n as [|n IH]; cbn zeta in *.
    - simpl. repeat split; intros; auto; try lia.
      + destruct (Nat.ltb_spec b' 0); try lia; rewrite ?andb_false_r; reflexivity.
      + destruct (Nat.leb_spec cnt j), (Nat.ltb_spec j (cnt+0)); try lia; rewrite ?andb_false_r, ?andb_false_l; auto.
      + destruct (Nat.leb_spec cnt j), (Nat.ltb_spec j (cnt+0)); try lia; rewrite ?andb_false_r, ?andb_false_l; auto.
    - rewrite fold_seq_S.
      destruct (fold_left (body_b c nr nk k s) (seq 0 n) (t, cnt)) as [t' cnt'] eqn:E.
      cbn [fst snd] in IH. destruct IH as (H1 & H2 & H3 & H4 & H5 & H6).
      subst cnt'. cbn [body_b fst snd t_child t_parent t_struct t_boff t_oob].
      split; [lia|]. split; [|split; [|split; [|split]]].
      + intros k' s' b'. unfold upd3. rewrite H2.
        destruct (Nat.eqb_spec k' k); destruct (Nat.eqb_spec s' s);
        destruct (Nat.eqb_spec b' n); destruct (Nat.ltb_spec b' n);
        destruct (Nat.ltb_spec b' (S n)); cbn; try lia; try reflexivity; subst; f_equal; lia.
      + intros k' j. unfold upd2. rewrite H3.
        destruct (Nat.eqb_spec k' (k+1)); destruct (Nat.eqb_spec j (cnt+n));
        destruct (Nat.leb_spec cnt j); destruct (Nat.ltb_spec j (cnt+n));
        destruct (Nat.ltb_spec j (cnt+S n)); cbn; try lia; reflexivity.
      + intros k' j. unfold upd2. rewrite H4.
        destruct (Nat.eqb_spec k' (k+1)); destruct (Nat.eqb_spec k' k); destruct (Nat.eqb_spec j (cnt+n));
        destruct (Nat.leb_spec cnt j); destruct (Nat.ltb_spec j (cnt+n));
        destruct (Nat.ltb_spec j (cnt+S n)); cbn; try lia; reflexivity.
      + exact H5.
      + intros Ho Hk Hs Hb Hw. rewrite H6 by (auto; lia). rewrite orb_false_l.
        apply negb_false_iff. rewrite !andb_true_iff, !Nat.ltb_lt. repeat split; lia.
  Qed.

  (** ** Loop over scenarios *)
  Lemma loop_s_spec k t n :
    let r := fold_left (body_s c nr nk k) (seq 0 n) (t, 0) in
    snd r = n * nb k /\
    (forall k' s' b', t_child (fst r) k' s' b' =
       if (k' =? k) && (s' <? n) && (b' <? nb k) then Z.of_nat (s' * nb k + b') else t_child t k' s' b') /\
    (forall k' j, t_parent (fst r) k' j =
       if (k' =? k+1) && (j <? n * nb k) then Z.of_nat (j / nb k) else t_parent t k' j) /\
    (forall k' j, t_struct (fst r) k' j =
       if ((k' =? k) || (k' =? k+1)) && (j <? n * nb k) then Z.of_nat (j / nb k) else t_struct t k' j) /\
    (forall k' s', t_boff (fst r) k' s' =
       if (k' =? k) && (s' <? n) then offset_of c nr k s' else t_boff t k' s') /\
    (t_oob t = false -> k < nk -> n <= width c nr nk -> nb k <= bwidth c nr -> n * nb k <= width c nr nk ->
       t_oob (fst r) = false).
  Proof.
    assert (Hnb : 1 <= nb k) by (apply nb_pos; lia).
    induction n as [|n IH]; cbn zeta in *.
    - simpl. repeat split; intros; auto.
      + destruct (s' <? 0) eqn:E; [apply Nat.ltb_lt in E; lia|]. rewrite ?andb_false_r; reflexivity.
      + destruct (j <? 0) eqn:E; [apply Nat.ltb_lt in E; lia|]. rewrite ?andb_false_r; reflexivity.
      + destruct (j <? 0) eqn:E; [apply Nat.ltb_lt in E; lia|]. rewrite ?andb_false_r; reflexivity.
      + destruct (s' <? 0) eqn:E; [apply Nat.ltb_lt in E; lia|]. rewrite ?andb_false_r; reflexivity.
    - rewrite fold_seq_S.
      destruct (fold_left (body_s c nr nk k) (seq 0 n) (t, 0)) as [t' cnt'] eqn:E.
      cbn [fst snd] in IH. destruct IH as (H1 & H2 & H3 & H4 & H5 & H6).
      subst cnt'. unfold body_s.
      pose proof (loop_b_spec k n t' (n * nb k) (nb k)) as HB. cbn zeta in HB.
      destruct (fold_left (body_b c nr nk k n) (seq 0 (nb k)) (t', n * nb k)) as [t2 cnt2] eqn:E2.
      cbn [fst snd] in HB. destruct HB as (B1 & B2 & B3 & B4 & B5 & B6).
      cbn [fst snd t_child t_parent t_struct t_boff t_oob].
      assert (Hdiv : forall j, n * nb k <= j -> j < n * nb k + nb k -> j / nb k = n).
      { intros j L U. symmetry. apply (Nat.div_unique j (nb k) n (j - n * nb k)); lia. }
      assert (Hdl : forall j, j < n * nb k -> j / nb k < n).
      { intros j L. apply Nat.div_lt_upper_bound; lia. }
      split; [simpl; lia|]. split; [|split; [|split; [|split]]].
      + intros k' s' b'. rewrite B2, H2.
        destruct (Nat.eqb_spec k' k); destruct (Nat.eqb_spec s' n);
        destruct (Nat.ltb_spec s' n); destruct (Nat.ltb_spec s' (S n));
        destruct (Nat.ltb_spec b' (nb k)); cbn; subst; try lia; reflexivity.
      + intros k' j. rewrite B3, H3.
        replace (S n * nb k) with (n * nb k + nb k) by (simpl; lia).
        destruct (Nat.eqb_spec k' (k+1)); destruct (Nat.leb_spec (n * nb k) j);
        destruct (Nat.ltb_spec j (n * nb k)); destruct (Nat.ltb_spec j (n * nb k + nb k));
        cbn; try lia; try reflexivity. rewrite Hdiv by lia. reflexivity.
      + intros k' j. rewrite B4, H4.
        replace (S n * nb k) with (n * nb k + nb k) by (simpl; lia).
        destruct (Nat.eqb_spec k' (k+1)); destruct (Nat.eqb_spec k' k); destruct (Nat.leb_spec (n * nb k) j);
        destruct (Nat.ltb_spec j (n * nb k)); destruct (Nat.ltb_spec j (n * nb k + nb k));
        cbn; try lia; try reflexivity; rewrite Hdiv by lia; reflexivity.
      + intros k' s'. unfold upd2. rewrite B5, H5.
        destruct (Nat.eqb_spec k' k); destruct (Nat.eqb_spec s' n); destruct (Nat.ltb_spec s' n);
        destruct (Nat.ltb_spec s' (S n)); cbn; subst; try lia; reflexivity.
      + intros Ho Hk Hn Hb Hw. simpl in Hw. rewrite B6; [| apply H6; try lia; auto | lia..].
        rewrite orb_false_l. apply negb_false_iff. rewrite !andb_true_iff, !Nat.ltb_lt. lia.
  Qed.

  (** ** Loop over stages: closed form of all arrays *)
  Lemma loop_k_spec n :
    n <= nk ->
    let t := fold_left (body_k c nr nk) (seq 0 n) tree0 in
    t_oob t = false /\
    (forall k s b, k < n -> s < ns k -> b < nb k -> t_child t k s b = Z.of_nat (s * nb k + b)) /\
    (forall k j, k < n -> j < ns (k+1) -> t_parent t (k+1) j = Z.of_nat (j / nb k)) /\
    (forall k s, k < n -> s < ns k -> t_boff t k s = offset_of c nr k s) /\
    (forall k j, k < n -> t_struct t k j = if j <? ns (k+1) then Z.of_nat (j / nb k) else 0%Z) /\
    (forall j, 0 < n -> t_struct t n j = if j <? ns n then Z.of_nat (j / nb (n-1)) else 0%Z) /\
    (forall k j, n < k -> t_struct t k j = 0%Z).
  Proof.
    induction n as [|n IH]; intros Hn; cbn zeta in *.
    - simpl. repeat split; intros; try lia; auto.
    - rewrite fold_seq_S. specialize (IH ltac:(lia)).
      set (t := fold_left (body_k c nr nk) (seq 0 n) tree0) in *.
      destruct IH as (I0 & I1 & I2 & I3 & I4 & I5 & I6).
      unfold body_k. pose proof (loop_s_spec n t (ns n)) as HS. cbn zeta in HS.
      destruct (fold_left (body_s c nr nk n) (seq 0 (ns n)) (t, 0)) as [t2 cnt].
      cbn [fst snd] in *. destruct HS as (S1 & S2 & S3 & S4 & S5 & S6).
      assert (Hnn : ns (S n) = ns n * nb n) by apply ns_S.
      assert (Hnn1 : ns (n + 1) = ns n * nb n) by (rewrite Nat.add_1_r; apply ns_S).
      assert (Hnb : 1 <= nb n) by (apply nb_pos; lia).
      assert (Hmono : ns n <= ns (n+1)) by (apply ns_mono; lia).
      split; [|split; [|split; [|split; [|split; [|split]]]]].
      + apply S6; auto; try lia.
        * unfold width. apply ns_mono; lia.
        * unfold bwidth. apply nb_le_0; lia.
        * rewrite <- Hnn. unfold width. apply ns_mono; lia.
      + intros k s b Hk Hs Hb. rewrite S2. destruct (Nat.eqb_spec k n); subst.
        * assert (Es : s <? ns n = true) by (apply Nat.ltb_lt; exact Hs).
          assert (Eb : b <? nb n = true) by (apply Nat.ltb_lt; exact Hb).
          rewrite Es, Eb. reflexivity.
        * cbn [orb andb]. apply I1; auto; lia.
      + intros k j Hk Hj. rewrite S3. destruct (Nat.eqb_spec (k+1) (n+1)).
        * assert (k = n) by lia; subst. rewrite Hnn1 in Hj.
          assert (E : j <? ns n * nb n = true) by (apply Nat.ltb_lt; exact Hj). rewrite E. reflexivity.
        * cbn [orb andb]. apply I2; auto; lia.
      + intros k s Hk Hs. rewrite S5. destruct (Nat.eqb_spec k n); subst.
        * assert (Es : s <? ns n = true) by (apply Nat.ltb_lt; exact Hs). rewrite Es. reflexivity.
        * cbn [orb andb]. apply I3; auto; lia.
      + intros k j Hk. rewrite S4. destruct (Nat.eqb_spec k n); subst.
        * cbn [orb andb]. rewrite Hnn1. destruct (Nat.ltb_spec j (ns n * nb n)); auto.
          destruct n as [|n'].
          -- apply (fun H => eq_trans H eq_refl). unfold t. simpl. reflexivity.
          -- rewrite I5 by lia. destruct (Nat.ltb_spec j (ns (S n'))); auto.
             exfalso. rewrite Hnn1 in Hmono. eapply Nat.lt_irrefl, Nat.lt_le_trans; [eassumption|]. eapply Nat.le_trans; eassumption.
        * destruct (Nat.eqb_spec k (n+1)); [lia|]. cbn [orb andb]. apply I4. lia.
      + intros j _. rewrite S4. replace (S n - 1) with n by lia.
        destruct (Nat.eqb_spec (S n) n); [lia|]. destruct (Nat.eqb_spec (S n) (n+1)); [|lia].
        cbn [orb andb]. rewrite Hnn. destruct (Nat.ltb_spec j (ns n * nb n)); auto.
      + intros k j Hk. rewrite S4. destruct (Nat.eqb_spec k n); [lia|].
        destruct (Nat.eqb_spec k (n+1)); [lia|]. cbn [orb andb]. apply I6. lia.
  Qed.
End P.
