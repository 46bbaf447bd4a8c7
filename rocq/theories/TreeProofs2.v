(** * Proofs of the scenario tree properties. *)
From Coq Require Import FinFun.
From Verif Require Import Base TreeModel TreeSpec TreeProofs ProductModel.

Section P.
  Variables c nr N : nat.
  Hypothesis Hc : 1 <= c.
  Hypothesis HN : 1 <= N.
  Notation ns := (n_scenarios c nr).
  Notation nb := (n_branches c nr).

  Lemma tree_exists : exists t, setup_scenario_tree c nr N = Ok t.
  Proof.
    unfold setup_scenario_tree. destruct (Nat.eqb_spec N 0); [lia|].
    destruct (loop_k_spec c nr N Hc N (le_n N)) as (H0 & _).
    rewrite H0. eauto.
  Qed.

  Variable t : tree.
  Hypothesis Ht : setup_scenario_tree c nr N = Ok t.

  Lemma tree_eq : t = fold_left (body_k c nr N) (seq 0 N) tree0.
  Proof.
    revert Ht. unfold setup_scenario_tree. destruct (Nat.eqb_spec N 0); [lia|].
    destruct (t_oob _); congruence.
  Qed.

  Lemma child_eq k s b : k < N -> s < nodes c nr k -> b < fan c nr k ->
    t_child t k s b = Z.of_nat (s * fan c nr k + b).
  Proof. rewrite tree_eq. intros. destruct (loop_k_spec c nr N Hc N (le_n N)) as (_ & X & _).
    apply X; auto. Qed.
  Lemma parent_eq k j : k < N -> j < nodes c nr (k+1) ->
    t_parent t (k+1) j = Z.of_nat (j / fan c nr k).
  Proof. rewrite tree_eq. intros. destruct (loop_k_spec c nr N Hc N (le_n N)) as (_ & _ & X & _).
    apply X; auto. Qed.
  Lemma boff_eq k s : k < N -> s < nodes c nr k -> t_boff t k s = offset_of c nr k s.
  Proof. rewrite tree_eq. intros. destruct (loop_k_spec c nr N Hc N (le_n N)) as (_ & _ & _ & X & _).
    apply X; auto. Qed.
  Lemma struct_eq k j : k < N ->
    t_struct t k j = if j <? nodes c nr (k+1) then Z.of_nat (j / fan c nr k) else 0%Z.
  Proof. rewrite tree_eq. intros. destruct (loop_k_spec c nr N Hc N (le_n N)) as (_ & _ & _ & _ & X & _).
    apply X; auto. Qed.
  Lemma struct_last_eq j :
    t_struct t N j = if j <? nodes c nr N then Z.of_nat (j / fan c nr (N-1)) else 0%Z.
  Proof. rewrite tree_eq. destruct (loop_k_spec c nr N Hc N (le_n N)) as (_ & _ & _ & _ & _ & X & _).
    apply X; lia. Qed.

  Lemma nodes_S k : nodes c nr (k+1) = nodes c nr k * fan c nr k.
  Proof. rewrite Nat.add_1_r. apply ns_S. Qed.
  Lemma fan_pos k : 1 <= fan c nr k.
  Proof. apply (nb_pos c nr k Hc). Qed.

  Lemma child_in_range k s b : s < nodes c nr k -> b < fan c nr k ->
    s * fan c nr k + b < nodes c nr (k+1).
  Proof. intros. rewrite nodes_S. nia. Qed.

  Lemma tree_is_tree :
    nodes c nr 0 = 1 /\
    (forall k s b, k < N -> s < nodes c nr k -> b < fan c nr k ->
       exists j, j < nodes c nr (k+1) /\ t_child t k s b = Z.of_nat j /\
                 t_parent t (k+1) j = Z.of_nat s) /\
    (forall k j, k < N -> j < nodes c nr (k+1) ->
       exists s b, s < nodes c nr k /\ b < fan c nr k /\ t_child t k s b = Z.of_nat j /\
         forall s' b', s' < nodes c nr k -> b' < fan c nr k -> t_child t k s' b' = Z.of_nat j ->
           s' = s /\ b' = b).
  Proof.
    split; [unfold nodes; simpl; reflexivity|]. split.
    - intros k s b Hk Hs Hb. exists (s * fan c nr k + b).
      pose proof (child_in_range k s b Hs Hb) as Hr.
      split; [exact Hr|]. split; [apply child_eq; auto|].
      rewrite parent_eq by auto. f_equal.
      symmetry. apply (Nat.div_unique _ _ s b); lia.
    - intros k j Hk Hj. pose proof (fan_pos k) as Hf.
      exists (j / fan c nr k), (j mod fan c nr k).
      rewrite nodes_S in Hj.
      assert (H1 : j / fan c nr k < nodes c nr k) by (apply Nat.div_lt_upper_bound; lia).
      assert (H2 : j mod fan c nr k < fan c nr k) by (apply Nat.mod_upper_bound; lia).
      split; [exact H1|]. split; [exact H2|]. split.
      + rewrite child_eq by auto. f_equal. rewrite (Nat.div_mod j (fan c nr k)) at 3 by lia. lia.
      + intros s' b' Hs' Hb' E. rewrite child_eq in E by auto. apply Nat2Z.inj in E.
        split.
        * apply (Nat.div_unique _ _ s' b'); lia.
        * apply (Nat.mod_unique _ _ s' b'); lia.
  Qed.

  (** ** Paths *)
  Lemma path_in_range node br : is_path c nr N t node br ->
    forall k, k <= N -> node k < nodes c nr k.
  Proof.
    intros [H0 HP]. induction k as [|k IH]; intros Hk.
    - rewrite H0. unfold nodes. simpl. lia.
    - destruct (HP k ltac:(lia)) as [Hb He].
      rewrite child_eq in He by (auto; try apply IH; lia).
      apply Nat2Z.inj in He. rewrite Nat.add_1_r in He. rewrite <- He.
      rewrite <- Nat.add_1_r. apply child_in_range; auto. apply IH; lia.
  Qed.

  Lemma path_step node br : is_path c nr N t node br ->
    forall k, k < N -> node (k+1) = node k * fan c nr k + br k /\ br k < fan c nr k.
  Proof.
    intros HP k Hk. pose proof (path_in_range _ _ HP k ltac:(lia)) as Hr.
    destruct HP as [H0 HP]. destruct (HP k Hk) as [Hb He].
    rewrite child_eq in He by auto. apply Nat2Z.inj in He. auto.
  Qed.

  (** constructing a path from its choice of branches *)
  Fixpoint walk (br : nat -> nat) (k : nat) : nat :=
    match k with 0 => 0 | S k' => walk br k' * fan c nr k' + br k' end.

  Lemma walk_in_range br : (forall k, k < N -> br k < fan c nr k) ->
    forall k, k <= N -> walk br k < nodes c nr k.
  Proof.
    intros H. induction k as [|k IH]; intros Hk; simpl.
    - unfold nodes; simpl; lia.
    - rewrite <- Nat.add_1_r. apply child_in_range; [apply IH; lia | apply H; lia].
  Qed.

  Lemma walk_is_path br : (forall k, k < N -> br k < fan c nr k) ->
    is_path c nr N t (walk br) br.
  Proof.
    intros H. split; [reflexivity|]. intros k Hk. split; [apply H; exact Hk|].
    rewrite child_eq; auto.
    - rewrite Nat.add_1_r. reflexivity.
    - apply walk_in_range; auto; lia.
  Qed.

  Lemma path_is_walk node br : is_path c nr N t node br ->
    forall k, k <= N -> node k = walk br k.
  Proof.
    intros HP. induction k as [|k IH]; intros Hk.
    - apply HP.
    - destruct (path_step _ _ HP k ltac:(lia)) as [E _].
      rewrite Nat.add_1_r in E. rewrite E, IH by lia. reflexivity.
  Qed.

  (** the path to a given leaf is unique *)
  Lemma path_unique node br node' br' :
    is_path c nr N t node br -> is_path c nr N t node' br' -> node N = node' N ->
    (forall k, k <= N -> node k = node' k) /\ (forall k, k < N -> br k = br' k).
  Proof.
    intros HP HP' E.
    assert (Hd : forall d, d <= N -> node (N - d) = node' (N - d) /\
              (forall k, N - d <= k -> k < N -> br k = br' k)).
    { induction d as [|d IH]; intros Hd.
      - rewrite Nat.sub_0_r. split; [exact E|]. intros; lia.
      - destruct (IH ltac:(lia)) as [E1 E2].
        replace (N - d) with (N - S d + 1) in E1 by lia.
        destruct (path_step _ _ HP (N - S d) ltac:(lia)) as [P1 Q1].
        destruct (path_step _ _ HP' (N - S d) ltac:(lia)) as [P2 Q2].
        pose proof (fan_pos (N - S d)) as Hf.
        assert (node (N - S d) = node' (N - S d) /\ br (N - S d) = br' (N - S d)) as [X Y]
          by (apply (Nat.div_mod_unique (fan c nr (N - S d))); auto; lia).
        split; [exact X|]. intros k L U. destruct (Nat.eq_dec k (N - S d)); [subst; exact Y|].
        apply E2; lia. }
    split.
    - intros k Hk. replace k with (N - (N - k)) by lia. apply (Hd (N - k)); lia.
    - intros k Hk. apply (Hd N); lia.
  Qed.

  Lemma leaf_has_path j : j < nodes c nr N ->
    exists node br, is_path c nr N t node br /\ node N = j.
  Proof.
    intros Hj.
    assert (Hd : forall n, n <= N -> forall j, j < nodes c nr n ->
       exists br, (forall k, br k < fan c nr k) /\ walk br n = j).
    { induction n as [|n IH]; intros Hn i Hi.
      - exists (fun _ => 0). split; [intros k; pose proof (fan_pos k); lia|].
        unfold nodes in Hi; simpl in Hi. simpl. lia.
      - pose proof (fan_pos n) as Hf.
        destruct (IH ltac:(lia) (i / fan c nr n)) as (br & Hb & Hw).
        { rewrite <- Nat.add_1_r, nodes_S in Hi. apply Nat.div_lt_upper_bound; lia. }
        exists (fun k => if k =? n then i mod fan c nr n else br k). split.
        + intros k. destruct (Nat.eqb_spec k n); [subst; apply Nat.mod_upper_bound; lia | apply Hb].
        + cbn [walk]. rewrite Nat.eqb_refl.
          assert (Hext : forall f g m, (forall k, k < m -> f k = g k) -> walk f m = walk g m).
          { intros f g m. induction m as [|m IHm]; intros Hfg; [reflexivity|]. cbn [walk].
            rewrite IHm by (intros; apply Hfg; lia). rewrite Hfg by lia. reflexivity. }
          rewrite (Hext _ br).
          * rewrite Hw. rewrite (Nat.div_mod i (fan c nr n)) at 3 by lia. lia.
          * intros k Hk. destruct (Nat.eqb_spec k n); [lia|reflexivity]. }
    destruct (Hd N (le_n N) j Hj) as (br & Hb & Hw).
    exists (walk br), br. split; [|exact Hw]. apply walk_is_path. intros; apply Hb.
  Qed.

  Lemma fan_in k : k < nr -> fan c nr k = c.
  Proof. intros. unfold fan. destruct (Nat.ltb_spec k nr); lia. Qed.
  Lemma fan_out k : nr <= k -> fan c nr k = 1.
  Proof. intros. unfold fan. destruct (Nat.ltb_spec k nr); lia. Qed.

  Lemma path_const_after node br : is_path c nr N t node br ->
    forall k, nr <= k -> k <= N -> node k = node (Nat.min nr N).
  Proof.
    intros HP. induction k as [|k IH]; intros L U.
    - replace (Nat.min nr N) with 0 by lia. reflexivity.
    - destruct (Nat.eq_dec nr (S k)) as [->|].
      + f_equal. lia.
      + destruct (path_step _ _ HP k ltac:(lia)) as [E B].
        rewrite fan_out in E, B by lia. rewrite Nat.add_1_r in E.
        rewrite E, IH by lia. nia.
  Qed.

  Lemma combination_before node br k : is_path c nr N t node br -> k < N -> k < nr ->
    combination_on t node br k = Z.of_nat (br k).
  Proof.
    intros HP Hk Hr. unfold combination_on.
    rewrite boff_eq by (auto; apply (path_in_range _ _ HP); lia).
    unfold offset_of. destruct (Nat.eqb_spec nr 0); [lia|].
    destruct (Nat.ltb_spec k nr); lia.
  Qed.

  Lemma combination_after node br k : is_path c nr N t node br -> k < N -> nr <= k ->
    combination_on t node br k = (if nr =? 0 then 0%Z else Z.of_nat (br (nr - 1))).
  Proof.
    intros HP Hk Hr. unfold combination_on.
    destruct (path_step _ _ HP k Hk) as [E B]. rewrite fan_out in B by lia.
    rewrite boff_eq by (auto; apply (path_in_range _ _ HP); lia).
    unfold offset_of. destruct (Nat.eqb_spec nr 0); [lia|].
    destruct (Nat.ltb_spec k nr); [lia|].
    rewrite (path_const_after _ _ HP k) by lia. rewrite Nat.min_l by lia.
    destruct (path_step _ _ HP (nr-1) ltac:(lia)) as [E' B'].
    rewrite fan_in in E', B' by lia. replace (nr - 1 + 1) with nr in E' by lia.
    unfold n_branches. destruct (Nat.ltb_spec 0 nr); [|lia].
    assert (node nr mod c = br (nr-1)).
    { rewrite E'. symmetry. apply (Nat.mod_unique _ _ (node (nr-1)) (br (nr-1))); lia. }
    lia.
  Qed.

  (** the combination used after the robust horizon is the last one chosen inside it *)
  Lemma combination_stays node br k : is_path c nr N t node br ->
    0 < nr -> nr <= k -> k < N ->
    combination_on t node br k = combination_on t node br (nr - 1).
  Proof.
    intros HP H0 L U. rewrite (combination_after _ _ _ HP) by lia.
    rewrite (combination_before _ _ (nr-1) HP) by lia.
    destruct (Nat.eqb_spec nr 0); [lia|reflexivity].
  Qed.

  (** existence and uniqueness of the leaf labelled by a sequence *)
  Lemma sequences_label_leaves (ps : nat -> nat) :
    (forall k, k < nr -> ps k < c) ->
    exists j, j < nodes c nr N /\
      (exists node br, is_path c nr N t node br /\ node N = j /\
         forall k, k < N -> k < nr -> combination_on t node br k = Z.of_nat (ps k)) /\
      (forall j' node br, is_path c nr N t node br -> node N = j' ->
         (forall k, k < N -> k < nr -> combination_on t node br k = Z.of_nat (ps k)) -> j' = j).
  Proof.
    intros Hps.
    set (br := fun k => if k <? nr then ps k else 0).
    assert (Hbr : forall k, k < N -> br k < fan c nr k).
    { intros k Hk. unfold br. destruct (Nat.ltb_spec k nr).
      - rewrite fan_in by lia. apply Hps. lia.
      - rewrite fan_out by lia. lia. }
    exists (walk br N). split; [apply walk_in_range; auto|]. split.
    - exists (walk br), br. split; [apply walk_is_path; exact Hbr|]. split; [reflexivity|].
      intros k Hk Hr. rewrite combination_before by (auto using walk_is_path).
      unfold br. destruct (Nat.ltb_spec k nr); lia.
    - intros j' node br' HP <- Hcomb.
      rewrite (path_is_walk _ _ HP) by lia.
      assert (Hbb : forall k, k < N -> br' k = br k).
      { intros k Hk. unfold br. destruct (Nat.ltb_spec k nr).
        - specialize (Hcomb k Hk H). rewrite combination_before in Hcomb by auto. lia.
        - destruct (path_step _ _ HP k Hk) as [_ B]. rewrite fan_out in B by lia. lia. }
      clear Hcomb. assert (Hext : forall m, m <= N -> walk br' m = walk br m).
      { induction m as [|m IHm]; intros Hm; [reflexivity|]. cbn [walk].
        rewrite IHm, Hbb by lia. reflexivity. }
      apply Hext; lia.
  Qed.

  (** ** Predictions *)
  Lemma pow_ge_1 n : 1 <= c ^ n.
  Proof. enough (c ^ n <> 0) by lia. apply Nat.pow_nonzero; lia. Qed.

  Lemma prediction_good : (c = 1 \/ nr <= 2) -> (c = 1 \/ nr < N \/ nr = 0) -> prediction_ok c nr N t.
  Proof.
    intros Hcase Hcase2 j Hj.
    destruct (leaf_has_path j Hj) as (node & br & HP & HE).
    exists node, br. split; [exact HP|]. split; [exact HE|].
    intros k Hk. unfold predicted_node.
    destruct (Nat.eq_dec c 1) as [C1|C1].
    { (* single combination: all nodes are 0 *)
      assert (Hone : forall m, nodes c nr m = 1) by (intros; unfold nodes; rewrite C1; apply Nat.pow_1_l).
      assert (Hn : node k = 0) by (pose proof (path_in_range _ _ HP k Hk) as X; rewrite Hone in X; lia).
      assert (Hf : forall m, fan c nr m = 1) by (intros; unfold fan; destruct (_ <? _); lia).
      rewrite Hone in Hj.
      destruct (Nat.eq_dec k N) as [->|].
      - rewrite struct_last_eq, Hone, Hf. destruct (Nat.ltb_spec j 1); [|lia].
        rewrite Nat.div_1_r, Hn. lia.
      - rewrite struct_eq by lia. rewrite Hone, Hf. destruct (Nat.ltb_spec j 1); [|lia].
        rewrite Nat.div_1_r, Hn. lia. }
    assert (Hnr2 : nr <= 2) by lia. assert (HnrN : nr < N \/ nr = 0) by lia.
    assert (Hnr : nr <= N) by lia.
    assert (Hafter : forall m, nr <= m -> m <= N -> node m = j).
    { intros m L U. rewrite (path_const_after _ _ HP) by lia.
      rewrite <- HE. rewrite (path_const_after _ _ HP N) by lia. reflexivity. }
    destruct (Nat.le_gt_cases nr k) as [L|L].
    - rewrite Hafter by lia.
      destruct (Nat.eq_dec k N) as [->|].
      + rewrite struct_last_eq. destruct (Nat.ltb_spec j (nodes c nr N)); [|lia].
        rewrite fan_out by lia. rewrite Nat.div_1_r. reflexivity.
      + rewrite struct_eq by lia. rewrite fan_out by lia. rewrite Nat.div_1_r.
        assert (nodes c nr (k+1) = nodes c nr N) as -> by (unfold nodes; f_equal; lia).
        destruct (Nat.ltb_spec j (nodes c nr N)); [reflexivity|lia].
    - (* k < nr <= 2 *)
      rewrite struct_eq by lia. rewrite fan_in by lia.
      destruct (Nat.eq_dec k 0) as [->|].
      + destruct HP as [H0 _]. rewrite H0.
        destruct (Nat.ltb_spec j (nodes c nr (0+1))) as [Hlt|]; [|reflexivity].
        unfold nodes in Hlt. replace (Nat.min (0+1) nr) with 1 in Hlt by lia.
        rewrite Nat.pow_1_r in Hlt. rewrite Nat.div_small by lia. reflexivity.
      + assert (k = 1 /\ nr = 2) as [-> Hr2] by lia.
        assert (nodes c nr (1+1) = nodes c nr N) as -> by (unfold nodes; f_equal; lia).
        destruct (Nat.ltb_spec j (nodes c nr N)); [|lia]. f_equal.
        pose proof (Hafter 2 ltac:(lia) ltac:(lia)) as E2.
        destruct (path_step _ _ HP 1 ltac:(lia)) as [E B].
        rewrite fan_in in E, B by lia. simpl in E. rewrite <- E2, E.
        symmetry. apply (Nat.div_unique _ _ (node 1) (br 1)); lia.
  Qed.

  Lemma prediction_bad : 2 <= c -> (3 <= nr \/ (N <= nr)) -> ~ prediction_ok c nr N t.
  Proof.
    intros Hc2 Hcase HOK. destruct (Nat.eq_dec nr 0) as [R0|R0]; [lia|].
    destruct (Nat.le_gt_cases N nr) as [HNr|HNr].
    - (* last row holds j / c *)
      assert (Hj : 1 < nodes c nr N).
      { unfold nodes. replace (Nat.min N nr) with (S (N-1)) by lia. simpl.
        pose proof (pow_ge_1 (N-1)). nia. }
      destruct (HOK 1 Hj) as (node & br & HP & HE & Hpred).
      specialize (Hpred N (le_n N)). unfold predicted_node in Hpred.
      rewrite struct_last_eq in Hpred. rewrite fan_in in Hpred by lia.
      destruct (Nat.ltb_spec 1 (nodes c nr N)); [|lia].
      rewrite Nat.div_small in Hpred by lia. lia.
    - (* 3 <= nr < N: column c is wrong at step 1 *)
      assert (Hj : c < nodes c nr N).
      { unfold nodes. replace (Nat.min N nr) with (S (S (nr-2))) by lia. simpl.
        pose proof (pow_ge_1 (nr-2)). nia. }
      destruct (HOK c Hj) as (node & br & HP & HE & Hpred).
      specialize (Hpred 1 ltac:(lia)). unfold predicted_node in Hpred.
      rewrite struct_eq in Hpred by lia. rewrite fan_in in Hpred by lia.
      assert (Hj2 : c < nodes c nr (1+1)).
      { unfold nodes. replace (Nat.min (1+1) nr) with 2 by lia. simpl. nia. }
      destruct (Nat.ltb_spec c (nodes c nr (1+1))); [|lia].
      rewrite Nat.div_same in Hpred by lia.
      assert (N1 : node 1 = 1) by lia.
      (* node 1 = 1 forces the leaf index to be at least c^(nr-1) *)
      assert (G : forall m, m <= nr - 1 -> c ^ m <= node (1 + m)).
      { induction m as [|m IH]; intros Hm.
        - simpl. lia.
        - destruct (path_step _ _ HP (1+m) ltac:(lia)) as [E B].
          rewrite fan_in in E by lia. replace (1 + S m) with (1 + m + 1) by lia.
          rewrite E. specialize (IH ltac:(lia)).
          replace (c ^ S m) with (c ^ m * c) by (simpl; lia). nia. }
      specialize (G (nr-1) (le_n _)). replace (1 + (nr-1)) with nr in G by lia.
      assert (EN : node nr = c).
      { pose proof (path_const_after _ _ HP N ltac:(lia) (le_n N)) as X.
        rewrite Nat.min_l in X by lia. lia. }
      rewrite EN in G. replace (nr - 1) with (S (S (nr-3))) in G by lia. simpl in G.
      pose proof (pow_ge_1 (nr-3)). nia.
  Qed.
End P.

(** ** itertools.product *)
Section Prod.
  Context {A : Type}.

  (** the textbook recursive product *)
  Fixpoint cart (ls : list (list A)) : list (list A) :=
    match ls with
    | [] => [[]]
    | l :: ls' => flat_map (fun x => map (cons x) (cart ls')) l
    end.

  Lemma flat_map_map {X Y Z} (f : Y -> list Z) (g : X -> Y) l :
    flat_map f (map g l) = flat_map (fun x => f (g x)) l.
  Proof. induction l; simpl; congruence. Qed.
  Lemma flat_map_flat_map {X Y Z} (f : Y -> list Z) (g : X -> list Y) l :
    flat_map f (flat_map g l) = flat_map (fun x => flat_map f (g x)) l.
  Proof. induction l as [|a l IH]; simpl; [reflexivity|]. rewrite flat_map_app, IH. reflexivity. Qed.
  Lemma map_flat_map {X Y Z} (f : Y -> Z) (g : X -> list Y) l :
    map f (flat_map g l) = flat_map (fun x => map f (g x)) l.
  Proof. induction l as [|a l IH]; simpl; [reflexivity|]. rewrite map_app, IH. reflexivity. Qed.

  Lemma product_fold pools acc :
    fold_left product_step pools acc = flat_map (fun x => map (app x) (cart pools)) acc.
  Proof.
    revert acc. induction pools as [|l pools IH]; intros acc.
    - simpl. induction acc as [|a acc IHa]; simpl; [reflexivity|]. rewrite app_nil_r, <- IHa. reflexivity.
    - cbn [fold_left]. rewrite IH. unfold product_step. rewrite flat_map_flat_map.
      apply flat_map_ext. intros x. rewrite flat_map_map. cbn [cart]. rewrite map_flat_map.
      apply flat_map_ext. intros y. rewrite map_map. apply map_ext. intros z.
      rewrite <- app_assoc. reflexivity.
  Qed.

  Lemma itertools_product_cart pools : itertools_product pools = cart pools.
  Proof. unfold itertools_product. rewrite product_fold. simpl. rewrite app_nil_r, map_id. reflexivity. Qed.

  Lemma cart_in ls v : In v (cart ls) <-> Forall2 (fun x l => In x l) v ls.
  Proof.
    revert v. induction ls as [|l ls IH]; intros v; simpl.
    - split.
      + intros [<-|[]]. constructor.
      + intros H; inversion H; auto.
    - rewrite in_flat_map. split.
      + intros (x & Hx & Hv). apply in_map_iff in Hv. destruct Hv as (v' & <- & Hv').
        constructor; [exact Hx|]. apply IH. exact Hv'.
      + intros H. inversion H as [|x l' v' ls' Hx Hv']; subst. exists x. split; [exact Hx|].
        apply in_map. apply IH. exact Hv'.
  Qed.

  Lemma cart_length ls : List.length (cart ls) = fold_right (fun l n => List.length l * n) 1 ls.
  Proof.
    induction ls as [|l ls IH]; simpl; [reflexivity|]. rewrite <- IH. clear IH.
    induction l as [|x l IHl]; simpl; [reflexivity|]. rewrite app_length, map_length, IHl. lia.
  Qed.

  Lemma nodup_app {X} (l1 l2 : list X) :
    NoDup l1 -> NoDup l2 -> (forall x, In x l1 -> In x l2 -> False) -> NoDup (l1 ++ l2).
  Proof.
    induction l1 as [|a l1 IH]; intros H1 H2 H; simpl; [exact H2|].
    inversion H1 as [|? ? Ha H1']; subst. constructor.
    - rewrite in_app_iff. intros [E|E]; [tauto|]. apply (H a); simpl; auto.
    - apply IH; auto. intros x Hx. apply H. simpl; auto.
  Qed.

  Lemma cart_nodup ls : Forall (@NoDup A) ls -> NoDup (cart ls).
  Proof.
    induction ls as [|l ls IH]; intros H; simpl.
    - repeat constructor. intros [].
    - inversion H as [|? ? Hl Hls]; subst. specialize (IH Hls). clear H.
      induction l as [|x l IHl]; simpl; [constructor|].
      inversion Hl as [|? ? Hx Hl']; subst.
      apply nodup_app.
      + apply FinFun.Injective_map_NoDup; [|exact IH]. intros a b E; congruence.
      + apply IHl. exact Hl'.
      + intros a E' E. apply in_map_iff in E'. destruct E' as (u & <- & _).
        apply in_flat_map in E. destruct E as (y & Hy & E). apply in_map_iff in E.
        destruct E as (w & Ew & _). injection Ew as -> _. tauto.
  Qed.

  Lemma cart_head ls d : Forall (fun l => l <> []) ls ->
    hd [] (cart ls) = map (hd d) ls.
  Proof.
    induction ls as [|l ls IH]; intros H; simpl; [reflexivity|].
    inversion H as [|? ? Hl Hls]; subst. specialize (IH Hls).
    destruct l as [|x l]; [congruence|]. simpl.
    assert (cart ls <> []).
    { clear IH. intros E. assert (L : List.length (cart ls) = 0) by (rewrite E; reflexivity).
      rewrite cart_length in L. clear E H. induction Hls as [|m ms Hm Hms IHm]; simpl in L; [lia|].
      destruct m; [congruence|]. simpl in L. apply IHm. lia. }
    destruct (cart ls); [congruence|]. simpl in *. congruence.
  Qed.
End Prod.

Lemma nominal_lookup {V} (zero : V) names vals n i :
  NoDup names -> List.length names = List.length vals ->
  nth_error names i = Some n ->
  nth_error vals i = Some (lookup_comb zero names vals n).
Proof.
  revert vals i. induction names as [|m names IH]; intros vals i ND L Hi.
  - destruct i; discriminate.
  - destruct vals as [|v vals]; [discriminate|]. inversion ND as [|? ? Hm ND']; subst.
    unfold lookup_comb. cbn [combine find fst]. destruct i as [|i]; cbn in Hi.
    + injection Hi as ->. rewrite String.eqb_refl. reflexivity.
    + destruct (String.eqb_spec n m) as [->|Hne].
      * exfalso. apply Hm. apply nth_error_In in Hi. exact Hi.
      * cbn [nth_error]. apply (IH vals i ND'); [simpl in L; lia|exact Hi].
Qed.

Lemma unlisted_lookup {V} (zero : V) names vals n :
  ~ In n names -> lookup_comb zero names vals n = zero.
Proof.
  intros H. unfold lookup_comb.
  destruct (find _ _) as [[m v]|] eqn:E; [|reflexivity].
  apply find_some in E. destruct E as [E1 E2]. apply in_combine_l in E1.
  cbn in E2. apply String.eqb_eq in E2. subst. tauto.
Qed.
