(** * Property theorems about the scenario tree (C01-C04). *)
From Verif Require Import Base TreeModel TreeSpec TreeProofs TreeProofs2 ProductModel.

(** C01.  The generated tree is a tree: it is built without error, has one root, step k has
    c^min(k,n_robust) nodes, children are in range and their recorded parent is the node they
    were created from, and every node of step k+1 is the child of exactly one (node, branch). *)
Theorem C01_scenario_tree_is_a_tree :
  forall c nr N, 1 <= c -> 1 <= N ->
  exists t, setup_scenario_tree c nr N = Ok t /\
    (forall k, n_scenarios c nr k = c ^ Nat.min k nr) /\
    (forall k, n_branches c nr k = if k <? nr then c else 1) /\
    nodes c nr 0 = 1 /\
    (forall k s b, k < N -> s < nodes c nr k -> b < fan c nr k ->
       exists j, j < nodes c nr (k+1) /\ t_child t k s b = Z.of_nat j /\
                 t_parent t (k+1) j = Z.of_nat s) /\
    (forall k j, k < N -> j < nodes c nr (k+1) ->
       exists s b, s < nodes c nr k /\ b < fan c nr k /\ t_child t k s b = Z.of_nat j /\
         forall s' b', s' < nodes c nr k -> b' < fan c nr k -> t_child t k s' b' = Z.of_nat j ->
           s' = s /\ b' = b).
Proof.
  exact (fun c nr N Hc HN =>
    match tree_exists c nr N Hc HN with
    | ex_intro _ t Ht => ex_intro _ t (conj Ht (conj (fun k => eq_refl) (conj (fun k => eq_refl)
        (tree_is_tree c nr N Hc HN t Ht))))
    end).
Qed.
Print Assumptions C01_scenario_tree_is_a_tree.
Example C01_nonvacuous :
  match setup_scenario_tree 3 2 4 with
  | Ok t => nodes 3 2 4 = 9 /\ fan 3 2 1 = 3 /\ t_child t 1 2 1 = 7%Z /\ t_parent t 2 7 = 2%Z
  | Err _ => False
  end.
Proof. vm_compute. auto. Qed.

(** C01 (error branch): an empty horizon is rejected with IndexError. *)
Theorem C01_empty_horizon_rejected : forall c nr, setup_scenario_tree c nr 0 = Err ExcIndex.
Proof. exact (fun c nr => eq_refl). Qed.
Print Assumptions C01_empty_horizon_rejected.

(** C02.  Every leaf is the end of exactly one path; every sequence of n_robust combinations
    labels exactly one leaf; after the robust horizon the combination is the last one of it. *)
Theorem C02_sequences_label_leaves :
  forall c nr N, 1 <= c -> 1 <= N -> forall t, setup_scenario_tree c nr N = Ok t ->
  (forall j, j < nodes c nr N -> exists node br, is_path c nr N t node br /\ node N = j) /\
  (forall node br node' br', is_path c nr N t node br -> is_path c nr N t node' br' ->
     node N = node' N ->
     (forall k, k <= N -> node k = node' k) /\ (forall k, k < N -> br k = br' k)) /\
  (forall ps : nat -> nat, (forall k, k < nr -> ps k < c) ->
     exists j, j < nodes c nr N /\
      (exists node br, is_path c nr N t node br /\ node N = j /\
         forall k, k < N -> k < nr -> combination_on t node br k = Z.of_nat (ps k)) /\
      (forall j' node br, is_path c nr N t node br -> node N = j' ->
         (forall k, k < N -> k < nr -> combination_on t node br k = Z.of_nat (ps k)) -> j' = j)) /\
  (forall node br k, is_path c nr N t node br -> 0 < nr -> nr <= k -> k < N ->
     combination_on t node br k = combination_on t node br (nr - 1)).
Proof.
  exact (fun c nr N Hc HN t Ht =>
    conj (leaf_has_path c nr N Hc HN t Ht)
   (conj (path_unique c nr N Hc HN t Ht)
   (conj (sequences_label_leaves c nr N Hc HN t Ht)
         (combination_stays c nr N Hc HN t Ht)))).
Qed.
Print Assumptions C02_sequences_label_leaves.
Example C02_nonvacuous :
  exists t, setup_scenario_tree 2 2 4 = Ok t /\
    let br := fun k => if k =? 1 then 1 else 0 in
    is_path 2 2 4 t (walk 2 2 br) br /\ combination_on t (walk 2 2 br) br 3 = 1%Z.
Proof.
  destruct (tree_exists 2 2 4) as [t Ht]; [lia..|]. exists t. split; [exact Ht|].
  intros br. assert (HP : is_path 2 2 4 t (walk 2 2 br) br).
  { apply walk_is_path; [lia..|exact Ht|].
    intros k Hk. destruct k as [|[|[|[|k]]]]; vm_compute; lia. }
  split; [exact HP|].
  rewrite (combination_after 2 2 4 ltac:(lia) ltac:(lia) t Ht _ _ 3 HP) by lia. reflexivity.
Qed.

(** C03 (tree part).  With n_robust = 0 there is one node per step and the nominal combination 0
    is used everywhere, for every number of combinations. *)
Theorem C03_nominal_tree :
  forall c N, 1 <= c -> 1 <= N -> forall t, setup_scenario_tree c 0 N = Ok t ->
  (forall k, nodes c 0 k = 1) /\
  (forall node br k, is_path c 0 N t node br -> k < N ->
     node k = 0 /\ br k = 0 /\ combination_on t node br k = 0%Z).
Proof.
  intros c N Hc HN t Ht. split.
  - intros k. unfold nodes. rewrite Nat.min_0_r. reflexivity.
  - intros node br k HP Hk.
    pose proof (path_in_range c 0 N Hc HN t Ht node br HP k ltac:(lia)) as Hr.
    unfold nodes in Hr. rewrite Nat.min_0_r in Hr. cbn in Hr.
    destruct (path_step c 0 N Hc HN t Ht node br HP k Hk) as [_ B]. cbn in B.
    rewrite (combination_after c 0 N Hc HN t Ht node br k HP Hk) by lia. cbn. lia.
Qed.
Print Assumptions C03_nominal_tree.
Example C03_nonvacuous_tree :
  exists t node br, setup_scenario_tree 5 0 3 = Ok t /\ is_path 5 0 3 t node br.
Proof.
  destruct (tree_exists 5 0 3) as [t Ht]; [lia..|].
  exists t, (walk 5 0 (fun _ => 0)), (fun _ => 0). split; [exact Ht|].
  apply walk_is_path; [lia..|exact Ht|]. intros k _. vm_compute. lia.
Qed.

(** C03 (parameter part).  set_uncertainty_values accepts exactly the declared names; the
    combinations are the Cartesian product of the value lists (membership, count, no
    repetition for duplicate-free lists), the first one takes the first value of each list,
    each listed parameter of a combination has the value of that combination, and parameters
    that are not listed are zero. *)
Theorem C03_uncertainty_values :
  forall (V : Type) (zero : V) (valid : list string) (kw : list (string * list V)),
  kw <> [] -> NoDup (map fst kw) ->
  (forall e, set_uncertainty_values zero valid kw = Err e -> e = ExcAssertion /\
      exists n, In n (map fst kw) /\ ~ In n valid) /\
  ((forall n, In n (map fst kw) -> In n valid) ->
   exists (combs : list (list V)) (tmpl : list (string -> V)),
     set_uncertainty_values zero valid kw = Ok (Some (List.length combs, tmpl)) /\
     (forall v, In v combs <-> Forall2 (fun x l => In x l) v (map snd kw)) /\
     List.length combs = fold_right (fun l n => List.length l * n) 1 (map snd kw) /\
     (Forall (@NoDup V) (map snd kw) -> NoDup combs) /\
     (Forall (fun l => l <> []) (map snd kw) -> hd [] combs = map (hd zero) (map snd kw)) /\
     List.length tmpl = List.length combs /\
     (forall i v f, nth_error combs i = Some v -> nth_error tmpl i = Some f ->
        (forall j n, nth_error (map fst kw) j = Some n -> nth_error v j = Some (f n)) /\
        (forall n, ~ In n (map fst kw) -> f n = zero))).
Proof.
  intros V zero valid kw Hne ND. unfold set_uncertainty_values.
  destruct kw as [|k0 kw0]; [congruence|]. set (kw := k0 :: kw0) in *. clearbody kw.
  assert (HB : forallb (fun n => existsb (String.eqb n) valid) (map fst kw) = true <->
               (forall n, In n (map fst kw) -> In n valid)).
  { rewrite forallb_forall. split; intros H n Hn; specialize (H n Hn).
    - apply existsb_exists in H. destruct H as (m & Hm & E). apply String.eqb_eq in E. subst. exact Hm.
    - apply existsb_exists. exists n. split; [exact H|apply String.eqb_refl]. }
  split.
  - intros e. unfold py_assert.
    destruct (forallb _ _) eqn:E; cbn [bind]; [discriminate|]. intros [= <-]. split; [reflexivity|].
    clear - E. induction (map fst kw) as [|n l IH]; [discriminate|]. cbn in E.
    destruct (existsb (String.eqb n) valid) eqn:E1.
    + destruct (IH E) as (m & Hm & H). exists m. simpl; auto.
    + exists n. split; [simpl; auto|]. intros Hin.
      assert (existsb (String.eqb n) valid = true) by (apply existsb_exists; exists n; split; [exact Hin|apply String.eqb_refl]).
      congruence.
  - intros Hv. apply HB in Hv. unfold py_assert. rewrite Hv. cbn [bind].
    exists (itertools_product (map snd kw)), (map (lookup_comb zero (map fst kw)) (itertools_product (map snd kw))).
    split; [reflexivity|]. rewrite itertools_product_cart.
    split; [intros; apply cart_in|]. split; [apply cart_length|]. split; [apply cart_nodup|].
    split; [apply cart_head|]. split; [apply map_length|].
    intros i v f Hi Hf. rewrite nth_error_map, Hi in Hf. cbn in Hf. injection Hf as <-.
    split.
    + intros j n Hj. apply nominal_lookup; auto.
      apply nth_error_In, cart_in in Hi.
      apply forall2_length in Hi. rewrite map_length in *. auto.
    + intros n Hn. apply unlisted_lookup. exact Hn.
Qed.
Print Assumptions C03_uncertainty_values.
Example C03_nonvacuous_values :
  match set_uncertainty_values 0%Z ["a"; "b"; "g"]%string [("a", [1; 2]); ("b", [10; 20])]%string%Z with
  | Ok (Some (n, tmpl)) => n = 4 /\ map (fun f => (f "a", f "b", f "g")%string) tmpl
        = [(1, 10, 0); (1, 20, 0); (2, 10, 0); (2, 20, 0)]%Z
  | _ => False end.
Proof. vm_compute. auto. Qed.

(** C04.  The full property: the prediction columns are the root-to-leaf paths.  It is false of
    the code exactly when there is real uncertainty (c >= 2) and n_robust >= 3 or n_robust >= N. *)
Theorem C04_prediction_columns_iff :
  forall c nr N, 1 <= c -> 1 <= N -> forall t, setup_scenario_tree c nr N = Ok t ->
  (prediction_ok c nr N t <-> (c = 1 \/ nr = 0 \/ (nr <= 2 /\ nr < N))).
Proof.
  intros c nr N Hc HN t Ht. split.
  - intros H. destruct (Nat.eq_dec c 1); [auto|]. destruct (Nat.eq_dec nr 0); [auto|].
    right; right. destruct (Nat.le_gt_cases nr 2), (Nat.le_gt_cases N nr); try lia; exfalso;
    apply (prediction_bad c nr N Hc HN t Ht); auto; lia.
  - intros H. apply (prediction_good c nr N Hc HN t Ht); lia.
Qed.
Print Assumptions C04_prediction_columns_iff.
Example C04_nonvacuous : exists t, setup_scenario_tree 2 2 3 = Ok t /\ prediction_ok 2 2 3 t.
Proof.
  destruct (tree_exists 2 2 3) as [t Ht]; [lia..|]. exists t. split; [exact Ht|].
  apply (C04_prediction_columns_iff 2 2 3); auto; lia.
Qed.

Theorem C04_prediction_columns_refuted :
  exists c nr N t, setup_scenario_tree c nr N = Ok t /\ ~ prediction_ok c nr N t.
Proof.
  destruct (tree_exists 2 3 5) as [t Ht]; [lia..|]. exists 2, 3, 5, t. split; [exact Ht|].
  intros H. apply (C04_prediction_columns_iff 2 3 5) in H; auto; lia.
Qed.
Print Assumptions C04_prediction_columns_refuted.
