(** * Proofs: the whole problem - constraints, alignment, objective. *)
From Coq Require Import Reals Lra.
From Verif Require Import Base TreeModel TreeSpec TreeProofs TreeProofs2 NlpModel NlpSpec NlpProofs NlpProofs2.
Local Open Scope R_scope.

(** ** Nonlinear constraint blocks *)
Lemma slack_index_soft l i : slack_index l i = List.length (soft_list (firstn i l)).
Proof.
  unfold slack_index. generalize (firstn i l). clear. intros l. induction l as [|con l IH]; [reflexivity|].
  cbn [filter soft_list flat_map]. destruct (nl_soft con); cbn [List.length app]; unfold soft_list in IH; congruence.
Qed.

Lemma cons_sat_combine (F : nat -> nl_con -> R) l o :
  cons_sat (map (fun ic => let '(i, con) := ic in F i con) (combine (seq o (List.length l)) l))
           (nl_cons_lb l) (nl_cons_ub l)
  <-> (forall i con, nth_error l i = Some con -> le_ub (F (o + i)%nat con) (nl_ub con)).
Proof.
  revert o. induction l as [|con l IH]; intros o; simpl.
  - split; [intros _ [|i] con; discriminate|tauto].
  - unfold nl_cons_lb, nl_cons_ub in IH. rewrite IH. split.
    + intros (_ & H1 & H2) [|i] con' E.
      * injection E as <-. rewrite Nat.add_0_r. exact H1.
      * rewrite <- Nat.add_succ_comm. apply H2. exact E.
    + intros H. split; [exact I|]. split.
      * specialize (H 0%nat con eq_refl). rewrite Nat.add_0_r in H. exact H.
      * intros i con' E. rewrite Nat.add_succ_comm. apply (H (S i)). exact E.
Qed.

Lemma nl_fun_length l x u z tvp p e : List.length (nl_cons_fun l x u z tvp p e) = List.length l.
Proof. unfold nl_cons_fun. rewrite map_length, combine_length, seq_length. lia. Qed.

Lemma mapM_exists {A B} (f : A -> res B) (P : A -> B -> Prop) l :
  (forall x, In x l -> exists y, f x = Ok y /\ P x y) ->
  exists ys, mapM f l = Ok ys /\ Forall2 P l ys.
Proof.
  induction l as [|x l IH]; intros H; simpl.
  - exists []. split; [reflexivity|constructor].
  - destruct (H x) as (y & Ey & Py); [simpl; auto|]. rewrite Ey.
    destruct IH as (ys & Eys & Pys); [intros; apply H; simpl; auto|]. rewrite Eys. cbn [bind].
    exists (y :: ys). split; [reflexivity|]. constructor; assumption.
Qed.

Lemma flat_map_concat {A B} (f : A -> list B) (ls : list (list A)) :
  flat_map f (List.concat ls) = List.concat (map (flat_map f) ls).
Proof. induction ls as [|l ls IH]; simpl; [reflexivity|]. rewrite flat_map_app, IH. reflexivity. Qed.

Section Whole.
  Variable c : cfg.
  Hypothesis Hok : cfg_ok c.
  Variable par : params.
  Variable pt : point.
  Variable t : tree.
  Hypothesis Ht : setup_scenario_tree (ncomb c) (nr c) (N c) = Ok t.

  Let HN : (1 <= N c)%nat. Proof. apply Hok. Qed.
  Let Hc : (1 <= ncomb c)%nat. Proof. apply Hok. Qed.
  Let Hs : scaling_ok c. Proof. apply Hok. Qed.

  Lemma nl_block_sat k s b ix iz : is_edge c k s b ->
    cons_sat (nl_block c t par pt k s b ix iz) (nl_cons_lb (nlc c)) (nl_cons_ub (nlc c))
    <-> (forall i con, nth_error (nlc c) i = Some con ->
           nl_holds c par pt (physX c pt k s ix) (physZ c pt k s iz) k s b i con).
  Proof.
    intros He. unfold nl_block, nl_cons_fun. rewrite cons_sat_combine.
    unfold nl_holds, slack_of. rewrite (cur_is c HN Hc t Ht k s b He).
    split; intros H i con E; specialize (H i con E); cbn [Nat.add] in *;
    rewrite slack_index_soft in *; exact H.
  Qed.

  (** number of constraint rows of one edge *)
  Definition rows_per_edge : nat :=
    (eqs_per_step c + n_x (mdl c)
     + (if nl_chk_colloc c then ncoll (disc c) else 1) * List.length (nlc c))%nat.

  Lemma edge_sat k s b : is_edge c k s b ->
    exists bl, edge_cons c t par pt k s b = Ok bl /\ Forall block_ok bl /\
      (Forall block_sat bl <-> model_step c par pt k s b /\ nl_step c par pt k s b) /\
      List.length (flat_map (fun x => fst (fst x)) bl) = rows_per_edge.
  Proof.
    intros He. unfold edge_cons. rewrite (indices_in_range c HN Hc t Ht k s b He).
    destruct (step_sat c Hok t Ht par pt k s b He) as (g & xf & E & Lg & Hg). rewrite E. cbn [bind].
    eexists. split; [reflexivity|]. split; [|split].
    - constructor; [|constructor].
      + unfold block_ok; cbn [fst snd]. rewrite !map_length. auto.
      + unfold block_ok; cbn [fst snd]. rewrite !repeat_length, rows_length. auto.
      + apply Forall_forall. intros bl Hin. apply in_map_iff in Hin. destruct Hin as (v & <- & Hv).
        unfold block_ok; cbn [fst snd]. unfold nl_cons_lb, nl_cons_ub. rewrite !map_length.
        unfold nl_blocks in Hv. destruct (nl_chk_colloc c).
        * apply in_map_iff in Hv. destruct Hv as (i & <- & _). unfold nl_block. rewrite nl_fun_length. auto.
        * destruct Hv as [<-|[]]. unfold nl_block. rewrite nl_fun_length. auto.
    - rewrite !Forall_cons_iff. rewrite <- Hg. unfold block_sat at 1 2; cbn [fst snd].
      rewrite zero_sat, zero_rows_sat.
      assert (Hnl : Forall block_sat (map (fun vals => (vals, nl_cons_lb (nlc c), nl_cons_ub (nlc c))) (nl_blocks c t par pt k s b))
                    <-> nl_step c par pt k s b).
      { rewrite Forall_map. unfold block_sat; cbn [fst snd]. unfold nl_blocks, nl_step.
        destruct (nl_chk_colloc c).
        - rewrite Forall_map, Forall_forall. split.
          + intros H i con Ei q Hq. apply (proj1 (nl_block_sat k s b q q He)); [|exact Ei].
            apply H. apply in_seq. unfold nc. lia.
          + intros H q Hq. apply in_seq in Hq. apply (nl_block_sat k s b q q He).
            intros i con Ei. apply H; [exact Ei|]. unfold nc in Hq. lia.
        - rewrite Forall_cons_iff. rewrite (nl_block_sat k s b _ _ He). split.
          + intros [H _] i con Ei. apply H. exact Ei.
          + intros H. split; [|constructor]. intros i con Ei. apply H. exact Ei. }
      rewrite Hnl. tauto.
    - cbn [flat_map fst snd]. rewrite !app_length, Lg, rows_length. unfold rows_per_edge.
      assert (Hn : forall ls, Forall (fun v => List.length v = List.length (nlc c)) ls ->
        List.length (flat_map (fun x : list R * list (option R) * list (option R) => fst (fst x))
          (map (fun vals => (vals, nl_cons_lb (nlc c), nl_cons_ub (nlc c))) ls)) = (List.length ls * List.length (nlc c))%nat).
      { induction ls as [|v ls IH]; intros H; [reflexivity|]. inversion H; subst.
        cbn [map flat_map fst snd List.length]. rewrite app_length, IH by assumption. lia. }
      rewrite Hn.
      + unfold nl_blocks. destruct (nl_chk_colloc c); [rewrite map_length, seq_length; unfold nc|]; cbn [List.length]; lia.
      + unfold nl_blocks. destruct (nl_chk_colloc c).
        * rewrite Forall_map. apply Forall_forall. intros. apply nl_fun_length.
        * constructor; [apply nl_fun_length|constructor].
  Qed.

  Lemma body_sat :
    exists p, prepare_body c t par pt = Ok p /\
      List.length (cons p) = List.length (cons_lb p) /\ List.length (cons p) = List.length (cons_ub p) /\
      List.length (cons p) = (n_x (mdl c) + List.length (edges c) * rows_per_edge)%nat /\
      obj p = rsum (map (fun e => let '(k, s, b) := e in edge_obj c t par pt k s b) (edges c)) /\
      (cons_sat (cons p) (cons_lb p) (cons_ub p) <->
       initial_ok c par pt /\
       forall k s b, is_edge c k s b -> model_step c par pt k s b /\ nl_step c par pt k s b).
  Proof.
    set (P := fun (e : nat * nat * nat) bl => let '(k, s, b) := e in
       Forall block_ok bl /\
      (Forall block_sat bl <-> model_step c par pt k s b /\ nl_step c par pt k s b) /\
      List.length (flat_map (fun x : list R * list (option R) * list (option R) => fst (fst x)) bl) = rows_per_edge).
    destruct (mapM_exists (fun e => let '(k, s, b) := e in edge_cons c t par pt k s b) P (edges c)) as (bls & Eb & HP).
    { intros [[k s] b] Hin. apply in_edges in Hin. destruct (edge_sat k s b Hin) as (bl & E1 & E2).
      exists bl. split; [exact E1|exact E2]. }
    unfold prepare_body. rewrite Eb. cbn [bind]. eexists. split; [reflexivity|]. cbn [cons cons_lb cons_ub obj].
    assert (Hbok : Forall block_ok (init_block c par pt :: List.concat bls)).
    { constructor.
      - unfold block_ok, init_block; cbn [fst snd]. rewrite rows_length, repeat_length. auto.
      - apply Forall_concat. clear Eb. induction HP as [|[[k s] b] bl l l' H _ IH]; constructor; [apply H|exact IH]. }
    split; [|split; [|split; [|split]]].
    - clear - Hbok. induction Hbok as [|x l [H1 H2] _ IH]; [reflexivity|]. cbn [flat_map]. rewrite !app_length. lia.
    - clear - Hbok. induction Hbok as [|x l [H1 H2] _ IH]; [reflexivity|]. cbn [flat_map]. rewrite !app_length. lia.
    - cbn [flat_map]. rewrite app_length. unfold init_block at 1; cbn [fst snd]. rewrite rows_length. f_equal.
      rewrite flat_map_concat. clear Eb Hbok.
      induction HP as [|[[k s] b] bl l l' H _ IH]; [reflexivity|].
      cbn [map List.concat List.length]. rewrite app_length. rewrite IH. destruct H as (_ & _ & H). lia.
    - reflexivity.
    - rewrite (cons_sat_blocks _ Hbok). rewrite Forall_cons_iff.
      assert (Hi : block_sat (init_block c par pt) <-> initial_ok c par pt).
      { unfold block_sat, init_block; cbn [fst snd]. rewrite zero_rows_sat. unfold initial_ok, stateX, physX.
        assert (forall a, (a < n_x (mdl c))%nat ->
          (oX pt 0 0 (last_x c) a - pX0 par a / sx c a = 0 <-> oX pt 0 0 (ncoll (disc c)) a * sx c a = pX0 par a)).
        { intros a Ha. pose proof (Hs a Ha) as Hsa. change (last_x c) with (ncoll (disc c)).
          rewrite <- (div_zero_iff (pX0 par a) _ _ Hsa). lra. }
        split; intros H' a Ha; apply H; auto. }
      rewrite Hi. apply and_iff_compat_l. rewrite Forall_concat.
      rewrite Forall_forall. split.
      + intros H k s b He. apply in_edges in He. clear Eb Hbok.
        induction HP as [|e bl l l' He' _ IH]; [destruct He|]. destruct He as [->|He].
        * apply (proj1 (proj2 He')). apply H. simpl; auto.
        * apply IH; [intros; apply H; simpl; auto|exact He].
      + intros H bl Hbl. 
        assert (HX : forall e, In e (edges c) -> let '(k, s, b) := e in model_step c par pt k s b /\ nl_step c par pt k s b).
        { intros [[k s] b] Hin. apply H. apply in_edges. exact Hin. }
        clear Eb Hbok H. induction HP as [|[[k s] b] bl' l l' He' _ IH]; [destruct Hbl|]. destruct Hbl as [->|Hbl].
        * apply (proj2 (proj1 (proj2 He'))). apply (HX (k, s, b)). simpl; auto.
        * apply IH; [exact Hbl|intros; apply HX; simpl; auto].
  Qed.
End Whole.

(** ** Sums over the tree *)
Notation sumn := total.

Lemma rsum_app l1 l2 : rsum (l1 ++ l2) = rsum l1 + rsum l2.
Proof. induction l1 as [|x l IH]; simpl; [ring|]. rewrite IH. ring. Qed.
Lemma rsum_plus {A} (f g : A -> R) l : rsum (map (fun x => f x + g x) l) = rsum (map f l) + rsum (map g l).
Proof. induction l as [|x l IH]; simpl; [ring|]. rewrite IH. ring. Qed.
Lemma rsum_flat {A B} (f : B -> R) (g : A -> list B) l :
  rsum (map f (flat_map g l)) = rsum (map (fun x => rsum (map f (g x))) l).
Proof. induction l as [|x l IH]; simpl; [reflexivity|]. rewrite map_app, rsum_app, IH. reflexivity. Qed.

Lemma sumn_ext n f g : (forall i, (i < n)%nat -> f i = g i) -> sumn n f = sumn n g.
Proof. intros H. apply rsum_ext. intros x Hx. apply in_seq in Hx. apply H. lia. Qed.
Lemma sumn_plus n f g : sumn n (fun i => f i + g i) = sumn n f + sumn n g.
Proof. apply rsum_plus. Qed.
Lemma sumn_S n f : sumn (S n) f = sumn n f + f n.
Proof. unfold total. rewrite seq_S, map_app, rsum_app. cbn [map rsum fold_right Nat.add]. ring. Qed.
Lemma sumn_scal n f q : q * sumn n f = sumn n (fun i => q * f i).
Proof. unfold total. rewrite Rmult_comm, rsum_scal. apply rsum_ext. intros; ring. Qed.
Lemma sumn_swap n m f : sumn n (fun i => sumn m (fun j => f i j)) = sumn m (fun j => sumn n (fun i => f i j)).
Proof. induction n as [|n IH].
  - unfold total at 1. cbn [seq map rsum fold_right]. induction m as [|m IH]; [reflexivity|]. rewrite sumn_S, <- IH. unfold total; simpl; ring.
  - rewrite sumn_S, IH, <- sumn_plus. apply sumn_ext. intros. rewrite sumn_S. reflexivity. Qed.
Lemma sumn_zero n : sumn n (fun _ => 0) = 0.
Proof. induction n as [|n IH]; [reflexivity|]. rewrite sumn_S, IH. ring. Qed.
(** sum over n*f items, grouped *)
Lemma sumn_mul n f (G : nat -> nat -> R) : (1 <= f)%nat ->
  sumn (n * f) (fun j => G (j / f)%nat (j mod f)%nat) = sumn n (fun i => sumn f (fun b => G i b)).
Proof.
  intros Hf. induction n as [|n IH]; [reflexivity|]. rewrite sumn_S, <- IH.
  unfold total at 1. replace (S n * f)%nat with (n * f + f)%nat by lia.
  rewrite seq_app, map_app, rsum_app. cbn [Nat.add]. f_equal.
  assert (X : forall g o, rsum (map (fun j => G (j / f)%nat (j mod f)%nat) (seq (n * f + o) g)) =
              rsum (map (fun j => G ((n*f+j) / f)%nat ((n*f+j) mod f)%nat) (seq o g))).
  { induction g as [|g IHg]; intros o; [reflexivity|]. cbn [seq map rsum fold_right]. f_equal.
    specialize (IHg (S o)). rewrite Nat.add_succ_r in IHg. exact IHg. }
  specialize (X f 0%nat). rewrite Nat.add_0_r in X. rewrite X. apply sumn_ext. intros b Hb.
  replace ((n * f + b) / f)%nat with n by (apply (Nat.div_unique _ _ n b); lia).
  replace ((n * f + b) mod f)%nat with b by (apply (Nat.mod_unique _ _ n b); lia). reflexivity.
Qed.

Section Average.
  Variables cc nr N : nat.
  Hypothesis Hc : (1 <= cc)%nat.
  Hypothesis HN : (1 <= N)%nat.
  Variable t : tree.
  Hypothesis Ht : setup_scenario_tree cc nr N = Ok t.
  (** a path for every leaf *)
  Variables node br : nat -> nat -> nat.
  Hypothesis Hp : forall j, (j < nodes cc nr N)%nat -> is_path cc nr N t (node j) (br j) /\ node j N = j.

  Lemma nodes_pos k : (1 <= nodes cc nr k)%nat.
  Proof. exact (ns_pos cc nr k Hc). Qed.

  (** m steps above leaf level *)
  Lemma sum_ancestors (G : nat -> R) m : (m <= N)%nat ->
    INR (nodes cc nr (N - m)) * sumn (nodes cc nr N) (fun j => G (node j (N - m)%nat))
    = INR (nodes cc nr N) * sumn (nodes cc nr (N - m)) G.
  Proof.
    revert G. induction m as [|m IH]; intros G Hm.
    - rewrite Nat.sub_0_r. f_equal. apply sumn_ext. intros j Hj. rewrite (proj2 (Hp j Hj)). reflexivity.
    - specialize (IH (fun s => G (s / fan cc nr (N - S m))%nat) ltac:(lia)).
      assert (E1 : sumn (nodes cc nr N) (fun j => G (node j (N - S m)%nat)) =
                   sumn (nodes cc nr N) (fun j => G (node j (N - m) / fan cc nr (N - S m))%nat)).
      { apply sumn_ext. intros j Hj. destruct (Hp j Hj) as [HP _].
        destruct (path_step cc nr N Hc HN t Ht _ _ HP (N - S m)%nat ltac:(lia)) as [E B].
        replace (N - S m + 1)%nat with (N - m)%nat in E by lia. rewrite E. f_equal.
        pose proof (fan_pos cc nr Hc (N - S m)). apply (Nat.div_unique _ _ _ (br j (N - S m)%nat)); lia. }
      rewrite E1.
      pose proof (nodes_S cc nr (N - S m)) as En. replace (N - S m + 1)%nat with (N - m)%nat in En by lia.
      pose proof (fan_pos cc nr Hc (N - S m)) as Hf.
      rewrite En in IH at 2.
      rewrite (sumn_mul (nodes cc nr (N - S m)) (fan cc nr (N - S m)) (fun i _ => G i) Hf) in IH.
      rewrite En, mult_INR in IH.
      assert (E2 : sumn (nodes cc nr (N - S m)) (fun i => sumn (fan cc nr (N - S m)) (fun _ => G i))
                   = INR (fan cc nr (N - S m)) * sumn (nodes cc nr (N - S m)) G).
      { rewrite sumn_scal. apply sumn_ext. intros i _. generalize (fan cc nr (N - S m)). intros n.
        induction n as [|n IHn]; [simpl; unfold total; simpl; ring|]. rewrite sumn_S, IHn, S_INR. ring. }
      rewrite E2 in IH. assert (INR (fan cc nr (N - S m)) <> 0) by (apply not_0_INR; lia).
      apply (Rmult_eq_reg_l (INR (fan cc nr (N - S m)))); [|assumption].
      etransitivity; [|etransitivity; [exact IH|]]; ring.
  Qed.

  (** average over the edges of step k = average over the leaves of the edge on their path *)
  Lemma average_edges (F : nat -> nat -> R) k : (k < N)%nat ->
    1 / INR (nodes cc nr (k+1)) * sumn (nodes cc nr k) (fun s => sumn (fan cc nr k) (fun b => F s b))
    = 1 / INR (nodes cc nr N) * sumn (nodes cc nr N) (fun j => F (node j k) (br j k)).
  Proof.
    intros Hk. pose proof (fan_pos cc nr Hc k) as Hf.
    rewrite <- (sumn_mul (nodes cc nr k) (fan cc nr k) F Hf).
    rewrite <- (nodes_S cc nr k).
    pose proof (sum_ancestors (fun s => F (s / fan cc nr k)%nat (s mod fan cc nr k)%nat) (N - (k+1)) ltac:(lia)) as H.
    replace (N - (N - (k + 1)))%nat with (k+1)%nat in H by lia.
    assert (E : sumn (nodes cc nr N) (fun j => F (node j k) (br j k)) =
                sumn (nodes cc nr N) (fun j => F (node j (k+1) / fan cc nr k)%nat (node j (k+1) mod fan cc nr k)%nat)).
    { apply sumn_ext. intros j Hj. destruct (Hp j Hj) as [HP _].
      destruct (path_step cc nr N Hc HN t Ht _ _ HP k Hk) as [E B]. rewrite E. f_equal.
      - apply (Nat.div_unique _ _ _ (br j k)); lia.
      - apply (Nat.mod_unique _ _ (node j k) (br j k)); lia. }
    rewrite E. set (A := sumn (nodes cc nr N) _) in *. set (B := sumn (nodes cc nr (k+1)) _) in *.
    assert (INR (nodes cc nr (k+1)) <> 0) by (apply not_0_INR; pose proof (nodes_pos (k+1)); lia).
    assert (INR (nodes cc nr N) <> 0) by (apply not_0_INR; pose proof (nodes_pos N); lia).
    apply (Rmult_eq_reg_l (INR (nodes cc nr (k+1)) * INR (nodes cc nr N))).
    - replace (INR (nodes cc nr (k+1)) * INR (nodes cc nr N) * (1 / INR (nodes cc nr (k+1)) * B)) with (INR (nodes cc nr N) * B) by (field; auto).
      replace (INR (nodes cc nr (k+1)) * INR (nodes cc nr N) * (1 / INR (nodes cc nr N) * A)) with (INR (nodes cc nr (k+1)) * A) by (field; auto).
      symmetry. exact H.
    - apply Rmult_integral_contrapositive_currified; assumption.
  Qed.
End Average.

(** sum over the loop nest *)
Lemma sum_edges c (f : nat -> nat -> nat -> R) :
  rsum (map (fun e => let '(k, s, b) := e in f k s b) (edges c))
  = sumn (N c) (fun k => sumn (width_of c k) (fun s => sumn (fan_of c k) (fun b => f k s b))).
Proof.
  unfold edges. rewrite rsum_flat. apply rsum_ext. intros k _.
  rewrite rsum_flat. apply rsum_ext. intros s _. rewrite map_map. reflexivity.
Qed.
Lemma edges_length_cast c : INR (List.length (edges c))
  = sumn (N c) (fun k => INR (width_of c (k+1))).
Proof.
  assert (H : INR (List.length (edges c)) = rsum (map (fun e : nat * nat * nat => let '(k, s, b) := e in 1) (edges c))).
  { generalize (edges c). intros l. induction l as [|[[k s] b] l IH]; [reflexivity|].
    cbn [List.length map rsum fold_right]. rewrite S_INR. unfold rsum in IH. rewrite IH. ring. }
  rewrite H, sum_edges. apply sumn_ext. intros k _. unfold width_of. rewrite nodes_S, mult_INR.
  assert (X : forall n, sumn n (fun _ => 1) = INR n).
  { induction n as [|n IH]; [reflexivity|]. rewrite sumn_S, IH, S_INR. reflexivity. }
  rewrite (sumn_ext _ _ (fun _ => INR (fan (ncomb c) (nr c) k) * 1)); [|intros; rewrite X; unfold fan_of; ring].
  rewrite <- sumn_scal, X. ring.
Qed.
