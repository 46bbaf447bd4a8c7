(** * Proofs: one edge of the tree, equality constraints. *)
From Coq Require Import Reals Lra FunctionalExtensionality.
From Verif Require Import Base TreeModel TreeSpec TreeProofs TreeProofs2 NlpModel NlpSpec NlpProofs.
Local Open Scope R_scope.

Lemma rsum_ext {A} (f g : A -> R) l : (forall x, In x l -> f x = g x) -> rsum (map f l) = rsum (map g l).
Proof. induction l as [|x l IH]; intros H; simpl; [reflexivity|].
  rewrite H by (simpl; auto). f_equal. apply IH. intros; apply H; simpl; auto. Qed.
Lemma rsum_scal {A} (f : A -> R) l q : rsum (map f l) * q = rsum (map (fun x => f x * q) l).
Proof. induction l as [|x l IH]; simpl; [ring|]. rewrite <- IH. ring. Qed.

Lemma vslice_vertcat n l m : (m < List.length l)%nat ->
  agree n (vslice (vertcat n l) (m * n)) (nth m l vzero).
Proof.
  intros Hm a Ha. unfold vslice, vertcat.
  destruct l as [|v [|w l]].
  - simpl in Hm; lia.
  - simpl in Hm. assert (m = 0)%nat by lia. subst. reflexivity.
  - replace ((m * n + a) / n)%nat with m by (apply (Nat.div_unique _ _ m a); lia).
    replace ((m * n + a) mod n)%nat with a by (apply (Nat.mod_unique _ _ m a); lia).
    reflexivity.
Qed.

Lemma nth_map_seq {A} (f : nat -> A) n m d : (m < n)%nat -> nth m (map f (seq 0 n)) d = f m.
Proof. intros H. rewrite (nth_indep _ d (f 0%nat)) by (rewrite map_length, seq_length; exact H).
  rewrite map_nth, seq_nth by exact H. reflexivity. Qed.

Lemma div_zero_iff r x s : s <> 0 -> (r / s - x = 0 <-> x * s = r).
Proof. intros H. split; intros E.
  - replace x with (r / s) by lra. field. exact H.
  - rewrite <- E. field. exact H. Qed.

Lemma Forall_fm_seq {A} (P : A -> Prop) (f : nat -> list A) a n :
  Forall P (flat_map f (seq a n)) <-> forall i, (a <= i < a + n)%nat -> Forall P (f i).
Proof. rewrite Forall_flat_map. rewrite Forall_forall. split; intros H i Hi.
  - apply H. apply in_seq. exact Hi.
  - apply H. apply in_seq. exact Hi. Qed.

Section Edge.
  Variable c : cfg.
  Hypothesis Hok : cfg_ok c.
  Variable t : tree.
  Hypothesis Ht : setup_scenario_tree (ncomb c) (nr c) (N c) = Ok t.
  Variable par : params.
  Variable pt : point.

  Let HN : (1 <= N c)%nat. Proof. apply Hok. Qed.
  Let Hc : (1 <= ncomb c)%nat. Proof. apply Hok. Qed.
  Let Hs : scaling_ok c. Proof. apply Hok. Qed.

  Section CollEdge.
    Variables (deg ni : nat) (h : R) (C : nat -> nat -> R) (D : nat -> R).
    Hypothesis Hd : disc c = Colloc deg ni h C D.
    Variables (k s b : nat).
    Hypothesis He : is_edge c k s b.
    Variable L : layout.
    Hypothesis HL : forall i j, (i < ni)%nat -> (j <= deg)%nat ->
       l_x L i j = lx_spec (n_x (mdl c)) deg i j /\ l_z L i j = lz_spec (n_z (mdl c)) deg i j.
    Hypothesis HLf : l_xf L = ((ni * (deg+1) - 1) * n_x (mdl c))%nat.
    Hypothesis Hni : (1 <= ni)%nat.
    Hypothesis Hwf : wf_model (mdl c).

    Let nx := n_x (mdl c).
    Let nz := n_z (mdl c).
    Let xk0 := oX pt k s (last_x c).
    Let ik := vertcat nx (map (fun i => oX pt (k+1) (child t k s b) i) (seq 0 (nc c))).
    Let zk := vertcat nz (map (fun i => oZ pt k (child t k s b) i) (seq 0 (n_zpts c))).
    Let uk := oU pt k (s_u c s).
    Let tvp := pTvp par k.
    Let p := pP par (cur t k s b).

    Lemma nc_is : nc c = ((deg+1) * ni)%nat.
    Proof. unfold nc. rewrite Hd. reflexivity. Qed.

    Lemma xs_phys i j : (i < ni)%nat -> (j <= deg)%nat ->
      agree nx (vmul (xs L xk0 ik i j) (sx c)) (collx c pt deg k s b i j).
    Proof.
      intros Hi Hj a Ha. unfold xs, slot_or_zero, slot_val. rewrite (proj1 (HL i j Hi Hj)).
      unfold lx_spec, collx. destruct ((i =? 0) && (j =? 0))%nat eqn:E.
      - unfold vmul, stateX, physX, xk0, last_x, nc. reflexivity.
      - unfold vmul, physX. f_equal.
        rewrite <- (child_is c HN Hc t Ht k s b He).
        assert (Hij : (i * (deg + 1) + j - 1 < nc c)%nat).
        { rewrite nc_is. apply andb_false_iff in E. rewrite !Nat.eqb_neq in E. nia. }
        unfold ik. rewrite vslice_vertcat; [|rewrite map_length, seq_length; exact Hij|exact Ha].
        rewrite nth_map_seq by exact Hij. reflexivity.
    Qed.

    Lemma zs_phys i j : (i < ni)%nat -> (j <= deg)%nat ->
      agree nz (vmul (zs L xk0 zk i j) (sz c)) (collz c pt deg k s b i j).
    Proof.
      intros Hi Hj a Ha. unfold zs, slot_or_zero, slot_val. rewrite (proj2 (HL i j Hi Hj)).
      unfold lz_spec, collz, vmul, physZ. f_equal.
      rewrite <- (child_is c HN Hc t Ht k s b He).
      assert (Hij : (i * (deg + 1) + j < n_zpts c)%nat).
      { unfold n_zpts. rewrite nc_is. nia. }
      unfold zk. rewrite vslice_vertcat; [|rewrite map_length, seq_length; exact Hij|exact Ha].
      rewrite nth_map_seq by exact Hij. reflexivity.
    Qed.

    Lemma xf_phys a : (a < nx)%nat ->
      vslice ik (l_xf L) a * sx c a = collx c pt deg k s b ni 0 a.
    Proof.
      intros Ha. rewrite HLf. unfold collx. destruct (Nat.eqb_spec ni 0); [lia|]. cbn [andb].
      unfold physX. f_equal. rewrite <- (child_is c HN Hc t Ht k s b He).
      assert (Hij : (ni * (deg + 1) - 1 < nc c)%nat) by (rewrite nc_is; nia).
      fold nx. unfold ik. rewrite vslice_vertcat; [|rewrite map_length, seq_length; exact Hij|exact Ha].
      rewrite nth_map_seq by exact Hij. f_equal. lia.
    Qed.

    Lemma u_phys : vmul uk (su c) = physU c pt k (uidx c s).
    Proof. reflexivity. Qed.
    Lemma p_phys : p = pP par (comb c k s b).
    Proof. unfold p. rewrite (cur_is c HN Hc t Ht k s b He). reflexivity. Qed.

    Lemma alg_phys i j : (i < ni)%nat -> (j <= deg)%nat ->
      (Forall (fun v => v = 0) (gk_alg (mdl c) (sx c) (su c) (sz c) L xk0 ik uk zk tvp p vzero i j) <->
       forall a, (a < nz)%nat -> alg (mdl c) (collx c pt deg k s b i j) (physU c pt k (uidx c s))
                                   (collz c pt deg k s b i j) tvp (pP par (comb c k s b)) vzero a = 0).
    Proof.
      intros Hi Hj. unfold gk_alg. rewrite rows_zero. unfold alg_scaled. rewrite u_phys, p_phys.
      destruct (Hwf _ _ (physU c pt k (uidx c s)) _ _ tvp (pP par (comb c k s b)) vzero
                  (xs_phys i j Hi Hj) (zs_phys i j Hi Hj)) as [_ HA].
      split; intros H a Ha; specialize (H a Ha); specialize (HA a Ha); congruence.
    Qed.

    Lemma sum_phys (w : nat -> R) i a : (i < ni)%nat -> (a < nx)%nat ->
      rsum (map (fun r => w r * xs L xk0 ik i r a) (seq 0 (deg+1))) * sx c a
      = rsum (map (fun r => w r * collx c pt deg k s b i r a) (seq 0 (deg+1))).
    Proof.
      intros Hi Ha. rewrite rsum_scal. apply rsum_ext. intros r Hr. apply in_seq in Hr.
      rewrite <- (xs_phys i r Hi ltac:(lia) a Ha). unfold vmul. ring.
    Qed.

    Lemma coll_phys i j : (i < ni)%nat -> (j <= deg)%nat ->
      (Forall (fun v => v = 0) (gk_coll (mdl c) (sx c) (su c) (sz c) deg h C L xk0 ik uk zk tvp p vzero i j) <->
       forall a, (a < nx)%nat ->
         h * rhs (mdl c) (collx c pt deg k s b i j) (physU c pt k (uidx c s))
               (collz c pt deg k s b i j) tvp (pP par (comb c k s b)) vzero a
         = rsum (map (fun r => C r j * collx c pt deg k s b i r a) (seq 0 (deg+1)))).
    Proof.
      intros Hi Hj. unfold gk_coll. rewrite rows_zero. fold nx.
      destruct (Hwf _ _ (physU c pt k (uidx c s)) _ _ tvp (pP par (comb c k s b)) vzero
                  (xs_phys i j Hi Hj) (zs_phys i j Hi Hj)) as [HR _].
      change (agree nx) with (agree (n_x (mdl c))) in *.
      assert (Heq : forall a, (a < nx)%nat ->
        (h * rhs_scaled (mdl c) (sx c) (su c) (sz c) (xs L xk0 ik i j) uk (zs L xk0 zk i j) tvp p vzero a
         - rsum (map (fun r => C r j * xs L xk0 ik i r a) (seq 0 (deg+1))) = 0 <->
         h * rhs (mdl c) (collx c pt deg k s b i j) (physU c pt k (uidx c s))
               (collz c pt deg k s b i j) tvp (pP par (comb c k s b)) vzero a
         = rsum (map (fun r => C r j * collx c pt deg k s b i r a) (seq 0 (deg+1))))).
      { intros a Ha. rewrite <- (sum_phys (fun r => C r j) i a Hi Ha). rewrite <- (HR a Ha).
        unfold rhs_scaled. rewrite u_phys, p_phys. unfold vdiv.
        pose proof (Hs a Ha) as Hsa. set (f := rhs _ _ _ _ _ _ _ a). set (S := rsum _). clearbody f S.
        split; intros E.
        - replace S with (h * (f / sx c a)) by lra. field. exact Hsa.
        - replace (h * (f / sx c a)) with (h * f / sx c a) by (unfold Rdiv; ring).
          rewrite E. field. exact Hsa. }
      split; intros H a Ha; apply Heq; auto.
    Qed.

    Lemma cont_phys i : (i < ni)%nat ->
      (Forall (fun v => v = 0) (gk_cont (mdl c) deg ni D L xk0 ik i) <->
       forall a, (a < nx)%nat ->
         collx c pt deg k s b (i+1) 0 a = rsum (map (fun r => D r * collx c pt deg k s b i r a) (seq 0 (deg+1)))).
    Proof.
      intros Hi. unfold gk_cont. rewrite rows_zero. fold nx.
      assert (Heq : forall a, (a < nx)%nat ->
        ((if (i + 1 <? ni)%nat then xs L xk0 ik (i+1) 0 a else vslice ik (l_xf L) a)
         - rsum (map (fun r => D r * xs L xk0 ik i r a) (seq 0 (deg+1))) = 0 <->
         collx c pt deg k s b (i+1) 0 a = rsum (map (fun r => D r * collx c pt deg k s b i r a) (seq 0 (deg+1))))).
      { intros a Ha. rewrite <- (sum_phys D i a Hi Ha).
        assert (X : (if (i + 1 <? ni)%nat then xs L xk0 ik (i+1) 0 a else vslice ik (l_xf L) a) * sx c a
                    = collx c pt deg k s b (i+1) 0 a).
        { destruct (Nat.ltb_spec (i+1) ni).
          - apply (xs_phys (i+1) 0); [assumption|lia|assumption].
          - replace (i+1)%nat with ni by lia. apply xf_phys. exact Ha. }
        rewrite <- X. pose proof (Hs a Ha) as Hsa.
        set (P := if (i + 1 <? ni)%nat then _ else _). set (S := rsum _). clearbody P S. split; intros E.
        - replace P with S by lra. reflexivity.
        - apply Rmult_eq_reg_r in E; [lra|exact Hsa]. }
      split; intros H a Ha; apply Heq; auto.
    Qed.

    Lemma gk_sat :
      Forall (fun v => v = 0) (gk (mdl c) (sx c) (su c) (sz c) deg ni h C D L xk0 ik uk zk tvp p vzero) <->
      ((forall i j a, (i < ni)%nat -> (j <= deg)%nat -> (a < nz)%nat ->
         alg (mdl c) (collx c pt deg k s b i j) (physU c pt k (uidx c s)) (collz c pt deg k s b i j)
             tvp (pP par (comb c k s b)) vzero a = 0) /\
      (forall i j a, (i < ni)%nat -> (1 <= j <= deg)%nat -> (a < nx)%nat ->
         h * rhs (mdl c) (collx c pt deg k s b i j) (physU c pt k (uidx c s)) (collz c pt deg k s b i j)
                tvp (pP par (comb c k s b)) vzero a
         = rsum (map (fun r => C r j * collx c pt deg k s b i r a) (seq 0 (deg+1)))) /\
      (forall i a, (i < ni)%nat -> (a < nx)%nat ->
         collx c pt deg k s b (i+1) 0 a = rsum (map (fun r => D r * collx c pt deg k s b i r a) (seq 0 (deg+1))))).
    Proof.
      unfold gk. rewrite Forall_fm_seq.
      assert (HE : forall i, (i < ni)%nat ->
        (Forall (fun v => v = 0) (gk_element (mdl c) (sx c) (su c) (sz c) deg ni h C D L xk0 ik uk zk tvp p vzero i) <->
         (forall j, (j <= deg)%nat -> Forall (fun v => v = 0) (gk_alg (mdl c) (sx c) (su c) (sz c) L xk0 ik uk zk tvp p vzero i j)) /\
         (forall j, (1 <= j <= deg)%nat -> Forall (fun v => v = 0) (gk_coll (mdl c) (sx c) (su c) (sz c) deg h C L xk0 ik uk zk tvp p vzero i j)) /\
         Forall (fun v => v = 0) (gk_cont (mdl c) deg ni D L xk0 ik i))).
      { intros i Hi. unfold gk_element. rewrite !Forall_app, Forall_fm_seq. split.
        - intros (H0 & H1 & H2). split; [|split; [|exact H2]].
          + intros j Hj. destruct j as [|j]; [exact H0|].
            specialize (H1 (S j)). rewrite Forall_app in H1. apply H1. lia.
          + intros j Hj. specialize (H1 j). rewrite Forall_app in H1. apply H1. lia.
        - intros (H0 & H1 & H2). split; [apply H0; lia|]. split; [|exact H2].
          intros j Hj. rewrite Forall_app. split; [apply H1|apply H0]; lia. }
      split.
      - intros H. split; [|split].
        + intros i j a Hi Hj Ha. specialize (H i).
          apply (HE i Hi) in H; [|lia]. destruct H as (HA & _ & _).
          apply (proj1 (alg_phys i j Hi Hj) (HA j Hj)). exact Ha.
        + intros i j a Hi Hj Ha. specialize (H i).
          apply (HE i Hi) in H; [|lia]. destruct H as (_ & HA & _).
          apply (proj1 (coll_phys i j Hi ltac:(lia)) (HA j Hj)). exact Ha.
        + intros i a Hi Ha. specialize (H i).
          apply (HE i Hi) in H; [|lia]. destruct H as (_ & _ & HA).
          apply (proj1 (cont_phys i Hi) HA). exact Ha.
      - intros (H1 & H2 & H3) i Hin. assert (Hi : (i < ni)%nat) by lia.
        apply (HE i Hi). split; [|split].
        + intros j Hj. apply alg_phys; auto.
        + intros j Hj. apply coll_phys; auto. lia.
        + apply cont_phys; auto.
    Qed.

    Lemma gk_length :
      List.length (gk (mdl c) (sx c) (su c) (sz c) deg ni h C D L xk0 ik uk zk tvp p vzero)
      = (ni * (deg+1) * nx + ni * (deg+1) * nz)%nat.
    Proof.
      unfold gk. assert (Hl : forall l, List.length (flat_map (gk_element (mdl c) (sx c) (su c) (sz c) deg ni h C D L xk0 ik uk zk tvp p vzero) l)
         = (List.length l * ((deg+1) * nx + (deg+1) * nz))%nat).
      { induction l as [|i l IH]; [reflexivity|]. cbn [flat_map List.length]. rewrite app_length, IH.
        unfold gk_element. rewrite !app_length.
        assert (X : forall l', List.length (flat_map (fun j => gk_coll (mdl c) (sx c) (su c) (sz c) deg h C L xk0 ik uk zk tvp p vzero i j
             ++ gk_alg (mdl c) (sx c) (su c) (sz c) L xk0 ik uk zk tvp p vzero i j) l') = (List.length l' * (nx + nz))%nat).
        { induction l' as [|j l' IH']; [reflexivity|]. cbn [flat_map List.length]. rewrite !app_length, IH'.
          unfold gk_coll, gk_alg. rewrite !rows_length. fold nx nz. lia. }
        rewrite X, seq_length. unfold gk_alg, gk_cont. rewrite !rows_length. fold nx nz. nia. }
      rewrite Hl, seq_length. nia.
    Qed.
  End CollEdge.

  (** number of equations produced by one model step *)
  Definition eqs_per_step : nat :=
    match disc c with
    | Discrete => n_z (mdl c)
    | Colloc deg ni _ _ _ => (ni * (deg+1) * n_x (mdl c) + ni * (deg+1) * n_z (mdl c))%nat
    end.

  Lemma step_sat k s b : is_edge c k s b ->
    exists g xf, step_fun c t par pt k s b = Ok (g, xf) /\ List.length g = eqs_per_step /\
      ((Forall (fun v => v = 0) g /\
        forall a, (a < n_x (mdl c))%nat -> xf a - oX pt (k+1) (child t k s b) (last_x c) a = 0)
       <-> model_step c par pt k s b).
  Proof.
    intros He. unfold step_fun, ifcn, model_step, model_step_with, eqs_per_step.
    destruct (disc c) as [|deg ni h C D] eqn:Ed.
    - eexists _, _. split; [reflexivity|]. split; [apply rows_length|].
      rewrite rows_zero. unfold discrete_step, alg_scaled, rhs_scaled.
      assert (Ez : vertcat (n_z (mdl c)) (map (fun i => oZ pt k (child t k s b) i) (seq 0 (n_zpts c)))
                   = oZ pt k (childnode c k s b) 0).
      { unfold n_zpts, nc. rewrite Ed. cbn. rewrite (child_is c HN Hc t Ht k s b He). reflexivity. }
      rewrite Ez. rewrite (cur_is c HN Hc t Ht k s b He), (child_is c HN Hc t Ht k s b He).
      assert (El : last_x c = ncoll (disc c)) by reflexivity.
      unfold stateX, physX, physU, physZ, uidx. rewrite El. rewrite Ed. unfold s_u, vmul, vdiv.
      split.
      + intros [H1 H2]. split; [|exact H1]. intros a Ha.
        apply div_zero_iff; [apply Hs; exact Ha|]. apply H2. exact Ha.
      + intros [H1 H2]. split; [exact H2|]. intros a Ha.
        apply div_zero_iff; [apply Hs; exact Ha|]. apply H1. exact Ha.
    - destruct Hok as (_ & _ & _ & Hcase). rewrite Ed in Hcase. destruct Hcase as (Hni & Hdeg & Hwf).
      destruct (coll_layout_ok (n_x (mdl c)) (n_z (mdl c)) deg ni Hni) as (L & EL & HL & HLf).
      rewrite EL. cbn [bind].
      assert (Hset : forallb (fun i => forallb (fun j => slot_set (l_x L i j) && slot_set (l_z L i j))
                  (seq 0 (deg+1))) (seq 0 ni) = true).
      { apply forallb_forall. intros i Hi. apply forallb_forall. intros j Hj.
        apply in_seq in Hi, Hj. destruct (HL i j ltac:(lia) ltac:(lia)) as [-> ->].
        unfold lx_spec, lz_spec. destruct ((i =? 0) && (j =? 0))%nat; reflexivity. }
      rewrite Hset. rewrite (gk_length deg ni h C D k s b L HLf Hni). rewrite Nat.eqb_refl. cbn [py_assert bind].
      eexists _, _. split; [reflexivity|]. split; [apply (gk_length deg ni h C D k s b L HLf Hni)|].
      pose proof (gk_sat deg ni h C D Ed k s b He L HL HLf Hni Hwf) as Hgk. unfold colloc_step. rewrite Hgk. clear Hgk.
      assert (Hf : (forall a, (a < n_x (mdl c))%nat ->
             vslice (vertcat (n_x (mdl c)) (map (fun i => oX pt (k+1) (child t k s b) i) (seq 0 (nc c)))) (l_xf L) a
             - oX pt (k+1) (child t k s b) (last_x c) a = 0) <->
             (forall a, (a < n_x (mdl c))%nat -> stateX c pt (k+1) (childnode c k s b) a = collx c pt deg k s b ni 0 a)).
      { assert (Heq : forall a, (a < n_x (mdl c))%nat ->
             (vslice (vertcat (n_x (mdl c)) (map (fun i => oX pt (k+1) (child t k s b) i) (seq 0 (nc c)))) (l_xf L) a
             - oX pt (k+1) (child t k s b) (last_x c) a = 0 <->
             stateX c pt (k+1) (childnode c k s b) a = collx c pt deg k s b ni 0 a)).
        { intros a Ha. rewrite <- (xf_phys deg ni h C D Ed k s b He L HLf Hni a Ha).
          unfold stateX, physX. rewrite <- (child_is c HN Hc t Ht k s b He).
          change (ncoll (disc c)) with (last_x c). pose proof (Hs a Ha) as Hsa.
          split; intros E.
          - f_equal. lra.
          - apply Rmult_eq_reg_r in E; [lra|exact Hsa]. }
        split; intros H a Ha; apply Heq; auto. }
      rewrite Hf. tauto.
  Qed.
End Edge.
