(** * Proofs for C100. *)
From Verif Require Import Base OpcModel OpcSpec OpcProofs OpcnetModel OpcnetSpec.
Set Implicit Arguments.

Section P.
  Variables V O : Type.
  Implicit Types (w : net V O) (s : server V) (c : client V O).

  Lemma net_run_app w a b : net_run w (a ++ b) = net_run (net_run w a) b.
  Proof. unfold net_run. apply fold_left_app. Qed.
  Lemma net_run_snoc w a b : net_run w (a ++ [b]) = net_action (net_run w a) b.
  Proof. rewrite net_run_app. reflexivity. Qed.

  (** What no action changes. *)
  Lemma action_static s c fl : let r := client_action s c fl in
    c_in (snd r) = c_in c /\ c_out (snd r) = c_out c /\ c_step (snd r) = c_step c
    /\ map fst (sv_nodes (fst r)) = map fst (sv_nodes s).
  Proof.
    unfold client_action. destruct (c_pc c) as [|[|id todo] rows|[|[id v] todo]]; simpl; auto.
    - destruct (rows_array rows); simpl; auto. destruct (c_step c (c_obj c) a) as [[o' d]|]; simpl; auto.
      destruct d; simpl; auto. destruct (_ =? _)%nat; simpl; auto.
    - destruct fl; simpl; auto. destruct (find id (sv_nodes s)); simpl; auto.
    - destruct fl; simpl; auto. destruct (write_data s id [v]) as [s'|] eqn:E; simpl; auto.
      apply write_data_ok in E as (_ & E & _). auto.
  Qed.

  Lemma net_action_eq w a :
    fst (net_action w a) = fst (client_action (fst w) (snd w (fst a)) (snd a))
    /\ (snd (net_action w a) (fst a) = snd (client_action (fst w) (snd w (fst a)) (snd a)))
    /\ (forall j, j <> fst a -> snd (net_action w a) j = snd w j).
  Proof.
    unfold net_action. destruct (client_action (fst w) (snd w (fst a)) (snd a)) as [s' c'] eqn:E. simpl.
    rewrite Nat.eqb_refl. split; [reflexivity|]. split; [reflexivity|]. intros j Hj. destruct (Nat.eqb_spec j (fst a)); [contradiction|reflexivity].
  Qed.

  Lemma run_static w sched : forall j, let w' := net_run w sched in
    c_in (snd w' j) = c_in (snd w j) /\ c_out (snd w' j) = c_out (snd w j) /\ c_step (snd w' j) = c_step (snd w j)
    /\ map fst (sv_nodes (fst w')) = map fst (sv_nodes (fst w)).
  Proof.
    induction sched as [|a sched IH] using rev_ind; intros j; [simpl; auto|]. rewrite net_run_snoc. cbv zeta in *.
    destruct (net_action_eq (net_run w sched) a) as (E1 & E2 & E3). destruct (IH j) as (I1 & I2 & I3 & I4).
    destruct (action_static (fst (net_run w sched)) (snd (net_run w sched) (fst a)) (snd a)) as (S1 & S2 & S3 & S4).
    rewrite E1, S4, I4. destruct (Nat.eq_dec j (fst a)) as [->|Hne].
    - rewrite E2, S1, S2, S3. auto.
    - rewrite (E3 j Hne). auto.
  Qed.

  Lemma find_some_ids id (s s' : server V) : map fst (sv_nodes s') = map fst (sv_nodes s) -> find id (sv_nodes s) <> None -> find id (sv_nodes s') <> None.
  Proof. intros E H H'. apply H. apply find_none. apply find_none in H'. rewrite <- E. exact H'. Qed.

  Lemma sole_writer_run w sched i : sole_writer w i -> sole_writer (net_run w sched) i.
  Proof.
    intros (H1 & H2 & H3). destruct (run_static w sched i) as (_ & E2 & _ & E4). unfold sole_writer. rewrite E2.
    split; [exact H1|]. split.
    - intros id Hid. apply (find_some_ids id (fst w)); auto.
    - intros j id Hj Hid. destruct (run_static w sched j) as (_ & E & _). rewrite E. auto.
  Qed.

  (** The writes a client has left are for its own tags. *)
  Definition pc_own c : Prop := match c_pc c with PWrite todo => incl (map fst todo) (c_out c) | _ => True end.
  Lemma combine_fst_incl {A B} (a : list A) (b : list B) : incl (map fst (combine a b)) a.
  Proof. revert b. induction a as [|x a IH]; intros [|y b]; simpl; intros z Hz; try contradiction. destruct Hz as [->|Hz]; [left; reflexivity|right; apply (IH b); exact Hz]. Qed.
  Lemma action_own s c fl : pc_own c -> pc_own (snd (client_action s c fl)).
  Proof.
    unfold pc_own, client_action. destruct (c_pc c) as [|[|id todo] rows|[|[id v] todo]] eqn:Ep; simpl; auto.
    - intros _. destruct (rows_array rows); simpl; auto. destruct (c_step c (c_obj c) a) as [[o' d]|]; simpl; auto.
      destruct d; simpl; auto. destruct (_ =? _)%nat; simpl; auto. apply combine_fst_incl.
    - intros _. destruct fl; simpl; auto. destruct (find id (sv_nodes s)); simpl; auto.
    - intros H. destruct fl; simpl; auto. destruct (write_data s id [v]) as [s'|] eqn:E; simpl; auto.
      intros z Hz. apply H. right. exact Hz.
  Qed.
  Lemma run_own w sched : (forall j, pc_own (snd w j)) -> forall j, pc_own (snd (net_run w sched) j).
  Proof.
    intros H. induction sched as [|a sched IH] using rev_ind; intros j; [apply H|]. rewrite net_run_snoc.
    destruct (net_action_eq (net_run w sched) a) as (_ & E2 & E3). destruct (Nat.eq_dec j (fst a)) as [->|Hne].
    - rewrite E2. apply action_own. apply IH.
    - rewrite (E3 j Hne). apply IH.
  Qed.

  (** An action changes only tags of the client that acts. *)
  Lemma action_frame s c fl id : pc_own c -> ~ In id (c_out c) -> find id (sv_nodes (fst (client_action s c fl))) = find id (sv_nodes s).
  Proof.
    unfold pc_own, client_action. destruct (c_pc c) as [|[|id' todo] rows|[|[id' v] todo]] eqn:Ep; simpl; auto.
    - intros _ _. destruct (rows_array rows); simpl; auto. destruct (c_step c (c_obj c) a) as [[o' d]|]; simpl; auto.
      destruct d; simpl; auto. destruct (_ =? _)%nat; simpl; auto.
    - intros _ _. destruct fl; simpl; auto. destruct (find id' (sv_nodes s)); simpl; auto.
    - intros H Hn. destruct fl; simpl; auto. destruct (write_data s id' [v]) as [s'|] eqn:E; simpl; auto.
      apply write_data_ok in E as (_ & _ & _ & E). rewrite E. destruct (nodeid_eqb id id') eqn:Ee; auto.
      apply nodeid_eqb_eq in Ee. subst. exfalso. apply Hn. apply H. left. reflexivity.
  Qed.

  (** The tags of the sole writer keep their values while others act. *)
  Lemma others_frame w a i id : sole_writer w i -> (forall j, pc_own (snd w j)) -> fst a <> i -> In id (c_out (snd w i)) ->
    find id (sv_nodes (fst (net_action w a))) = find id (sv_nodes (fst w)).
  Proof.
    intros (_ & _ & H3) Ho Ha Hid. destruct (net_action_eq w a) as (E1 & _ & _). rewrite E1. apply action_frame; [apply Ho|]. apply (H3 (fst a) id); auto.
  Qed.

  Lemma fresh_own w : fresh w -> forall j, pc_own (snd w j).
  Proof. intros H j. unfold pc_own. rewrite (proj1 (H j)). exact I. Qed.

  (** ** Outputs with failures: an earlier tag is at least as new as a later one. *)
  Definition from_step (s0 s : server V) (c : client V O) (k m : nat) (id : nodeid) : Prop :=
    match m with
    | 0 => find id (sv_nodes s) = find id (sv_nodes s0)
    | S q => exists input l v, nth_error (c_rec c) q = Some (input, WArr l) /\ nth_error l k = Some v /\ find id (sv_nodes s) = Some [v]
    end.
  Record torn (s0 s : server V) (c : client V O) (m : nat -> nat) : Prop := {
    t_mono : forall k k', k <= k' -> m k' <= m k;
    t_le : forall k, m k <= List.length (c_rec c);
    t_val : forall k id, nth_error (c_out c) k = Some id -> from_step s0 s c k (m k) id;
    t_pc : match c_pc c with
           | PWrite todo => exists K pre input l, c_rec c = pre ++ [(input, WArr l)] /\ List.length l = List.length (c_out c)
                              /\ todo = skipn K (combine (c_out c) l) /\ forall k, k < K -> m k = List.length (c_rec c)
           | _ => True
           end
  }.

  Lemma from_step_same s0 s s' c k m id : find id (sv_nodes s') = find id (sv_nodes s) -> from_step s0 s c k m id -> from_step s0 s' c k m id.
  Proof. unfold from_step. intros ->. auto. Qed.

  Lemma nth_error_skipn {A} K : forall (l : list A) x t, skipn K l = x :: t -> nth_error l K = Some x /\ t = skipn (S K) l.
  Proof.
    induction K as [|K IH]; intros [|y l] x t H; simpl in *; try discriminate.
    - injection H as <- <-. auto.
    - destruct (IH _ _ _ H) as [-> ->]. split; [reflexivity|]. destruct l; reflexivity.
  Qed.
  Lemma nth_error_combine_ {A B} (a : list A) : forall (b : list B) K x y, nth_error (combine a b) K = Some (x, y) -> nth_error a K = Some x /\ nth_error b K = Some y.
  Proof. induction a as [|z a IH]; intros [|u b] [|K] x y H; simpl in *; try discriminate; [injection H as -> ->; auto|apply IH; exact H]. Qed.

  Lemma nodup_nth {A} (l : list A) k k' x : NoDup l -> nth_error l k = Some x -> nth_error l k' = Some x -> k = k'.
  Proof. intros Hn H H'. apply (proj1 (NoDup_nth_error l) Hn); [apply nth_error_Some; congruence|congruence]. Qed.

  Lemma torn_goto s0 s c m p : (match p with PWrite _ => False | _ => True end) -> torn s0 s c m -> torn s0 s (goto c p) m.
  Proof. intros Hp [T1 T2 T3 T4]. constructor; simpl; auto. destruct p; auto. contradiction. Qed.

  Lemma torn_action s0 s c fl m : NoDup (c_out c) -> torn s0 s c m ->
    exists m', torn s0 (fst (client_action s c fl)) (snd (client_action s c fl)) m'.
  Proof.
    intros Hnd T. unfold client_action. destruct (c_pc c) as [|[|id todo] rows|[|[id v] todo]] eqn:Ep; simpl.
    - exists m. apply torn_goto; [exact I|exact T].
    - destruct (rows_array rows) as [input|]; [|exists m; apply torn_goto; [exact I|exact T]].
      destruct (c_step c (c_obj c) input) as [[o' d]|]; [|exists m; apply torn_goto; [exact I|exact T]].
      assert (Hold : forall p, (match p with PWrite _ => False | _ => True end) -> torn s0 s (mkClient (c_in c) (c_out c) (c_step c) o' (c_rec c ++ [(input, d)]) p) m).
      { intros p Hp. destruct T as [T1 T2 T3 T4]. constructor; simpl; auto.
        - intros k. rewrite app_length. specialize (T2 k). lia.
        - intros k id Hk. specialize (T3 k id Hk). unfold from_step in *. destruct (m k) as [|q] eqn:Em; [exact T3|].
          destruct T3 as (i0 & l & v & E & E2 & E3). exists i0, l, v. simpl. split; [|auto]. rewrite nth_error_app1; [exact E|]. apply nth_error_Some. congruence.
        - destruct p; auto. contradiction. }
      destruct d as [l|]; [|exists m; apply Hold; exact I].
      destruct (Nat.eqb_spec (List.length l) (List.length (c_out c))) as [Hl|]; [|exists m; apply Hold; exact I].
      exists m. destruct (Hold (PIdle V) I) as [T1 T2 T3 _]. constructor; auto. simpl. exists 0, (c_rec c), input, l. split; [reflexivity|]. split; [exact Hl|]. split; [reflexivity|]. intros; lia.
    - destruct fl; [exists m; apply torn_goto; [exact I|exact T]|]. destruct (find id (sv_nodes s)); exists m; apply torn_goto; try exact I; exact T.
    - exists m. apply torn_goto; [exact I|exact T].
    - destruct fl; [exists m; apply torn_goto; [exact I|exact T]|]. destruct (write_data s id [v]) as [s'|] eqn:Ew; [|exists m; apply torn_goto; [exact I|exact T]].
      apply write_data_ok in Ew as (_ & _ & _ & Ew). destruct T as [T1 T2 T3 T4]. rewrite Ep in T4. destruct T4 as (K & pre & input & l & Er & Hl & Et & Hm).
      symmetry in Et. apply nth_error_skipn in Et as [Ht Et]. apply nth_error_combine_ in Ht as [HtK HvK].
      exists (fun k => if k <=? K then List.length (c_rec c) else m k). constructor; simpl.
      + intros k k' Hk. destruct (Nat.leb_spec k K), (Nat.leb_spec k' K); auto; try lia.
      + intros k. destruct (Nat.leb_spec k K); auto.
      + intros k id' Hk. destruct (Nat.leb_spec k K) as [HkK|HkK].
        * rewrite Er, app_length. simpl. rewrite Nat.add_1_r. simpl. exists input, l.
          destruct (Nat.eq_dec k K) as [->|Hne].
          -- exists v. rewrite Er, nth_error_app2, Nat.sub_diag by lia. split; [reflexivity|]. split; [exact HvK|]. rewrite Ew.
             replace id' with id by congruence. rewrite nodeid_eqb_refl. reflexivity.
          -- specialize (T3 k id' Hk). rewrite (Hm k) in T3 by lia. rewrite Er, app_length in T3. simpl in T3. rewrite Nat.add_1_r in T3. simpl in T3.
             destruct T3 as (i0 & l0 & v0 & E & E2 & E3). rewrite Er, nth_error_app2, Nat.sub_diag in E by lia. simpl in E. injection E as <- <-.
             exists v0. rewrite Er, nth_error_app2, Nat.sub_diag by lia. split; [reflexivity|]. split; [exact E2|]. rewrite Ew.
             rewrite nodeid_eqb_ne; [exact E3|]. intros ->. apply Hne. apply (nodup_nth k K Hnd Hk HtK).
        * apply (from_step_same s0 s); [|apply (T3 k id' Hk)]. rewrite Ew, nodeid_eqb_ne; [reflexivity|]. intros ->.
          assert (k = K) by apply (nodup_nth k K Hnd Hk HtK). lia.
      + exists (S K), pre, input, l. split; [exact Er|]. split; [exact Hl|]. split; [exact Et|]. intros k Hk. destruct (Nat.leb_spec k K); [reflexivity|lia].
  Qed.

  Lemma torn_run w sched i : fresh w -> sole_writer w i ->
    exists m, torn (fst w) (fst (net_run w sched)) (snd (net_run w sched) i) m.
  Proof.
    intros Hf Hs. induction sched as [|a sched (m & IH)] using rev_ind.
    - exists (fun _ => 0). destruct (Hf i) as [Hp Hr]. constructor; simpl; auto; try lia. rewrite Hp. exact I.
    - rewrite net_run_snoc. destruct (net_action_eq (net_run w sched) a) as (E1 & E2 & E3).
      pose proof (sole_writer_run sched Hs) as Hs'. destruct (Nat.eq_dec (fst a) i) as [Ea|Hne].
      + subst i. rewrite E1, E2. apply (torn_action (snd a)) with (m := m); [apply Hs'|exact IH].
      + rewrite (E3 i) by auto. exists m. destruct IH as [T1 T2 T3 T4]. constructor; auto.
        intros k id Hk. apply (from_step_same (fst w) (fst (net_run w sched))); [|apply T3; exact Hk].
        apply (@others_frame _ a i); auto; [apply run_own; apply fresh_own; exact Hf|]. apply nth_error_In in Hk. exact Hk.
  Qed.

  (** ** Outputs without failures of the client itself. *)
  Record pub (s : server V) (c : client V O) : Prop := {
    p_size : forall input d, In (input, d) (c_rec c) -> exists l, d = WArr l /\ List.length l = List.length (c_out c);
    p_pc : match c_pc c with
           | PWrite todo => exists K pre input l, c_rec c = pre ++ [(input, WArr l)] /\ List.length l = List.length (c_out c)
                              /\ todo = skipn K (combine (c_out c) l)
                              /\ forall k id v, k < K -> nth_error (c_out c) k = Some id -> nth_error l k = Some v -> find id (sv_nodes s) = Some [v]
           | _ => forall pre input l, c_rec c = pre ++ [(input, WArr l)] -> holds s (c_out c) l
           end
  }.

  Lemma pub_action s c : NoDup (c_out c) -> right_size c -> (forall id, In id (c_out c) -> find id (sv_nodes s) <> None) ->
    pub s c -> pub (fst (client_action s c false)) (snd (client_action s c false)).
  Proof.
    intros Hnd Hrs Hex [P1 P2]. unfold client_action. destruct (c_pc c) as [|[|id todo] rows|[|[id v] todo]] eqn:Ep; simpl.
    - constructor; simpl; auto.
    - destruct (rows_array rows) as [input|]; [|constructor; simpl; auto].
      destruct (c_step c (c_obj c) input) as [[o' d]|] eqn:Ec; [|constructor; simpl; auto].
      destruct (Hrs _ _ _ _ Ec) as (l & -> & Hl). rewrite Hl, Nat.eqb_refl. constructor; simpl.
      + intros i0 d H. apply in_app_or in H as [H|[H|[]]]; [apply (P1 _ _ H)|]. injection H as <- <-. eauto.
      + exists 0, (c_rec c), input, l. split; [reflexivity|]. split; [exact Hl|]. split; [reflexivity|]. intros; lia.
    - destruct (find id (sv_nodes s)); constructor; simpl; auto.
    - constructor; simpl; auto. destruct P2 as (K & pre & input & l & Er & Hl & Et & Hk).
      intros pre' input' l' E. rewrite Er in E. apply app_inj_tail in E as [_ E]. injection E as <- <-. split; [exact Hl|].
      intros k id v Hi Hv. apply (Hk k id v); auto.
      assert (HK : List.length (c_out c) <= K); [|apply nth_error_Some in Hv || idtac; assert (k < List.length (c_out c)) by (apply nth_error_Some; congruence); lia].
      assert (E : List.length (skipn K (combine (c_out c) l)) = 0) by (rewrite <- Et; reflexivity).
      rewrite skipn_length, combine_length in E. lia.
    - destruct P2 as (K & pre & input & l & Er & Hl & Et & Hk). symmetry in Et. apply nth_error_skipn in Et as [Ht Et]. apply nth_error_combine_ in Ht as [HtK HvK].
      destruct (write_data s id [v]) as [s'|] eqn:Ew.
      2:{ exfalso. apply (Hex id); [apply nth_error_In in HtK; exact HtK|]. unfold write_data in Ew. destruct (find id (sv_nodes s)); [discriminate|reflexivity]. }
      apply write_data_ok in Ew as (_ & _ & _ & Ew). constructor; simpl; auto.
      exists (S K), pre, input, l. split; [exact Er|]. split; [exact Hl|]. split; [exact Et|]. intros k id' v' Hlt Hi Hv. rewrite Ew.
      destruct (Nat.eq_dec k K) as [->|Hne].
      + replace id' with id by congruence. rewrite nodeid_eqb_refl. congruence.
      + rewrite nodeid_eqb_ne; [apply (Hk k id' v'); auto; lia|]. intros ->. apply Hne. apply (nodup_nth k K Hnd Hi HtK).
  Qed.

  Lemma pub_run w sched i : fresh w -> sole_writer w i -> right_size (snd w i) -> no_failure i sched ->
    pub (fst (net_run w sched)) (snd (net_run w sched) i).
  Proof.
    intros Hf Hs Hr. induction sched as [|a sched IH] using rev_ind; intros Hn.
    - destruct (Hf i) as [Hp Hrec]. constructor; simpl; rewrite Hrec; [intros ? ? []|]. rewrite Hp. intros [|? ?] ? ? E; discriminate E.
    - assert (Hn' : no_failure i sched) by (intros H; apply Hn; apply in_or_app; left; exact H). specialize (IH Hn').
      rewrite net_run_snoc. destruct (net_action_eq (net_run w sched) a) as (E1 & E2 & E3). pose proof (sole_writer_run sched Hs) as Hs'.
      destruct (Nat.eq_dec (fst a) i) as [Ea|Hne].
      + subst i. assert (Hfl : snd a = false).
        { destruct (snd a) eqn:E; [|reflexivity]. exfalso. apply Hn. apply in_or_app. right. left. destruct a; simpl in *; subst; reflexivity. }
        rewrite E1, E2, Hfl. apply pub_action; [apply Hs'| |apply Hs'|exact IH].
        destruct (run_static w sched (fst a)) as (_ & Eo & Es & _). unfold right_size. rewrite Eo, Es. exact Hr.
      + rewrite (E3 i) by auto. destruct IH as [P1 P2]. constructor; auto.
        assert (Hfr : forall id, In id (c_out (snd (net_run w sched) i)) -> find id (sv_nodes (fst (net_action (net_run w sched) a))) = find id (sv_nodes (fst (net_run w sched)))).
        { intros id Hid. apply (@others_frame _ a i); auto. apply run_own; apply fresh_own; exact Hf. }
        destruct (c_pc (snd (net_run w sched) i)).
        * intros pre input l E. destruct (P2 _ _ _ E) as [Hl Hv]. split; [exact Hl|]. intros k id v Hi Hk. rewrite Hfr; [apply (Hv k id v); auto|apply nth_error_In in Hi; exact Hi].
        * intros pre input l E. destruct (P2 _ _ _ E) as [Hl Hv]. split; [exact Hl|]. intros k id v Hi Hk. rewrite Hfr; [apply (Hv k id v); auto|apply nth_error_In in Hi; exact Hi].
        * destruct P2 as (K & pre & input & l & Er & Hl & Et & Hk). exists K, pre, input, l. split; [exact Er|]. split; [exact Hl|]. split; [exact Et|].
          intros k id v Hlt Hi Hv. rewrite Hfr; [apply (Hk k id v); auto|apply nth_error_In in Hi; exact Hi].
  Qed.

  (** ** Inputs. *)
  Lemma ascending_snoc lo ns n : ascending lo ns -> lo <= n -> (forall x, In x ns -> x <= n) -> ascending lo (ns ++ [n]).
  Proof. revert lo. induction ns as [|y ns IH]; simpl; intros lo H Hl Hx; [auto|]. destruct H. split; [assumption|]. apply IH; auto. Qed.
  Lemma row_at_more w sched e n id r : row_at w sched n id r -> row_at w (sched ++ [e]) n id r.
  Proof.
    intros [H1 H2]. split; [rewrite app_length; lia|]. rewrite firstn_app. replace (n - List.length sched) with 0 by lia. simpl. rewrite app_nil_r. exact H2.
  Qed.
  Lemma were_there_more w sched e tags rows : were_there w sched tags rows -> were_there w (sched ++ [e]) tags rows.
  Proof. intros (ns & H1 & H2 & H3 & H4). exists ns. split; [exact H1|]. split; [exact H2|]. split; [exact H3|]. intros. apply row_at_more. eauto. Qed.

  Record seen (w : net V O) (sched : list (nat * bool)) (c : client V O) : Prop := {
    s_rec : forall input d, In (input, d) (c_rec c) -> exists rows, were_there w sched (c_in c) rows /\ input = List.concat rows;
    s_pc : match c_pc c with PRead todo rows => exists don, c_in c = don ++ todo /\ were_there w sched don rows | _ => True end
  }.
  Lemma seen_run w sched i : fresh w -> seen w sched (snd (net_run w sched) i).
  Proof.
    intros Hf. induction sched as [|a sched IH] using rev_ind.
    - destruct (Hf i) as [Hp Hr]. constructor; simpl; [rewrite Hr; intros ? ? []|rewrite Hp; exact I].
    - rewrite net_run_snoc. destruct (net_action_eq (net_run w sched) a) as (E1 & E2 & E3).
      assert (Hold : forall input d, In (input, d) (c_rec (snd (net_run w sched) i)) -> exists rows, were_there w (sched ++ [a]) (c_in (snd (net_run w sched) i)) rows /\ input = List.concat rows).
      { intros input d H. destruct IH as [S1 _]. destruct (S1 _ _ H) as (rows & Hw & E). exists rows. split; [apply were_there_more; exact Hw|exact E]. }
      destruct (Nat.eq_dec (fst a) i) as [Ea|Hne].
      2:{ rewrite (E3 i) by auto. destruct IH as [S1 S2]. constructor; [exact Hold|]. destruct (c_pc (snd (net_run w sched) i)); auto.
          destruct S2 as (don & Ed & Hw). exists don. split; [exact Ed|]. apply were_there_more. exact Hw. }
      subst i. rewrite E2. destruct IH as [_ S2]. set (c := snd (net_run w sched) (fst a)) in *. set (s := fst (net_run w sched)) in *.
      unfold client_action. destruct (c_pc c) as [|[|id todo] rows|[|[id v] todo]] eqn:Ep; simpl.
      + constructor; simpl; [exact Hold|]. exists []. split; [reflexivity|]. exists []. simpl. split; [exact I|]. split; [reflexivity|]. split; [reflexivity|]. intros [|k] n id r E; discriminate E.
      + destruct (rows_array rows) as [input|] eqn:Er; [|constructor; simpl; [exact Hold|exact I]].
        destruct (c_step c (c_obj c) input) as [[o' d]|]; [|constructor; simpl; [exact Hold|exact I]].
        assert (Hnew : forall i0 d0, In (i0, d0) (c_rec c ++ [(input, d)]) -> exists rows, were_there w (sched ++ [a]) (c_in c) rows /\ i0 = List.concat rows).
        { intros i0 d0 H. apply in_app_or in H as [H|[H|[]]]; [apply (Hold _ _ H)|]. injection H as <- <-. exists rows.
          destruct S2 as (don & Ed & Hw). rewrite app_nil_r in Ed. subst don. split; [apply were_there_more; exact Hw|].
          unfold rows_array in Er. destruct rows as [|r t]; [injection Er as <-; reflexivity|]. destruct (forallb _ _); [|discriminate]. injection Er as <-. reflexivity. }
        destruct d as [l|]; [destruct (_ =? _)%nat|]; constructor; simpl; auto.
      + destruct (snd a); [constructor; simpl; [exact Hold|exact I]|]. destruct (find id (sv_nodes s)) as [r|] eqn:Ef; [|constructor; simpl; [exact Hold|exact I]].
        constructor; simpl; [exact Hold|]. destruct S2 as (don & Ed & (ns & A1 & A2 & A3 & A4)). exists (don ++ [id]). split; [rewrite <- app_assoc; exact Ed|].
        exists (ns ++ [List.length sched]). split; [|split; [|split]].
        * apply ascending_snoc; [exact A1|lia|]. intros x Hx. apply In_nth_error in Hx as (k & Hk).
          destruct (nth_error don k) as [id'|] eqn:E'; [destruct (nth_error rows k) as [r'|] eqn:E''|].
          -- apply (A4 k x id' r' Hk E' E'').
          -- apply nth_error_None in E''. assert (k < List.length ns) by (apply nth_error_Some; congruence). lia.
          -- apply nth_error_None in E'. assert (k < List.length ns) by (apply nth_error_Some; congruence). lia.
        * rewrite !app_length. simpl. lia.
        * rewrite !app_length. simpl. lia.
        * intros k n id' r' H1 H2 H3. destruct (Nat.lt_ge_cases k (List.length rows)) as [Hk|Hk].
          -- rewrite nth_error_app1 in H1, H2, H3 by lia. apply row_at_more. apply (A4 k n id' r'); auto.
          -- assert (k = List.length rows). { assert (Hlt : k < List.length (rows ++ [r])) by (apply nth_error_Some; congruence). rewrite app_length in Hlt. simpl in Hlt. lia. }
             subst k. rewrite nth_error_app2 in H1, H2, H3 by lia. rewrite A2, Nat.sub_diag in H1. rewrite A3, Nat.sub_diag in H2. rewrite Nat.sub_diag in H3.
             simpl in *. injection H1 as <-. injection H2 as <-. injection H3 as <-. apply row_at_more. split; [lia|]. rewrite firstn_all. exact Ef.
      + constructor; simpl; [exact Hold|exact I].
      + destruct (snd a); [constructor; simpl; [exact Hold|exact I]|]. destruct (write_data s id [v]); constructor; simpl; auto.
  Qed.
End P.
