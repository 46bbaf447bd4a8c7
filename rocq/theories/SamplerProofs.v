(** * Lemmas on the sampler: file names, and an invariant of any number of interleaved processes. *)
From Verif Require Import Base DataModel DataProofs SaveProofs SamplingModel SamplingSpec SamplingProofs.
From Coq Require Import Ascii.
Import List.

(** ** file names *)
Lemma prefix_app_pkl s : s <> EmptyString -> prefix ".pkl" (s ++ ".pkl") = true -> exists r, s = (".pkl" ++ r)%string.
Proof.
  intros Hs H. destruct s as [|a s]; [congruence|]. cbn [append prefix] in H.
  destruct (ascii_dec "." a) as [<-|]; [|discriminate].
  destruct s as [|b s]; cbn [append prefix] in H.
  { destruct (ascii_dec "p" "."); discriminate. }
  destruct (ascii_dec "p" b) as [<-|]; [|discriminate].
  destruct s as [|c s]; cbn [append prefix] in H.
  { destruct (ascii_dec "k" "."); discriminate. }
  destruct (ascii_dec "k" c) as [<-|]; [|discriminate].
  destruct s as [|d s]; cbn [append prefix] in H.
  { destruct (ascii_dec "l" "."); discriminate. }
  destruct (ascii_dec "l" d) as [<-|]; [|discriminate].
  exists s. reflexivity.
Qed.

Lemma strip_pkl_id s : ~ contains_pkl s -> strip_pkl 0 (s ++ ".pkl") = s.
Proof.
  induction s as [|a s IH]; intros H; [reflexivity|].
  change (String a s ++ ".pkl")%string with (String a (s ++ ".pkl")). cbn [strip_pkl].
  destruct (prefix ".pkl" (String a (s ++ ".pkl"))) eqn:E.
  - exfalso. change (String a (s ++ ".pkl")) with (String a s ++ ".pkl")%string in E.
    apply prefix_app_pkl in E; [|discriminate]. destruct E as [r E]. apply H. exists EmptyString, r. exact E.
  - f_equal. apply IH. intros (x & y & E'). apply H. exists (String a x), y. rewrite E'. reflexivity.
Qed.

Lemma string_app_assoc a b c : ((a ++ b) ++ c = a ++ (b ++ c))%string.
Proof. induction a; simpl; congruence. Qed.

(** ** update_nth *)
Section Upd.
  Context {A : Type}.
  Lemma update_nth_in (l : list A) k p' q : In q (update_nth k p' l) -> q = p' \/ In q l.
  Proof.
    revert k; induction l as [|a l IH]; intros [|k]; simpl; try tauto.
    - intros [<-|H]; auto.
    - intros [<-|H]; auto. apply IH in H. tauto.
  Qed.
  Lemma update_nth_keep (l : list A) k p p' q : nth_error l k = Some p -> In q l -> q = p \/ In q (update_nth k p' l).
  Proof.
    revert k; induction l as [|a l IH]; intros [|k] E H; simpl in *; try discriminate; try tauto.
    - inversion E; subst. destruct H as [->|H]; auto.
    - destruct H as [->|H]; [auto|]. destruct (IH k E H); auto.
  Qed.
  Lemma update_nth_new (l : list A) k p p' : nth_error l k = Some p -> In p' (update_nth k p' l).
  Proof. revert k; induction l as [|a l IH]; intros [|k] E; simpl in *; try discriminate; eauto. Qed.
  Lemma update_nth_length (l : list A) k p' : length (update_nth k p' l) = length l.
  Proof. revert k; induction l as [|a l IH]; intros [|k]; simpl; auto. Qed.
  Lemma update_nth_nth (l : list A) k p' j : nth_error (update_nth k p' l) j = if Nat.eqb j k then (if Nat.ltb k (length l) then Some p' else None) else nth_error l j.
  Proof.
    revert k j; induction l as [|a l IH]; intros [|k] [|j]; simpl; auto.
    - destruct (Nat.eqb j k); reflexivity.
    - rewrite IH. reflexivity.
  Qed.
End Upd.

Section S.
  Context {V R : Type}.
  Variable s : sampler V R.
  Variable f : case V -> R.
  Hypothesis G : good_sampler s f.

  (** index i has the (short) file name nm and the case c *)
  Definition names (i : nat) (c : case V) (nm : string) : Prop :=
    exists id, nth_error (sm_plan s) i = Some c /\ alookup "id" c = Some (SId id) /\ save_name s id = Ok nm.
  Definition res_of (c : case V) : content R := Whole (f (adel "id" c)).

  Lemma names_target i c nm : names i c nm -> write_target s nm = (sm_dir s ++ nm)%string.
  Proof.
    intros (id & H1 & H2 & H3). unfold write_target. unfold save_name in H3.
    destruct (sm_fmt s) eqn:Ef; inversion H3; subst; [|reflexivity].
    unfold pickle_target. rewrite <- (string_app_assoc (sm_dir s)).
    rewrite strip_pkl_id; [reflexivity|]. apply (gs_pkl s f G c id); [|exact H2]. eapply nth_error_In; eassumption.
  Qed.

  Lemma names_ex i c : nth_error (sm_plan s) i = Some c -> exists nm, names i c nm.
  Proof.
    intros H. destruct (gs_ids s f G c) as [id Hid]; [eapply nth_error_In; eassumption|].
    unfold names, save_name. pose proof (gs_fmt s f G) as F. destruct (sm_fmt s); try congruence; eauto.
  Qed.

  Lemma names_fun i c c' nm nm' : names i c nm -> names i c' nm' -> c = c' /\ nm = nm'.
  Proof.
    intros (id & H1 & H2 & H3) (id' & H1' & H2' & H3'). assert (c = c') by congruence. subst c'. split; [reflexivity|]. congruence.
  Qed.

  Lemma names_inj i j c c' nm : names i c nm -> names j c' nm -> i = j.
  Proof.
    intros (id & H1 & H2 & H3) (id' & H1' & H2' & H3'). apply (gs_inj s f G i j c c' H1 H1').
    rewrite H2, H2'. do 2 f_equal. unfold save_name in *. destruct (sm_fmt s); inversion H3; inversion H3'; subst.
    - assert (E : (sm_name s ++ "_" ++ id ++ ".pkl" = sm_name s ++ "_" ++ id' ++ ".pkl")%string).
      { rewrite <- !string_app_assoc in *. congruence. }
      apply append_inj_l, append_inj_l, append_inj_r in E. exact E.
    - assert (E : (sm_name s ++ "_" ++ id ++ ".mat" = sm_name s ++ "_" ++ id' ++ ".mat")%string).
      { rewrite <- !string_app_assoc in *. congruence. }
      apply append_inj_l, append_inj_l, append_inj_r in E. exact E.
  Qed.

  Variable fs0 : list (string * content R).
  Hypothesis clean0 : forall i c nm, names i c nm -> alookup (sm_dir s ++ nm)%string fs0 <> Some Partial.
  Variable Q0 : list Z.
  Hypothesis valid0 : forall z, In z Q0 -> (0 <= z < Z.of_nat (length (sm_plan s)))%Z.

  Notation file nm := (sm_dir s ++ nm)%string.
  (** sampling index i is (or will be) allowed to write *)
  Definition free (nm : string) : Prop := alookup (file nm) fs0 = None \/ sm_overwrite s = true.

  Definition done (fs : list (string * content R)) (i : nat) : Prop :=
    forall c nm, names i c nm -> exists x, alookup (file nm) fs = Some x /\ (free nm -> x = Partial \/ x = res_of c).

  Definition idx_of (t : task R) : option nat :=
    match t with
    | TIdle => None | TFail _ => None
    | TCall i _ => Some i | TSave i _ _ => Some i | TOpen i _ _ => Some i | TWrite i _ _ => Some i | TComp i => Some i
    end.

  Definition wf_task (fs : list (string * content R)) (t : task R) : Prop :=
    match t with
    | TIdle => True
    | TCall i nm => In (Z.of_nat i) Q0 /\ exists c, names i c nm /\ free nm
    | TSave i nm r | TOpen i nm r | TWrite i nm r => In (Z.of_nat i) Q0 /\ exists c, names i c nm /\ free nm /\ Whole r = res_of c
    | TComp i => In (Z.of_nat i) Q0 /\ done fs i
    | TFail _ => False
    end.

  Definition plan_file (g : string) : Prop := exists i c nm, names i c nm /\ g = file nm.

  Record inv (st : sys R) : Prop := {
    iv_keep : forall i c nm, names i c nm -> ~ free nm -> alookup (file nm) (sfs st) = alookup (file nm) fs0;
    iv_new : forall i c nm, names i c nm -> alookup (file nm) (sfs st) = alookup (file nm) fs0
               \/ alookup (file nm) (sfs st) = Some Partial \/ alookup (file nm) (sfs st) = Some (res_of c);
    iv_part : forall i c nm, names i c nm -> alookup (file nm) (sfs st) = Some Partial ->
               exists p r, In p (sprocs st) /\ pt p = TWrite i nm r;
    iv_frame : forall g, ~ plan_file g -> alookup g (sfs st) = alookup g fs0;
    iv_untouched : forall i c nm, names i c nm -> ~ In (Z.of_nat i) Q0 -> alookup (file nm) (sfs st) = alookup (file nm) fs0;
    iv_procs : Forall (fun p => incl (pq p) Q0 /\ wf_task (sfs st) (pt p)) (sprocs st);
    iv_cover : forall i, In (Z.of_nat i) Q0 ->
               (exists p, In p (sprocs st) /\ (In (Z.of_nat i) (pq p) \/ idx_of (pt p) = Some i)) \/ done (sfs st) i;
    iv_calls : forall i c nm, In i (scalls st) -> names i c nm -> free nm }.

  Lemma free_dec nm : {free nm} + {~ free nm}.
  Proof.
    unfold free. destruct (alookup (file nm) fs0); [|left; auto]. destruct (sm_overwrite s); [left; auto|right].
    intros [H|H]; discriminate.
  Qed.

  Lemma done_mono fs fs' i : done fs i ->
    (forall c nm, names i c nm -> alookup (file nm) fs' = alookup (file nm) fs
       \/ (free nm /\ (alookup (file nm) fs' = Some Partial \/ alookup (file nm) fs' = Some (res_of c)))) ->
    done fs' i.
  Proof.
    intros H K c nm Hn. destruct (H c nm Hn) as (x & X1 & X2). destruct (K c nm Hn) as [E|[Hf [E|E]]].
    - exists x. rewrite E. auto.
    - exists Partial. auto.
    - exists (res_of c). auto.
  Qed.

  Lemma free_amem nm : ~ free nm -> negb (amem (file nm) fs0) || sm_overwrite s = false.
  Proof.
    intros H. unfold amem. unfold free in H. destruct (alookup (file nm) fs0); [|exfalso; auto].
    destruct (sm_overwrite s); [exfalso; auto|reflexivity].
  Qed.

  (** what the existence test means under the invariant *)
  Lemma test_spec st i c nm : inv st -> names i c nm ->
    (negb (amem (file nm) (sfs st)) || sm_overwrite s = true -> free nm)
    /\ (negb (amem (file nm) (sfs st)) || sm_overwrite s = false -> done (sfs st) i).
  Proof.
    intros I Hn. split.
    - intros H. destruct (free_dec nm) as [F|F]; [exact F|]. pose proof (free_amem nm F) as X. unfold amem in *.
      rewrite (iv_keep st I i c nm Hn F) in H. congruence.
    - intros H. apply orb_false_iff in H. destruct H as [H1 H2]. apply negb_false_iff in H1. unfold amem in H1.
      intros c' nm' Hn'. destruct (names_fun _ _ _ _ _ Hn Hn') as [<- <-].
      destruct (alookup (file nm) (sfs st)) as [x|] eqn:E; [|discriminate]. exists x. split; [reflexivity|].
      intros F. destruct F as [F|F]; [|congruence].
      destruct (iv_new st I i c nm Hn) as [K|[K|K]]; [congruence|left; congruence|right; congruence].
  Qed.

  (** steps that leave the files alone *)
  Lemma quiet_step st k p p' calls :
    inv st -> nth_error (sprocs st) k = Some p ->
    (forall i nm r, pt p <> TWrite i nm r) ->
    incl (pq p') Q0 -> wf_task (sfs st) (pt p') ->
    (forall i, In (Z.of_nat i) Q0 -> In (Z.of_nat i) (pq p) \/ idx_of (pt p) = Some i ->
       In (Z.of_nat i) (pq p') \/ idx_of (pt p') = Some i \/ done (sfs st) i) ->
    (forall i c nm, In i calls -> names i c nm -> free nm) ->
    inv (mkSys (sfs st) (update_nth k p' (sprocs st)) (scalls st ++ calls)).
  Proof.
    intros I Hk Hw Hq Hwf Hcov Hc. split; simpl.
    - apply (iv_keep st I).
    - apply (iv_new st I).
    - intros i c nm Hn HP. destruct (iv_part st I i c nm Hn HP) as (q & r & Hin & Ht). exists q, r. split; [|exact Ht].
      destruct (update_nth_keep _ k p p' q Hk Hin) as [->|]; [|assumption]. exfalso. eapply Hw. exact Ht.
    - apply (iv_frame st I).
    - apply (iv_untouched st I).
    - apply Forall_forall. intros q Hin. apply update_nth_in in Hin. destruct Hin as [->|Hin]; [auto|].
      pose proof (iv_procs st I) as X. rewrite Forall_forall in X. apply X. exact Hin.
    - intros i Hi. destruct (iv_cover st I i Hi) as [(q & Hin & Hq')|D]; [|auto].
      destruct (update_nth_keep _ k p p' q Hk Hin) as [->|Hin'].
      + destruct (Hcov i Hi Hq') as [X|[X|X]]; [left|left|right; exact X]; exists p'; (split; [eapply update_nth_new; eassumption|auto]).
      + left. exists q. auto.
    - intros i c nm Hin Hn. apply in_app_iff in Hin. destruct Hin as [Hin|Hin]; [eapply (iv_calls st I); eassumption|eapply Hc; eassumption].
  Qed.

  (** steps that write file [nm] of index [i] *)
  Lemma loud_step st k p p' i c nm x :
    inv st -> nth_error (sprocs st) k = Some p ->
    names i c nm -> free nm -> In (Z.of_nat i) Q0 ->
    (x = Partial \/ x = res_of c) ->
    (x = Partial -> exists r, pt p' = TWrite i nm r) ->
    (forall j nm' r, pt p = TWrite j nm' r -> j = i) ->
    pq p' = pq p -> idx_of (pt p') = idx_of (pt p) ->
    wf_task (aset (file nm) x (sfs st)) (pt p') ->
    inv (mkSys (aset (file nm) x (sfs st)) (update_nth k p' (sprocs st)) (scalls st ++ [])).
  Proof.
    intros I Hk Hn Hf HQ Hx HP Hw Hpq Hidx Hwf.
    assert (L : forall j c' nm', names j c' nm' -> alookup (file nm') (aset (file nm) x (sfs st)) = alookup (file nm') (sfs st) \/ (j = i /\ c' = c /\ nm' = nm)).
    { intros j c' nm' Hj. rewrite alookup_aset. destruct (String.eqb_spec (file nm') (file nm)) as [E|E]; [|auto].
      right. apply append_inj_l in E. subst nm'. pose proof (names_inj _ _ _ _ _ Hj Hn) as E. subst j.
      destruct (names_fun _ _ _ _ _ Hj Hn) as [-> _]. auto. }
    assert (Ls : alookup (file nm) (aset (file nm) x (sfs st)) = Some x) by (rewrite alookup_aset, String.eqb_refl; reflexivity).
    assert (DM : forall j, done (sfs st) j -> done (aset (file nm) x (sfs st)) j).
    { intros j Hd. apply (done_mono _ _ _ Hd). intros c' nm' Hj. destruct (L _ _ _ Hj) as [E|(-> & -> & ->)]; [auto|].
      right. split; [exact Hf|]. rewrite Ls. destruct Hx; subst; auto. }
    split; simpl.
    - intros j c' nm' Hj Hnf. destruct (L _ _ _ Hj) as [E|(-> & -> & ->)]; [rewrite E; eapply (iv_keep st I); eassumption|contradiction].
    - intros j c' nm' Hj. destruct (L _ _ _ Hj) as [E|(-> & -> & ->)]; [rewrite E; eapply (iv_new st I); eassumption|].
      rewrite Ls. destruct Hx; subst; auto.
    - intros j c' nm' Hj Hp. destruct (L _ _ _ Hj) as [E|(-> & -> & ->)].
      + rewrite E in Hp. destruct (iv_part st I j c' nm' Hj Hp) as (q & r & Hin & Ht).
        destruct (update_nth_keep _ k p p' q Hk Hin) as [->|]; [|eauto].
        pose proof (Hw _ _ _ Ht) as Eij. subst j. destruct (names_fun _ _ _ _ _ Hj Hn) as [-> ->].
        rewrite <- E, Ls in Hp. destruct HP as [r' HP']; [congruence|]. exists p', r'. split; [eapply update_nth_new; eassumption|exact HP'].
      + rewrite Ls in Hp. destruct HP as [r' HP']; [congruence|]. exists p', r'. split; [eapply update_nth_new; eassumption|exact HP'].
    - intros g Hg. rewrite alookup_aset. destruct (String.eqb_spec g (file nm)) as [->|]; [|apply (iv_frame st I); exact Hg].
      exfalso. apply Hg. exists i, c, nm. auto.
    - intros j c' nm' Hj Hni. destruct (L _ _ _ Hj) as [E|(-> & -> & ->)]; [rewrite E; eapply (iv_untouched st I); eassumption|contradiction].
    - apply Forall_forall. intros q Hin. apply update_nth_in in Hin. pose proof (iv_procs st I) as X. rewrite Forall_forall in X.
      destruct Hin as [->|Hin].
      + split; [rewrite Hpq; apply (X p); eapply nth_error_In; eassumption|exact Hwf].
      + destruct (X q Hin) as [X1 X2]. split; [exact X1|]. destruct (pt q); simpl in *; auto. destruct X2; auto.
    - intros j Hj. destruct (iv_cover st I j Hj) as [(q & Hin & Hq')|D]; [|right; apply DM; exact D].
      destruct (update_nth_keep _ k p p' q Hk Hin) as [->|Hin'].
      + left. exists p'. split; [eapply update_nth_new; eassumption|]. rewrite Hpq, Hidx. exact Hq'.
      + left. exists q. auto.
    - intros j c' nm' Hin Hj. rewrite app_nil_r in Hin. eapply (iv_calls st I); eassumption.
  Qed.

  Lemma sstep_inv st k : inv st -> inv (sstep s st k).
  Proof.
    intros I. unfold sstep. destruct (nth_error (sprocs st) k) as [p|] eqn:Hk; [|exact I].
    pose proof (iv_procs st I) as X. rewrite Forall_forall in X. destruct (X p (nth_error_In _ _ Hk)) as [Xq Xt]. clear X.
    unfold pstep. destruct (pt p) as [ |i nm|i nm r|i nm r|i nm r|i|e] eqn:Et; simpl in Xt.
    - destruct (pq p) as [|z q] eqn:Eq.
      + apply (quiet_step st k p p []); auto.
        * intros; congruence.
        * rewrite Eq. exact Xq.
        * rewrite Et. exact Logic.I.
        * intros i _ [H|H]; [rewrite Eq in H; destruct H|rewrite Et in H; discriminate].
        * intros i c nm [].
      + assert (Hz : In z Q0) by (apply Xq; simpl; auto). pose proof (valid0 z Hz) as Hzr.
        destruct (gs_fun s f G) as (g & Eg & Hg).
        assert (Hnth : exists c, nth_error (sm_plan s) (Z.to_nat z) = Some c).
        { destruct (nth_error (sm_plan s) (Z.to_nat z)) eqn:E; [eauto|]. apply nth_error_None in E. lia. }
        destruct Hnth as [c Hc]. destruct (names_ex _ _ Hc) as [nm Hn]. pose proof Hn as (id & _ & Hid & Hnm).
        assert (B : begin_sample s (sfs st) z = if negb (amem (file nm) (sfs st)) || sm_overwrite s then TCall (Z.to_nat z) nm else TIdle).
        { unfold begin_sample. rewrite Eg. replace ((z >=? 0) && (z <=? Z.of_nat (length (sm_plan s))))%Z with true.
          2:{ symmetry. apply andb_true_iff. split; [apply Z.geb_le|apply Z.leb_le]; lia. }
          rewrite Hc, Hid, Hnm. reflexivity. }
        rewrite B. destruct (test_spec st _ c nm I Hn) as [T1 T2].
        destruct (negb (amem (file nm) (sfs st)) || sm_overwrite s) eqn:Eb.
        * apply (quiet_step st k p (mkProc q (TCall (Z.to_nat z) nm)) []); auto.
          -- intros; congruence.
          -- simpl. intros y Hy. apply Xq. simpl; auto.
          -- simpl. rewrite Z2Nat.id by lia. split; [exact Hz|]. exists c. split; [exact Hn|]. apply T1. reflexivity.
          -- simpl. rewrite Eq, Et. simpl. intros i _ [[Ez|H]|H]; [try subst z; right; left; rewrite Nat2Z.id; reflexivity|auto|discriminate].
          -- intros i c' nm' [].
        * apply (quiet_step st k p (mkProc q TIdle) []); auto.
          -- intros; congruence.
          -- simpl. intros y Hy. apply Xq. simpl; auto.
          -- simpl. rewrite Eq, Et. simpl. intros i _ [[Ez|H]|H]; [subst z|auto|discriminate].
             right; right. specialize (T2 eq_refl). rewrite Nat2Z.id in T2. exact T2.
          -- intros i c' nm' [].
    - destruct Xt as (HQ & c & Hn & Hf). destruct (gs_fun s f G) as (g & Eg & Hg). rewrite Eg.
      pose proof Hn as (id & Hc & Hid & Hnm). rewrite Hc. rewrite Hg by (eapply nth_error_In; eassumption).
      apply (quiet_step st k p _ [i]); auto.
      + intros; congruence.
      + simpl. split; [exact HQ|]. exists c. auto.
      + simpl. rewrite Et. simpl. tauto.
      + intros j c' nm' [<-|[]] Hj. destruct (names_fun _ _ _ _ _ Hn Hj) as [_ <-]. exact Hf.
    - destruct Xt as (HQ & c & Hn & Hf & Hr). destruct (test_spec st _ c nm I Hn) as [T1 T2].
      destruct (negb (amem (file nm) (sfs st)) || sm_overwrite s) eqn:Eb.
      + apply (quiet_step st k p _ []); auto.
        * intros; congruence.
        * simpl. split; [exact HQ|]. exists c. auto.
        * simpl. rewrite Et. simpl. tauto.
        * intros j c' nm' [].
      + apply (quiet_step st k p _ []); auto.
        * intros; congruence.
        * simpl. split; [exact HQ|]. apply T2. reflexivity.
        * simpl. rewrite Et. simpl. tauto.
        * intros j c' nm' [].
    - destruct Xt as (HQ & c & Hn & Hf & Hr). rewrite (names_target _ _ _ Hn).
      apply (loud_step st k p _ i c nm Partial); auto.
      + simpl. eauto.
      + intros; congruence.
      + rewrite Et. reflexivity.
      + simpl. split; [exact HQ|]. exists c. auto.
    - destruct Xt as (HQ & c & Hn & Hf & Hr). rewrite (names_target _ _ _ Hn).
      apply (loud_step st k p _ i c nm (Whole r)); auto.
      + discriminate.
      + intros; congruence.
      + rewrite Et. reflexivity.
      + simpl. split; [exact HQ|]. intros c' nm' Hn'. destruct (names_fun _ _ _ _ _ Hn Hn') as [<- <-].
        exists (Whole r). rewrite alookup_aset, String.eqb_refl. split; [reflexivity|]. auto.
    - destruct Xt as (HQ & D). apply (quiet_step st k p _ []); auto.
      + intros; congruence.
      + exact Logic.I.
      + simpl. rewrite Et. simpl. intros j _ [H|H]; [auto|]. inversion H; subst. auto.
      + intros j c' nm' [].
    - contradiction.
  Qed.

  Lemma srun_inv st sched : inv st -> inv (srun s st sched).
  Proof. unfold srun. revert st; induction sched as [|k sched IH]; intros st I; simpl; [exact I|]. apply IH, sstep_inv, I. Qed.

  Lemma start_inv queues : (forall z, In z (concat queues) <-> In z Q0) -> inv (start fs0 queues).
  Proof.
    intros H. split; simpl; auto.
    - intros i c nm Hn HP. exfalso. eapply clean0; eassumption.
    - apply Forall_forall. intros p Hp. apply in_map_iff in Hp. destruct Hp as (q & <- & Hq). simpl. split; [|exact Logic.I].
      intros z Hz. apply H. apply in_concat. eauto.
    - intros i Hi. left. apply H in Hi. apply in_concat in Hi. destruct Hi as (q & Hq & Hi).
      exists (mkProc q TIdle). split; [apply in_map_iff; eauto|auto].
    - intros i c nm [].
  Qed.

  (** *** conclusions *)
  Lemma inv_final st i c nm : inv st -> Forall finished (sprocs st) -> In (Z.of_nat i) Q0 -> names i c nm ->
    alookup (file nm) (sfs st) = Some (expected s f fs0 c (file nm)).
  Proof.
    intros I F Hi Hn. rewrite Forall_forall in F.
    assert (D : done (sfs st) i).
    { destruct (iv_cover st I i Hi) as [(p & Hp & Hq)|D]; [|exact D]. destruct (F p Hp) as [F1 F2]. rewrite F1, F2 in Hq.
      destruct Hq as [[]|Hq]; discriminate. }
    assert (NP : alookup (file nm) (sfs st) <> Some Partial).
    { intros E. destruct (iv_part st I i c nm Hn E) as (p & r & Hp & Ht). destruct (F p Hp) as [_ F2]. congruence. }
    destruct (D c nm Hn) as (x & X1 & X2). unfold expected. destruct (free_dec nm) as [Fr|Fr].
    - destruct (X2 Fr) as [->| ->]; [congruence|]. rewrite X1. destruct (alookup (file nm) fs0) eqn:E; [|reflexivity].
      destruct Fr as [Fr|Fr]; [congruence|]. rewrite Fr. reflexivity.
    - rewrite (iv_keep st I i c nm Hn Fr). unfold free in Fr. destruct (alookup (file nm) fs0) eqn:E; [|exfalso; auto].
      destruct (sm_overwrite s); [exfalso; auto|reflexivity].
  Qed.
End S.

(** ** progress *)
Section Progress.
  Context {V R : Type}.
  Variable s : sampler V R.
  Definition tmeas (t : task R) : nat :=
    match t with TIdle | TFail _ => 0 | TComp _ => 1 | TWrite _ _ _ => 2 | TOpen _ _ _ => 3 | TSave _ _ _ => 4 | TCall _ _ => 5 end.
  Definition pmeas (p : proc R) : nat := 6 * length (pq p) + tmeas (pt p).
  Definition failed (p : proc R) : Prop := exists e, pt p = TFail e.

  Lemma pstep_meas fs p fs' p' c : pstep s fs p = (fs', p', c) -> pmeas p' <= pmeas p - 1 \/ failed p'.
  Proof.
    unfold pstep, pmeas, failed. destruct p as [q t]; simpl. destruct t as [ |i nm|i nm r|i nm r|i nm r|i|e]; simpl; intros H.
    - destruct q as [|z q]; inversion H; subst; simpl; [left; lia|].
      destruct (begin_sample s fs' z) as [ |i nm|i nm r|i nm r|i nm r|i|e] eqn:E; simpl; try (left; lia); right; eauto.
    - destruct (sm_fun s), (nth_error (sm_plan s) i); inversion H; subst; simpl; try (right; eauto; fail).
      destruct (r (adel "id" c0)); simpl; [left; lia|right; eauto].
    - inversion H; subst; simpl. destruct (_ || _); simpl; left; lia.
    - inversion H; subst; simpl. left; lia.
    - inversion H; subst; simpl. left; lia.
    - inversion H; subst; simpl. left; lia.
    - inversion H; subst; simpl. right; eauto.
  Qed.
  Lemma failed_pstep fs p : failed p -> pstep s fs p = (fs, p, []).
  Proof. intros [e H]. unfold pstep. rewrite H. reflexivity. Qed.

  Lemma failed_stays sched : forall st k p, nth_error (sprocs st) k = Some p -> failed p ->
    nth_error (sprocs (srun s st sched)) k = Some p.
  Proof.
    induction sched as [|j sched IH]; intros st k p Hk F; [exact Hk|].
    change (srun s st (j :: sched)) with (srun s (sstep s st j) sched). apply IH; [|exact F].
    unfold sstep. destruct (nth_error (sprocs st) j) as [pj|] eqn:Hj; [|exact Hk].
    destruct (Nat.eq_dec j k) as [->|Hne].
    - rewrite Hk in Hj; inversion Hj; subst pj. rewrite failed_pstep by exact F. simpl. rewrite update_nth_nth, Nat.eqb_refl.
      assert (L : k < length (sprocs st)) by (apply nth_error_Some; congruence). apply Nat.ltb_lt in L. rewrite L. reflexivity.
    - destruct (pstep s (sfs st) pj) as [[fs' p'] c]. simpl. rewrite update_nth_nth.
      destruct (Nat.eqb_spec k j); [congruence|exact Hk].
  Qed.

  Lemma srun_meas sched : forall st k p, nth_error (sprocs st) k = Some p ->
    exists p', nth_error (sprocs (srun s st sched)) k = Some p' /\ (pmeas p' <= pmeas p - count_occ Nat.eq_dec sched k \/ failed p').
  Proof.
    induction sched as [|j sched IH]; intros st k p Hk.
    - exists p. split; [exact Hk|]. left. simpl. lia.
    - change (srun s st (j :: sched)) with (srun s (sstep s st j) sched).
      assert (X : exists p1, nth_error (sprocs (sstep s st j)) k = Some p1 /\ (pmeas p1 <= pmeas p - (if Nat.eq_dec j k then 1 else 0) \/ failed p1)).
      { unfold sstep. destruct (nth_error (sprocs st) j) as [pj|] eqn:Hj.
        - destruct (pstep s (sfs st) pj) as [[fs' p'] c] eqn:E. simpl. rewrite update_nth_nth.
          destruct (Nat.eqb_spec k j) as [->|Hne].
          + assert (L : j < length (sprocs st)) by (apply nth_error_Some; congruence). apply Nat.ltb_lt in L. rewrite L.
            rewrite Hk in Hj. inversion Hj; subst pj. exists p'. split; [reflexivity|].
            apply pstep_meas in E. destruct (Nat.eq_dec j j); [exact E|congruence].
          + exists p. split; [exact Hk|]. destruct (Nat.eq_dec j k); [congruence|]. left; lia.
        - exists p. split; [exact Hk|]. destruct (Nat.eq_dec j k); [congruence|]. left; lia. }
      destruct X as (p1 & Hp1 & [M1|M1]).
      + destruct (IH _ _ _ Hp1) as (p' & Hp' & M'). exists p'. split; [exact Hp'|]. simpl count_occ.
        destruct M' as [M'|M']; [|auto]. left. destruct (Nat.eq_dec j k); lia.
      + exists p1. split; [apply failed_stays; assumption|auto].
  Qed.

  Lemma srun_length st sched : length (sprocs (srun s st sched)) = length (sprocs st).
  Proof.
    unfold srun. revert st; induction sched as [|k sched IH]; intros st; simpl; [reflexivity|]. rewrite IH. unfold sstep.
    destruct (nth_error (sprocs st) k); [|reflexivity]. destruct (pstep s (sfs st) p) as [[fs' p'] c]. simpl. apply update_nth_length.
  Qed.

  (** every process given enough steps ends: normally or with an exception *)
  Lemma srun_terminates fs queues sched :
    (forall k q, nth_error queues k = Some q -> 6 * length q <= count_occ Nat.eq_dec sched k) ->
    Forall (fun p => finished p \/ failed p) (sprocs (srun s (start fs queues) sched)).
  Proof.
    intros H. apply Forall_forall. intros p Hp. apply In_nth_error in Hp. destruct Hp as [k Hk].
    assert (L : k < length queues).
    { assert (X : k < length (sprocs (srun s (start fs queues) sched))) by (apply nth_error_Some; congruence).
      rewrite srun_length in X. unfold start in X. simpl in X. rewrite map_length in X. exact X. }
    destruct (nth_error queues k) as [q|] eqn:Eq; [|apply nth_error_None in Eq; lia].
    assert (Hs : nth_error (sprocs (start fs queues)) k = Some (mkProc q TIdle)) by (simpl; rewrite nth_error_map, Eq; reflexivity).
    destruct (srun_meas sched _ _ _ Hs) as (p' & Hp' & M). rewrite Hk in Hp'. inversion Hp'; subst p'.
    destruct M as [M|M]; [|auto]. specialize (H k q Eq). unfold pmeas in M at 2. simpl in M.
    assert (Z : pmeas p = 0) by lia. unfold pmeas in Z.
    destruct (pt p) as [ |i nm|i nm r|i nm r|i nm r|i|e] eqn:E; simpl in Z; try lia.
    - left. split; [|exact E]. destruct (pq p); [reflexivity|simpl in Z; lia].
    - right. exists e. exact E.
  Qed.
End Progress.
