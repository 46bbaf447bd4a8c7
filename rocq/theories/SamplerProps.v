(** * Theorems C31, C32, C33: sampling, interrupted, resumed, reordered, concurrent. *)
From Verif Require Import Base DataModel DataProofs SaveProofs SamplingModel SamplingSpec SamplingProofs SamplerProofs.
Import List.

Section S.
  Context {V R : Type}.
  Variable s : sampler V R.
  Variable f : case V -> R.
  Hypothesis G : good_sampler s f.

  Lemma file_names c file i : nth_error (sm_plan s) i = Some c -> file_of s c file -> exists nm, names s i c nm /\ file = (sm_dir s ++ nm)%string.
  Proof. intros Hi (id & nm & H1 & H2 & ->). exists nm. split; [exists id; auto|reflexivity]. Qed.
  Lemma names_file i c nm : names s i c nm -> In c (sm_plan s) /\ file_of s c (sm_dir s ++ nm)%string.
  Proof. intros (id & H1 & H2 & H3). split; [eapply nth_error_In; eassumption|]. exists id, nm. auto. Qed.
  Lemma clean_names fs : clean s fs -> forall i c nm, names s i c nm -> alookup (sm_dir s ++ nm)%string fs <> Some Partial.
  Proof. intros H i c nm Hn. destruct (names_file _ _ _ Hn). eapply H; eassumption. Qed.

  Lemma run_inv fs queues sched : clean s fs -> valid_indices s (concat queues) ->
    inv s f fs (concat queues) (srun s (start fs queues) sched).
  Proof.
    intros Hc Hv. apply srun_inv; [exact G|exact Hv|]. apply start_inv; [apply clean_names; exact Hc|reflexivity].
  Qed.

  Lemma run_finished fs queues sched : clean s fs -> valid_indices s (concat queues) -> enough_turns queues sched ->
    Forall finished (sprocs (srun s (start fs queues) sched)).
  Proof.
    intros Hc Hv Ht. pose proof (srun_terminates s fs queues sched Ht) as T. pose proof (run_inv fs queues sched Hc Hv) as I.
    pose proof (iv_procs _ _ _ _ _ I) as P. rewrite Forall_forall in *. intros p Hp. destruct (T p Hp) as [F|[e F]]; [exact F|].
    destruct (P p Hp) as [_ X]. rewrite F in X. destruct X.
  Qed.

  (** the state of any file after any interrupted run *)
  Lemma interrupted_spec fs fs' : clean s fs -> interrupted s fs fs' ->
    clean s fs'
    /\ (forall i c nm, names s i c nm -> alookup (sm_dir s ++ nm)%string fs' = alookup (sm_dir s ++ nm)%string fs
          \/ ((alookup (sm_dir s ++ nm)%string fs = None \/ sm_overwrite s = true) /\ alookup (sm_dir s ++ nm)%string fs' = Some (res_of f c)))
    /\ (forall g, (forall i c nm, names s i c nm -> g <> (sm_dir s ++ nm)%string) -> alookup g fs' = alookup g fs).
  Proof.
    intros Hc (queues & sched & Hv & Hw & <-). pose proof (run_inv fs queues sched Hc Hv) as I.
    set (st := srun s (start fs queues) sched) in *.
    assert (NP : forall i c nm, names s i c nm -> alookup (sm_dir s ++ nm)%string (sfs st) <> Some Partial).
    { intros i c nm Hn E. destruct (iv_part _ _ _ _ _ I i c nm Hn E) as (p & r & Hp & Ht).
      assert (X : existsb writing (sprocs st) = true) by (apply existsb_exists; exists p; unfold writing; rewrite Ht; auto). congruence. }
    split; [|split].
    - intros c file Hin Hf. apply In_nth_error in Hin. destruct Hin as [i Hi]. destruct (file_names _ _ _ Hi Hf) as (nm & Hn & ->).
      apply (NP _ _ _ Hn).
    - intros i c nm Hn. destruct (free_dec s fs nm) as [F|F].
      + destruct (iv_new _ _ _ _ _ I i c nm Hn) as [E|[E|E]]; [auto|exfalso; eapply NP; eassumption|auto].
      + left. apply (iv_keep _ _ _ _ _ I i c nm Hn F).
    - intros g Hg. apply (iv_frame _ _ _ _ _ I). intros (i & c & nm & Hn & E). eapply Hg; eassumption.
  Qed.

  Lemma interruptions_spec fs fs' : clean s fs -> interruptions s fs fs' ->
    clean s fs'
    /\ (forall i c nm, names s i c nm -> alookup (sm_dir s ++ nm)%string fs' = alookup (sm_dir s ++ nm)%string fs
          \/ ((alookup (sm_dir s ++ nm)%string fs = None \/ sm_overwrite s = true) /\ alookup (sm_dir s ++ nm)%string fs' = Some (res_of f c)))
    /\ (forall g, (forall i c nm, names s i c nm -> g <> (sm_dir s ++ nm)%string) -> alookup g fs' = alookup g fs).
  Proof.
    intros Hc H. induction H as [fs|fs fs1 fs2 H1 IH H2]; [split; auto|]. destruct (IH Hc) as (C1 & A1 & B1).
    destruct (interrupted_spec fs1 fs2 C1 H2) as (C2 & A2 & B2). split; [exact C2|]. split.
    - intros i c nm Hn. destruct (A1 i c nm Hn) as [E1|[F1 E1]], (A2 i c nm Hn) as [E2|[F2 E2]].
      + left; congruence.
      + right. split; [|exact E2]. rewrite E1 in F2. exact F2.
      + right. split; [exact F1|]. congruence.
      + right. split; [exact F1|]. exact E2.
    - intros g Hg. rewrite B2 by exact Hg. apply B1. exact Hg.
  Qed.

  (** C31.  Sampling was interrupted any number of times (each time with any number of processes,
      under any schedule, at any point at which no file is half written) and is then run again with
      processes that cover the plan: the run ends without exception; every file that existed is
      untouched; the sample function is not called for a case whose file existed; and every case has
      its file: the one present at the very beginning, or else the value of the sample function.
      _partial: an interruption between opening a file and writing it fully is excluded, see the
      refutation below. *)
  Theorem C31_resume_partial : sm_overwrite s = false ->
    forall fs0 fs1, clean s fs0 -> interruptions s fs0 fs1 ->
    forall queues sched, valid_indices s (concat queues) -> covers s (concat queues) -> enough_turns queues sched ->
    let st := srun s (start fs1 queues) sched in
    Forall finished (sprocs st)
    /\ (forall g x, alookup g fs1 = Some x -> alookup g (sfs st) = Some x)
    /\ (forall i c file, In i (scalls st) -> nth_error (sm_plan s) i = Some c -> file_of s c file -> alookup file fs1 = None)
    /\ (forall c file, In c (sm_plan s) -> file_of s c file ->
          alookup file (sfs st) = Some (match alookup file fs0 with Some old => old | None => Whole (f (adel "id" c)) end)).
  Proof.
    intros Hov fs0 fs1 Hc Hint queues sched Hv Hcov Ht st.
    destruct (interruptions_spec fs0 fs1 Hc Hint) as (C1 & A1 & B1).
    pose proof (run_inv fs1 queues sched C1 Hv) as I. pose proof (run_finished fs1 queues sched C1 Hv Ht) as F. fold st in I, F.
    split; [exact F|]. split; [|split].
    - intros g x Hg. destruct (in_dec string_dec g (map (fun c => match alookup "id" c with Some (SId id) => match save_name s id with Ok nm => (sm_dir s ++ nm)%string | Err _ => ""%string end | _ => ""%string end) (sm_plan s))) as [Hin|Hin].
      + apply in_map_iff in Hin. destruct Hin as (c & E & Hin). apply In_nth_error in Hin. destruct Hin as [i Hi].
        destruct (names_ex s f G i c Hi) as [nm Hn]. pose proof Hn as (id & _ & Hid & Hnm). rewrite Hid, Hnm in E. subst g.
        rewrite (iv_keep _ _ _ _ _ I i c nm Hn); [exact Hg|]. intros [X|X]; congruence.
      + rewrite (iv_frame _ _ _ _ _ I); [exact Hg|]. intros (i & c & nm & Hn & E). apply Hin. apply in_map_iff. exists c.
        pose proof Hn as (id & Hi & Hid & Hnm). rewrite Hid, Hnm. split; [auto|]. eapply nth_error_In; eassumption.
    - intros i c file Hi Hc' Hf. destruct (file_names _ _ _ Hc' Hf) as (nm & Hn & ->).
      destruct (iv_calls _ _ _ _ _ I i c nm Hi Hn) as [X|X]; [exact X|congruence].
    - intros c file Hin Hf. apply In_nth_error in Hin. destruct Hin as [i Hi]. destruct (file_names _ _ _ Hi Hf) as (nm & Hn & ->).
      assert (HQ : In (Z.of_nat i) (concat queues)) by (apply Hcov; apply nth_error_Some; congruence).
      rewrite (inv_final _ _ _ _ st i c nm I F HQ Hn). f_equal. unfold expected. rewrite Hov.
      destruct (A1 i c nm Hn) as [E|[[E0|E0] E]].
      + rewrite E. reflexivity.
      + rewrite E, E0. reflexivity.
      + congruence.
  Qed.

  (** one call *)
  Lemma sample_idx_spec fs i : clean s fs -> i < length (sm_plan s) ->
    let (fs', r) := sample_idx s fs (Z.of_nat i) in
    r = Ok tt /\ clean s fs'
    /\ (forall c nm, names s i c nm -> alookup (sm_dir s ++ nm)%string fs' = Some (expected s f fs c (sm_dir s ++ nm)%string))
    /\ (forall j c nm, names s j c nm -> j <> i -> alookup (sm_dir s ++ nm)%string fs' = alookup (sm_dir s ++ nm)%string fs)
    /\ (forall g, (forall j c nm, names s j c nm -> g <> (sm_dir s ++ nm)%string) -> alookup g fs' = alookup g fs).
  Proof.
    intros Hc Hi. unfold sample_idx. set (queues := [[Z.of_nat i]]).
    assert (Hv : valid_indices s (concat queues)) by (intros z [<-|[]]; lia).
    assert (Ht : enough_turns queues (repeat 0 6)).
    { intros [|k] q Hq; simpl in Hq; [inversion Hq; simpl; lia|destruct k; discriminate]. }
    pose proof (run_inv fs queues (repeat 0 6) Hc Hv) as I. pose proof (run_finished fs queues (repeat 0 6) Hc Hv Ht) as F.
    pose proof (srun_length s (start fs queues) (repeat 0 6)) as L.
    set (st := srun s (start fs queues) (repeat 0 6)) in *. clearbody st.
    assert (R1 : match sprocs st with [p] => match pt p with TFail e => Err e | _ => Ok tt end | _ => Ok tt end = Ok tt).
    { destruct (sprocs st) as [|p [|]]; try reflexivity. inversion F as [|? ? [_ Fp] _]; subst. rewrite Fp. reflexivity. }
    rewrite R1. split; [reflexivity|].
    assert (A : forall c nm, names s i c nm -> alookup (sm_dir s ++ nm)%string (sfs st) = Some (expected s f fs c (sm_dir s ++ nm)%string)).
    { intros c nm Hn. apply (inv_final _ _ _ _ st i c nm I F); [simpl; auto|exact Hn]. }
    assert (B : forall j c nm, names s j c nm -> j <> i -> alookup (sm_dir s ++ nm)%string (sfs st) = alookup (sm_dir s ++ nm)%string fs).
    { intros j c nm Hn Hj. apply (iv_untouched _ _ _ _ _ I j c nm Hn). simpl. intros [E|[]]. lia. }
    split; [|split; [exact A|split; [exact B|]]].
    - intros c file Hin Hf. apply In_nth_error in Hin. destruct Hin as [j Hj]. destruct (file_names _ _ _ Hj Hf) as (nm & Hn & ->).
      destruct (Nat.eq_dec j i) as [->|Hne].
      + rewrite (A c nm Hn). unfold expected. pose proof (clean_names fs Hc i c nm Hn) as N.
        destruct (alookup (sm_dir s ++ nm)%string fs); [destruct (sm_overwrite s)|]; congruence.
      + rewrite (B j c nm Hn Hne). apply (clean_names fs Hc j c nm Hn).
    - intros g Hg. apply (iv_frame _ _ _ _ _ I). intros (j & c & nm & Hn & E). eapply Hg; eassumption.
  Qed.

  Lemma sample_seq_spec idxs : forall fs, clean s fs -> valid_indices s idxs ->
    let (fs', r) := sample_seq s fs idxs in
    r = Ok tt
    /\ (forall i c nm, names s i c nm -> alookup (sm_dir s ++ nm)%string fs' =
          if in_dec Z.eq_dec (Z.of_nat i) idxs then Some (expected s f fs c (sm_dir s ++ nm)%string) else alookup (sm_dir s ++ nm)%string fs)
    /\ (forall g, (forall j c nm, names s j c nm -> g <> (sm_dir s ++ nm)%string) -> alookup g fs' = alookup g fs).
  Proof.
    induction idxs as [|z idxs IH]; intros fs Hc Hv.
    - simpl. split; [reflexivity|]. split; [intros i c nm _; reflexivity|auto].
    - cbn [sample_seq]. assert (Hz : (0 <= z < Z.of_nat (length (sm_plan s)))%Z) by (apply Hv; left; reflexivity).
      pose proof (sample_idx_spec fs (Z.to_nat z) Hc ltac:(lia)) as S1. rewrite Z2Nat.id in S1 by lia.
      destruct (sample_idx s fs z) as [fs1 r1]. destruct S1 as (-> & C1 & A1 & B1 & D1).
      pose proof (IH fs1 C1 (fun y Hy => Hv y (or_intror Hy))) as S2.
      destruct (sample_seq s fs1 idxs) as [fs2 r2]. destruct S2 as (-> & A2 & D2).
      split; [reflexivity|]. split.
      + intros i c nm Hn. rewrite (A2 i c nm Hn).
        destruct (Nat.eq_dec i (Z.to_nat z)) as [->|Hne].
        * destruct (in_dec Z.eq_dec (Z.of_nat (Z.to_nat z)) (z :: idxs)) as [_|N]; [|exfalso; apply N; left; lia].
          pose proof (A1 c nm Hn) as E1. destruct (in_dec Z.eq_dec (Z.of_nat (Z.to_nat z)) idxs); [|exact E1].
          f_equal. unfold expected at 1. rewrite E1. unfold expected.
          destruct (sm_overwrite s); [|reflexivity]. destruct (alookup (sm_dir s ++ nm)%string fs); reflexivity.
        * pose proof (B1 i c nm Hn Hne) as E1.
          destruct (in_dec Z.eq_dec (Z.of_nat i) idxs) as [X|X], (in_dec Z.eq_dec (Z.of_nat i) (z :: idxs)) as [Y|Y].
          -- unfold expected. rewrite E1. reflexivity.
          -- exfalso. apply Y. right. exact X.
          -- exfalso. destruct Y as [Y|Y]; [lia|contradiction].
          -- exact E1.
      + intros g Hg. rewrite D2 by exact Hg. apply D1. exact Hg.
  Qed.

  Lemma all_indices_valid : valid_indices s (all_indices s) /\ covers s (all_indices s).
  Proof.
    split.
    - intros z Hz. apply in_map_iff in Hz. destruct Hz as (k & <- & Hk). apply in_seq in Hk. lia.
    - intros i Hi. apply in_map_iff. exists i. split; [reflexivity|]. apply in_seq. lia.
  Qed.

  (** C32.  Sampling by index in any order, with any repetitions, covering the plan, gives the same
      files as sample_data, and ends without exception; so does any number of concurrent processes
      (pool.map(sample_idx, ...)), under any schedule, even if several sample the same case. *)
  Theorem C32_order_independent : forall fs, clean s fs ->
    (forall idxs, valid_indices s idxs -> covers s idxs ->
       snd (sample_seq s fs idxs) = Ok tt
       /\ forall g, alookup g (fst (sample_seq s fs idxs)) = alookup g (fst (sample_seq s fs (all_indices s))))
    /\ (forall queues sched, valid_indices s (concat queues) -> covers s (concat queues) -> enough_turns queues sched ->
       let st := srun s (start fs queues) sched in
       Forall finished (sprocs st)
       /\ forall g, alookup g (sfs st) = alookup g (fst (sample_seq s fs (all_indices s))))
    /\ (forall c file, In c (sm_plan s) -> file_of s c file ->
          alookup file (fst (sample_seq s fs (all_indices s))) = Some (expected s f fs c file)).
  Proof.
    intros fs Hc. destruct all_indices_valid as [Va Ca].
    pose proof (sample_seq_spec (all_indices s) fs Hc Va) as SA.
    destruct (sample_seq s fs (all_indices s)) as [fsA rA]. destruct SA as (_ & A & DA). simpl fst.
    assert (A' : forall i c nm, names s i c nm -> alookup (sm_dir s ++ nm)%string fsA = Some (expected s f fs c (sm_dir s ++ nm)%string)).
    { intros i c nm Hn. rewrite (A i c nm Hn). destruct (in_dec Z.eq_dec (Z.of_nat i) _) as [|N]; [reflexivity|]. exfalso. apply N, Ca.
      destruct Hn as (id & Hi & _). apply nth_error_Some. congruence. }
    assert (Cases : forall g, (exists i c nm, names s i c nm /\ g = (sm_dir s ++ nm)%string) \/ (forall i c nm, names s i c nm -> g <> (sm_dir s ++ nm)%string)).
    { intros g. destruct (in_dec string_dec g (map (fun c => match alookup "id" c with Some (SId id) => match save_name s id with Ok nm => (sm_dir s ++ nm)%string | Err _ => ""%string end | _ => ""%string end) (sm_plan s))) as [Hin|Hin].
      - left. apply in_map_iff in Hin. destruct Hin as (c & E & Hin). apply In_nth_error in Hin. destruct Hin as [i Hi].
        destruct (names_ex s f G i c Hi) as [nm Hn]. pose proof Hn as (id & _ & Hid & Hnm). rewrite Hid, Hnm in E. exists i, c, nm. auto.
      - right. intros i c nm Hn E. apply Hin. apply in_map_iff. exists c.
        pose proof Hn as (id & Hi & Hid & Hnm). rewrite Hid, Hnm. split; [auto|]. eapply nth_error_In; eassumption. }
    split; [|split].
    - intros idxs Hv Hcov. pose proof (sample_seq_spec idxs fs Hc Hv) as S1. destruct (sample_seq s fs idxs) as [fs1 r1].
      destruct S1 as (-> & B & DB). split; [reflexivity|]. intros g. simpl. destruct (Cases g) as [(i & c & nm & Hn & ->)|Hg].
      + rewrite (A' i c nm Hn), (B i c nm Hn). destruct (in_dec Z.eq_dec (Z.of_nat i) _) as [|N]; [reflexivity|]. exfalso. apply N, Hcov.
        destruct Hn as (id & Hi & _). apply nth_error_Some. congruence.
      + rewrite DB, DA; auto.
    - intros queues sched Hv Hcov Ht st. pose proof (run_inv fs queues sched Hc Hv) as I.
      pose proof (run_finished fs queues sched Hc Hv Ht) as F. fold st in I, F. split; [exact F|].
      intros g. destruct (Cases g) as [(i & c & nm & Hn & ->)|Hg].
      + rewrite (A' i c nm Hn). apply (inv_final _ _ _ _ st i c nm I F); [|exact Hn]. apply Hcov.
        destruct Hn as (id & Hi & _). apply nth_error_Some. congruence.
      + rewrite DA by exact Hg. apply (iv_frame _ _ _ _ _ I). intros (i & c & nm & Hn & E). eapply Hg; eassumption.
    - intros c file Hin Hf. apply In_nth_error in Hin. destruct Hin as [i Hi]. destruct (file_names _ _ _ Hi Hf) as (nm & Hn & ->).
      apply (A' i c nm Hn).
  Qed.

  Lemma fail_stays_put n : forall fs q e cs, exists cs', srun s (mkSys fs [mkProc q (TFail e)] cs) (repeat 0 n) = mkSys fs [mkProc q (TFail e)] cs'.
  Proof.
    induction n as [|n IH]; intros fs q e cs; [exists cs; reflexivity|]. apply IH.
  Qed.
  Lemma sample_idx_fail fs idx e : begin_sample s fs idx = TFail e -> sample_idx s fs idx = (fs, Err e).
  Proof.
    intros B. unfold sample_idx. change (repeat 0 6) with (0 :: repeat 0 5). 
    assert (E : sstep s (start fs [[idx]]) 0 = mkSys fs [mkProc [] (TFail e)] []).
    { unfold sstep, pstep, start. cbn [map sprocs nth_error pt pq sfs]. rewrite B. reflexivity. }
    change (srun s (start fs [[idx]]) (0 :: repeat 0 5)) with (srun s (sstep s (start fs [[idx]]) 0) (repeat 0 5)).
    rewrite E. destruct (fail_stays_put 5 fs [] e []) as [cs' ->]. reflexivity.
  Qed.

  (** C33.  An index below 0 or above the number of cases is rejected with the documented assertion, an
      index in range is accepted; nothing is written by a rejected call.
      _partial: the index equal to the number of cases raises IndexError instead (see below). *)
  Theorem C33_index_check_partial : forall fs, clean s fs -> forall idx,
    ((0 <= idx < Z.of_nat (length (sm_plan s)))%Z -> snd (sample_idx s fs idx) = Ok tt)
    /\ ((idx < 0 \/ Z.of_nat (length (sm_plan s)) < idx)%Z -> sample_idx s fs idx = (fs, Err ExcAssertion))
    /\ (idx = Z.of_nat (length (sm_plan s)) -> sample_idx s fs idx = (fs, Err ExcIndex)).
  Proof.
    intros fs Hc idx. destruct (gs_fun s f G) as (g & Eg & _). split; [|split].
    - intros H. pose proof (sample_idx_spec fs (Z.to_nat idx) Hc ltac:(lia)) as S1. rewrite Z2Nat.id in S1 by lia.
      destruct (sample_idx s fs idx) as [fs1 r1]. apply S1.
    - intros H. assert (B : begin_sample s fs idx = TFail ExcAssertion).
      { unfold begin_sample. rewrite Eg. replace ((idx >=? 0) && (idx <=? Z.of_nat (length (sm_plan s))))%Z with false; [reflexivity|].
        symmetry. apply andb_false_iff. destruct H; [left|right]; [rewrite Z.geb_leb|]; apply Z.leb_gt; lia. }
      apply sample_idx_fail. exact B.
    - intros ->. assert (B : begin_sample s fs (Z.of_nat (length (sm_plan s))) = TFail ExcIndex).
      { unfold begin_sample. rewrite Eg. replace ((Z.of_nat (length (sm_plan s)) >=? 0) && (Z.of_nat (length (sm_plan s)) <=? Z.of_nat (length (sm_plan s))))%Z with true.
        - rewrite Nat2Z.id. destruct (nth_error (sm_plan s) (length (sm_plan s))) eqn:E; [|reflexivity].
          exfalso. assert (X : length (sm_plan s) < length (sm_plan s)) by (apply nth_error_Some; congruence). lia.
        - symmetry. apply andb_true_iff. split; [apply Z.geb_le|apply Z.leb_le]; lia. }
      apply sample_idx_fail. exact B.
  Qed.
End S.
Print Assumptions C31_resume_partial.
Print Assumptions C32_order_independent.
Print Assumptions C33_index_check_partial.

(** A concrete sampler with two cases meets the hypotheses. *)
Definition ex_case (v : nat) (id : string) : case nat := [("a"%string, SUser v); ("id"%string, SId id)].
Definition ex_fun (c : case nat) : nat := match alookup "a" c with Some (SUser v) => v * v | _ => 0 end.
Definition ex_sampler (dir : string) : sampler nat nat :=
  mkSampler [ex_case 3 "000"; ex_case 4 "001"] dir "sample" FPickle false (Some (fun c => Ok (ex_fun c))).
Lemma no_pkl_dec (x : string) : (forall n, n <= String.length x -> prefix ".pkl" (substring n (String.length x - n) x) = false) -> ~ contains_pkl x.
Proof.
  intros H (a & b & ->). specialize (H (String.length a)).
  rewrite append_length in H. specialize (H ltac:(lia)).
  replace (String.length a + String.length (".pkl" ++ b) - String.length a) with (String.length (".pkl" ++ b)) in H by lia.
  assert (X : forall (a c : string), substring (String.length a) (String.length c) (a ++ c) = c).
  { clear. induction a as [|x a IH]; intros c; simpl; [|apply IH]. induction c as [|y c IHc]; simpl; [reflexivity|]. f_equal. exact IHc. }
  rewrite X in H. clear - H. simpl in H. destruct b; discriminate.
Qed.
Lemma ex_good : good_sampler (ex_sampler "./") ex_fun.
Proof.
  split.
  - eexists. split; [reflexivity|]. auto.
  - discriminate.
  - intros c [<-|[<-|[]]]; eexists; reflexivity.
  - intros [|[|[|i]]] [|[|[|j]]] ci cj Hi Hj E; simpl in *; try discriminate; try reflexivity; inversion Hi; inversion Hj; subst; discriminate.
  - assert (K : forall x, String.length x = 12 -> forallb (fun n => negb (prefix ".pkl" (substring n (String.length x - n) x))) (seq 0 13) = true -> ~ contains_pkl x).
    { intros x L Hb. apply no_pkl_dec. intros n Hn. rewrite forallb_forall in Hb. specialize (Hb n).
      apply negb_true_iff. apply Hb. apply in_seq. lia. }
    intros c id [<-|[<-|[]]] H; inversion H; subst; apply K; vm_compute; reflexivity.
Qed.
Example C31_nonvacuous :
  clean (ex_sampler "./") [("./sample_001.pkl"%string, Whole 99)]
  /\ interruptions (ex_sampler "./") [("./sample_001.pkl"%string, Whole 99)] [("./sample_001.pkl"%string, Whole 99)]
  /\ sfs (srun (ex_sampler "./") (start [("./sample_001.pkl"%string, Whole 99)] [[0; 1]%Z; [1; 0]%Z]) (flat_map (fun _ => [0; 1]) (seq 0 12)))
     = [("./sample_001.pkl"%string, Whole 99); ("./sample_000.pkl"%string, Whole 9)]
  /\ enough_turns [[0; 1]%Z; [1; 0]%Z] (flat_map (fun _ => [0; 1]) (seq 0 12)).
Proof.
  split; [|split; [constructor|split; [vm_compute; reflexivity|]]].
  - intros c file [<-|[<-|[]]] (id & nm & H1 & H2 & ->); inversion H1; subst; inversion H2; subst; vm_compute; discriminate.
  - intros [|[|k]] q Hq; simpl in Hq; [inversion Hq; subst; vm_compute; lia|inversion Hq; subst; vm_compute; lia|destruct k; discriminate].
Qed.

(** C32, C33: the same sampler; the cases in reverse order with a repetition, and an out-of-range index. *)
Example C32_nonvacuous :
  good_sampler (ex_sampler "./") ex_fun /\ clean (ex_sampler "./") [("./sample_001.pkl"%string, Whole 99)]
  /\ valid_indices (ex_sampler "./") [1; 0; 1]%Z /\ covers (ex_sampler "./") [1; 0; 1]%Z
  /\ fst (sample_seq (ex_sampler "./") [] [1; 0; 1]%Z) = [("./sample_001.pkl"%string, Whole 16); ("./sample_000.pkl"%string, Whole 9)].
Proof.
  split; [exact ex_good|]. split; [apply C31_nonvacuous|]. split; [|split; [|vm_compute; reflexivity]].
  - intros i [<-|[<-|[<-|[]]]]; simpl; lia.
  - intros [|[|i]] Hi; simpl in *; try lia; auto.
Qed.
Example C33_nonvacuous :
  clean (ex_sampler "./") [("./sample_001.pkl"%string, Whole 99)]
  /\ sample_idx (ex_sampler "./") [] 0 = ([("./sample_000.pkl"%string, Whole 9)], Ok tt)
  /\ sample_idx (ex_sampler "./") [] 3 = ([], Err ExcAssertion) /\ sample_idx (ex_sampler "./") [] (-1) = ([], Err ExcAssertion).
Proof. split; [apply C31_nonvacuous|]. repeat split; vm_compute; reflexivity. Qed.

(** Refutation of the full C31 (crash points inside the writing of a file): the process stops after
    opening the file of case 0; the completed restart keeps the truncated file and never calls the
    sample function for it. *)
Theorem C31_crash_during_write_refuted :
  let s := ex_sampler "./" in
  good_sampler s ex_fun /\
  exists sched, let fs1 := sfs (srun s (start [] [all_indices s]) sched) in
    let st := srun s (start fs1 [all_indices s]) (repeat 0 12) in
    Forall finished (sprocs st) /\ file_of s (ex_case 3 "000") "./sample_000.pkl"
    /\ alookup "./sample_000.pkl" (sfs st) = Some Partial /\ ~ In 0 (scalls st).
Proof.
  split; [exact ex_good|]. exists (repeat 0 4). vm_compute. split; [repeat constructor|]. split.
  - exists "000"%string, "sample_000.pkl"%string. auto.
  - split; [reflexivity|]. intros [H|[]]. discriminate.
Qed.
Print Assumptions C31_crash_during_write_refuted.

(** Refutation without the condition on '.pkl' in the path: results are written somewhere else than
    looked for, so a restart recomputes everything and overwrites the files although overwrite=False. *)
Theorem C31_pkl_in_path_refuted :
  let s := ex_sampler "./my.pkl_files/" in
  let st1 := srun s (start [("./my_files/sample_000.pkl"%string, Whole 77)] [all_indices s]) (repeat 0 12) in
  sm_overwrite s = false /\ Forall finished (sprocs st1)
  /\ alookup "./my_files/sample_000.pkl" (sfs st1) = Some (Whole 9)
  /\ alookup "./my.pkl_files/sample_000.pkl" (sfs st1) = None
  /\ scalls (srun s (start (sfs st1) [all_indices s]) (repeat 0 12)) = [0; 1].
Proof. vm_compute. repeat split. repeat constructor. Qed.
Print Assumptions C31_pkl_in_path_refuted.

Theorem C33_index_check_refuted :
  exists (s : sampler nat nat) (f : case nat -> nat) idx, good_sampler s f
    /\ ~ (0 <= idx < Z.of_nat (length (sm_plan s)))%Z /\ sample_idx s [] idx <> ([], Err ExcAssertion).
Proof.
  exists (ex_sampler "./"), ex_fun, 2%Z. split; [exact ex_good|]. split; [simpl; lia|]. vm_compute. discriminate.
Qed.
Print Assumptions C33_index_check_refuted.
