(** * Theorems about the asynchronous operation of the real-time client: C52. *)
From Verif Require Import Base RtModel RtSpec RtProofs RtProofs2.
Set Implicit Arguments.

(** ** C52 (partial).  For every schedule that keeps to the cycle (timers fire, and calls are made, only
    while no control code is being executed; timers fire, and start is called, only after the last step
    has ended) and every point of it:
    no two steps are in progress; when no control code is being executed every requested step has
    begun exactly once; a stopped client has no timer that could fire, a running one exactly one. *)
Theorem C52_on_time_partial : forall ls s, on_time_run ls rt0 s ->
  in_progress s <= 1 /\
  (quiet s ->
   r_begun s = requested true ls /\
   if stopped_after true ls then forall i, next (LFire i) s = None
   else exists i, next (LFire i) s <> None /\ forall j, next (LFire j) s <> None -> j = i).
Proof.
  intros ls s H. destruct (inv_run H inv0) as [p [Hi Hb]]. split; [eapply inv_progress; eauto|].
  intros Hq. destruct (inv_quiet Hi Hq) as [-> Hf]. cbn in Hb. split; [lia|].
  destruct (stopped_after true ls); auto. now destruct Hf.
Qed.
Print Assumptions C52_on_time_partial.

(** If moreover the last call was a stop and it has returned, then whatever the schedule does from there
    on -- in any order, on time or not -- no step begins before the next start. *)
Theorem C52_stop_final_partial : forall ls s, on_time_run ls rt0 s -> quiet s -> stopped_after true ls = true ->
  forall ls' s', ~ In LStart ls' -> run ls' s = Some s' -> r_begun s' = r_begun s.
Proof.
  intros ls s H Hq Hst ls' s' Hn Hr. destruct (inv_run H inv0) as [p [Hi _]]. rewrite Hst in Hi.
  eapply passive_run; eauto. eapply inv_passive; eauto.
Qed.
Print Assumptions C52_stop_final_partial.

(** The hypotheses are met: start, first step, two cycles, stop. *)
Definition sched_start : list label := LStart :: repeat LUser 8 ++ [LThr 0; LThr 0].
Definition sched_cycle (n : nat) : list label := LFire n :: repeat (LThr (S n)) 9.
Definition sched_stop : list label := LStop :: repeat LUser 4.

(** A decidable form of [on_time_run], for examples. *)
Definition quietb (s : rt) : bool := match r_user s with [] => forallb (fun p => negb (in_control p)) (r_thr s) | _ => false end.
Definition on_timeb (l : label) (s : rt) : bool :=
  match l with LFire _ | LStart => quietb s && (in_progress s =? 0) | LStop => quietb s | _ => true end.
Fixpoint ot_run (ls : list label) (s : rt) : option rt :=
  match ls with
  | [] => Some s
  | l :: t => if on_timeb l s then match next l s with Some s' => ot_run t s' | None => None end else None
  end.
Lemma quietb_ok s : quietb s = true -> quiet s.
Proof.
  unfold quietb, quiet; destruct (r_user s); [|discriminate]; intros H; split; auto.
  rewrite forallb_forall in H; intros p Hp; specialize (H _ Hp); now destruct (in_control p).
Qed.
Lemma ot_run_ok ls : forall s s', ot_run ls s = Some s' -> on_time_run ls s s'.
Proof.
  induction ls as [|l ls IH]; cbn; intros s s' H.
  - injection H as <-; constructor.
  - destruct (on_timeb l s) eqn:E; [|discriminate]. destruct (next l s) as [s1|] eqn:N; [|discriminate].
    econstructor; eauto. destruct l; cbn in *; auto; try (apply andb_true_iff in E as [E1 E2]);
    try (split; [|now apply Nat.eqb_eq]); now apply quietb_ok.
Qed.

Example C52_nonvacuous : exists s, on_time_run (sched_start ++ sched_cycle 0 ++ sched_cycle 1 ++ sched_stop) rt0 s
  /\ quiet s /\ r_begun s = 3 /\ stopped_after true (sched_start ++ sched_cycle 0 ++ sched_cycle 1 ++ sched_stop) = true.
Proof.
  eexists; split; [apply ot_run_ok; vm_compute; reflexivity|]. split; [apply quietb_ok; reflexivity|split; reflexivity].
Qed.

(** ** C52 (refuted).  The next timer is armed before the step is made, and nothing waits for a step to
    end: with a single call of start, any number of steps can be in progress at the same time. *)
Definition many (n : nat) : rt :=
  mkRt true false false (Some n) (repeat fired n ++ [armed]) [] (repeat [IEnd] (S n)) (S n).

Lemma repeat_snoc {A} (x : A) n : repeat x n ++ [x] = repeat x (S n).
Proof. induction n; simpl in *; congruence. Qed.

Lemma many_next n ls : run (cycle n (S n) ++ ls) (many n) = run ls (many (S n)).
Proof.
  pose proof (cycle_runs (repeat fired n) (repeat [IEnd] (S n)) (S n) [] ls) as H.
  rewrite !repeat_length, !repeat_snoc in H. exact H.
Qed.

Theorem C52_overlap_refuted : forall n, exists ls s,
  run (LStart :: ls) rt0 = Some s /\ (forall l, In l ls -> is_call l = false) /\ in_progress s = n.
Proof.
  intros n. destruct n as [|n].
  - exists [], (set_user p_start rt0). repeat split. intros l [].
  - assert (X : exists ls, (forall l, In l ls -> is_call l = false) /\ forall t, run (LStart :: ls ++ t) rt0 = run t (many n)).
    { induction n as [|n [ls [Hc IH]]].
      - exists (repeat LUser 8 ++ [LThr 0]); split; [|reflexivity].
        intros l Hl; cbn in Hl; repeat (destruct Hl as [<-|Hl]; [reflexivity|]); destruct Hl.
      - exists (ls ++ cycle n (S n)); split.
        + intros l Hl; apply in_app_or in Hl as [Hl|Hl]; auto.
          destruct Hl as [<-|Hl]; auto. apply repeat_spec in Hl as ->; auto.
        + intros t; rewrite <- app_assoc, IH; apply many_next. }
    destruct X as [ls [Hc H]]. exists ls, (many n); split; [|split; auto].
    + specialize (H []). now rewrite app_nil_r in H.
    + unfold in_progress, many; cbn [r_thr]. clear; induction n; simpl in *; congruence.
Qed.
Print Assumptions C52_overlap_refuted.

(** Stopping and starting again does not wait for the step in progress either. *)
Theorem C52_restart_overlap_refuted : exists ls s,
  run ls rt0 = Some s /\ in_progress s = 2 /\ requested true ls = 2 /\ quiet s.
Proof.
  exists ((LStart :: repeat LUser 8 ++ [LThr 0]) ++ (LStop :: repeat LUser 4) ++ LStart :: repeat LUser 9 ++ [LThr 1]).
  eexists; split; [vm_compute; reflexivity|]. repeat split. intros p [<-|[<-|[]]]; reflexivity.
Qed.
Print Assumptions C52_restart_overlap_refuted.

(** A stop that arrives while a timer has just fired is undone: the call of stop returns, and without
    any further call the client begins arbitrarily many further steps. *)
Definition undone (n : nat) : rt :=
  mkRt true false false (Some (S n)) ((mkTimer true true true :: repeat fired n) ++ [armed]) []
       ([] :: repeat [IEnd] (S (S n))) (S (S (S n))).

Lemma undone_next n ls : run (cycle (S n) (S (S (S n))) ++ ls) (undone n) = run ls (undone (S n)).
Proof.
  pose proof (cycle_runs (mkTimer true true true :: repeat fired n) ([] :: repeat [IEnd] (S (S n))) (S (S (S n))) [] ls) as H.
  cbn [List.length app] in H. rewrite !repeat_length, !repeat_snoc in H. exact H.
Qed.

Theorem C52_stop_refuted : exists ls s,
  run (ls ++ LStop :: repeat LUser 4) rt0 = Some s /\ r_user s = [] /\
  forall n, exists ls' s', run ls' s = Some s' /\ (forall l, In l ls' -> is_call l = false)
                          /\ r_begun s + n <= r_begun s'.
Proof.
  exists (sched_start ++ [LFire 0]). eexists; split; [vm_compute; reflexivity|]. split; [reflexivity|].
  set (s1 := mkRt _ _ _ _ _ _ _ _). intros n.
  assert (X : exists ls, (forall l, In l ls -> is_call l = false) /\ forall t, run (ls ++ t) s1 = run t (undone n)).
  { induction n as [|n [ls [Hc IH]]].
    - exists (repeat (LThr 1) 11 ++ [LThr 2]); split; [|reflexivity].
      intros l Hl; cbn in Hl; repeat (destruct Hl as [<-|Hl]; [reflexivity|]); destruct Hl.
    - exists (ls ++ cycle (S n) (S (S (S n)))); split.
      + intros l Hl; apply in_app_or in Hl as [Hl|Hl]; auto.
        destruct Hl as [<-|Hl]; auto. apply repeat_spec in Hl as ->; auto.
      + intros t; rewrite <- app_assoc, IH; apply undone_next. }
  destruct X as [ls [Hc H]]. exists ls, (undone n); split; [|split; auto].
  - specialize (H []). now rewrite app_nil_r in H.
  - cbn; lia.
Qed.
Print Assumptions C52_stop_refuted.

(** Calling start while a timer thread is re-arming can arm two timers; stop then cancels one of them,
    and the stopped, quiet client still has a timer that can fire. *)
Theorem C52_double_start_refuted : exists ls s,
  run (ls ++ LStop :: repeat LUser 4) rt0 = Some s /\ quiet s /\ in_progress s = 0 /\ exists i, next (LFire i) s <> None.
Proof.
  exists (sched_start ++ [LFire 0; LThr 1; LThr 1; LThr 1; LStart; LUser; LUser; LThr 1; LThr 1; LThr 1; LUser; LUser; LUser; LUser; LThr 1; LThr 1; LThr 1]).
  eexists; split; [vm_compute; reflexivity|]. repeat split; [|exists 1; discriminate].
  intros p [<-|[<-|[]]]; reflexivity.
Qed.
Print Assumptions C52_double_start_refuted.
