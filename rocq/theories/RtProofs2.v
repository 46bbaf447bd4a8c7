(** * The invariant of schedules that keep to the cycle (C52). *)
From Verif Require Import Base RtModel RtSpec RtProofs.
Set Implicit Arguments.

Definition dead (t : timer) : Prop := tm_finished t = true \/ tm_fired t = true.
Definition idle (th : list (list instr)) : Prop := forall p, In p th -> p = [].
Definition thr_is (th : list (list instr)) (T : list instr) : Prop :=
  (T = [] /\ idle th) \/
  (T <> [] /\ exists k, nth_error th k = Some T /\ forall j p, j <> k -> nth_error th j = Some p -> p = []).

Definition tim_is (cu : option nat) (tm : list timer) (x : option bool) : Prop :=
  (forall c, cu = Some c -> c < List.length tm) /\
  match x with
  | None => forall j t, nth_error tm j = Some t -> dead t
  | Some st => exists c, cu = Some c /\ nth_error tm c = Some (mkTimer st false false)
                         /\ forall j t, j <> c -> nth_error tm j = Some t -> dead t
  end.

Lemma thr_nth th T k i rest : thr_is th T -> nth_error th k = Some (i :: rest) ->
  T = i :: rest /\ forall p, thr_is (upd k p th) p.
Proof.
  intros [[-> Hi]|[HT [k0 [Hk Ho]]]] Hn.
  { apply nth_error_In, Hi in Hn; discriminate. }
  destruct (Nat.eq_dec k k0) as [->|Hne]; [|specialize (Ho _ _ Hne Hn); discriminate].
  split; [congruence|]. intros p.
  assert (Hl : k0 < List.length th) by (apply nth_error_Some; congruence).
  destruct p as [|j p].
  - left; split; auto. intros q Hq; apply In_nth_error in Hq as [m Hm].
    destruct (Nat.eq_dec m k0) as [->|Hm']; [rewrite nth_upd_eq in Hm by auto; congruence|].
    rewrite nth_upd_ne in Hm by auto; eapply Ho; eauto.
  - right; split; [discriminate|]. exists k0; split; [now apply nth_upd_eq|].
    intros m q Hm; rewrite nth_upd_ne by auto; apply Ho; auto.
Qed.

Lemma thr_app th p : thr_is th [] -> thr_is (th ++ [p]) p.
Proof.
  intros [[_ Hi]|[H _]]; [|congruence].
  destruct p as [|i p].
  - left; split; auto. intros q Hq; apply in_app_or in Hq as [Hq|[<-|[]]]; auto.
  - right; split; [discriminate|]. exists (List.length th); split; [apply nth_app_last|].
    intros j q Hj Hq. destruct (Nat.lt_ge_cases j (List.length th)) as [Hl|Hl].
    + rewrite nth_error_app1 in Hq by auto; apply nth_error_In in Hq; auto.
    + rewrite nth_error_app2 in Hq by auto. destruct (j - List.length th) as [|m] eqn:E; [lia|].
      destruct m; discriminate.
Qed.

Lemma thr_quiet s T : thr_is (r_thr s) T -> quiet s -> in_control T = false.
Proof.
  intros [[-> _]|[_ [k [Hk _]]]] [_ Hq]; auto. apply Hq; eapply nth_error_In; eauto.
Qed.

Lemma thr_progress s T : thr_is (r_thr s) T -> in_progress s = if in_step T then 1 else 0.
Proof.
  unfold in_progress; intros [[-> Hi]|[HT [k [Hk Ho]]]].
  - simpl. assert (E : filter in_step (r_thr s) = []).
    { destruct (filter in_step (r_thr s)) as [|a l] eqn:E; auto.
      assert (Ha : In a (filter in_step (r_thr s))) by (rewrite E; left; auto).
      apply filter_In in Ha as [Ha Hb]; apply Hi in Ha; subst; discriminate. }
    now rewrite E.
  - revert k Hk Ho; induction (r_thr s) as [|a l IH]; intros [|k] Hk Ho; try discriminate.
    + injection Hk as ->. simpl.
      assert (E : filter in_step l = []).
      { destruct (filter in_step l) as [|a l'] eqn:E; auto.
        assert (Ha : In a (filter in_step l)) by (rewrite E; left; auto).
        apply filter_In in Ha as [Ha Hb]; apply In_nth_error in Ha as [m Hm].
        rewrite (Ho (S m) a) in Hb; auto; discriminate. }
      destruct (in_step T); simpl; now rewrite E.
    + simpl. rewrite (Ho 0 a) by auto. simpl. apply (IH k Hk).
      intros j p Hj Hp; apply (Ho (S j) p); auto.
Qed.

Lemma tim_new cu tm : tim_is cu tm None ->
  tim_is (Some (List.length tm)) (tm ++ [mkTimer false false false]) (Some false).
Proof.
  intros [H1 H2]; split.
  - intros c [= <-]; rewrite app_length; simpl; lia.
  - exists (List.length tm); split; auto; split; [apply nth_app_last|].
    intros j t Hj Ht. destruct (Nat.lt_ge_cases j (List.length tm)) as [Hl|Hl].
    + rewrite nth_error_app1 in Ht by auto; eauto.
    + rewrite nth_error_app2 in Ht by auto. destruct (j - List.length tm) as [|m] eqn:E; [lia|destruct m; discriminate].
Qed.

Lemma tim_start cu tm : tim_is cu tm (Some false) ->
  exists c, cu = Some c /\ nth_error tm c = Some (mkTimer false false false)
            /\ tim_is cu (upd c (mkTimer true false false) tm) (Some true).
Proof.
  intros [H1 [c [-> [Hc Ho]]]]. exists c; split; auto; split; auto; split.
  - intros d [= <-]; rewrite upd_len; apply H1; auto.
  - exists c; split; auto; split.
    + apply nth_upd_eq, H1; auto.
    + intros j t Hj; rewrite nth_upd_ne by auto; apply Ho; auto.
Qed.

Lemma tim_cancel cu tm x c : tim_is cu tm x -> cu = Some c ->
  exists st f d, nth_error tm c = Some (mkTimer st f d) /\ tim_is cu (upd c (mkTimer st true d) tm) None.
Proof.
  intros [H1 H2] ->.
  destruct (nth_error tm c) as [[st f d]|] eqn:E.
  2:{ apply nth_error_None in E; specialize (H1 _ eq_refl); lia. }
  exists st, f, d; split; auto; split.
  - intros e [= <-]; rewrite upd_len; apply H1; auto.
  - intros j t Ht. destruct (Nat.eq_dec j c) as [->|Hj].
    + rewrite nth_upd_eq in Ht by (apply H1; auto). injection Ht as <-; left; auto.
    + rewrite nth_upd_ne in Ht by auto. destruct x as [b|].
      * destruct H2 as [c' [[= <-] [_ Ho]]]; eapply Ho; eauto.
      * eapply H2; eauto.
Qed.

Lemma tim_fire cu tm x i : tim_is cu tm x -> nth_error tm i = Some (mkTimer true false false) ->
  x = Some true /\ cu = Some i /\ tim_is cu (upd i (mkTimer true false true) tm) None.
Proof.
  intros [H1 H2] Hi. destruct x as [b|].
  2:{ specialize (H2 _ _ Hi) as [H|H]; discriminate. }
  destruct H2 as [c [-> [Hc Ho]]].
  destruct (Nat.eq_dec i c) as [->|Hne].
  2:{ specialize (Ho _ _ Hne Hi) as [H|H]; discriminate. }
  assert (b = true) by congruence; subst. split; auto; split; auto; split.
  - intros e [= <-]; rewrite upd_len; apply H1; auto.
  - intros j t Ht. destruct (Nat.eq_dec j c) as [->|Hj].
    + rewrite nth_upd_eq in Ht by (apply H1; auto). injection Ht as <-; right; auto.
    + rewrite nth_upd_ne in Ht by auto; eapply Ho; eauto.
Qed.

(** Code of the threads that leads only to a step. *)
Inductive steplike : list instr -> nat -> Prop :=
| sl_none : steplike [] 0 | sl_new : steplike [IBegin; IEnd] 1 | sl_in : steplike [IEnd] 0.

(** [ph u T ru nw tim fresh pend]: the user's code, the code of the only busy thread, is_running,
    new_init, the live timer, was the last request a stop (or none), steps still to begin. *)
Inductive ph : list instr -> list instr -> bool -> bool -> option bool -> bool -> nat -> Prop :=
| ph_stopped T n : steplike T n -> ph [] T false true None true n
| ph_running T n : steplike T n -> ph [] T true false (Some true) false n
| ph_s1 : ph [ITestNew; ITestRun; ITestFag] [] false true None false 1
| ph_s2 : ph [ISpawn; ISetNew false; ITestRun; ITestFag] [] false true None false 1
| ph_s3 T n : steplike T n -> ph [ISetNew false; ITestRun; ITestFag] T false true None false n
| ph_s4 T n : steplike T n -> ph [ITestRun; ITestFag] T false false None false n
| ph_s5 T n : steplike T n -> ph [INewTimer; IStartTimer; ISetRunning true; ITestFag] T false false None false n
| ph_s6 T n : steplike T n -> ph [IStartTimer; ISetRunning true; ITestFag] T false false (Some false) false n
| ph_s7 T n : steplike T n -> ph [ISetRunning true; ITestFag] T false false (Some true) false n
| ph_s8 T n : steplike T n -> ph [ITestFag] T true false (Some true) false n
| ph_s9 T n : steplike T n -> ph [ISetFag false] T true false (Some true) false n
| ph_r1 T n : steplike T n -> ph [ITestNew; ITestRun; ITestFag] T true false (Some true) false n
| ph_r2 T n : steplike T n -> ph [ITestRun; ITestFag] T true false (Some true) false n
| ph_p1 T n : steplike T n -> ph p_stop T false true None true n
| ph_p2 T n : steplike T n -> ph p_stop T true false (Some true) true n
| ph_p3 T n ru nw : steplike T n -> ph [ISetRunning false; ISetNew true; ISetFag true] T ru nw None true n
| ph_p4 T n nw : steplike T n -> ph [ISetNew true; ISetFag true] T false nw None true n
| ph_p5 T n : steplike T n -> ph [ISetFag true] T false true None true n
| ph_f1 : ph [] p_run true false None false 1
| ph_f2 : ph [] [ITestNew; ITestRun; ITestFag; IBegin; IEnd] false false None false 1
| ph_f3 : ph [] [ITestRun; ITestFag; IBegin; IEnd] false false None false 1
| ph_f4 : ph [] [INewTimer; IStartTimer; ISetRunning true; ITestFag; IBegin; IEnd] false false None false 1
| ph_f5 : ph [] [IStartTimer; ISetRunning true; ITestFag; IBegin; IEnd] false false (Some false) false 1
| ph_f6 : ph [] [ISetRunning true; ITestFag; IBegin; IEnd] false false (Some true) false 1
| ph_f7 : ph [] [ITestFag; IBegin; IEnd] true false (Some true) false 1
| ph_f8 : ph [] [ISetFag false; IBegin; IEnd] true false (Some true) false 1.

Definition inv (s : rt) (fresh : bool) (pend : nat) : Prop :=
  exists T tim, ph (r_user s) T (r_running s) (r_new s) tim fresh pend
    /\ thr_is (r_thr s) T /\ tim_is (r_cur s) (r_timers s) tim.

Lemma inv0 : inv rt0 true 0.
Proof.
  exists [], None; split; [apply ph_stopped; constructor|]. split; [left; split; auto; intros p []|].
  split; [discriminate|]. intros j t; destruct j; discriminate.
Qed.

Ltac fin := split; [split; [solve [auto|eauto|lia]|]|].

Lemma inv_user s s' fresh pend : inv s fresh pend -> next LUser s = Some s' ->
  exists pend', inv s' fresh pend' /\ r_begun s' + pend' = r_begun s + pend.
Proof.
  intros [T [tim [Hp [HT Hm]]]] Hn. destruct s as [ru nw fa cu tm us th bg]; cbn in *.
  inversion Hp; subst; cbn in Hn; try discriminate; unfold p_stop in *;
    try (injection Hn as <-; cbn; exists pend; split; [|lia]; eexists _, _; split; [|split; eassumption];
         cbn; try destruct fa; econstructor; solve [eauto]);
    try (injection Hn as <-; cbn; eexists; split; [eexists _, _; split; [|split; eassumption]; cbn; constructor|cbn; lia]).
  - (* spawn *) injection Hn as <-; cbn. exists 1; split; [|lia].
    exists p_step, None; split; [cbn; constructor; constructor|]. split; auto. now apply thr_app.
  - (* new timer *) injection Hn as <-; cbn. exists pend; split; [|lia].
    exists T, (Some false); split; [now constructor|split; auto]. eapply tim_new; eauto.
  - (* start timer *) destruct (tim_start Hm) as [c [-> [E Hm']]]. rewrite E in Hn. injection Hn as <-; cbn.
    exists pend; split; [|lia]. exists T, (Some true); split; [now constructor|split; auto].
  - (* cancel when stopped *) destruct cu as [c|].
    + destruct (tim_cancel Hm eq_refl) as [st [f [d [E Hm']]]]. rewrite E in Hn. injection Hn as <-; cbn.
      exists pend; split; [|lia]. exists T, None; split; [now constructor|split; auto].
    + injection Hn as <-; cbn. exists pend; split; [|lia]. exists T, None; split; [now constructor|split; auto].
  - (* cancel when running *) destruct cu as [c|].
    + destruct (tim_cancel Hm eq_refl) as [st [f [d [E Hm']]]]. rewrite E in Hn. injection Hn as <-; cbn.
      exists pend; split; [|lia]. exists T, None; split; [now constructor|split; auto].
    + destruct Hm as [_ [c [HH _]]]; discriminate.
Qed.

Lemma inv_thr s s' fresh pend k : inv s fresh pend -> next (LThr k) s = Some s' ->
  exists pend', inv s' fresh pend' /\ r_begun s' + pend' = r_begun s + pend.
Proof.
  intros [T [tim [Hp [HT Hm]]]] Hn. destruct s as [ru nw fa cu tm us th bg]; cbn in *.
  destruct (nth_error th k) as [[|i rest]|] eqn:Ek; try discriminate.
  destruct (thr_nth k HT Ek) as [-> Hu].
  inversion Hp; subst; unfold p_run, p_start in *;
    try match goal with H : steplike _ _ |- _ => inversion H; subst end;
    try match goal with H : _ = _ :: _ |- _ => injection H as <- <- end; cbn in Hn;
    try (injection Hn as <-; cbn; eexists; split; [eexists _, _; split; [|split; [apply Hu|eassumption]];
         cbn; try destruct fa; econstructor; solve [constructor|eauto using steplike]|cbn; lia]).
  - injection Hn as <-; cbn. exists 1; split; [|lia].
    exists [IStartTimer; ISetRunning true; ITestFag; IBegin; IEnd], (Some false).
    split; [cbn; constructor|split; [apply Hu|]]. eapply tim_new; eauto.
  - destruct (tim_start Hm) as [c [-> [E Hm']]]. rewrite E in Hn. injection Hn as <-; cbn.
    exists 1; split; [|lia]. exists [ISetRunning true; ITestFag; IBegin; IEnd], (Some true).
    split; [cbn; constructor|split; [apply Hu|exact Hm']].
Qed.

Lemma inv_fire s s' fresh pend i : inv s fresh pend -> on_time (LFire i) s -> next (LFire i) s = Some s' ->
  pend = 0 /\ inv s' fresh 1 /\ r_begun s' = r_begun s.
Proof.
  intros [T [tim [Hp [HT Hm]]]] [Hq H0] Hn.
  pose proof (thr_quiet HT Hq) as Hc. rewrite (thr_progress s HT) in H0.
  destruct s as [ru nw fa cu tm us th bg]; cbn in *. destruct Hq as [Hu _]; cbn in Hu; subst us.
  destruct (nth_error tm i) as [[[] [] []]|] eqn:Ei; try discriminate. injection Hn as <-; cbn.
  destruct (tim_fire i Hm Ei) as [-> [-> Hm']].
  assert (T = [] /\ pend = 0 /\ ru = true /\ nw = false /\ fresh = false) as [-> [-> [-> [-> ->]]]].
  { inversion Hp; subst; try (cbn in Hc; discriminate).
    match goal with H : steplike _ _ |- _ => inversion H; subst end; cbn in *; try discriminate; auto. }
  split; auto; split; auto. exists p_run, None; split; [cbn; constructor|split; auto]. now apply thr_app.
Qed.

Lemma inv_start s s' fresh pend : inv s fresh pend -> on_time LStart s -> next LStart s = Some s' ->
  pend = 0 /\ inv s' false (if fresh then 1 else 0) /\ r_begun s' = r_begun s.
Proof.
  intros [T [tim [Hp [HT Hm]]]] [Hq H0] Hn.
  pose proof (thr_quiet HT Hq) as Hc. rewrite (thr_progress s HT) in H0.
  destruct s as [ru nw fa cu tm us th bg]; cbn in *. destruct Hq as [Hu _]; cbn in Hu; subst us.
  injection Hn as <-; cbn.
  assert (T = [] /\ pend = 0 /\ ((ru = false /\ nw = true /\ fresh = true /\ tim = None) \/
          (ru = true /\ nw = false /\ fresh = false /\ tim = Some true))) as [-> [-> HH]].
  { inversion Hp; subst; try (cbn in Hc; discriminate);
    match goal with H : steplike _ _ |- _ => inversion H; subst end; cbn in *; try discriminate; auto 10. }
  split; auto; split; auto.
  destruct HH as [[-> [-> [-> ->]]]|[-> [-> [-> ->]]]]; eexists _, _; (split; [|split; eassumption]); cbn; repeat constructor.
Qed.

Lemma inv_stop s s' fresh pend : inv s fresh pend -> on_time LStop s -> next LStop s = Some s' ->
  inv s' true pend /\ r_begun s' = r_begun s.
Proof.
  intros [T [tim [Hp [HT Hm]]]] Hq Hn. cbn in Hq.
  pose proof (thr_quiet HT Hq) as Hc.
  destruct s as [ru nw fa cu tm us th bg]; cbn in *. destruct Hq as [Hu _]; cbn in Hu; subst us.
  injection Hn as <-; cbn. split; auto.
  inversion Hp; subst; try (cbn in Hc; discriminate); eexists _, _; (split; [|split; eassumption]); cbn; now constructor.
Qed.

Lemma inv_run ls s s' : on_time_run ls s s' -> forall fresh pend, inv s fresh pend ->
  exists pend', inv s' (stopped_after fresh ls) pend' /\ r_begun s' + pend' = r_begun s + pend + requested fresh ls.
Proof.
  induction 1 as [s|l ls s s1 s2 Hot Hn _ IH]; intros fresh pend Hi; cbn.
  { exists pend; split; auto; lia. }
  assert (X : exists pend1, inv s1 (stopped' l fresh) pend1 /\ r_begun s1 + pend1 = r_begun s + pend + adds l fresh).
  { destruct l; cbn [stopped' adds].
    - destruct (inv_start Hi Hot Hn) as [-> [H1 H2]]; eexists; split; [exact H1|lia].
    - destruct (inv_stop Hi Hot Hn) as [H1 H2]; eexists; split; [exact H1|lia].
    - destruct (inv_user Hi Hn) as [p [H1 H2]]; exists p; split; auto; lia.
    - destruct (inv_thr k Hi Hn) as [p [H1 H2]]; exists p; split; auto; lia.
    - destruct (inv_fire Hi Hot Hn) as [-> [H1 H2]]; eexists; split; [exact H1|lia]. }
  destruct X as [p1 [H1 H2]]. destruct (IH _ _ H1) as [p2 [H3 H4]]. exists p2; split; auto; lia.
Qed.

Lemma inv_progress s fresh pend : inv s fresh pend -> in_progress s <= 1.
Proof. intros [T [tim [_ [HT _]]]]. rewrite (thr_progress s HT). destruct (in_step T); lia. Qed.

(** A quiet state is stopped (no timer can fire) or running (exactly one can). *)
Lemma inv_quiet s fresh pend : inv s fresh pend -> quiet s ->
  pend = 0 /\ if fresh then (forall i, next (LFire i) s = None) /\ (forall j t, nth_error (r_timers s) j = Some t -> dead t)
               else exists i, next (LFire i) s <> None /\ forall j, next (LFire j) s <> None -> j = i.
Proof.
  intros [T [tim [Hp [HT Hm]]]] Hq. pose proof (thr_quiet HT Hq) as Hc.
  destruct s as [ru nw fa cu tm us th bg]; cbn in *. destruct Hq as [Hu _]; cbn in Hu; subst us.
  inversion Hp; subst; try (cbn in Hc; discriminate);
    match goal with H : steplike _ _ |- _ => inversion H; subst end; cbn in *; try discriminate; (split; [auto|]).
  all: try (split; [|apply Hm]; intros i; destruct (nth_error tm i) as [[[] [] []]|] eqn:E; auto;
            destruct Hm as [_ Hm]; destruct (Hm _ _ E); discriminate).
  all: destruct Hm as [Hl [c [-> [Hc' Ho]]]]; exists c; rewrite Hc'; split; [discriminate|];
    intros j Hj; destruct (Nat.eq_dec j c) as [|Hne]; auto; exfalso;
    destruct (nth_error tm j) as [[[] [] []]|] eqn:E; try congruence; destruct (Ho _ _ Hne E); discriminate.
Qed.

(** After that, whatever happens short of another start, no step begins. *)
Definition passive_i (i : instr) : bool := match i with ISetRunning _ | ISetNew _ | ISetFag _ | ICancel | IEnd => true | _ => false end.
Definition passive (s : rt) : Prop :=
  forallb passive_i (r_user s) = true /\ (forall p, In p (r_thr s) -> forallb passive_i p = true)
  /\ (forall j t, nth_error (r_timers s) j = Some t -> dead t).

Lemma in_upd {A} k (x : A) l y : In y (upd k x l) -> y = x \/ In y l.
Proof.
  revert k; induction l as [|a l IH]; intros [|k]; simpl; try tauto.
  - intros [H|H]; auto.
  - intros [H|H]; auto. destruct (IH _ H); auto.
Qed.

Lemma dead_upd tm c st d : (forall j t, nth_error tm j = Some t -> dead t) ->
  forall j t, nth_error (upd c (mkTimer st true d) tm) j = Some t -> dead t.
Proof.
  intros H j t Ht. apply nth_error_In, in_upd in Ht as [->|Ht]; [left; auto|].
  apply In_nth_error in Ht as [m Hm]; eauto.
Qed.

Lemma passive_exec i rest s s' p : passive s -> passive_i i = true -> forallb passive_i rest = true ->
  exec i rest s = (s', p) ->
  r_begun s' = r_begun s /\ r_user s' = r_user s /\ r_thr s' = r_thr s /\ forallb passive_i p = true
  /\ (forall j t, nth_error (r_timers s') j = Some t -> dead t).
Proof.
  intros [Hu [Ht Hm]] Hi Hr E. destruct s as [ru nw fa cu tm us th bg]; destruct i; try discriminate; cbn in *.
  all: try (injection E as <- <-; cbn; repeat split; auto).
  destruct cu as [c|]; [|injection E as <- <-; cbn; repeat split; auto].
  destruct (nth_error tm c) as [[st f d]|]; injection E as <- <-; cbn; repeat split; auto.
  now apply dead_upd.
Qed.

Lemma passive_next l s s' : passive s -> l <> LStart -> next l s = Some s' -> passive s' /\ r_begun s' = r_begun s.
Proof.
  intros Hp Hl Hn. destruct l; try congruence; cbn in Hn.
  - destruct (r_user s) eqn:E; [|discriminate]. injection Hn as <-. destruct Hp as [H1 [H2 H3]]. repeat split; auto.
  - destruct (r_user s) as [|i rest] eqn:E; [discriminate|].
    destruct (exec i rest s) as [s1 p] eqn:Ex. injection Hn as <-.
    pose proof Hp as [H1 [H2 H3]]. rewrite E in H1; cbn in H1; apply andb_true_iff in H1 as [Hi Hr].
    destruct (passive_exec _ _ Hp Hi Hr Ex) as [A1 [A2 [A3 [A4 A5]]]].
    split; [|exact A1]. split; [exact A4|split; [|exact A5]]. cbn. rewrite A3. exact H2.
  - destruct (nth_error (r_thr s) k) as [[|i rest]|] eqn:E; try discriminate.
    destruct (exec i rest s) as [s1 p] eqn:Ex. injection Hn as <-.
    pose proof Hp as [H1 [H2 H3]]. pose proof (H2 _ (nth_error_In _ _ E)) as HH.
    cbn in HH; apply andb_true_iff in HH as [Hi Hr].
    destruct (passive_exec _ _ Hp Hi Hr Ex) as [A1 [A2 [A3 [A4 A5]]]].
    split; [|exact A1]. split; [cbn; rewrite A2; exact H1|split; [|exact A5]].
    cbn. rewrite A3. intros q Hq; apply in_upd in Hq as [->|Hq]; auto.
  - destruct (nth_error (r_timers s) i) as [[[] [] []]|] eqn:E; try discriminate.
    destruct Hp as [_ [_ H3]]. destruct (H3 _ _ E); discriminate.
Qed.

Lemma passive_run ls : forall s s', passive s -> ~ In LStart ls -> run ls s = Some s' -> r_begun s' = r_begun s.
Proof.
  induction ls as [|l ls IH]; intros s s' Hp Hl Hr; cbn in Hr.
  - congruence.
  - destruct (next l s) as [s1|] eqn:E; [|discriminate].
    destruct (passive_next Hp (fun e => Hl (or_introl e)) E) as [Hp1 Hb].
    rewrite <- Hb. eapply IH; eauto. intros H; apply Hl; right; auto.
Qed.

Lemma inv_passive s pend : inv s true pend -> quiet s -> passive s.
Proof.
  intros Hi Hq. destruct (inv_quiet Hi Hq) as [_ [_ Hd]]. destruct Hq as [Hu Ht].
  split; [rewrite Hu; auto|split; auto].
  intros p Hp; specialize (Ht _ Hp). destruct p as [|[] [|? ?]]; try discriminate; auto.
Qed.
