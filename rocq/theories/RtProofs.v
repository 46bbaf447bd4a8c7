(** * Lemmas for the real-time client (C52). *)
From Verif Require Import Base RtModel RtSpec.
Set Implicit Arguments.

Lemma nth_app_last {A} (l : list A) x t : nth_error (l ++ x :: t) (List.length l) = Some x.
Proof. now rewrite nth_error_app2, Nat.sub_diag by lia. Qed.
Lemma upd_app_last {A} (l : list A) x y t : upd (List.length l) y (l ++ x :: t) = l ++ y :: t.
Proof. induction l; simpl; congruence. Qed.
Lemma upd_len {A} n (x : A) l : List.length (upd n x l) = List.length l.
Proof. revert n; induction l; intros [|n]; simpl; auto. Qed.
Lemma nth_upd_eq {A} n (x : A) l : n < List.length l -> nth_error (upd n x l) n = Some x.
Proof. revert n; induction l; intros [|n] H; simpl in *; try lia; auto. apply IHl; lia. Qed.
Lemma nth_upd_ne {A} n m (x : A) l : n <> m -> nth_error (upd n x l) m = nth_error l m.
Proof. revert n m; induction l; intros [|n] [|m] H; simpl; auto; try lia. Qed.

Definition armed := mkTimer true false false.
Definition fired := mkTimer true false true.
Definition cycle (a b : nat) : list label := LFire a :: repeat (LThr b) 8.

(** In the steady state one firing leads to the steady state with one more thread. *)
Lemma run_app ls1 ls2 s : run (ls1 ++ ls2) s = match run ls1 s with Some s' => run ls2 s' | None => None end.
Proof. revert s; induction ls1; simpl; intros; auto. destruct (next a s); auto. Qed.

Lemma run_thr i rest ru nw fa cu tm us th bg ru' nw' fa' cu' tm' us' th' bg' p ls r :
  exec i rest (mkRt ru nw fa cu tm us (th ++ [i :: rest]) bg) = (mkRt ru' nw' fa' cu' tm' us' (th ++ (i :: rest) :: th') bg', p) ->
  run ls (mkRt ru' nw' fa' cu' tm' us' (th ++ p :: th') bg') = r ->
  run (LThr (List.length th) :: ls) (mkRt ru nw fa cu tm us (th ++ [i :: rest]) bg) = r.
Proof.
  intros E H; cbn [run next r_thr]; rewrite nth_app_last, E.
  unfold set_thr; cbn [r_running r_new r_fag r_cur r_timers r_user r_thr r_begun].
  now rewrite upd_app_last.
Qed.

Lemma run_user i rest ru nw fa cu tm th bg ru' nw' fa' cu' tm' us' th' bg' p ls r :
  exec i rest (mkRt ru nw fa cu tm (i :: rest) th bg) = (mkRt ru' nw' fa' cu' tm' us' th' bg', p) ->
  run ls (mkRt ru' nw' fa' cu' tm' p th' bg') = r ->
  run (LUser :: ls) (mkRt ru nw fa cu tm (i :: rest) th bg) = r.
Proof. intros E H; cbn [run next r_user]; now rewrite E. Qed.

Lemma run_fire ru nw fa cu tms tt us th bg ls r :
  run ls (mkRt ru nw fa cu (tms ++ fired :: tt) us (th ++ [p_run]) bg) = r ->
  run (LFire (List.length tms) :: ls) (mkRt ru nw fa cu (tms ++ armed :: tt) us th bg) = r.
Proof.
  intros H; cbn [run next r_timers]; rewrite nth_app_last; unfold armed at 1.
  cbn [r_running r_new r_fag r_cur r_timers r_user r_thr r_begun]. now rewrite upd_app_last.
Qed.

Ltac thr := eapply run_thr with (th' := []); [cbn; reflexivity|].

Lemma cycle_runs tms th bg us ls :
  run (cycle (List.length tms) (List.length th) ++ ls)
      (mkRt true false false (Some (List.length tms)) (tms ++ [armed]) us th bg)
  = run ls (mkRt true false false (Some (S (List.length tms))) ((tms ++ [fired]) ++ [armed]) us (th ++ [[IEnd]]) (S bg)).
Proof.
  unfold cycle; cbn [app repeat]; apply run_fire; unfold p_run, p_start; cbn [app].
  do 4 thr.
  eapply run_thr with (th' := []).
  { cbn [exec]. rewrite nth_app_last, upd_app_last. reflexivity. }
  do 3 thr.
  rewrite app_length, Nat.add_1_r; reflexivity.
Qed.
