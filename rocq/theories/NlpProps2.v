(** * More on C09: nonlinear constraints at collocation points (nl_cons_check_colloc_points). *)
From Coq Require Import Reals Lra Lia.
From Verif Require Import Base TreeModel TreeSpec TreeProofs TreeProofs2 NlpModel NlpSpec NlpProofs NlpProofs2 NlpProofs3 NlpProofs4 NlpProps.
Local Open Scope R_scope.

(** A constraint on the states alone. *)
Definition states_only (con : nl_con) : Prop := forall x u u' z z' tvp tvp' p p', nl_g con x u z tvp p = nl_g con x u' z' tvp' p'.

(** With the check switched on, a constraint on the states holds at every collocation point (also the ends of the finite
    elements) of all intervals but the last, in every scenario; soft ones up to a slack in [0, maximum_violation]. *)
Theorem C09_colloc_states_partial :
  forall c par pt t, cfg_ok c -> scaling_pos c -> nl_chk_colloc c = true ->
  setup_scenario_tree (ncomb c) (nr c) (N c) = Ok t -> feasible c par pt ->
  forall node br, scenario c t node br -> forall k, (k + 1 < N c)%nat ->
  forall q, (q < ncoll (disc c))%nat -> forall con, In con (nlc c) -> states_only con ->
    let g := nl_g con (physX c pt (k + 1) (node (k + 1)%nat) q) (scen_u c pt node k) (scen_z c pt node k q) (pTvp par k) (scen_p par t node br k) in
    match nl_ub con with
    | None => True
    | Some ub => match nl_soft con with
                 | None => g <= ub
                 | Some (vmax, _) => exists eps, 0 <= eps /\ le_ub eps vmax /\ g <= ub + eps
                 end
    end.
Proof.
  intros c par pt t Hok Hpos Hnl Ht Hf node br HP k Hk q Hq con Hin Hst g.
  apply In_nth_error in Hin as [i Hi].
  apply (feasible_iff c par pt Hok Hpos) in Hf. destruct Hf as ((_ & _ & HE) & _ & Hedge).
  destruct (path_edge c Hok t Ht node br (k + 1) HP Hk) as (He & _ & Eco).
  destruct (Hedge _ _ _ He) as [_ Hstep]. specialize (Hstep i con Hi). rewrite Hnl in Hstep. specialize (Hstep q Hq).
  unfold nl_holds in Hstep.
  rewrite (Hst _ _ (scen_u c pt node k) _ (scen_z c pt node k q) _ (pTvp par k) _ (scen_p par t node br k)) in Hstep. fold g in Hstep.
  assert (HN : (1 <= N c)%nat) by apply Hok. assert (Hc : (1 <= ncomb c)%nat) by apply Hok.
  assert (Hnode : (node (k + 1)%nat < nmax c)%nat).
  { destruct He as (_ & Hs & _). unfold width_of in Hs. pose proof (nodes_le_nmax c HN Hc (k + 1)). lia. }
  unfold slack_of in Hstep. destruct (nl_ub con) as [ub|]; [|exact I]. cbn [le_ub] in Hstep.
  destruct (nl_soft con) as [[vmax pen]|] eqn:Es; [|lra].
  set (r := Nat.min (k + 1) ((if single_slack c then 1 else N c) - 1)) in *. set (ai := List.length (soft_list (firstn i (nlc c)))) in *.
  assert (Hsplit : soft_list (nlc c) = soft_list (firstn i (nlc c)) ++ (vmax, pen) :: soft_list (skipn (S i) (nlc c))).
  { pose proof (nth_error_split (nlc c) i Hi) as (l1 & l2 & E & El). rewrite E.
    rewrite firstn_app, El, Nat.sub_diag. cbn [firstn]. rewrite app_nil_r, firstn_all2 by lia.
    rewrite skipn_app, El. rewrite skipn_all2 by lia. replace (S i - i)%nat with 1%nat by lia. cbn [skipn app].
    unfold soft_list. rewrite flat_map_app. cbn [flat_map]. rewrite Es. reflexivity. }
  assert (Hr : (r < (if single_slack c then 1 else N c))%nat) by (unfold r; destruct (single_slack c); lia).
  assert (Hai : (ai < List.length (soft_list (nlc c)))%nat).
  { rewrite Hsplit, app_length. cbn [List.length]. unfold ai. lia. }
  pose proof (HE r (node (k + 1)%nat) ai Hr Hnode Hai) as [H0 H1].
  assert (Hnth : nth_error (soft_list (nlc c)) ai = Some (vmax, pen)).
  { rewrite Hsplit, nth_error_app2 by (unfold ai; lia). unfold ai. rewrite Nat.sub_diag. reflexivity. }
  rewrite Hnth in H1. cbn [fst ge_lb] in H0, H1. exists (oE pt r (node (k + 1)%nat) ai). split; [exact H0|]. split; [exact H1|]. lra.
Qed.
Print Assumptions C09_colloc_states_partial.

(** x' = u over two intervals, one element of degree 1 each; the constraint is x + u <= 1. *)
Definition ex2_con : nl_con := {| nl_g := fun x u _ _ _ => x 0%nat + u 0%nat; nl_ub := Some 1; nl_soft := None |}.
Definition ex2_state : nl_con := {| nl_g := fun x _ _ _ _ => x 0%nat; nl_ub := Some 8; nl_soft := Some (Some 2, 5) |}.
Definition ex2 (l : list nl_con) : cfg :=
  {| N := 2; nr := 0; ncomb := 1; open_loop := false; single_slack := false; chk_colloc := true;
     nl_chk_colloc := true;
     mdl := {| n_x := 1; n_u := 1; n_z := 0; rhs := fun x u z tvp p w a => u a; alg := fun x u z tvp p w a => 0 |};
     sx := fun _ => 1; su := fun _ => 1; sz := fun _ => 1;
     disc := Colloc 1 1 1 (fun r j => if (r =? 0)%nat then -1 else 1) (fun j => if (j =? 0)%nat then 0 else 1);
     nlc := l;
     lterm := fun _ _ _ _ _ => 0; mterm := fun _ _ _ => 0; rterm := RDefault (fun _ => 0);
     xlb := fun _ => None; xub := fun _ => None; ulb := fun _ => None; uub := fun _ => None;
     zlb := fun _ => None; zub := fun _ => None; tlb := fun _ => None; tub := fun _ => None |}.
Definition ex2_pt : point :=
  {| oX := fun k s i a => match k with O => if (i =? 2)%nat then 0 else -9 | S O => 10 | _ => 1 end; oZ := fun _ _ _ _ => 0;
     oU := fun k _ _ => match k with O => 10 | _ => -9 end; oE := fun _ _ _ => 2 |}.
Lemma ex2_ok l : cfg_ok (ex2 l) /\ scaling_pos (ex2 l).
Proof.
  split.
  - split; [cbn; lia|]. split; [cbn; lia|]. split; [intros a _; cbn; lra|]. cbn.
    split; [lia|]. split; [lia|]. unfold wf_model, agree; cbn. intros. split; intros; reflexivity.
  - split; [|split]; intros a _; cbn; lra.
Qed.
Lemma ex2_feasible l : In l [[ex2_con]; [ex2_state]] -> feasible (ex2 l) ex_par ex2_pt.
Proof.
  intros Hl. destruct (ex2_ok l) as [Hok Hpos]. apply feasible_iff; [exact Hok|exact Hpos|].
  split; [split; [|split]|split].
  - unfold physical_bounds, inside; cbn. repeat split; auto; intros; lia.
  - intros _. unfold colloc_bounds, inside; cbn. repeat split; auto; intros; lia.
  - unfold slack_bounds. intros k s a _ _. destruct Hl as [<-|[<-|[]]]; cbn; [lia|]. intros Ha. replace a with 0%nat by lia. cbn. split; cbn; lra.
  - intros a Ha. unfold stateX, physX; cbn. lra.
  - intros k s b (Hk & Hs & Hb). unfold width_of, fan_of, nodes, fan in *. cbn in Hk, Hs, Hb.
    assert (s = 0 /\ b = 0)%nat as (-> & ->) by (rewrite Nat.min_0_r in Hs; cbn in Hs; destruct k; cbn in Hb; lia).
    split.
    + unfold model_step, model_step_with; cbn [disc ex2]. unfold colloc_step, collx, stateX, physX, physU; cbn.
      split; [intros; lia|]. destruct k as [|[|k]]; [| |lia]; cbn; (split; [|split]).
      * intros i j a Hi Hj Ha. assert (i = 0 /\ j = 1)%nat as [-> ->] by lia. cbn. lra.
      * intros i a Hi Ha. assert (i = 0)%nat by lia. subst. cbn. lra.
      * intros a Ha. reflexivity.
      * intros i j a Hi Hj Ha. assert (i = 0 /\ j = 1)%nat as [-> ->] by lia. cbn. lra.
      * intros i a Hi Ha. assert (i = 0)%nat by lia. subst. cbn. lra.
      * intros a Ha. reflexivity.
    + intros i con Hi. cbn [nl_chk_colloc ex2]. intros q Hq. cbn in Hq.
      destruct Hl as [<-|[<-|[]]]; (destruct i as [|[|i]]; try discriminate Hi); injection Hi as <-; unfold nl_holds, physX, physU, slack_of;
        (destruct k as [|[|k]]; [| |lia]); (destruct q as [|[|q]]; [| |lia]); cbn; lra.
Qed.

Example C09_nonvacuous_colloc :
  let c := ex2 [ex2_state] in
  cfg_ok c /\ scaling_pos c /\ nl_chk_colloc c = true /\ feasible c ex_par ex2_pt /\ (0 + 1 < N c)%nat /\ (1 < ncoll (disc c))%nat /\
  In ex2_state (nlc c) /\ states_only ex2_state /\ physX c ex2_pt 1 0 1 0%nat = 10.
Proof.
  intros c. destruct (ex2_ok [ex2_state]) as [H1 H2]. split; [exact H1|]. split; [exact H2|]. split; [reflexivity|].
  split; [apply ex2_feasible; right; left; reflexivity|]. split; [cbn; lia|]. split; [cbn; lia|]. split; [left; reflexivity|].
  split; [intros x u u' z z' tvp tvp' p p'; reflexivity|]. unfold physX. cbn. lra.
Qed.

(** C09 is false of the code for constraints on states and inputs with the check switched on: the points of an interval
    are stored with its end and checked with the input of the next interval (at step 0 with variables nothing else
    refers to), so that all points of the first interval violate the constraint with the input applied there. *)
Theorem C09_colloc_input_refuted :
  exists c par pt con, cfg_ok c /\ scaling_pos c /\ nl_chk_colloc c = true /\ N c = 2%nat /\ (0 < ncoll (disc c))%nat /\
    nlc c = [con] /\ nl_soft con = None /\ nl_ub con = Some 1 /\ feasible c par pt /\
    forall q, (q < ncoll (disc c))%nat ->
    ~ nl_g con (physX c pt 1 0 q) (physU c pt 0 0) (physZ c pt 0 0 q) (pTvp par 0%nat) (pP par 0) <= 1.
Proof.
  exists (ex2 [ex2_con]), ex_par, ex2_pt, ex2_con. destruct (ex2_ok [ex2_con]) as [H1 H2]. split; [exact H1|]. split; [exact H2|].
  split; [reflexivity|]. split; [reflexivity|]. split; [cbn; lia|]. do 3 (split; [reflexivity|]).
  split; [apply ex2_feasible; left; reflexivity|]. intros q Hq. unfold physX, physU. cbn. lra.
Qed.
Print Assumptions C09_colloc_input_refuted.
