(** * C107: the rate penalty that is charged is the one configured with set_rterm. *)
From Coq Require Import Reals Lra Lia.
From Verif Require Import Base TreeModel TreeSpec TreeProofs TreeProofs2 NlpModel NlpSpec NlpProofs NlpProofs2 NlpProofs3 NlpProofs4 NlpProps BestProps UrateSpec UrateProps RcfgModel RcfgSpec RcfgProofs.
Local Open Scope R_scope.

(** After any calls of set_rterm (and failed or repeated preparations), setup succeeds and the problem charges the last good
    expression; without one, the factors: for every entry of every input the value of the last keyword that named it and
    was reached, 0 without one.  Missing: that the last accepted call counts (refuted below). *)
Theorem C107_charged_penalty_partial :
  forall l h, distinct_names l -> forallb configuring h = true ->
  exists fac,
    rs_prob (fst (rexec l (h ++ [CSetup true]) rs_init)) = Some (match last_expression h with Some f => RUser f | None => RDefault fac end) /\
    forall l1 name n l2 i, l = (l1 ++ (name, n) :: l2)%list -> (i < n)%nat ->
      fac (list_sum (map snd l1) + i)%nat = factor_of (all_reached l h) name i.
Proof.
  intros l h Hd Hc. destruct (configured l h Hd Hc) as (H1 & H2 & H3 & H4). set (m := fst (rexec l h rs_init)) in *.
  exists (rs_fac m). split.
  - rewrite rexec_app. fold m. cbn. unfold picked. rewrite H3. reflexivity.
  - intros l1 name n l2 i El Hi. apply H4 with (n := n); [|exact Hi]. rewrite El. rewrite El in Hd. rewrite (place_split l1 name n l2 0 Hd). reflexivity.
Qed.
Print Assumptions C107_charged_penalty_partial.

(** Finding: a call of set_rterm with factors after one with an expression is accepted and has no effect. *)
Theorem C107_last_call_counts_refuted :
  exists f, let h := [CRate (Some (EGood f)) []; CRate None [("u"%string, FNum 5)]; CSetup true] in
  snd (rexec [("u"%string, 1%nat)] h rs_init) = map (fun c => (c, Ok tt)) h /\
  rs_prob (fst (rexec [("u"%string, 1%nat)] h rs_init)) = Some (RUser f).
Proof. exists (fun _ _ _ _ _ _ => 0). split; reflexivity. Qed.
Print Assumptions C107_last_call_counts_refuted.
(** Once an expression was accepted, factors never count. *)
Theorem C107_factors_after_expression_ignored :
  forall l h f kws, distinct_names l -> forallb configuring h = true -> last_expression h = Some f ->
  rs_prob (fst (rexec l (h ++ [CRate None kws; CSetup true]) rs_init)) = rs_prob (fst (rexec l (h ++ [CSetup true]) rs_init)).
Proof.
  intros l h f kws Hd Hc Hf. destruct (C107_charged_penalty_partial l h Hd Hc) as (fac & -> & _).
  destruct (C107_charged_penalty_partial l (h ++ [CRate None kws]) Hd) as (fac' & E & _).
  { rewrite forallb_app, Hc. reflexivity. }
  rewrite <- app_assoc in E. cbn [app] in E. rewrite E.
  unfold last_expression, expressions in *. rewrite flat_map_app. cbn [flat_map]. rewrite !app_nil_r. rewrite Hf. reflexivity.
Qed.
Print Assumptions C107_factors_after_expression_ignored.

(** What is accepted: before setup, good expressions, and calls all of whose keywords are valid; nothing after. *)
Theorem C107_accepted_iff :
  forall l m e kws, distinct_names l ->
  (snd (rdo l m (CRate e kws)) = Ok tt <->
   rs_setup m = false /\ match e with Some (EGood _) => True | Some _ => False | None => forallb (valid_kw l) kws = true end).
Proof.
  intros l m e kws Hd. cbn [rdo]. unfold set_rate. destruct (rs_setup m).
  - split; [discriminate|intros [? _]; discriminate].
  - destruct e as [[| | | |f]|]; try (split; [discriminate|intros [_ []]]).
    + split; [intros _; split; [reflexivity|exact I]|reflexivity].
    + assert (A : snd (assign_all l kws (rs_fac m)) = Ok tt <-> forallb (valid_kw l) kws = true).
      { clear -Hd. generalize (rs_fac m) as fac. induction kws as [|[k v] kws IH]; intros fac; [split; reflexivity|]. cbn [assign_all forallb].
        destruct (valid_kw l (k, v)) eqn:Ev.
        - destruct (assign_valid l fac k v Ev) as (fac' & -> & _). apply IH.
        - destruct (assign_invalid l fac k v Ev) as (x & ->). split; discriminate. }
      destruct (assign_all l kws (rs_fac m)) as [fac r]. cbn in A |- *. rewrite A. split; [intros H; split; [reflexivity|exact H]|intros [_ H]; exact H].
Qed.
Print Assumptions C107_accepted_iff.

(** A rejected expression changes nothing. *)
Theorem C107_rejected_expression_changes_nothing :
  forall l m e kws x, snd (rdo l m (CRate (Some e) kws)) = Err x -> fst (rdo l m (CRate (Some e) kws)) = m.
Proof. intros l m e kws x. cbn [rdo]. unfold set_rate. destruct (rs_setup m); [reflexivity|]. destruct e; try reflexivity. discriminate. Qed.
Print Assumptions C107_rejected_expression_changes_nothing.

(** Finding: a call that raises an exception can change the penalty, as the keywords before the failing one stay assigned. *)
Theorem C107_rejected_factors_change_nothing_refuted :
  exists fac, let l := [("u"%string, 1%nat)] in let h := [CRate None [("u"%string, FNum 5); ("v"%string, FNum 1)]] in
  snd (rexec l h rs_init) = [(CRate None [("u"%string, FNum 5); ("v"%string, FNum 1)], Err ExcAssertion)] /\
  rs_prob (fst (rexec l (h ++ [CSetup true]) rs_init)) = Some (RDefault fac) /\ fac 0%nat = 5 /\
  (exists fac', rs_prob (fst (rexec l [CSetup true] rs_init)) = Some (RDefault fac') /\ fac' 0%nat = 0).
Proof. eexists. split; [reflexivity|]. split; [reflexivity|]. split; [reflexivity|]. eexists. split; reflexivity. Qed.
Print Assumptions C107_rejected_factors_change_nothing_refuted.

(** After setup every call of set_rterm raises an assertion, and the penalty charged never changes, whatever is called. *)
Theorem C107_frozen_after_setup :
  forall l h h', distinct_names l -> forallb configuring h = true ->
  let m := fst (rexec l (h ++ [CSetup true]) rs_init) in
  rs_prob (fst (rexec l h' m)) = rs_prob m /\
  forall e kws o, In (CRate e kws, o) (snd (rexec l h' m)) -> o = Err ExcAssertion.
Proof.
  intros l h h' Hd Hc m.
  assert (Hm : settled m).
  { unfold m. rewrite rexec_app. set (m0 := fst (rexec l h rs_init)). cbn. unfold rsetup. cbn. split; [reflexivity|]. split; reflexivity. }
  destruct (settled_exec l h' m Hm) as ((S1 & S2 & S3) & P & I). split; [|exact I].
  rewrite S3, P. destruct Hm as (_ & _ & ->). reflexivity.
Qed.
Print Assumptions C107_frozen_after_setup.

(** Finding: between prepare_nlp and create_nlp set_rterm is accepted and has no effect on the problem. *)
Theorem C107_accepted_before_create_refuted :
  exists fac, let l := [("u"%string, 1%nat)] in let h := [CPrepare true; CRate None [("u"%string, FNum 5)]; CCreate] in
  snd (rexec l h rs_init) = map (fun c => (c, Ok tt)) h /\
  rs_prob (fst (rexec l h rs_init)) = Some (RDefault fac) /\ fac 0%nat = 0.
Proof. eexists. split; [reflexivity|]. split; reflexivity. Qed.
Print Assumptions C107_accepted_before_create_refuted.

(** What setup puts into the objective, with inputs of scaling 1 (otherwise C58 and C106): for every edge of the tree the last good expression
    at the physical quantities, or the weighted squares of the changes of the inputs. *)
Theorem C107_objective_partial :
  forall l h c par pt t k p0 p, distinct_names l -> forallb configuring h = true -> list_sum (map snd l) = n_u (mdl c) ->
  cfg_ok c -> (forall a, (a < n_u (mdl c))%nat -> su c a = 1) ->
  (forall f x u v v' z tvp q, last_expression h = Some f -> agree (n_u (mdl c)) v v' -> f x u v z tvp q = f x u v' z tvp q) ->
  setup_scenario_tree (ncomb c) (nr c) (N c) = Ok t ->
  rs_prob (fst (rexec l (h ++ [CSetup true]) rs_init)) = Some k ->
  prepare_nlp (with_penalty c (RDefault (fun _ => 0))) par pt = Ok p0 -> prepare_nlp (with_penalty c k) par pt = Ok p ->
  let before := fun k s => if (k =? 0)%nat then pUprev par else physU c pt (k - 1) (uidx c (s / fan_of c (k - 1))) in
  let zlast := (Nat.max (ncoll (disc c)) 1 - 1)%nat in
  exists fac,
    (forall l1 name n l2 i, l = (l1 ++ (name, n) :: l2)%list -> (i < n)%nat ->
      fac (list_sum (map snd l1) + i)%nat = factor_of (all_reached l h) name i) /\
    obj p = obj p0 + total (N c) (fun k => total (width_of c k) (fun s => total (fan_of c k) (fun b =>
      match last_expression h with
      | Some f => f (stateX c pt k s) (physU c pt k (uidx c s)) (before k s) (physZ c pt k s zlast) (pTvp par k) (pP par (comb c k s b))
      | None => total (n_u (mdl c)) (fun a => fac a * (physU c pt k (uidx c s) a - before k s a) ^ 2)
      end))).
Proof.
  intros l h c par pt t k p0 p Hd Hc _ Hok H1 Hag Ht Hk E0 E before zlast.
  destruct (C107_charged_penalty_partial l h Hd Hc) as (fac & Hp & Hfac). exists fac. split; [exact Hfac|].
  rewrite Hp in Hk. injection Hk as <-. clear Hp Hfac.
  assert (Hsu : forall a, (a < n_u (mdl c))%nat -> su c a <> 0) by (intros a Ha; rewrite (H1 a Ha); lra).
  destruct (last_expression h) as [f|].
  - destruct (C106_charge_partial c f par pt t p0 p Hok Hsu (fun x u v v' z tvp q => Hag f x u v v' z tvp q eq_refl) Ht E0 E) as [_ M].
    rewrite (M H1). f_equal. apply sumn_ext. intros k Hk. apply sumn_ext. intros s Hs. apply sumn_ext. intros b Hb.
    apply (Hag f); [reflexivity|]. intros a Ha. unfold before. field.
  - destruct (C58_rate_penalty_partial c par pt t p0 p fac Hok Hsu Ht E0 E) as [_ M].
    rewrite (M H1). f_equal. apply sumn_ext. intros k Hk. apply sumn_ext. intros s Hs. apply sumn_ext. intros b Hb. apply sumn_ext. intros a Ha.
    unfold before. destruct (k =? 0)%nat; f_equal; field.
Qed.
Print Assumptions C107_objective_partial.

(** ** Two inputs, the second with three entries; a failing call, an array, a number, a repeated keyword. *)
Definition rc_l : layout := [("default"%string, 0%nat); ("q"%string, 1%nat); ("f"%string, 3%nat)].
Definition rc_h : list rcall :=
  [CRate None [("q"%string, FNum 2); ("f"%string, FArr [1; 2; 3])]; CPrepare true; CRate None [("q"%string, FNum 7); ("w"%string, FNum 1); ("f"%string, FNum 9)];
   CSetup false; CRate (Some ENumpy) []].
Example C107_nonvacuous :
  distinct_names rc_l /\ forallb configuring rc_h = true /\ last_expression rc_h = None /\
  exists fac, rs_prob (fst (rexec rc_l (rc_h ++ [CSetup true]) rs_init)) = Some (RDefault fac) /\ map fac (seq 0 4) = [7; 1; 2; 3].
Proof.
  split. { unfold distinct_names, rc_l. cbn. repeat constructor; cbn; intuition discriminate. }
  split; [reflexivity|]. split; [reflexivity|]. eexists. split; reflexivity.
Qed.
Example C107_nonvacuous_expression : forall f, last_expression (rc_h ++ [CRate (Some (EGood f)) []; CRate None [("q"%string, FNum 2)]]) = Some f.
Proof. reflexivity. Qed.
(** C107_objective_partial: one input of scaling 1. *)
Example C107_nonvacuous_objective : exists c k p0 p, let l := [("u"%string, 1%nat)] in let h := [CRate None [("u"%string, FNum 2)]] in
  list_sum (map snd l) = n_u (mdl c) /\ cfg_ok c /\ (forall a, (a < n_u (mdl c))%nat -> su c a = 1) /\ last_expression h = None /\
  rs_prob (fst (rexec l (h ++ [CSetup true]) rs_init)) = Some k /\
  prepare_nlp (with_penalty c (RDefault (fun _ => 0))) ex_par ex_pt = Ok p0 /\ prepare_nlp (with_penalty c k) ex_par ex_pt = Ok p.
Proof.
  set (c := op_cfg true).
  assert (Hok : cfg_ok c) by exact (proj1 (C91_nonvacuous true)).
  destruct (tree_exists 2 1 2) as [t Ht]; [lia..|].
  assert (O : forall k, exists q, prepare_nlp (with_penalty c k) ex_par ex_pt = Ok q).
  { intros k. destruct (body_sat (with_penalty c k) Hok ex_par ex_pt t Ht) as (q & E & _). exists q. unfold prepare_nlp.
    change (setup_scenario_tree (ncomb (with_penalty c k)) (nr (with_penalty c k)) (N (with_penalty c k))) with (setup_scenario_tree 2 1 2). rewrite Ht. exact E. }
  eexists c, _. destruct (O (RDefault (fun _ => 0))) as [p0 E0].
  destruct (O (match rs_prob (fst (rexec [("u"%string, 1%nat)] [CRate None [("u"%string, FNum 2)]; CSetup true] rs_init)) with Some k => k | None => RDefault vzero end)) as [p E].
  exists p0, p. split; [reflexivity|]. split; [exact Hok|]. split; [intros a _; reflexivity|]. split; [reflexivity|]. split; [reflexivity|]. split; [exact E0|exact E].
Qed.
