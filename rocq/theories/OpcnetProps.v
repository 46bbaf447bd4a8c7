(** * C100: several clients on one server, request by request, with connection failures. *)
From Verif Require Import Base OpcModel OpcSpec OpcProofs OpcnetModel OpcnetSpec OpcnetProofs.
Set Implicit Arguments.
Local Open Scope list_scope.

(** C100.  Outputs.  For every schedule of any number of clients in which this client's own connection does not fail
    (others' may): whenever the client is not in the middle of writing, its tags hold the complete output of the
    last step of its do-mpc object. *)
Theorem C100_output_is_published_partial :
  forall V O (w : net V O) sched i, fresh w -> sole_writer w i -> right_size (snd w i) -> no_failure i sched ->
  let c := snd (net_run w sched) i in
  (forall todo, c_pc c <> PWrite todo) ->
  forall pre input d, c_rec c = pre ++ [(input, d)] ->
  exists l, d = WArr l /\ holds (fst (net_run w sched)) (c_out c) l.
Proof.
  intros V O w sched i Hf Hs Hr Hn c Hp pre input d E. destruct (pub_run Hf Hs Hr Hn) as [P1 P2]. fold c in P1, P2.
  destruct (P1 input d) as (l & -> & Hl); [rewrite E; apply in_or_app; right; left; reflexivity|]. exists l. split; [reflexivity|].
  destruct (c_pc c) as [| |todo] eqn:Ep; [eapply P2; exact E|eapply P2; exact E|]. exfalso. exact (Hp todo eq_refl).
Qed.
Print Assumptions C100_output_is_published_partial.

(** C100.  Outputs with failures.  For every schedule, whichever requests fail: every tag of the client holds the
    value that some step of its object gave it (step number [m k], counted from 1), or still its initial value
    ([m k = 0]), and an earlier tag is never older than a later one. *)
Theorem C100_failures_leave_a_prefix :
  forall V O (w : net V O) sched i, fresh w -> sole_writer w i ->
  let c := snd (net_run w sched) i in let s := fst (net_run w sched) in
  exists m : nat -> nat,
    (forall k k', k <= k' -> m k' <= m k) /\ (forall k, m k <= List.length (c_rec c))
    /\ forall k id, nth_error (c_out c) k = Some id ->
         (m k = 0 -> find id (sv_nodes s) = find id (sv_nodes (fst w)))
         /\ (forall q, m k = S q -> exists input l v, nth_error (c_rec c) q = Some (input, WArr l) /\ nth_error l k = Some v /\ find id (sv_nodes s) = Some [v]).
Proof.
  intros V O w sched i Hf Hs c s. destruct (@torn_run V O w sched i Hf Hs) as (m & [T1 T2 T3 _]). exists m. split; [exact T1|]. split; [exact T2|].
  intros k id Hk. specialize (T3 k id Hk). unfold from_step in T3. split; [intros E; rewrite E in T3; exact T3|intros q E; rewrite E in T3; exact T3].
Qed.
Print Assumptions C100_failures_leave_a_prefix.

(** C100.  Inputs.  Every input a do-mpc object is given consists of values its read tags held at some moments of the
    schedule, taken in the order of the tags. *)
Theorem C100_inputs_were_on_the_server :
  forall V O (w : net V O) sched i, fresh w ->
  forall input d, In (input, d) (c_rec (snd (net_run w sched) i)) ->
  exists rows, were_there w sched (c_in (snd w i)) rows /\ input = List.concat rows.
Proof.
  intros V O w sched i Hf input d H. destruct (@seen_run V O w sched i Hf) as [S1 _]. destruct (S1 _ _ H) as (rows & Hw & E). exists rows.
  destruct (run_static w sched i) as (Ei & _). rewrite Ei in Hw. auto.
Qed.
Print Assumptions C100_inputs_were_on_the_server.

Lemma mapM_snoc {A B} (f : A -> res B) l x ys y : mapM f l = Ok ys -> f x = Ok y -> mapM f (l ++ [x]) = Ok (ys ++ [y]).
Proof.
  revert ys. induction l as [|a l IH]; intros ys H Hx; simpl in *.
  - injection H as <-. rewrite Hx. reflexivity.
  - destruct (f a) as [b|]; [|discriminate]. simpl in *. destruct (mapM f l) as [bs|]; [|discriminate]. simpl in *. injection H as <-.
    rewrite (IH bs eq_refl Hx). reflexivity.
Qed.
Definition look {V} (s : server V) (id : nodeid) : res (list V) := match find id (sv_nodes s) with Some v => Ok v | None => Err ExcGeneric end.
Lemma read_look {V} (s : server V) tags rows : mapM (look s) tags = Ok rows -> read_from_tags s tags = rows_array rows.
Proof. unfold read_from_tags, look. intros ->. reflexivity. Qed.

(** C100.  If the read tags keep their values from the start of a step until the object has stepped, the input is what
    the tags held when the step started. *)
Theorem C100_input_is_a_snapshot_partial :
  forall V O (w : net V O) sched i, c_pc (snd w i) = PIdle V ->
  (forall n id, In id (c_in (snd w i)) -> find id (sv_nodes (fst (net_run w (firstn n sched)))) = find id (sv_nodes (fst w))) ->
  forall input d more, c_rec (snd (net_run w sched) i) = c_rec (snd w i) ++ (input, d) :: more ->
  read_from_tags (fst w) (c_in (snd w i)) = Ok input.
Proof.
  intros V O w sched i Hp Hc.
  assert (Inv : forall n, let c := snd (net_run w (firstn n sched)) i in
     (c_rec c = c_rec (snd w i) /\ match c_pc c with
        | PRead todo rows => exists don, c_in (snd w i) = don ++ todo /\ mapM (look (fst w)) don = Ok rows
        | PWrite _ => False | PIdle _ => True end)
     \/ (exists input d more, c_rec c = c_rec (snd w i) ++ (input, d) :: more /\ read_from_tags (fst w) (c_in (snd w i)) = Ok input)).
  { induction n as [|n IH]; cbv zeta; [left; simpl; rewrite Hp; auto|]. cbv zeta in IH.
    destruct (Nat.lt_ge_cases n (List.length sched)) as [Hn|Hn].
    2:{ rewrite firstn_all2 by lia. rewrite firstn_all2 in IH by lia. exact IH. }
    destruct (nth_error sched n) as [a|] eqn:Ea; [|apply nth_error_None in Ea; lia].
    assert (E : firstn (S n) sched = firstn n sched ++ [a]).
    { clear - Ea. revert sched Ea. induction n as [|n IH]; intros [|x t] Ea; try discriminate; simpl in *; [injection Ea as ->; reflexivity|]. rewrite (IH t Ea). reflexivity. }
    rewrite E, net_run_snoc. destruct (net_action_eq (net_run w (firstn n sched)) a) as (_ & E2 & E3).
    destruct (Nat.eq_dec (fst a) i) as [<-|Hne]; [|rewrite (E3 i) by auto; exact IH]. rewrite E2.
    destruct (run_static w (firstn n sched) (fst a)) as (Sin & Sout & Sst & _).
    assert (Hv : forall id, In id (c_in (snd w (fst a))) -> find id (sv_nodes (fst (net_run w (firstn n sched)))) = find id (sv_nodes (fst w))) by (intros; apply Hc; assumption).
    set (c := snd (net_run w (firstn n sched)) (fst a)) in *. set (s := fst (net_run w (firstn n sched))) in *.
    destruct IH as [(Er & Hpc)|(input & d & more & Er & Hrd)].
    - unfold client_action. destruct (c_pc c) as [|[|id todo] rows|todo] eqn:Ep; simpl; [| | |contradiction].
      + left. split; [exact Er|]. exists []. split; [symmetry; exact Sin|reflexivity].
      + destruct Hpc as (don & Ed & Hm). rewrite app_nil_r in Ed.
        destruct (rows_array rows) as [input|] eqn:Era; [|left; simpl; auto]. destruct (c_step c (c_obj c) input) as [[o' d]|]; [|left; simpl; auto].
        right. exists input, d, []. split; [destruct d as [l|]; [destruct (_ =? _)%nat|]; simpl; rewrite Er; reflexivity|].
        rewrite Ed, (read_look _ _ Hm). exact Era.
      + destruct Hpc as (don & Ed & Hm). destruct (snd a); [left; simpl; auto|]. destruct (find id (sv_nodes s)) as [r|] eqn:Ef; [|left; simpl; auto].
        left. split; [exact Er|]. simpl. exists (don ++ [id]). split; [rewrite <- app_assoc; exact Ed|]. apply mapM_snoc; [exact Hm|].
        unfold look. rewrite <- Hv; [rewrite Ef; reflexivity|]. rewrite Ed. apply in_or_app. right. left. reflexivity.
    - right. assert (Hmore : exists m2, c_rec (snd (client_action s c (snd a))) = c_rec (snd w (fst a)) ++ (input, d) :: more ++ m2).
      { unfold client_action. destruct (c_pc c) as [|[|id todo] rows|[|[id v] todo]]; simpl;
        repeat match goal with
        | |- context [rows_array ?r] => destruct (rows_array r); simpl
        | |- context [c_step c ?o ?x] => destruct (c_step c o x) as [[? [?|]]|]; simpl
        | |- context [if ?b then _ else _] => destruct b; simpl
        | |- context [match find ?x ?y with _ => _ end] => destruct (find x y); simpl
        | |- context [match write_data ?x ?y ?z with _ => _ end] => destruct (write_data x y z); simpl
        end; rewrite Er; try (exists []; rewrite app_nil_r; reflexivity); eexists; rewrite <- app_assoc; reflexivity. }
      destruct Hmore as (m2 & E'). exists input, d, (more ++ m2). split; [exact E'|exact Hrd]. }
  intros input d more E. specialize (Inv (List.length sched)). cbv zeta in Inv. rewrite firstn_all in Inv.
  destruct Inv as [(Er & _)|(i0 & d0 & m0 & Er & Hr)].
  - rewrite Er in E. exfalso. apply (f_equal (@List.length _)) in E. rewrite app_length in E. simpl in E. lia.
  - rewrite Er in E. apply app_inv_head in E. injection E as <- _ _. exact Hr.
Qed.
Print Assumptions C100_input_is_a_snapshot_partial.

(** ** A client that is not interrupted. *)
Definition alone (i n : nat) : list (nat * bool) := repeat (i, false) n.
Definition turn {V O} (w : net V O) (i : nat) : list (nat * bool) := alone i (List.length (c_in (snd w i)) + List.length (c_out (snd w i)) + 3).
(** The do-mpc object's step as make_step of OpcModel.v sees it. *)
Definition as_fun {V O} (c : client V O) (input : list V) : res (wdata V) :=
  match c_step c (c_obj c) input with Ok (_, d) => Ok d | Err e => Err e end.

Lemma alone_app i a b : alone i (a + b) = alone i a ++ alone i b.
Proof. apply repeat_app. Qed.

Lemma reads_alone V O i : forall todo (w : net V O) rows rs,
  c_pc (snd w i) = PRead todo rows -> mapM (look (fst w)) todo = Ok rs ->
  let w' := net_run w (alone i (List.length todo)) in
  fst w' = fst w /\ snd w' i = goto (snd w i) (PRead [] (rows ++ rs)) /\ forall j, j <> i -> snd w' j = snd w j.
Proof.
  induction todo as [|id todo IH]; intros w rows rs Hp Hm.
  - simpl in *. injection Hm as <-. rewrite app_nil_r. split; [reflexivity|]. split; [|auto]. destruct (snd w i); simpl in *. rewrite Hp. reflexivity.
  - simpl in Hm. destruct (look (fst w) id) as [r|] eqn:El; [|discriminate]. simpl in Hm. destruct (mapM (look (fst w)) todo) as [rs'|] eqn:Em; [|discriminate].
    simpl in Hm. injection Hm as <-. destruct (net_action_eq w (i, false)) as (E1 & E2 & E3).
    assert (Ea : client_action (fst w) (snd w i) false = (fst w, goto (snd w i) (PRead todo (rows ++ [r])))).
    { unfold client_action. rewrite Hp. unfold look in El. destruct (find id (sv_nodes (fst w))); [injection El as ->; reflexivity|discriminate]. }
    simpl fst in *. simpl snd in *. rewrite Ea in E1, E2. simpl in E1, E2.
    specialize (IH (net_action w (i, false)) (rows ++ [r]) rs'). rewrite E2, E1 in IH. destruct (IH eq_refl Em) as (I1 & I2 & I3).
    cbv zeta. change (net_run w (alone i (List.length (id :: todo)))) with (net_run (net_action w (i, false)) (alone i (List.length todo))).
    split; [exact I1|]. split; [rewrite I2; rewrite <- app_assoc; reflexivity|]. intros j Hj. rewrite (I3 j Hj). apply E3. exact Hj.
Qed.

Lemma writes_alone V O i : forall todo (w : net V O) s',
  c_pc (snd w i) = PWrite todo -> write_loop (fst w) todo = (s', Ok tt) ->
  let w' := net_run w (alone i (List.length todo)) in
  fst w' = s' /\ snd w' i = goto (snd w i) (PWrite []) /\ forall j, j <> i -> snd w' j = snd w j.
Proof.
  induction todo as [|[id v] todo IH]; intros w s' Hp Hw.
  - simpl in *. injection Hw as <-. split; [reflexivity|]. split; [|auto]. destruct (snd w i); simpl in *. rewrite Hp. reflexivity.
  - simpl in Hw. destruct (write_data (fst w) id [v]) as [s1|] eqn:E; [|discriminate]. destruct (net_action_eq w (i, false)) as (E1 & E2 & E3).
    assert (Ea : client_action (fst w) (snd w i) false = (s1, goto (snd w i) (PWrite todo))) by (unfold client_action; rewrite Hp, E; reflexivity).
    simpl fst in *. simpl snd in *. rewrite Ea in E1, E2. simpl in E1, E2.
    specialize (IH (net_action w (i, false)) s'). rewrite E2, E1 in IH. destruct (IH eq_refl Hw) as (I1 & I2 & I3).
    cbv zeta. change (net_run w (alone i (List.length ((id, v) :: todo)))) with (net_run (net_action w (i, false)) (alone i (List.length todo))).
    split; [exact I1|]. split; [rewrite I2; reflexivity|]. intros j Hj. rewrite (I3 j Hj). apply E3. exact Hj.
Qed.

(** C100.  A step that is not interrupted is make_step of OpcModel.v (C51): same server, and the object is given the
    values of its tags. *)
Theorem C100_uninterrupted_step_is_make_step :
  forall V O (w : net V O) i s', c_pc (snd w i) = PIdle V ->
  make_step (as_fun (snd w i)) (fst w) (c_in (snd w i)) (c_out (snd w i)) = (s', Ok tt) ->
  exists input o' d, read_from_tags (fst w) (c_in (snd w i)) = Ok input /\ c_step (snd w i) (c_obj (snd w i)) input = Ok (o', d)
  /\ let w' := net_run w (turn w i) in
     fst w' = s' /\ (forall j, j <> i -> snd w' j = snd w j)
     /\ snd w' i = mkClient (c_in (snd w i)) (c_out (snd w i)) (c_step (snd w i)) o' (c_rec (snd w i) ++ [(input, d)]) (PIdle V).
Proof.
  intros V O w i s' Hp Hm. unfold make_step in Hm. destruct (read_from_tags (fst w) (c_in (snd w i))) as [input|] eqn:Er; [|discriminate].
  unfold as_fun in Hm. destruct (c_step (snd w i) (c_obj (snd w i)) input) as [[o' d]|] eqn:Ec; [|discriminate].
  exists input, o', d. split; [reflexivity|]. split; [exact Ec|]. unfold write_to_tags in Hm. destruct d as [l|]; [|discriminate].
  destruct (Nat.eqb_spec (List.length l) (List.length (c_out (snd w i)))) as [Hl|]; [|discriminate].
  set (c := snd w i) in *.
  assert (Hrows : exists rs, mapM (look (fst w)) (c_in c) = Ok rs /\ rows_array rs = Ok input).
  { destruct (mapM (look (fst w)) (c_in c)) as [rs|] eqn:Em.
    - exists rs. split; [reflexivity|]. rewrite <- (read_look _ _ Em). exact Er.
    - exfalso. unfold read_from_tags in Er. change (fun id : nodeid => _) with (@look V (fst w)) in Er. rewrite Em in Er. discriminate Er. }
  destruct Hrows as (rs & Hrs & Hra).
  replace (turn w i) with ([(i, false)] ++ alone i (List.length (c_in c)) ++ [(i, false)] ++ alone i (List.length (c_out c)) ++ [(i, false)]).
  2:{ unfold turn. fold c. replace (List.length (c_in c) + List.length (c_out c) + 3) with (1 + (List.length (c_in c) + (1 + (List.length (c_out c) + 1)))) by lia.
      rewrite !alone_app. reflexivity. }
  rewrite !net_run_app.
  (* start *)
  destruct (net_action_eq w (i, false)) as (A1 & A2 & A3). simpl fst in *. simpl snd in *. fold c in A1, A2.
  assert (Ea : client_action (fst w) c false = (fst w, goto c (PRead (c_in c) []))) by (unfold client_action; rewrite Hp; reflexivity).
  rewrite Ea in A1, A2. simpl in A1, A2. change (net_run w [(i, false)]) with (net_action w (i, false)). set (w1 := net_action w (i, false)) in *.
  (* reads *)
  assert (Hp1 : c_pc (snd w1 i) = PRead (c_in c) []) by (rewrite A2; reflexivity). rewrite <- A1 in Hrs.
  destruct (@reads_alone V O i (c_in c) w1 [] rs Hp1 Hrs) as (B1 & B2 & B3). set (w2 := net_run w1 (alone i (List.length (c_in c)))) in *. simpl in B2.
  (* object *)
  destruct (net_action_eq w2 (i, false)) as (C1 & C2 & C3). simpl fst in *. simpl snd in *.
  assert (Eb : client_action (fst w2) (snd w2 i) false = (fst w2, mkClient (c_in c) (c_out c) (c_step c) o' (c_rec c ++ [(input, WArr l)]) (PWrite (combine (c_out c) l)))).
  { rewrite B2, A2. unfold client_action. simpl. rewrite Hra, Ec. rewrite Hl, Nat.eqb_refl. reflexivity. }
  rewrite Eb in C1, C2. simpl in C1, C2. change (net_run w2 [(i, false)]) with (net_action w2 (i, false)). set (w3 := net_action w2 (i, false)) in *.
  (* writes *)
  assert (Hp3 : c_pc (snd w3 i) = PWrite (combine (c_out c) l)) by (rewrite C2; reflexivity).
  assert (Hw3 : write_loop (fst w3) (combine (c_out c) l) = (s', Ok tt)) by (rewrite C1, B1, A1; exact Hm).
  destruct (@writes_alone V O i _ w3 s' Hp3 Hw3) as (D1 & D2 & D3).
  replace (List.length (combine (c_out c) l)) with (List.length (c_out c)) in D1, D2, D3 by (rewrite combine_length; lia).
  set (w4 := net_run w3 (alone i (List.length (c_out c)))) in *.
  (* end *)
  destruct (net_action_eq w4 (i, false)) as (F1 & F2 & F3). simpl fst in *. simpl snd in *.
  assert (Ed : client_action (fst w4) (snd w4 i) false = (fst w4, goto (snd w4 i) (PIdle V))) by (rewrite D2; reflexivity).
  rewrite Ed in F1, F2. simpl in F1, F2. change (net_run w4 [(i, false)]) with (net_action w4 (i, false)).
  split; [congruence|]. split.
  - intros j Hj. rewrite (F3 j Hj), (D3 j Hj), (C3 j Hj), (B3 j Hj), (A3 j Hj). reflexivity.
  - rewrite F2, D2, C2. reflexivity.
Qed.
Print Assumptions C100_uninterrupted_step_is_make_step.

(** The do-mpc object as the ideal loop sees it. *)
Definition plain_step {V O} (c : client V O) (o : O) (input : list V) : option (O * list V) :=
  match c_step c o input with
  | Ok (o', WArr l) => if (List.length l =? List.length (c_out c))%nat then Some (o', l) else None
  | _ => None
  end.
Fixpoint rounds {V O} (w : net V O) (n : nat) : list (nat * bool) :=
  match n with 0 => [] | S n' => rounds w n' ++ turn w 0 ++ turn w 1 end.

Lemma one_turn V O (w : net V O) i input o' l :
  c_pc (snd w i) = PIdle V -> holds (fst w) (c_in (snd w i)) input ->
  NoDup (c_out (snd w i)) -> (forall id, In id (c_out (snd w i)) -> find id (sv_nodes (fst w)) <> None) ->
  plain_step (snd w i) (c_obj (snd w i)) input = Some (o', l) ->
  let w' := net_run w (turn w i) in
  holds (fst w') (c_out (snd w i)) l
  /\ (forall id, ~ In id (c_out (snd w i)) -> find id (sv_nodes (fst w)) <> None -> find id (sv_nodes (fst w')) = find id (sv_nodes (fst w)))
  /\ (forall id, find id (sv_nodes (fst w)) <> None -> find id (sv_nodes (fst w')) <> None)
  /\ (forall j, j <> i -> snd w' j = snd w j)
  /\ c_obj (snd w' i) = o' /\ c_pc (snd w' i) = PIdle V /\ c_in (snd w' i) = c_in (snd w i) /\ c_out (snd w' i) = c_out (snd w i) /\ c_step (snd w' i) = c_step (snd w i).
Proof.
  intros Hp (Hlen & Hh) Hnd Hex Hs. unfold plain_step in Hs. destruct (c_step (snd w i) (c_obj (snd w i)) input) as [[o1 [l1|]]|] eqn:Ec; try discriminate.
  destruct (Nat.eqb_spec (List.length l1) (List.length (c_out (snd w i)))) as [Hl|]; [|discriminate]. injection Hs as <- <-.
  pose proof (read_ok (fst w) (c_in (snd w i)) input Hlen Hh) as Hr.
  destruct (@write_loop_last V (combine (c_out (snd w i)) l1) (fst w)) as (s' & Hw & Hv).
  { intros x Hx. apply Hex. apply (combine_fst_incl (c_out (snd w i)) l1). apply in_map. exact Hx. }
  destruct (@C100_uninterrupted_step_is_make_step V O w i s' Hp) as (i2 & o2 & d2 & R & S & T1 & T2 & T3).
  { unfold make_step. rewrite Hr. unfold as_fun. rewrite Ec. unfold write_to_tags. rewrite Hl, Nat.eqb_refl. exact Hw. }
  rewrite Hr in R. injection R as <-. rewrite Ec in S. injection S as <- <-. cbv zeta. rewrite T1, T3. simpl.
  split; [split; [exact Hl|]|].
  - intros k id v Hk Hkv. destruct (find id (sv_nodes (fst w))) as [v0|] eqn:E0; [|exfalso; exact (Hex id (nth_error_In _ _ Hk) E0)].
    rewrite (Hv id v0 E0). destruct (@last_written_tags V (c_out (snd w i)) l1 v0 Hnd Hl k id Hk) as (v1 & Hv1 & E1). rewrite E1. congruence.
  - split.
    { intros id Hn Hid. destruct (find id (sv_nodes (fst w))) as [v0|] eqn:E0; [|contradiction]. rewrite (Hv id v0 E0). f_equal. apply last_written_notin.
      rewrite map_fst_combine by exact Hl. exact Hn. }
    split; [|split; [exact T2|auto]].
    intros id Hid. destruct (find id (sv_nodes (fst w))) as [v0|] eqn:E0; [|contradiction]. rewrite (Hv id v0 E0). discriminate.
Qed.

(** C100.  A controller (client 0) and a plant (client 1) that take turns, each reading what the other writes, run the
    closed loop: after any number of rounds the objects and the tags are those of the ideal loop. *)
Theorem C100_turns_are_the_closed_loop :
  forall V O (w : net V O) X U u0 x0,
  c_in (snd w 0) = X -> c_out (snd w 0) = U -> c_in (snd w 1) = U -> c_out (snd w 1) = X ->
  c_pc (snd w 0) = PIdle V -> c_pc (snd w 1) = PIdle V ->
  NoDup X -> NoDup U -> (forall id, In id X -> ~ In id U) -> holds (fst w) X x0 ->
  (forall id, In id U -> find id (sv_nodes (fst w)) <> None) ->
  forall n oc op u x,
  ideal_loop (plain_step (snd w 0)) (plain_step (snd w 1)) n (c_obj (snd w 0), c_obj (snd w 1), u0, x0) = Some (oc, op, u, x) ->
  let w' := net_run w (rounds w n) in
  c_obj (snd w' 0) = oc /\ c_obj (snd w' 1) = op /\ holds (fst w') X x /\ (n <> 0 -> holds (fst w') U u).
Proof.
  intros V O w X U u0 x0 H0i H0o H1i H1o Hp0 Hp1 HnX HnU Hdis Hx0 HU n.
  assert (G : forall oc op u x, ideal_loop (plain_step (snd w 0)) (plain_step (snd w 1)) n (c_obj (snd w 0), c_obj (snd w 1), u0, x0) = Some (oc, op, u, x) ->
    let w' := net_run w (rounds w n) in
    (c_obj (snd w' 0) = oc /\ c_obj (snd w' 1) = op /\ holds (fst w') X x /\ (n <> 0 -> holds (fst w') U u))
    /\ c_pc (snd w' 0) = PIdle V /\ c_pc (snd w' 1) = PIdle V /\ (forall id, In id U \/ In id X -> find id (sv_nodes (fst w')) <> None)).
  { induction n as [|n IH]; intros oc op u x E.
    - simpl in E. injection E as <- <- <- <-. simpl. split; [split; [reflexivity|]; split; [reflexivity|]; split; [exact Hx0|lia]|].
      split; [exact Hp0|]. split; [exact Hp1|]. intros id [H|H]; [apply HU; exact H|]. destruct Hx0 as (Hl & Hh). apply In_nth_error in H as (k & Hk).
      destruct (nth_error x0 k) as [v|] eqn:Ev; [rewrite (Hh k id v Hk Ev); discriminate|]. apply nth_error_None in Ev.
      assert (k < List.length X) by (apply nth_error_Some; congruence). lia.
    - simpl in E. destruct (ideal_loop _ _ n _) as [[[[oc1 op1] u1] x1]|] eqn:Ei; [|discriminate].
      destruct (IH _ _ _ _ eq_refl) as ((O1 & O2 & Hx & _) & P0 & P1 & Hex). clear IH.
      cbv zeta. simpl rounds. rewrite !net_run_app. set (w1 := net_run w (rounds w n)) in *.
      destruct (run_static w (rounds w n) 0) as (S0i & S0o & S0s & _). destruct (run_static w (rounds w n) 1) as (S1i & S1o & S1s & _). fold w1 in S0i, S0o, S0s, S1i, S1o, S1s.
      destruct (plain_step (snd w 0) oc1 x1) as [[oc2 u2]|] eqn:E0; [|discriminate]. destruct (plain_step (snd w 1) op1 u2) as [[op2 x2]|] eqn:E1; [|discriminate].
      injection E as <- <- <- <-.
      assert (T0 : turn w 0 = turn w1 0) by (unfold turn; rewrite S0i, S0o; reflexivity). rewrite T0.
      destruct (@one_turn V O w1 0 x1 oc2 u2) as (A1 & A2 & A3 & A4 & A5 & A6 & A7 & A8 & A9); auto.
      { rewrite S0i, H0i. exact Hx. } { rewrite S0o, H0o. exact HnU. } { rewrite S0o, H0o. intros; apply Hex; auto. }
      { unfold plain_step in *. rewrite S0s, O1, S0o. exact E0. }
      set (w2 := net_run w1 (turn w1 0)) in *. rewrite S0o, H0o in A1, A2.
      assert (C1 : snd w2 1 = snd w1 1) by (apply A4; lia).
      assert (T1 : turn w 1 = turn w2 1) by (unfold turn; rewrite C1, S1i, S1o; reflexivity). rewrite T1.
      destruct (@one_turn V O w2 1 u2 op2 x2) as (B1 & B2 & B3 & B4 & B5 & B6 & B7 & B8 & B9); rewrite ?C1; auto.
      { rewrite S1i, H1i. exact A1. } { rewrite S1o, H1o. exact HnX. } { rewrite S1o, H1o. intros; apply A3; apply Hex; auto. }
      { unfold plain_step in *. rewrite S1s, O2, S1o. exact E1. }
      rewrite C1, S1o, H1o in B1, B2. set (w3 := net_run w2 (turn w2 1)) in *.
      assert (C0 : snd w3 0 = snd w2 0) by (apply B4; lia). rewrite C0.
      split; [split; [exact A5|]; split; [exact B5|]; split; [exact B1|]|].
      + intros _. destruct A1 as (Hl & Hh). split; [exact Hl|]. intros k id v Hk Hv. rewrite B2.
        * apply (Hh k id v Hk Hv). * intros H. exact (Hdis id H (nth_error_In _ _ Hk)). * rewrite (Hh k id v Hk Hv). discriminate.
      + split; [exact A6|]. split; [exact B6|]. intros id H. apply B3. apply A3. apply Hex. exact H. }
  intros oc op u x E. apply G. exact E.
Qed.
Print Assumptions C100_turns_are_the_closed_loop.

(** ** Refutations: concrete systems with numbers. *)
Local Open Scope string_scope.
Definition ta : nodeid := (2, "xa"). Definition tb : nodeid := (2, "xb").
Definition tu : nodeid := (2, "u").
Definition srv0 : server nat := mkSrv ["m"] [(ta, [0]); (tb, [0]); (tu, [0])].
(** A plant that writes its step number twice, a controller that reads both values. *)
Definition plant0 : client nat nat := mkClient [] [ta; tb] (fun o _ => Ok (S o, WArr [S o; S o])) 0 [] (PIdle nat).
Definition ctrl0 : client nat nat := mkClient [ta; tb] [tu] (fun o x => Ok (S o, WArr [List.fold_left Nat.add x 0])) 0 [] (PIdle nat).
Definition net0 : net nat nat := (srv0, fun j => if (j =? 0)%nat then ctrl0 else if (j =? 1)%nat then plant0 else mkClient [] [] (fun o _ => Err ExcGeneric) 0 [] (PIdle nat)).

(** Refuted without the condition on the tags: the input of a step is what the tags held at one moment.  Without any
    failure the controller is given (0, 1), which the tags never held together. *)
Definition torn_schedule : list (nat * bool) :=
  [(0, false); (0, false); (1, false); (1, false); (1, false); (1, false); (0, false); (0, false)].
Theorem C100_torn_input_refuted :
  exists (w : net nat nat) sched input d, fresh w /\ sole_writer w 0 /\ sole_writer w 1 /\ (forall j, no_failure j sched)
  /\ In (input, d) (c_rec (snd (net_run w sched) 0))
  /\ forall n, read_from_tags (fst (net_run w (firstn n sched))) (c_in (snd w 0)) <> Ok input.
Proof.
  exists net0, torn_schedule, [0; 1], (WArr [1]). split; [|split; [|split; [|split; [|split]]]].
  - intros [|[|j]]; split; reflexivity.
  - split; [simpl; constructor; [intros []|constructor]|]. split; [intros id [<-|[]]; discriminate|].
    intros [|[|j]] id Hj [<-|[]]; simpl; [lia| |tauto]. intros [H|[H|[]]]; discriminate H.
  - split; [simpl; constructor; [intros [H|[]]; discriminate H|constructor; [intros []|constructor]]|]. split; [intros id [<-|[<-|[]]]; discriminate|].
    intros [|[|j]] id Hj [<-|[<-|[]]]; simpl; try lia; try tauto; intros [H|[]]; discriminate H.
  - intros j H. simpl in H. repeat (destruct H as [H|H]; [discriminate H|]). exact H.
  - simpl. left. reflexivity.
  - intros n. do 9 (destruct n as [|n]; [vm_compute; discriminate|]). rewrite firstn_all2 by (simpl; lia). vm_compute. discriminate.
Qed.
Print Assumptions C100_torn_input_refuted.

(** Refuted with failures: outside make_step the tags hold the output of the object's last step.  The connection fails
    between the two writes: the object has made its step, one tag is new and one is old. *)
Theorem C100_torn_output_refuted :
  exists (w : net nat nat) sched l input, fresh w /\ sole_writer w 1 /\ right_size (snd w 1)
  /\ let c := snd (net_run w sched) 1 in
     c_pc c = PIdle nat /\ c_rec c = [(input, WArr l)] /\ c_obj c = 1 /\ ~ holds (fst (net_run w sched)) (c_out c) l
     /\ read_from_tags (fst (net_run w sched)) (c_out c) = Ok [1; 0].
Proof.
  exists net0, [(1, false); (1, false); (1, false); (1, true)], [1; 1], []. split; [intros [|[|j]]; split; reflexivity|].
  split; [|split; [|split; [|split; [|split; [|split]]]]].
  - split; [simpl; constructor; [intros [H|[]]; discriminate H|constructor; [intros []|constructor]]|]. split; [intros id [<-|[<-|[]]]; discriminate|].
    intros [|[|j]] id Hj [<-|[<-|[]]]; simpl; try lia; try tauto; intros [H|[]]; discriminate H.
  - intros o input o' d E. simpl in E. injection E as _ <-. eexists. split; reflexivity.
  - reflexivity.
  - reflexivity.
  - reflexivity.
  - intros (_ & H). specialize (H 1 tb 1 eq_refl eq_refl). vm_compute in H. discriminate H.
  - vm_compute. reflexivity.
Qed.
Print Assumptions C100_torn_output_refuted.

(** The hypotheses are met: the system above (controller and plant), with the interleaved schedule, and a loop. *)
Definition plant1 : client nat nat := mkClient [tu] [ta; tb] (fun o u => Ok (S o, WArr [S o; List.fold_left Nat.add u 0])) 0 [] (PIdle nat).
Definition net1 : net nat nat := (srv0, fun j => if (j =? 0)%nat then ctrl0 else plant1).
Example C100_nonvacuous :
  fresh net0 /\ right_size (snd net0 1) /\ no_failure 1 [(1, false); (0, true); (1, false)]
  /\ holds (fst net1) [ta; tb] [0; 0]
  /\ ideal_loop (plain_step (snd net1 0)) (plain_step (snd net1 1)) 3 (0, 0, [], [0; 0]) = Some (3, 3, [3], [3; 3]).
Proof.
  split; [intros [|[|j]]; split; reflexivity|]. split; [intros o input o' d E; simpl in E; injection E as _ <-; eexists; split; reflexivity|].
  split; [intros [H|[H|[H|[]]]]; discriminate H|]. split; [|vm_compute; reflexivity].
  split; [reflexivity|]. intros [|[|k]] id v Hk Hv; simpl in *; try (destruct k; discriminate); injection Hk as <-; injection Hv as <-; reflexivity.
Qed.
