(** * C98 (the options a solver is built with) and C99 (the problem a compiled solver solves). *)
From Verif Require Import Base DataModel DataProofs SoptModel SoptSpec SoptProofs.
Local Open Scope string_scope. Local Open Scope list_scope.

(** The options of the solver of object [i]; its problem; what data.meta_data shows for it. *)
Definition solver_option (w : world) (i : nat) (k v : string) : Prop :=
  exists p opts, o_solver (w_obj w i) = Some (p, opts) /\ alookup k opts = Some v.
Definition solves (w : world) (i p : nat) : Prop := exists opts, o_solver (w_obj w i) = Some (p, opts).
Definition meta_shows (w : world) (i : nat) (k v : string) : Prop :=
  exists d, o_meta (w_obj w i) = Some d /\ alookup k (w_dict w d) = Some v.

Lemma setup_result src lib h i p :
  i < objs h ->
  let w := srun (start src lib) h in let d := o_opts (w_obj w i) in
  in_force h i d /\ d < dicts h
  /\ o_solver (w_obj (sstep w (ESetup i p)) i) = Some (p, w_dict w d)
  /\ o_meta (w_obj (sstep w (ESetup i p)) i) = Some d
  /\ w_dict (sstep w (ESetup i p)) = w_dict w.
Proof.
  intros Hi w d. pose proof (sinv_run src lib h) as I. fold w in I.
  assert (Hf : in_force h i d) by (apply (iv_f _ _ I i d Hi); reflexivity).
  split; [exact Hf|]. split; [apply (iv_lt _ _ I _ _ Hf)|].
  simpl. rewrite (iv_no _ _ I). destruct (Nat.ltb_spec i (objs h)); [|lia].
  unfold setup_solver, set_obj; simpl. rewrite upd_fun_same; simpl. auto.
Qed.

(** C98.  For every history of calls: setup builds the solver for its problem with exactly the options that the
    dictionary in force holds, that is, for every key the last value written, and no other key. *)
Theorem C98_options_are_those_written :
  forall src lib h i p, i < objs h ->
  exists d, in_force h i d
    /\ solves (srun (start src lib) (h ++ [ESetup i p])) i p
    /\ forall k v, solver_option (srun (start src lib) (h ++ [ESetup i p])) i k v <-> option_is h d k v.
Proof.
  intros src lib h i p Hi. destruct (setup_result src lib h i p Hi) as (Hf & Hd & Hs & _ & _).
  rewrite srun_snoc. set (w := srun (start src lib) h) in *. exists (o_opts (w_obj w i)). split; [exact Hf|].
  split; [eexists; exact Hs|]. intros k v. rewrite <- (iv_w _ _ (sinv_run src lib h) _ k v Hd). fold w. unfold solver_option. split.
  - intros (p' & opts & E & Hk). rewrite Hs in E. injection E as <- <-. exact Hk.
  - intros Hk. eauto.
Qed.
Print Assumptions C98_options_are_those_written.

Lemma solver_kept w h' i : forallb (fun e => negb (rebuilds i e)) h' = true -> i < w_nobj w -> o_solver (w_obj (srun w h') i) = o_solver (w_obj w i) /\ i < w_nobj (srun w h').
Proof.
  revert w. induction h' as [|e h' IH]; intros w Hr Hi; [split; [reflexivity|exact Hi]|].
  simpl in Hr. apply andb_prop in Hr as [He Hr]. change (srun w (e :: h')) with (srun (sstep w e) h').
  assert (Hs : o_solver (w_obj (sstep w e) i) = o_solver (w_obj w i) /\ i < w_nobj (sstep w e)).
  { destruct e as [g| |d k v|j d|j d|j|j n|j q|j ow c l g]; simpl in *.
    - rewrite upd_fun_other by lia. split; [reflexivity|lia].
    - auto.
    - destruct (Nat.ltb d (w_ndict w)); auto.
    - destruct (_ && _); [|auto]. unfold set_param_opts. cbv zeta. destruct (o_setup (w_obj w j)); [auto|]. simpl.
      unfold upd_fun. destruct (Nat.eqb_spec i j) as [->|]; auto.
    - destruct (_ && _); [|auto]. simpl. unfold upd_fun. destruct (Nat.eqb_spec i j) as [->|]; auto.
    - destruct (Nat.ltb j (w_nobj w)); auto.
    - destruct (Nat.ltb j (w_nobj w)); auto.
    - destruct (Nat.ltb j (w_nobj w)); [|auto]. simpl. destruct (Nat.eqb_spec j i); [discriminate He|]. rewrite upd_fun_other by auto. auto.
    - destruct (Nat.ltb j (w_nobj w)); [|auto]. destruct (Nat.eqb_spec j i); [discriminate He|].
      destruct (compile_fields j ow c l g w) as (_ & F2 & _ & F4). rewrite F2. destruct (F4 i) as (_ & _ & _ & F5). split; [apply F5; auto|exact Hi]. }
  destruct Hs as [Hs Hi']. destruct (IH (sstep w e) Hr Hi') as [E Hn]. split; [congruence|exact Hn].
Qed.

(** C98.  Until setup or compile_nlp is called for this object again, nothing changes the options or the problem of
    its solver. *)
Theorem C98_later_calls_do_not_reach_the_solver :
  forall src lib h h' i, i < objs h -> forallb (fun e => negb (rebuilds i e)) h' = true ->
  (forall k v, solver_option (srun (start src lib) (h ++ h')) i k v <-> solver_option (srun (start src lib) h) i k v)
  /\ (forall p, solves (srun (start src lib) (h ++ h')) i p <-> solves (srun (start src lib) h) i p).
Proof.
  intros src lib h h' i Hi Hr. rewrite srun_app.
  destruct (solver_kept (srun (start src lib) h) h' i Hr) as [E _]; [rewrite (iv_no _ _ (sinv_run src lib h)); exact Hi|].
  unfold solver_option, solves. rewrite E. split; reflexivity.
Qed.
Print Assumptions C98_later_calls_do_not_reach_the_solver.

Lemma created_snoc h e i d : created_with (h ++ [e]) i d <-> created_with h i d \/ exists g, e = ENew g /\ i = objs h /\ d = dicts h.
Proof.
  split.
  - intros (past & g & later & E & Hi & Hd). apply snoc_split in E as [(-> & <- & ->)|(l' & -> & ->)]; [right; eauto|left; exists past, g, l'; auto].
  - intros [(past & g & later & -> & Hi & Hd)|(g & -> & Hi & Hd)].
    + exists past, g, (later ++ [e]). rewrite <- app_assoc; auto.
    + exists h, g, []; auto.
Qed.

Lemma in_force_created h : existsb shares h = false -> forall i d, in_force h i d <-> created_with h i d.
Proof.
  induction h as [|e h IH] using rev_ind; intros Hs i d.
  - split; [intros (p & e & H & _); apply last_such_nil in H as []|]. intros (past & g & l & E & _). destruct past; discriminate E.
  - rewrite existsb_app in Hs. apply orb_false_elim in Hs as [Hs He]. specialize (IH Hs).
    rewrite in_force_snoc, created_snoc, IH.
    destruct e as [g| |d' k v|j d'|j d'|j|j n|j q|j ow c l g]; simpl in He; try discriminate He; simpl.
    2-7: (split; [intros [[]|[_ H]]; auto|intros [H|(g0 & E & _)]; [right; split; [intros (x & []) | exact H]|discriminate E]]).
    split.
    + intros [[-> ->]|[_ H]]; [right; eauto|auto].
    + intros [H|(g0 & _ & -> & ->)]; [|left; auto]. right. split; [|exact H]. intros (d' & -> & ->).
      assert (objs h < objs h).
      { pose proof (sinv_run (fun _ => None) (fun _ => None) h) as I. apply IH in H. apply (iv_lt _ _ I) in H. tauto. }
      lia.
Qed.

Lemma count_prefix (f : sevent -> bool) past e later : f e = true -> List.length (filter f past) < List.length (filter f (past ++ e :: later)).
Proof. intros H. rewrite filter_app, app_length. simpl. rewrite H. simpl. lia. Qed.
Lemma created_inj h i j d : created_with h i d -> created_with h j d -> i = j.
Proof.
  intros (p1 & g1 & l1 & E1 & -> & D1) (p2 & g2 & l2 & E2 & -> & D2).
  rewrite E1 in E2. revert E2. clear E1. revert p2 D2. revert d D1.
  assert (H : forall p1 p2 l1 l2 g1 g2, p1 ++ ENew g1 :: l1 = p2 ++ ENew g2 :: l2 -> p1 = p2 \/ (exists m, p2 = p1 ++ ENew g1 :: m) \/ (exists m, p1 = p2 ++ ENew g2 :: m)).
  { clear. induction p1 as [|a p1 IH]; intros [|b p2] l1 l2 g1 g2 E; simpl in E; auto.
    - injection E as <- _. right; left. eexists; reflexivity.
    - injection E as -> _. right; right. eexists; reflexivity.
    - injection E as <- E. destruct (IH _ _ _ _ _ E) as [->|[(m & ->)|(m & ->)]]; auto; [right; left|right; right]; exists m; reflexivity. }
  intros d D1 p2 D2 E. destruct (H _ _ _ _ _ _ E) as [->|[(m & ->)|(m & ->)]]; [reflexivity| |]; exfalso; unfold dicts in *.
  - pose proof (count_prefix makes_dict p1 (ENew g1) m eq_refl). lia.
  - pose proof (count_prefix makes_dict p2 (ENew g2) m eq_refl). lia.
Qed.
Lemma created_lt h i d : created_with h i d -> i < objs h /\ d < dicts h.
Proof.
  intros (past & g & later & -> & -> & ->). split; [apply (count_prefix makes_obj past (ENew g) later eq_refl)|apply (count_prefix makes_dict past (ENew g) later eq_refl)].
Qed.
Lemma created_app h h' i d : created_with h i d -> created_with (h ++ h') i d.
Proof. intros (p & g & l & -> & H1 & H2). exists p, g, (l ++ h'). rewrite <- app_assoc. auto. Qed.
Lemma created_total h i : i < objs h -> exists d, created_with h i d.
Proof.
  induction h as [|e h IH] using rev_ind; [unfold objs; simpl; lia|]. rewrite objs_snoc. intros Hi.
  destruct (Nat.ltb_spec i (objs h)) as [H|H].
  - destruct (IH H) as (d & Hd). exists d. apply created_app. exact Hd.
  - destruct e as [g| | | | | | | |]; simpl in Hi; try lia. exists (dicts h). apply created_snoc. right. exists g. split; [reflexivity|]. split; [lia|reflexivity].
Qed.

(** C98.  When no dictionary is passed around, the solver of an object has, for every key, the last value written by
    a call for this very object, and no other options: nothing done to another object shows up. *)
Theorem C98_options_are_the_objects_own :
  forall src lib h i p, i < objs h -> existsb shares h = false ->
  forall k v, solver_option (srun (start src lib) (h ++ [ESetup i p])) i k v
    <-> exists past e, last_such (fun past e => exists v', own_write i k v' past e) h past e /\ own_write i k v past e.
Proof.
  intros src lib h i p Hi Hs k v. destruct (C98_options_are_those_written src lib h i p Hi) as (d & Hf & _ & Ho). rewrite Ho. clear Ho.
  apply (in_force_created h Hs) in Hf.
  destruct Hf as (p0 & g0 & l0 & Eh & Ei & Ed).
  assert (Hw : forall past e later, h = past ++ e :: later -> forall v', writes d k v' past e <-> own_write i k v' past e).
  { intros past e later E v'.
    assert (Hsp : existsb shares past = false).
    { rewrite E, existsb_app in Hs. apply orb_false_elim in Hs. tauto. }
    assert (Hcr : forall d', created_with past i d' -> d' = d).
    { intros d' H. assert (H2 : created_with h i d') by (rewrite E; apply created_app; exact H).
      apply (in_force_created h Hs) in H2. pose proof (sinv_run src lib h) as I.
      apply (in_force_unique _ _ i _ _ I H2). apply (in_force_created h Hs). exists p0, g0, l0. auto. }
    destruct e as [g| |d' k' v0|j d'|j d'|j|j n|j q|j ow c l g]; simpl; try tauto.
    - split.
      + intros (-> & -> & -> & Hd). split; [|auto].
        assert (Hip : i < objs past \/ objs past <= i) by lia. destruct Hip as [Hip|Hip].
        * destruct (created_total past i Hip) as (d2 & H2). pose proof (Hcr _ H2). subst d2. exact H2.
        * (* object i is created later: so is its dictionary *)
          exfalso. assert (Hle : dicts past <= d); [|lia]. rewrite Ed. rewrite E in Eh.
          assert (Hpre : exists m, p0 = past ++ m).
          { clear - Eh Hip Ei. revert p0 Eh Ei. revert Hip. 
            assert (G : forall (a b : list sevent) x y l l', a ++ x :: l = b ++ y :: l' -> (exists m, b = a ++ m) \/ (exists m, a = b ++ y :: m)).
            { induction a as [|u a IH]; intros [|w b] x y l l' E; simpl in E; try (left; exists []; reflexivity); try (left; eexists; reflexivity).
              - injection E as -> _. right. eexists; reflexivity.
              - injection E as <- E. destruct (IH _ _ _ _ _ E) as [(m & ->)|(m & ->)]; [left|right]; exists m; reflexivity. }
            intros Hip p0 Eh Ei. destruct (G _ _ _ _ _ _ Eh) as [H|(m & ->)]; [exact H|]. exfalso. rewrite Ei in Hip.
            pose proof (count_prefix makes_obj p0 (ENew g0) m eq_refl). unfold objs in Hip. lia. }
          destruct Hpre as (m & ->). unfold dicts. rewrite filter_app, app_length. lia.
      + intros (H & -> & ->). rewrite (Hcr _ H). split; [reflexivity|]. split; [reflexivity|]. split; [reflexivity|].
        rewrite <- (Hcr _ H). apply (created_lt _ _ _ H).
    - rewrite (in_force_created past Hsp). split.
      + intros (H & Hin). pose proof (created_app past (EQuiet j :: later) j d H) as H2. rewrite <- E in H2.
        assert (j = i) by (apply (created_inj h j i d H2); exists p0, g0, l0; auto). subst j. split; [reflexivity|]. split; [apply (created_lt _ _ _ H)|exact Hin].
      + intros (-> & Hip & Hin). split; [|exact Hin]. destruct (created_total past i Hip) as (d2 & H2). rewrite <- (Hcr _ H2). exact H2.
    - rewrite (in_force_created past Hsp). split.
      + intros (H & Hin). pose proof (created_app past (ELinear j n :: later) j d H) as H2. rewrite <- E in H2.
        assert (j = i) by (apply (created_inj h j i d H2); exists p0, g0, l0; auto). subst j. split; [reflexivity|]. split; [apply (created_lt _ _ _ H)|exact Hin].
      + intros (-> & Hip & Hin). split; [|exact Hin]. destruct (created_total past i Hip) as (d2 & H2). rewrite <- (Hcr _ H2). exact H2. }
  assert (HL : forall (Q Q' : list sevent -> sevent -> Prop), (forall past e later, h = past ++ e :: later -> (Q past e <-> Q' past e)) ->
            forall past e, last_such Q h past e -> last_such Q' h past e).
  { intros Q Q' HQ past e (later & E & H1 & H2). exists later. split; [exact E|]. split; [apply (HQ _ _ _ E); exact H1|].
    intros l1 e' l2 El HQ'. apply (H2 l1 e' l2 El). apply (HQ (past ++ e :: l1) e' l2); [|exact HQ']. rewrite E, El, <- app_assoc. reflexivity. }
  unfold option_is. split; intros (past & e & HLs & Hv); exists past, e.
  - split; [revert HLs; apply HL|]; [|destruct HLs as (later & E & _); apply (Hw _ _ _ E); exact Hv].
    intros past' e' later' E'. split; intros (v' & H); exists v'; apply (Hw _ _ _ E'); exact H.
  - split; [revert HLs; apply HL|]; [|destruct HLs as (later & E & _); apply (Hw _ _ _ E); exact Hv].
    intros past' e' later' E'. split; intros (v' & H); exists v'; apply (Hw _ _ _ E'); exact H.
Qed.
Print Assumptions C98_options_are_the_objects_own.

(** C98.  The options shown by the results' meta data are those of the solver when setup ends. *)
Theorem C98_meta_at_setup_partial :
  forall src lib h i p, i < objs h ->
  forall k v, meta_shows (srun (start src lib) (h ++ [ESetup i p])) i k v <-> solver_option (srun (start src lib) (h ++ [ESetup i p])) i k v.
Proof.
  intros src lib h i p Hi k v. destruct (setup_result src lib h i p Hi) as (_ & _ & Hs & Hm & Hd).
  rewrite srun_snoc. unfold meta_shows, solver_option. rewrite Hs, Hm, Hd. split.
  - intros (d & E & H). injection E as <-. eauto.
  - intros (q & o & E & H). injection E as <- <-. eauto.
Qed.
Print Assumptions C98_meta_at_setup_partial.

(** Later it need not be so: the meta data refers to the dictionary, which can be written after setup. *)
Theorem C98_meta_later_refuted :
  exists src lib h i k v, meta_shows (srun (start src lib) h) i k v /\ ~ solver_option (srun (start src lib) h) i k v
    /\ h = [ENew None; ESetup i 7; ELinear i v].
Proof.
  exists (fun _ => None), (fun _ => None), [ENew None; ESetup 0 7; ELinear 0 "MA27"], 0, "ipopt.linear_solver", "MA27".
  split; [exists 0; split; reflexivity|]. split; [|reflexivity]. intros (p & o & E & H). injection E as <- <-. discriminate H.
Qed.
Print Assumptions C98_meta_later_refuted.

(** Refuted without the restriction on dictionaries: silencing one object silences the other one that was given the
    same dictionary (and changes the user's dictionary). *)
Theorem C98_shared_dictionary_refuted :
  exists src lib h i k v, i < objs h /\ solver_option (srun (start src lib) (h ++ [ESetup i 7])) i k v
    /\ ~ exists past e, last_such (fun past e => exists v', own_write i k v' past e) h past e /\ own_write i k v past e.
Proof.
  exists (fun _ => None), (fun _ => None), [EDict; ENew None; ENew None; EParam 0 0; EParam 1 0; EQuiet 1], 0, "print_time", "0".
  split; [unfold objs; simpl; lia|]. split; [exists 7, [("ipopt.print_level", "0"); ("ipopt.sb", "yes"); ("print_time", "0")]; split; reflexivity|].
  intros (past & e & (later & E & _) & Hw).
  do 6 (destruct past as [|? past]; [injection E as <- _; simpl in Hw; solve [contradiction | destruct Hw as [Hw _]; discriminate Hw]|injection E as <- E]).
  destruct past; discriminate E.
Qed.
Print Assumptions C98_shared_dictionary_refuted.

(** Refuted: the settings given to the constructor (MPC(model, settings=...)) are used.  They are dropped, for every
    history: whatever is passed, the object starts from an empty dictionary of its own. *)
Theorem C98_constructor_settings_refuted :
  forall src lib h d p k v, ~ solver_option (srun (start src lib) (h ++ [ENew (Some d); ESetup (objs h) p])) (objs h) k v.
Proof.
  intros src lib h d p k v (q & opts & E & H).
  replace (h ++ [ENew (Some d); ESetup (objs h) p]) with ((h ++ [ENew (Some d)]) ++ [ESetup (objs h) p]) in E by (rewrite <- app_assoc; reflexivity).
  rewrite 2!srun_snoc in E. set (w := srun (start src lib) h) in *. pose proof (iv_no _ _ (sinv_run src lib h)) as Hno. fold w in Hno.
  unfold sstep, new_obj, setup_solver, set_obj, upd_fun in E. cbn [w_nobj w_obj w_dict] in E. rewrite Hno in E.
  destruct (Nat.ltb_spec (objs h) (S (objs h))); [|lia]. cbn [w_nobj w_obj w_dict o_opts o_solver] in E. rewrite !Nat.eqb_refl in E.
  cbn [o_opts o_solver] in E. rewrite ?Nat.eqb_refl in E. injection E as <- <-. discriminate H.
Qed.
Print Assumptions C98_constructor_settings_refuted.

Definition C98_history : list sevent :=
  [ENew None; ENew None; EDict; EWrite 2 "ipopt.tol" "1e-4"; EWrite 0 "expand" "True"; ELinear 0 "MA27"; ELinear 1 "MA57"; EQuiet 1; ELinear 0 "mumps"].
Example C98_nonvacuous :
  0 < objs C98_history /\ existsb shares C98_history = false
  /\ solver_option (srun (start (fun _ => None) (fun _ => None)) (C98_history ++ [ESetup 0 3])) 0 "ipopt.linear_solver" "mumps"
  /\ solver_option (srun (start (fun _ => None) (fun _ => None)) (C98_history ++ [ESetup 0 3])) 0 "expand" "True"
  /\ ~ solver_option (srun (start (fun _ => None) (fun _ => None)) (C98_history ++ [ESetup 0 3])) 0 "print_time" "0"
  /\ forallb (fun e => negb (rebuilds 0 e)) [ELinear 0 "MA27"; ESetup 1 4; ECompile 1 true "nlp.c" "nlp.so" true] = true.
Proof.
  split; [unfold objs; simpl; lia|]. split; [reflexivity|].
  split; [exists 3, [("expand", "True"); ("ipopt.linear_solver", "mumps")]; split; reflexivity|].
  split; [exists 3, [("expand", "True"); ("ipopt.linear_solver", "mumps")]; split; reflexivity|].
  split; [|reflexivity]. intros (p & o & E & H). injection E as <- <-. discriminate H.
Qed.

(** ** C99 *)
Lemma own_problem_snoc h e i p :
  own_problem (h ++ [e]) i p <-> (e = ESetup i p /\ i < objs h) \/ (~ (exists p', e = ESetup i p' /\ i < objs h) /\ own_problem h i p).
Proof.
  unfold own_problem. split.
  - intros (past & HL). apply last_such_snoc in HL as [(-> & E & (q & E' & H))|(Hn & HL)]; [left; auto|right; eauto].
  - intros [(-> & H)|(Hn & past & HL)].
    + exists h. apply last_such_snoc. left. eauto.
    + exists past. apply last_such_snoc. right. auto.
Qed.
Lemma own_problem_lt h i p : own_problem h i p -> i < objs h.
Proof.
  induction h as [|e h IH] using rev_ind; [intros (past & H); apply last_such_nil in H as []|].
  rewrite own_problem_snoc, objs_snoc. intros [(-> & H)|(_ & H)]; [simpl; lia|]. apply IH in H. destruct (makes_obj e); lia.
Qed.
Lemma own_problem_total h i : set_up h i -> exists p, own_problem h i p.
Proof.
  induction h as [|e h IH] using rev_ind; [intros (past & q & l & E & _); destruct past; discriminate E|].
  intros H. destruct (makes_obj e) eqn:Em.
  - apply set_up_keep in H; [|destruct e; exact Logic.I || discriminate Em]. destruct (IH H) as (p & Hp). exists p. apply own_problem_snoc. right.
    split; [intros (q & -> & _); discriminate Em|exact Hp].
  - destruct e as [g| |d' k' v0|j d'|j d'|j|j n|j q|j ow c l g]; try discriminate Em;
    try (apply set_up_keep in H; [|exact Logic.I]; destruct (IH H) as (p & Hp); exists p; apply own_problem_snoc; right; split; [intros (q0 & E & _); discriminate E|exact Hp]).
    apply set_up_snoc in H. destruct (Nat.eq_dec j i) as [->|Hne].
    + destruct H as [H|(q' & E & H)].
      * exists q. apply own_problem_snoc. left. split; [reflexivity|]. destruct H as (past & q2 & l & -> & H). unfold objs in *. rewrite filter_app, app_length. lia.
      * exists q'. apply own_problem_snoc. left. auto.
    + destruct H as [H|(q' & E & H)]; [|congruence]. destruct (IH H) as (p & Hp). exists p. apply own_problem_snoc. right.
      split; [intros (q0 & E & _); congruence|exact Hp].
Qed.

Definition lib_ok (owner : string -> nat) (lib : string -> option nat) : Prop := forall l p, lib l = Some p -> owner l = p.

Lemma respects_prefix owner h e : respects owner (h ++ [e]) -> respects owner h.
Proof. intros H past i ow c l g later p E. apply (H past i ow c l g (later ++ [e]) p). rewrite E, <- app_assoc. reflexivity. Qed.

Lemma upd_str_same {A} n (a : A) f : upd_str n a f n = a.
Proof. unfold upd_str. rewrite String.eqb_refl. reflexivity. Qed.

Lemma own_inv owner src lib h :
  lib_ok owner lib -> respects owner h ->
  let w := srun (start src lib) h in
  lib_ok owner (w_lib w) /\ (forall i p, own_problem h i p -> solves w i p).
Proof.
  intros Hl. induction h as [|e h IH] using rev_ind; intros Hr w.
  { split; [exact Hl|]. intros i p (past & H). apply last_such_nil in H as []. }
  destruct (IH (respects_prefix _ _ _ Hr)) as [IHl IHs]. subst w. rewrite srun_snoc. set (w := srun (start src lib) h) in *.
  pose proof (sinv_run src lib h) as I. fold w in I.
  assert (Hkeep : forall i, rebuilds i e = false -> i < objs h -> solves (sstep w e) i = solves w i).
  { intros i Hb Hi. destruct (solver_kept w [e] i) as [E _]; [simpl; rewrite Hb; reflexivity|rewrite (iv_no _ _ I); exact Hi|].
    unfold srun in E; simpl in E. unfold solves. rewrite E. reflexivity. }
  assert (Hsame : (match e with ESetup _ _ => False | _ => True end) -> forall i p, own_problem (h ++ [e]) i p -> own_problem h i p).
  { intros He i p H. apply own_problem_snoc in H as [(-> & _)|(_ & H)]; [contradiction|exact H]. }
  destruct e as [g| |d k v|j d|j d|j|j n|j q|j ow c l g].
  1-8: (split; [simpl; repeat match goal with |- context [if ?b then _ else _] => destruct b end; try exact IHl;
                unfold set_param_opts; cbv zeta; destruct (o_setup (w_obj w j)); exact IHl|]).
  1-7: (intros i p H; apply Hsame in H; [|exact Logic.I]; rewrite Hkeep; [apply IHs; exact H|reflexivity|apply own_problem_lt in H; exact H]).
  - (* setup *)
    intros i p H. pose proof H as H0. apply own_problem_snoc in H as [(E & Hi)|(Hn & H)].
    + injection E as -> ->. destruct (setup_result src lib h i p Hi) as (_ & _ & Hs & _). fold w in Hs. eexists; exact Hs.
    + destruct (Nat.eq_dec j i) as [->|Hne].
      * exfalso. apply Hn. exists q. split; [reflexivity|]. apply (own_problem_lt _ _ _ H).
      * rewrite Hkeep; [apply IHs; exact H| |apply (own_problem_lt _ _ _ H)]. simpl. apply Nat.eqb_neq. exact Hne.
  - (* compile *)
    simpl. rewrite (iv_no _ _ I). destruct (Nat.ltb_spec j (objs h)) as [Hj|Hj].
    2:{ split; [exact IHl|]. intros i p H. apply IHs. apply Hsame; [exact Logic.I|exact H]. }
    simpl in Hkeep. rewrite (iv_no _ _ I) in Hkeep. destruct (Nat.ltb_spec j (objs h)) as [_|]; [|lia].
    destruct (o_setup (w_obj w j)) eqn:Es.
    2:{ unfold compile_nlp. cbv zeta. rewrite Es. simpl. split; [exact IHl|]. intros i p H. apply IHs. apply Hsame; [exact Logic.I|exact H]. }
    apply (iv_s _ _ I j Hj) in Es. destruct (own_problem_total h j Es) as (p0 & Hp0).
    assert (Ho : owner l = p0) by (apply (Hr h j ow c l g [] p0 eq_refl Hp0)).
    destruct (IHs j p0 Hp0) as (opts & Hsol).
    assert (Hfin : lib_ok owner (w_lib (compile_nlp j ow c l g w)) /\ solves (compile_nlp j ow c l g w) j p0).
    { unfold compile_nlp. cbv zeta. apply (iv_s _ _ I j Hj) in Es. rewrite Es, Hsol. simpl.
      destruct (ow || _) eqn:Eb; simpl.
      - rewrite !upd_str_same. destruct g; simpl.
        + rewrite !upd_str_same. simpl. split.
          * intros l' p'. simpl. unfold upd_str. destruct (String.eqb_spec l' l) as [->|]; [intros E; injection E as <-; exact Ho|apply IHl].
          * unfold solves. simpl. rewrite upd_fun_same. simpl. eauto.
        + destruct (w_lib w l) as [p'|] eqn:El; simpl.
          * split; [exact IHl|]. unfold solves. simpl. rewrite upd_fun_same. simpl. apply IHl in El. subst p'. rewrite Ho. eauto.
          * split; [exact IHl|]. unfold solves. simpl. eauto.
      - destruct (w_lib w l) as [p'|] eqn:El; simpl.
        + split; [exact IHl|]. unfold solves. simpl. rewrite upd_fun_same. simpl. apply IHl in El. subst p'. rewrite Ho. eauto.
        + split; [exact IHl|]. unfold solves. eauto. }
    destruct Hfin as [F1 F2]. split; [exact F1|]. intros i p H. apply Hsame in H; [|exact Logic.I].
    destruct (Nat.eq_dec j i) as [->|Hne].
    + destruct (IHs i p H) as (o' & E'). rewrite Hsol in E'. injection E' as -> ->. exact F2.
    + rewrite Hkeep; [apply IHs; exact H| |apply (own_problem_lt _ _ _ H)]. apply Nat.eqb_neq. exact Hne.
Qed.

Lemma sessions_ok owner hs disk : lib_ok owner (snd disk) -> Forall (respects owner) hs -> lib_ok owner (snd (fold_left session hs disk)).
Proof.
  revert disk. induction hs as [|h hs IH]; intros disk Hl HF; [exact Hl|]. inversion HF; subst. simpl. apply IH; [|assumption].
  simpl. apply (own_inv owner (fst disk) (snd disk) h Hl H1).
Qed.

(** C99.  Whatever sequence of python processes runs, with any number of objects, options, setups and compilations,
    successful or not: if every library name is used for one problem only, then at every moment every object solves
    the problem of its last setup. *)
Theorem C99_compiled_solver_solves_own_problem_partial :
  forall owner hs h, Forall (respects owner) hs -> respects owner h ->
  let disk := sessions hs in
  forall i p, own_problem h i p -> solves (srun (start (fst disk) (snd disk)) h) i p.
Proof.
  intros owner hs h Hs Hh disk. apply (own_inv owner); [|exact Hh]. apply sessions_ok; [|exact Hs]. intros l p H. discriminate H.
Qed.
Print Assumptions C99_compiled_solver_solves_own_problem_partial.

(** C99.  The same for any names and any libraries lying around, if every compilation is asked to overwrite and gcc
    succeeds. *)
Theorem C99_overwriting_is_safe_partial :
  forall src lib h, (forall i ow c l g, In (ECompile i ow c l g) h -> ow = true /\ g = true) ->
  forall i p, own_problem h i p -> solves (srun (start src lib) h) i p.
Proof.
  intros src lib h. induction h as [|e h IH] using rev_ind; intros Hc i p H.
  { destruct H as (past & H). apply last_such_nil in H as []. }
  assert (Hc' : forall i ow c l g, In (ECompile i ow c l g) h -> ow = true /\ g = true) by (intros; eapply Hc; apply in_or_app; left; eassumption).
  specialize (IH Hc'). rewrite srun_snoc. set (w := srun (start src lib) h) in *. pose proof (sinv_run src lib h) as I. fold w in I.
  destruct (rebuilds i e) eqn:Eb.
  2:{ apply own_problem_snoc in H as [(-> & _)|(_ & H)]; [simpl in Eb; rewrite Nat.eqb_refl in Eb; discriminate Eb|].
      destruct (solver_kept w [e] i) as [E _]; [simpl; rewrite Eb; reflexivity|rewrite (iv_no _ _ I); apply (own_problem_lt _ _ _ H)|].
      unfold srun in E; simpl in E. unfold solves. rewrite E. apply IH. exact H. }
  destruct e as [g| |d k v|j d|j d|j|j n|j q|j ow c l g]; try discriminate Eb; simpl in Eb; apply Nat.eqb_eq in Eb; subst j.
  - assert (Hi : i < objs h) by (apply own_problem_snoc in H as [(_ & H)|(_ & H)]; [exact H|apply (own_problem_lt _ _ _ H)]).
    apply own_problem_snoc in H as [(E & _)|(Hn & _)]; [|exfalso; apply Hn; eauto]. injection E as ->.
    destruct (setup_result src lib h i p Hi) as (_ & _ & Hs & _). fold w in Hs. eexists; exact Hs.
  - apply own_problem_snoc in H as [(E & _)|(_ & H)]; [discriminate E|].
    pose proof (own_problem_lt _ _ _ H) as Hi. destruct (Hc i ow c l g) as [-> ->]; [apply in_or_app; right; left; reflexivity|].
    simpl. rewrite (iv_no _ _ I). destruct (Nat.ltb_spec i (objs h)); [|lia].
    destruct (IH i p H) as (opts & Hsol). unfold compile_nlp. cbv zeta.
    destruct (negb (o_setup (w_obj w i))); [exists opts; exact Hsol|]. simpl. rewrite Hsol. simpl. rewrite !upd_str_same. simpl. rewrite ?upd_str_same.
    unfold solves. simpl. rewrite upd_fun_same. simpl. eauto.
Qed.
Print Assumptions C99_overwriting_is_safe_partial.

(** C99.  A first compilation that fails leaves the solver as it was (loading the missing library raises). *)
Theorem C99_failed_compilation_keeps_solver :
  forall src lib h i ow c l, w_lib (srun (start src lib) h) l = None ->
  (forall p, solves (srun (start src lib) (h ++ [ECompile i ow c l false])) i p <-> solves (srun (start src lib) h) i p)
  /\ (forall k v, solver_option (srun (start src lib) (h ++ [ECompile i ow c l false])) i k v <-> solver_option (srun (start src lib) h) i k v).
Proof.
  intros src lib h i ow c l Hl. rewrite srun_snoc. set (w := srun (start src lib) h) in *.
  assert (E : o_solver (w_obj (sstep w (ECompile i ow c l false)) i) = o_solver (w_obj w i)).
  { simpl. destruct (Nat.ltb i (w_nobj w)); [|reflexivity]. unfold compile_nlp. cbv zeta. rewrite Hl. destruct (negb (o_setup (w_obj w i))); [reflexivity|].
    rewrite orb_true_r. simpl. rewrite Hl. reflexivity. }
  unfold solves, solver_option. rewrite E. split; reflexivity.
Qed.
Print Assumptions C99_failed_compilation_keeps_solver.

(** Refuted without such a condition: a controller and an estimator of one process, compiled with the default file
    names; the second one then solves the first one's problem. *)
Theorem C99_default_names_refuted :
  exists h, own_problem h 1 8 /\ solves (srun (start (fun _ => None) (fun _ => None)) h) 1 7
    /\ h = [ENew None; ENew None; ESetup 0 7; ESetup 1 8; ECompile 0 false "nlp.c" "nlp.so" true; ECompile 1 false "nlp.c" "nlp.so" true].
Proof.
  eexists. split; [|split; [|reflexivity]].
  - exists [ENew None; ENew None; ESetup 0 7]. eexists. split; [reflexivity|]. split; [exists 8; split; [reflexivity|unfold objs; simpl; lia]|].
    intros [|? [|? [|? ?]]] e' l2 E; try discriminate E; injection E; intros; subst e'; intros (q & E' & _); discriminate E'.
  - eexists. reflexivity.
Qed.
Print Assumptions C99_default_names_refuted.

(** Refuted: the same script, run again after the cost was changed, solves the old problem; asking for overwrite does
    not help when gcc fails, because its return code is not looked at. *)
Theorem C99_stale_library_refuted :
  forall p q ow, p <> q ->
  let disk := sessions [[ENew None; ESetup 0 p; ECompile 0 false "nlp.c" "nlp.so" true]] in
  let h := [ENew None; ESetup 0 q; ECompile 0 ow "nlp.c" "nlp.so" (negb ow)] in
  own_problem h 0 q /\ solves (srun (start (fst disk) (snd disk)) h) 0 p /\ ~ solves (srun (start (fst disk) (snd disk)) h) 0 q.
Proof.
  intros p q ow Hne disk h. split; [|split].
  - exists [ENew None]. eexists. split; [reflexivity|]. split; [exists q; split; [reflexivity|unfold objs; simpl; lia]|].
    intros [|? [|? ?]] e' l2 E; try discriminate E. injection E; intros; subst e'. intros (r & E' & _). discriminate E'.
  - destruct ow; eexists; reflexivity.
  - intros (o & E). destruct ow; simpl in E; injection E as E _; contradiction.
Qed.
Print Assumptions C99_stale_library_refuted.

(** Refuted: "options from the previous NLP (e.g. linear solver) are kept" (docstring): compile_nlp takes the options
    the dictionary holds when it is called. *)
Theorem C99_options_kept_refuted :
  exists h e k v, solver_option (srun (start (fun _ => None) (fun _ => None)) h) 0 k v
    /\ ~ solver_option (srun (start (fun _ => None) (fun _ => None)) (h ++ [e])) 0 k v
    /\ e = ECompile 0 true "nlp.c" "nlp.so" true.
Proof.
  exists [ENew None; ELinear 0 "MA27"; ESetup 0 7; ELinear 0 "mumps"], (ECompile 0 true "nlp.c" "nlp.so" true), "ipopt.linear_solver", "MA27".
  split; [exists 7, [("ipopt.linear_solver", "MA27")]; split; reflexivity|]. split; [|reflexivity].
  intros (p & o & E & H). injection E as <- <-. discriminate H.
Qed.
Print Assumptions C99_options_kept_refuted.

(** Two processes, two objects with library names of their own, a failed and a repeated compilation. *)
Definition C99_s1 : list sevent := [ENew None; ENew None; ESetup 0 7; ESetup 1 8; ECompile 0 false "nlp.c" "mpc.so" true; ECompile 1 false "nlp.c" "mhe.so" false].
Definition C99_s2 : list sevent := [ENew None; ENew None; ESetup 0 8; ESetup 1 7; ECompile 0 false "nlp.c" "mhe.so" true; ECompile 1 false "nlp.c" "mpc.so" false].
Definition C99_owner (l : string) : nat := if String.eqb l "mpc.so" then 7 else 8.
Lemma own_unique h i p q : own_problem h i p -> own_problem h i q -> p = q.
Proof.
  induction h as [|e h IH] using rev_ind; [intros (past & H); apply last_such_nil in H as []|].
  rewrite !own_problem_snoc. intros [(-> & Hi)|(Hn & H)] [(E & Hi')|(Hn' & H')].
  - injection E as ->. reflexivity.
  - exfalso. apply Hn'. eauto.
  - exfalso. apply Hn. eauto.
  - auto.
Qed.
Example C99_nonvacuous :
  respects C99_owner C99_s1 /\ respects C99_owner C99_s2 /\ own_problem C99_s2 1 7
  /\ (forall i ow c l g, In (ECompile i ow c l g) [ENew None; ESetup 0 7; ECompile 0 true "nlp.c" "nlp.so" true] -> ow = true /\ g = true).
Proof.
  assert (O : forall h i p h', own_problem h i p -> h' = h -> own_problem h' i p) by (intros; subst; assumption).
  assert (K : forall h i p e, own_problem h i p -> (match e with ESetup _ _ => false | _ => true end) = true -> own_problem (h ++ [e]) i p).
  { intros h i p e H He. apply own_problem_snoc. right. split; [intros (q & -> & _); discriminate He|exact H]. }
  assert (K2 : forall h i p j q, own_problem h i p -> i <> j -> own_problem (h ++ [ESetup j q]) i p).
  { intros h i p j q H He. apply own_problem_snoc. right. split; [intros (r & E & _); injection E; intros; congruence|exact H]. }
  assert (N : forall h i p, i < objs h -> own_problem (h ++ [ESetup i p]) i p) by (intros; apply own_problem_snoc; left; auto).
  assert (R : forall a b, a <> b -> forall (h1 := [ENew None; ENew None; ESetup 0 a; ESetup 1 b]) c l g, own_problem h1 0 a /\ own_problem h1 1 b /\ own_problem (h1 ++ [ECompile 0 false c l g]) 1 b).
  { intros a b Hab h1 c l g. assert (A : own_problem h1 0 a) by (apply (K2 [ENew None; ENew None; ESetup 0 a] 0 a 1 b); [apply (N [ENew None; ENew None]); unfold objs; simpl; lia|lia]).
    assert (B : own_problem h1 1 b) by (apply (N [ENew None; ENew None; ESetup 0 a]); unfold objs; simpl; lia).
    split; [exact A|]. split; [exact B|]. apply K; [exact B|reflexivity]. }
  split; [|split; [|split]].
  - intros past i ow c l g later p E Hp. destruct (R 7 8 ltac:(lia) "nlp.c" "mpc.so" true) as (R1 & R2 & R3).
    do 4 (destruct past as [|? past]; [discriminate E|injection E as <- E]).
    destruct past as [|? past]; [injection E as <- <- <- <- <- <-; rewrite (own_unique _ _ _ _ Hp R1); reflexivity|injection E as <- E].
    destruct past as [|? past]; [injection E as <- <- <- <- <- <-; rewrite (own_unique _ _ _ _ Hp R3); reflexivity|injection E as <- E].
    destruct past; discriminate E.
  - intros past i ow c l g later p E Hp. destruct (R 8 7 ltac:(lia) "nlp.c" "mhe.so" true) as (R1 & R2 & R3).
    do 4 (destruct past as [|? past]; [discriminate E|injection E as <- E]).
    destruct past as [|? past]; [injection E as <- <- <- <- <- <-; rewrite (own_unique _ _ _ _ Hp R1); reflexivity|injection E as <- E].
    destruct past as [|? past]; [injection E as <- <- <- <- <- <-; rewrite (own_unique _ _ _ _ Hp R3); reflexivity|injection E as <- E].
    destruct past; discriminate E.
  - destruct (R 8 7 ltac:(lia) "nlp.c" "mhe.so" true) as (_ & _ & R3). apply (K _ 1 7 (ECompile 1 false "nlp.c" "mpc.so" false) R3 eq_refl).
  - intros i ow c l g [H|[H|[H|[]]]]; try discriminate H. injection H as <- <- <- <- <-. auto.
Qed.
