(** * Proofs for C98 and C99. *)
From Verif Require Import Base DataModel DataProofs SoptModel SoptSpec.
Local Open Scope string_scope. Local Open Scope list_scope.

Lemma snoc_split {A} (h : list A) (e : A) past x later :
  h ++ [e] = past ++ x :: later -> (past = h /\ x = e /\ later = []) \/ exists l', later = l' ++ [e] /\ h = past ++ x :: l'.
Proof.
  destruct later as [|y l] using rev_ind; intros H.
  - apply app_inj_tail in H as [-> ->]. left; auto.
  - right. exists l. replace (past ++ x :: l ++ [y]) with ((past ++ x :: l) ++ [y]) in H by (rewrite <- app_assoc; reflexivity).
    apply app_inj_tail in H as [-> ->]. auto.
Qed.

Lemma last_such_snoc Q h e past x :
  last_such Q (h ++ [e]) past x <-> (past = h /\ x = e /\ Q h e) \/ (~ Q h e /\ last_such Q h past x).
Proof.
  split.
  - intros (later & Heq & HQ & Hl). apply snoc_split in Heq as [(-> & -> & ->)|(l' & -> & ->)]; [left; auto|right].
    split.
    + apply (Hl l' e []). reflexivity.
    + exists l'. split; [reflexivity|]. split; [assumption|]. intros l1 e' l2 E. apply (Hl l1 e' (l2 ++ [e])). rewrite E, <- app_assoc. reflexivity.
  - intros [(-> & -> & HQ)|(Hn & later & -> & HQ & Hl)].
    + exists []. split; [reflexivity|]. split; [assumption|]. intros [|? ?] ? ? E; discriminate E.
    + exists (later ++ [e]). split; [rewrite <- app_assoc; reflexivity|]. split; [assumption|].
      intros l1 e' l2 E. symmetry in E. apply eq_sym in E. apply snoc_split in E as [(-> & -> & ->)|(l' & -> & ->)]; [exact Hn|].
      apply (Hl _ _ _ eq_refl).
Qed.
Lemma last_such_nil Q past x : ~ last_such Q [] past x.
Proof. intros (l & E & _). destruct past; discriminate E. Qed.

Lemma dicts_snoc h e : dicts (h ++ [e]) = if makes_dict e then S (dicts h) else dicts h.
Proof. unfold dicts. rewrite filter_app, app_length. simpl. destruct (makes_dict e); simpl; lia. Qed.
Lemma objs_snoc h e : objs (h ++ [e]) = if makes_obj e then S (objs h) else objs h.
Proof. unfold objs. rewrite filter_app, app_length. simpl. destruct (makes_obj e); simpl; lia. Qed.

Lemma set_up_snoc h e i : set_up (h ++ [e]) i <-> set_up h i \/ exists p, e = ESetup i p /\ i < objs h.
Proof.
  split.
  - intros (past & p & later & E & Hi). apply snoc_split in E as [(-> & <- & ->)|(l' & -> & ->)]; [right; eauto|left; exists past, p, l'; auto].
  - intros [(past & p & later & -> & Hi)|(p & -> & Hi)].
    + exists past, p, (later ++ [e]). rewrite <- app_assoc; auto.
    + exists h, p, []; auto.
Qed.

Lemma in_force_snoc h e i d :
  in_force (h ++ [e]) i d <-> chooses i d h e \/ (~ (exists d', chooses i d' h e) /\ in_force h i d).
Proof.
  unfold in_force. split.
  - intros (past & x & HL & Hc). apply last_such_snoc in HL as [(-> & -> & H)|(Hn & HL)]; [left; assumption|right; split; [assumption|eauto]].
  - intros [Hc|(Hn & past & x & HL & Hc)].
    + exists h, e. split; [apply last_such_snoc; left; eauto|assumption].
    + exists past, x. split; [apply last_such_snoc; right; auto|assumption].
Qed.
Lemma option_is_snoc h e d k v :
  option_is (h ++ [e]) d k v <-> writes d k v h e \/ (~ (exists v', writes d k v' h e) /\ option_is h d k v).
Proof.
  unfold option_is. split.
  - intros (past & x & HL & Hc). apply last_such_snoc in HL as [(-> & -> & H)|(Hn & HL)]; [left; assumption|right; split; [assumption|eauto]].
  - intros [Hc|(Hn & past & x & HL & Hc)].
    + exists h, e. split; [apply last_such_snoc; left; eauto|assumption].
    + exists past, x. split; [apply last_such_snoc; right; auto|assumption].
Qed.

Record sinv (h : list sevent) (w : world) : Prop := {
  iv_nd : w_ndict w = dicts h;
  iv_no : w_nobj w = objs h;
  iv_lt : forall i d, in_force h i d -> i < objs h /\ d < dicts h;
  iv_f : forall i d, i < objs h -> (in_force h i d <-> o_opts (w_obj w i) = d);
  iv_slt : forall i, set_up h i -> i < objs h;
  iv_s : forall i, i < objs h -> (o_setup (w_obj w i) = true <-> set_up h i);
  iv_wlt : forall d k v, option_is h d k v -> d < dicts h;
  iv_w : forall d k v, d < dicts h -> (alookup k (w_dict w d) = Some v <-> option_is h d k v)
}.

Lemma srun_snoc w h e : srun w (h ++ [e]) = sstep (srun w h) e.
Proof. unfold srun. rewrite fold_left_app. reflexivity. Qed.
Lemma srun_app w h h' : srun w (h ++ h') = srun (srun w h) h'.
Proof. unfold srun. apply fold_left_app. Qed.

Lemma alookup_quiet d k : alookup k (dict_update d quiet_opts) =
  match alookup k quiet_opts with Some v => Some v | None => alookup k d end.
Proof.
  unfold dict_update, quiet_opts; simpl. rewrite !alookup_aset.
  destruct (String.eqb_spec k "print_time") as [->|H1]; [reflexivity|].
  destruct (String.eqb_spec k "ipopt.sb") as [->|H2]; [reflexivity|].
  destruct (String.eqb_spec k "ipopt.print_level") as [->|H3]; reflexivity.
Qed.
Lemma quiet_in k v : alookup k quiet_opts = Some v <-> In (k, v) quiet_opts.
Proof.
  unfold quiet_opts; simpl.
  destruct (String.eqb_spec k "ipopt.print_level") as [->|H3];
  [|destruct (String.eqb_spec k "ipopt.sb") as [->|H2];
  [|destruct (String.eqb_spec k "print_time") as [->|H1]]]; split;
  try (intros H; injection H as <-; auto; fail); try discriminate;
  intros [E|[E|[E|[]]]]; inversion E; subst; congruence.
Qed.

Lemma not_chooses i h e : (match e with ENew _ | EAssign _ _ | EParam _ _ => False | _ => True end) -> ~ (exists d', chooses i d' h e).
Proof. destruct e; intros H (d' & Hc); contradiction. Qed.
Lemma not_writes d k h e : (match e with EWrite _ _ _ | EQuiet _ | ELinear _ _ => False | _ => True end) -> ~ (exists v', writes d k v' h e).
Proof. destruct e; intros H (d' & Hc); contradiction. Qed.

Lemma upd_fun_same {A} n (a : A) f : upd_fun n a f n = a.
Proof. unfold upd_fun. rewrite Nat.eqb_refl. reflexivity. Qed.
Lemma upd_fun_other {A} n m (a : A) f : m <> n -> upd_fun n a f m = f m.
Proof. unfold upd_fun. destruct (Nat.eqb_spec m n); [contradiction|reflexivity]. Qed.

(** The bookkeeping about dictionaries and flags does not see the solver. *)
Lemma in_force_keep h e i d : (match e with ENew _ | EAssign _ _ | EParam _ _ => False | _ => True end) -> (in_force (h ++ [e]) i d <-> in_force h i d).
Proof. intros H. pose proof (not_chooses i h e H) as Hn. rewrite in_force_snoc. split; [intros [Hc|[_ Hf]]; [exfalso; eauto|assumption]|auto]. Qed.
Lemma option_is_keep h e d k v : (match e with EWrite _ _ _ | EQuiet _ | ELinear _ _ => False | _ => True end) -> (option_is (h ++ [e]) d k v <-> option_is h d k v).
Proof. intros H. pose proof (not_writes d k h e H) as Hn. rewrite option_is_snoc. split; [intros [Hc|[_ Hf]]; [exfalso; eauto|assumption]|auto]. Qed.
Lemma set_up_keep h e i : (match e with ESetup _ _ => False | _ => True end) -> (set_up (h ++ [e]) i <-> set_up h i).
Proof. intros H. rewrite set_up_snoc. split; [intros [Hs|(p & -> & _)]; [assumption|contradiction]|auto]. Qed.

Lemma not_option_fresh h k v w : sinv h w -> ~ option_is h (dicts h) k v.
Proof. intros I H. apply (iv_wlt _ _ I) in H. lia. Qed.
Lemma not_force_fresh h d w : sinv h w -> ~ in_force h (objs h) d.
Proof. intros I H. apply (iv_lt _ _ I) in H. lia. Qed.

(** A step that only changes solvers, libraries and flags as setup does. *)
Lemma sinv_choice h w i d e :
  sinv h w -> i < objs h -> d < dicts h ->
  makes_dict e = false -> makes_obj e = false ->
  (match e with EWrite _ _ _ | EQuiet _ | ELinear _ _ | ESetup _ _ => False | _ => True end) ->
  (forall j d', chooses j d' h e <-> j = i /\ d' = d) ->
  sinv (h ++ [e]) (assign_opts i d w).
Proof.
  intros I Hi Hd Hm Hmo He Hc.
  assert (Hk1 : match e with EWrite _ _ _ | EQuiet _ | ELinear _ _ => False | _ => True end) by (destruct e; auto).
  assert (Hk2 : match e with ESetup _ _ => False | _ => True end) by (destruct e; auto).
  constructor; simpl; try rewrite dicts_snoc; try rewrite objs_snoc; try rewrite Hm; try rewrite Hmo.
  - apply I.
  - apply I.
  - intros j d' H. apply in_force_snoc in H as [H|[_ H]]; [apply Hc in H as [-> ->]; auto|apply (iv_lt _ _ I _ _ H)].
  - intros j d' Hj. rewrite in_force_snoc. destruct (Nat.eq_dec j i) as [->|Hne].
    + rewrite upd_fun_same; simpl. rewrite Hc. split; [intros [[_ ->]|[Hn _]]; [reflexivity|]|intros ->; left; auto].
      exfalso. apply Hn. exists d. apply Hc. auto.
    + rewrite (upd_fun_other _ _ _ _ Hne). rewrite <- (iv_f _ _ I j d' Hj). split; [intros [H|[_ H]]; [apply Hc in H as [H _]; contradiction|assumption]|].
      intros H. right. split; [intros (d2 & H2); apply Hc in H2 as [H2 _]; contradiction|assumption].
  - intros j H. apply (iv_slt _ _ I). apply (set_up_keep h e j Hk2). assumption.
  - intros j Hj. rewrite (set_up_keep h e j Hk2). destruct (Nat.eq_dec j i) as [->|Hne].
    + rewrite upd_fun_same; simpl. apply (iv_s _ _ I i Hi).
    + rewrite (upd_fun_other _ _ _ _ Hne). apply (iv_s _ _ I j Hj).
  - intros d' k v H. apply (iv_wlt _ _ I d' k v). apply (option_is_keep h e d' k v Hk1). assumption.
  - intros d' k v Hd'. rewrite (option_is_keep h e d' k v Hk1). apply (iv_w _ _ I d' k v Hd').
Qed.

(** A step that changes neither dictionaries nor which one is used. *)
Lemma sinv_still h w w' e :
  sinv h w -> makes_dict e = false -> makes_obj e = false ->
  (match e with EWrite _ _ _ | EQuiet _ | ELinear _ _ => False | _ => True end) ->
  (forall j d', ~ chooses j d' h e) ->
  w_ndict w' = w_ndict w -> w_nobj w' = w_nobj w -> w_dict w' = w_dict w ->
  (forall j, o_opts (w_obj w' j) = o_opts (w_obj w j)) ->
  (forall j, j < objs h -> (o_setup (w_obj w' j) = true <-> set_up (h ++ [e]) j)) ->
  sinv (h ++ [e]) w'.
Proof.
  intros I Hm Hmo He Hc E1 E2 E3 E4 E5.
  assert (Hf : forall j d', in_force (h ++ [e]) j d' <-> in_force h j d').
  { intros j d'. rewrite in_force_snoc. split; [intros [H|[_ H]]; [apply Hc in H; contradiction|assumption]|].
    intros H. right. split; [intros (d2 & H2); exact (Hc _ _ H2)|assumption]. }
  constructor; try rewrite dicts_snoc; try rewrite objs_snoc; try rewrite Hm; try rewrite Hmo.
  - rewrite E1. apply I.
  - rewrite E2. apply I.
  - intros j d' H. apply Hf in H. apply (iv_lt _ _ I _ _ H).
  - intros j d' Hj. rewrite Hf, E4. apply (iv_f _ _ I j d' Hj).
  - intros j H. apply set_up_snoc in H as [H|(p & _ & H)]; [apply (iv_slt _ _ I j H)|exact H].
  - intros j Hj. apply E5. exact Hj.
  - intros d' k v H. apply (iv_wlt _ _ I d' k v). apply (option_is_keep h e d' k v He). assumption.
  - intros d' k v Hd'. rewrite E3, (option_is_keep h e d' k v He). apply (iv_w _ _ I d' k v Hd').
Qed.

(** A step that writes into dictionary [d]. *)
Lemma sinv_write h w d x e :
  sinv h w -> d < dicts h -> makes_dict e = false -> makes_obj e = false ->
  (match e with ENew _ | EAssign _ _ | EParam _ _ | ESetup _ _ => False | _ => True end) ->
  (forall d' k v, writes d' k v h e -> d' = d) ->
  (forall k v, alookup k x = Some v <-> writes d k v h e \/ (~ (exists v', writes d k v' h e) /\ alookup k (w_dict w d) = Some v)) ->
  sinv (h ++ [e]) (set_dict d x w).
Proof.
  intros I Hd Hm Hmo He Hw Hx.
  assert (Hk1 : match e with ENew _ | EAssign _ _ | EParam _ _ => False | _ => True end) by (destruct e; auto).
  assert (Hk2 : match e with ESetup _ _ => False | _ => True end) by (destruct e; auto).
  constructor; simpl; try rewrite dicts_snoc; try rewrite objs_snoc; try rewrite Hm; try rewrite Hmo.
  - apply I.
  - apply I.
  - intros j d' H. apply (in_force_keep h e j d' Hk1) in H. apply (iv_lt _ _ I _ _ H).
  - intros j d' Hj. rewrite (in_force_keep h e j d' Hk1). apply (iv_f _ _ I j d' Hj).
  - intros j H. apply (iv_slt _ _ I). apply (set_up_keep h e j Hk2). assumption.
  - intros j Hj. rewrite (set_up_keep h e j Hk2). apply (iv_s _ _ I j Hj).
  - intros d' k v H. apply option_is_snoc in H as [H|[_ H]]; [apply Hw in H; subst; assumption|apply (iv_wlt _ _ I d' k v H)].
  - intros d' k v Hd'. rewrite option_is_snoc. destruct (Nat.eq_dec d' d) as [->|Hne].
    + rewrite upd_fun_same. rewrite (Hx k v), (iv_w _ _ I d k v Hd). tauto.
    + rewrite (upd_fun_other _ _ _ _ Hne). rewrite (iv_w _ _ I d' k v Hd'). split; [intros H; right; split; [|assumption]|].
      * intros (v' & H'). apply Hw in H'. contradiction.
      * intros [H|[_ H]]; [apply Hw in H; contradiction|assumption].
Qed.

Lemma in_force_unique h w i d d' : sinv h w -> in_force h i d -> in_force h i d' -> d = d'.
Proof.
  intros I H H'. pose proof (proj1 (iv_lt _ _ I _ _ H)) as Hi.
  apply (iv_f _ _ I i d Hi) in H. apply (iv_f _ _ I i d' Hi) in H'. congruence.
Qed.

Lemma sinv_start src lib : sinv [] (start src lib).
Proof.
  constructor; simpl; try reflexivity; try (unfold objs, dicts; simpl; lia).
  - intros i d (p & e & H & _). apply last_such_nil in H as [].
  - intros i (p & q & l & E & _). destruct p; discriminate E.
  - intros d k v (p & e & H & _). apply last_such_nil in H as [].
Qed.

Lemma sinv_new h w e : sinv h w -> makes_dict e = true ->
  sinv (h ++ [e]) (sstep w e).
Proof.
  intros I Hm. destruct e as [g| | | | | | | |]; try discriminate Hm.
  - (* ENew *)
    assert (Hc : forall j d', chooses j d' h (ENew g) <-> j = objs h /\ d' = dicts h) by (intros; simpl; tauto).
    constructor; simpl; try rewrite dicts_snoc; try rewrite objs_snoc; simpl.
    + rewrite (iv_nd _ _ I). reflexivity.
    + rewrite (iv_no _ _ I). reflexivity.
    + intros j d' H. apply in_force_snoc in H as [H|[_ H]]; [apply Hc in H as [-> ->]; lia|].
      apply (iv_lt _ _ I) in H. lia.
    + intros j d' Hj. rewrite (iv_no _ _ I), in_force_snoc, Hc, (iv_nd _ _ I). destruct (Nat.eq_dec j (objs h)) as [->|Hne].
      * rewrite upd_fun_same; simpl. split; [intros [[_ ->]|[_ H]]; [reflexivity|]|intros <-; left; auto].
        exfalso. exact (not_force_fresh _ _ _ I H).
      * rewrite (upd_fun_other _ _ _ _ Hne). rewrite <- (iv_f _ _ I j d' ltac:(lia)). split; [intros [[H _]|[_ H]]; [contradiction|assumption]|].
        intros H. right. split; [intros (d2 & H2); apply Hc in H2 as [H2 _]; contradiction|assumption].
    + intros j H. apply set_up_keep in H; [|exact Logic.I]. apply (iv_slt _ _ I) in H. lia.
    + intros j Hj. rewrite (iv_no _ _ I), set_up_keep by exact Logic.I. destruct (Nat.eq_dec j (objs h)) as [->|Hne].
      * rewrite upd_fun_same; simpl. split; [discriminate|]. intros H. apply (iv_slt _ _ I) in H. lia.
      * rewrite (upd_fun_other _ _ _ _ Hne). apply (iv_s _ _ I j). lia.
    + intros d' k v H. apply option_is_keep in H; [|exact Logic.I]. apply (iv_wlt _ _ I) in H. lia.
    + intros d' k v Hd. rewrite (iv_nd _ _ I), option_is_keep by exact Logic.I. destruct (Nat.eq_dec d' (dicts h)) as [->|Hne].
      * rewrite upd_fun_same; simpl. split; [discriminate|]. intros H. exfalso. exact (not_option_fresh _ _ _ _ I H).
      * rewrite (upd_fun_other _ _ _ _ Hne). apply (iv_w _ _ I). lia.
  - (* EDict *)
    constructor; simpl; try rewrite dicts_snoc; try rewrite objs_snoc; simpl.
    + rewrite (iv_nd _ _ I). reflexivity.
    + apply (iv_no _ _ I).
    + intros j d' H. apply in_force_keep in H; [|exact Logic.I].
      apply (iv_lt _ _ I) in H. lia.
    + intros j d' Hj. rewrite in_force_keep by exact Logic.I. apply (iv_f _ _ I j d' Hj).
    + intros j H. apply set_up_keep in H; [|exact Logic.I]. apply (iv_slt _ _ I _ H).
    + intros j Hj. rewrite set_up_keep by exact Logic.I. apply (iv_s _ _ I j Hj).
    + intros d' k v H. apply option_is_keep in H; [|exact Logic.I]. apply (iv_wlt _ _ I) in H. lia.
    + intros d' k v Hd. rewrite (iv_nd _ _ I), option_is_keep by exact Logic.I. destruct (Nat.eq_dec d' (dicts h)) as [->|Hne].
      * rewrite upd_fun_same; simpl. split; [discriminate|]. intros H. exfalso. exact (not_option_fresh _ _ _ _ I H).
      * rewrite (upd_fun_other _ _ _ _ Hne). apply (iv_w _ _ I). lia.
Qed.

Lemma compile_fields i ow c l g w :
  let w' := compile_nlp i ow c l g w in
  w_ndict w' = w_ndict w /\ w_nobj w' = w_nobj w /\ w_dict w' = w_dict w
  /\ (forall j, o_opts (w_obj w' j) = o_opts (w_obj w j) /\ o_setup (w_obj w' j) = o_setup (w_obj w j) /\ o_meta (w_obj w' j) = o_meta (w_obj w j)
                /\ (j <> i -> o_solver (w_obj w' j) = o_solver (w_obj w j))).
Proof.
  unfold compile_nlp. cbv zeta. destruct (negb (o_setup (w_obj w i))) eqn:Es; [repeat (split; [reflexivity|]); auto|].
  destruct (ow || _); simpl;
  match goal with |- context [match ?x with Some _ => _ | None => _ end] => destruct x end; simpl;
  (split; [reflexivity|]; split; [reflexivity|]; split; [reflexivity|]); intros j; auto;
  unfold upd_fun; destruct (Nat.eqb_spec j i) as [->|Hne]; simpl; auto;
  (split; [reflexivity|]; split; [reflexivity|]; split; [reflexivity|]); intros Hn; contradiction.
Qed.

Lemma sinv_step h w e : sinv h w -> sinv (h ++ [e]) (sstep w e).
Proof.
  intros I. destruct (makes_dict e) eqn:Em; [apply sinv_new; assumption|].
  pose proof (iv_nd _ _ I) as Hnd. pose proof (iv_no _ _ I) as Hno.
  assert (Same : makes_obj e = false -> (match e with EWrite _ _ _ | EQuiet _ | ELinear _ _ => False | _ => True end) ->
     (forall j d', ~ chooses j d' h e) -> (forall j, j < objs h -> (set_up h j <-> set_up (h ++ [e]) j)) -> sinv (h ++ [e]) w).
  { intros H1 H2 H3 H4. apply (sinv_still h w w e I Em H1 H2 H3); auto. intros j Hj. rewrite <- (H4 j Hj). apply (iv_s _ _ I j Hj). }
  assert (Keep : (match e with ESetup _ _ => False | _ => True end) -> forall j, j < objs h -> (set_up h j <-> set_up (h ++ [e]) j)).
  { intros He j _. symmetry. apply set_up_keep. exact He. }
  destruct e as [g| |d k v|i d|i d|i|i n|i p|i ow c l g]; try discriminate Em; simpl.
  - (* EWrite *)
    destruct (Nat.ltb_spec d (w_ndict w)) as [Hd|Hd]; rewrite Hnd in Hd.
    + apply sinv_write; auto; simpl.
      * intros d' k' v' (E & _). auto.
      * intros k' v'. rewrite alookup_aset. destruct (String.eqb_spec k' k) as [->|Hne].
        -- split; [intros E; injection E as <-; left; auto|]. intros [(_ & _ & -> & _)|[Hn _]]; [reflexivity|]. exfalso. apply Hn. exists v. auto.
        -- split; [intros E; right; split; [intros (v2 & _ & Ek & _); congruence|assumption]|].
           intros [(_ & Ek & _)|[_ E]]; [congruence|assumption].
    + constructor; try rewrite dicts_snoc; try rewrite objs_snoc; simpl.
      * exact Hnd. * exact Hno.
      * intros j d' H. apply in_force_keep in H; [|exact Logic.I]. apply (iv_lt _ _ I _ _ H).
      * intros j d' Hj. rewrite in_force_keep by exact Logic.I. apply (iv_f _ _ I j d' Hj).
      * intros j H. apply set_up_keep in H; [|exact Logic.I]. apply (iv_slt _ _ I _ H).
      * intros j Hj. rewrite set_up_keep by exact Logic.I. apply (iv_s _ _ I j Hj).
      * intros d' k' v' H. apply option_is_snoc in H as [(-> & _ & _ & H)|[_ H]]; [exact H|]. apply (iv_wlt _ _ I _ _ _ H).
      * intros d' k' v' Hd'. rewrite option_is_snoc. rewrite (iv_w _ _ I _ _ _ Hd').
        split; [intros H; right; split; [intros (v2 & -> & _ & _ & H2); lia|assumption]|]. intros [(-> & _ & _ & H2)|[_ H]]; [lia|assumption].
  - (* EParam *)
    destruct (Nat.ltb_spec i (w_nobj w)) as [Hi|Hi]; [destruct (Nat.ltb_spec d (w_ndict w)) as [Hd|Hd]|]; simpl; rewrite ?Hno, ?Hnd in *.
    + unfold set_param_opts. cbv zeta. destruct (o_setup (w_obj w i)) eqn:Es.
      * apply (iv_s _ _ I i Hi) in Es. apply Same; auto. intros j d' (-> & _ & _ & _ & H). contradiction.
      * rewrite <- Es. apply (sinv_choice h w i d (EParam i d)); auto. simpl. intros j d'. split; [intros (-> & -> & _); auto|intros (-> & ->)].
        split; [reflexivity|]. split; [reflexivity|]. split; [assumption|]. split; [assumption|]. intros H. apply (iv_s _ _ I i Hi) in H. congruence.
    + apply Same; auto. intros j d' (-> & -> & _ & H & _). lia.
    + apply Same; auto. intros j d' (-> & -> & H & _ & _). lia.
  - (* EAssign *)
    destruct (Nat.ltb_spec i (w_nobj w)) as [Hi|Hi]; [destruct (Nat.ltb_spec d (w_ndict w)) as [Hd|Hd]|]; simpl; rewrite ?Hno, ?Hnd in *.
    + apply (sinv_choice h w i d (EAssign i d)); auto. simpl. intros j d'. split; [intros (-> & -> & _); auto|intros (-> & ->); auto].
    + apply Same; auto. intros j d' (-> & -> & _ & H). lia.
    + apply Same; auto. intros j d' (-> & -> & H & _). lia.
  - (* EQuiet *)
    destruct (Nat.ltb_spec i (w_nobj w)) as [Hi|Hi]; rewrite Hno in Hi.
    + unfold supress_ipopt_output. cbv zeta. pose proof (proj2 (iv_f _ _ I i _ Hi) eq_refl) as Hf.
      apply sinv_write; auto; unfold writes.
      * apply (iv_lt _ _ I _ _ Hf).
      * intros d' k v (H & _). exact (in_force_unique _ _ _ _ _ I H Hf).
      * intros k v. rewrite alookup_quiet. destruct (alookup k quiet_opts) as [v'|] eqn:Eq.
        -- pose proof (proj1 (quiet_in k v') Eq) as Hin. split.
           ++ intros E; injection E as <-. left. split; assumption.
           ++ intros [(_ & H)|[Hn _]]; [apply quiet_in in H; congruence|]. exfalso. apply Hn. exists v'. split; assumption.
        -- split.
           ++ intros E. right. split; [|assumption]. intros (v2 & _ & H). apply quiet_in in H. congruence.
           ++ intros [(_ & H)|[_ E]]; [apply quiet_in in H; congruence|assumption].
    + assert (Hn : forall d, ~ in_force h i d) by (intros d H; apply (iv_lt _ _ I) in H; lia).
      constructor; try rewrite dicts_snoc; try rewrite objs_snoc; simpl.
      * exact Hnd. * exact Hno.
      * intros j d' H. apply in_force_keep in H; [|exact Logic.I]. apply (iv_lt _ _ I _ _ H).
      * intros j d' Hj. rewrite in_force_keep by exact Logic.I. apply (iv_f _ _ I j d' Hj).
      * intros j H. apply set_up_keep in H; [|exact Logic.I]. apply (iv_slt _ _ I _ H).
      * intros j Hj. rewrite set_up_keep by exact Logic.I. apply (iv_s _ _ I j Hj).
      * intros d' k' v' H. apply option_is_snoc in H as [(H & _)|[_ H]]; [exfalso; exact (Hn _ H)|]. apply (iv_wlt _ _ I _ _ _ H).
      * intros d' k' v' Hd'. rewrite option_is_snoc. rewrite (iv_w _ _ I _ _ _ Hd').
        split; [intros H; right; split; [intros (v2 & H2 & _); exact (Hn _ H2)|assumption]|]. intros [(H & _)|[_ H]]; [exfalso; exact (Hn _ H)|assumption].
  - (* ELinear *)
    destruct (Nat.ltb_spec i (w_nobj w)) as [Hi|Hi]; rewrite Hno in Hi.
    + unfold set_linear_solver. cbv zeta. pose proof (proj2 (iv_f _ _ I i _ Hi) eq_refl) as Hf.
      apply sinv_write; auto; simpl.
      * apply (iv_lt _ _ I _ _ Hf).
      * intros d' k v (H & _). exact (in_force_unique _ _ _ _ _ I H Hf).
      * intros k v. rewrite alookup_aset. destruct (String.eqb_spec k "ipopt.linear_solver") as [->|Hne].
        -- split; [intros E; injection E as <-; left; auto|]. intros [(_ & _ & ->)|[Hn _]]; [reflexivity|]. exfalso. apply Hn. exists n. auto.
        -- split; [intros E; right; split; [intros (v2 & _ & Ek & _); congruence|assumption]|].
           intros [(_ & Ek & _)|[_ E]]; [congruence|assumption].
    + assert (Hn : forall d, ~ in_force h i d) by (intros d H; apply (iv_lt _ _ I) in H; lia).
      constructor; try rewrite dicts_snoc; try rewrite objs_snoc; simpl.
      * exact Hnd. * exact Hno.
      * intros j d' H. apply in_force_keep in H; [|exact Logic.I]. apply (iv_lt _ _ I _ _ H).
      * intros j d' Hj. rewrite in_force_keep by exact Logic.I. apply (iv_f _ _ I j d' Hj).
      * intros j H. apply set_up_keep in H; [|exact Logic.I]. apply (iv_slt _ _ I _ H).
      * intros j Hj. rewrite set_up_keep by exact Logic.I. apply (iv_s _ _ I j Hj).
      * intros d' k' v' H. apply option_is_snoc in H as [(H & _)|[_ H]]; [exfalso; exact (Hn _ H)|]. apply (iv_wlt _ _ I _ _ _ H).
      * intros d' k' v' Hd'. rewrite option_is_snoc. rewrite (iv_w _ _ I _ _ _ Hd').
        split; [intros H; right; split; [intros (v2 & H2 & _); exact (Hn _ H2)|assumption]|]. intros [(H & _)|[_ H]]; [exfalso; exact (Hn _ H)|assumption].
  - (* ESetup *)
    destruct (Nat.ltb_spec i (w_nobj w)) as [Hi|Hi]; rewrite Hno in Hi.
    + unfold setup_solver. cbv zeta. apply (sinv_still h w _ (ESetup i p) I); auto; simpl.
      * intros j. unfold upd_fun. destruct (Nat.eqb_spec j i) as [->|]; reflexivity.
      * intros j Hj. rewrite set_up_snoc. destruct (Nat.eq_dec j i) as [->|Hne].
        -- rewrite upd_fun_same; simpl. split; [intros _; right; eauto|reflexivity].
        -- rewrite (upd_fun_other _ _ _ _ Hne). rewrite (iv_s _ _ I j Hj). split; [auto|]. intros [H|(q & E & _)]; [assumption|]. congruence.
    + apply Same; auto. intros j Hj. rewrite set_up_snoc. split; [auto|]. intros [H|(q & E & H)]; [assumption|]. injection E as -> _. lia.
  - (* ECompile *)
    destruct (Nat.ltb_spec i (w_nobj w)) as [Hi|Hi]; rewrite Hno in Hi; [|apply Same; auto].
    destruct (compile_fields i ow c l g w) as (F1 & F2 & F3 & F4).
    apply (sinv_still h w _ (ECompile i ow c l g) I); auto.
    + intros j. apply F4.
    + intros j Hj. destruct (F4 j) as (_ & -> & _). rewrite set_up_keep by exact Logic.I. apply (iv_s _ _ I j Hj).
Qed.

Lemma sinv_run src lib h : sinv h (srun (start src lib) h).
Proof.
  induction h as [|e h IH] using rev_ind; [apply sinv_start|]. rewrite srun_snoc. apply sinv_step. exact IH.
Qed.
