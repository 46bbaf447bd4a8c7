(** * Theorems about the OPC UA data exchange: C51. *)
From Coq Require Import Ascii FinFun.
From Verif Require Import Base OpcModel OpcSpec OpcProofs.
Set Implicit Arguments.
Local Open Scope string_scope.

(** The labels that get a node: those that do not contain 'default', in order. *)
Definition wanted (labels : string -> list string) (var : string) : list string :=
  filter (fun key => negb (str_in "default" key)) (labels var).

Theorem C51_wanted : forall labels var l, In l (wanted labels var) <-> In l (labels var) /\ ~ mentions_default l.
Proof.
  intros. unfold wanted. rewrite filter_In, negb_true_iff. unfold mentions_default. rewrite <- str_in_app.
  destruct (str_in "default" l); intuition congruence.
Qed.
Print Assumptions C51_wanted.

Lemma tag_list_nodup labels (pre : string -> string) vars :
  NoDup vars -> (forall v, In v vars -> upto (pre v) = pre v) ->
  (forall v w, In v vars -> In w vars -> pre v = pre w -> v = w) -> labels_ok labels ->
  NoDup (flat_map (fun var => map (fun l => pre var ++ l) (wanted labels var)) vars).
Proof.
  intros Hnd Hup Hinj Hl. induction vars as [|v vars IH]; simpl; [constructor|].
  inversion Hnd as [|? ? Hv Hnd']; subst.
  assert (H1 : NoDup (map (fun l => pre v ++ l) (wanted labels v))).
  { assert (X : NoDup (wanted labels v)) by (apply NoDup_filter, Hl).
    clear - X. induction X as [|a l Ha X IH]; simpl; constructor; auto.
    intros H; apply in_map_iff in H as [b [Hb Hin]]. apply app_str_inj in Hb; subst; auto. }
  revert H1. generalize (IH Hnd' (fun w Hw => Hup w (or_intror Hw)) (fun w x Hw Hx => Hinj w x (or_intror Hw) (or_intror Hx))).
  assert (D : forall x, In x (map (fun l => pre v ++ l) (wanted labels v)) ->
              ~ In x (flat_map (fun var => map (fun l => pre var ++ l) (wanted labels var)) vars)).
  { intros x Hx Hy. apply in_map_iff in Hx as [l [<- Hlv]].
    apply in_flat_map in Hy as [w [Hw Hy]]. apply in_map_iff in Hy as [l' [E Hl']].
    apply filter_In in Hlv as [Hlv _]. apply filter_In in Hl' as [Hl' _].
    destruct (proj2 (Hl v) _ Hlv) as [t ->]. destruct (proj2 (Hl w) _ Hl') as [t' ->].
    destruct (app_label_inj _ _ (Hup w (or_intror Hw)) (Hup v (or_introl eq_refl)) E) as [Hp _].
    apply Hv. rewrite <- (Hinj w v (or_intror Hw) (or_introl eq_refl) Hp); auto. }
  revert D. generalize (map (fun l => pre v ++ l) (wanted labels v)) as a.
  generalize (flat_map (fun var => map (fun l => pre var ++ l) (wanted labels var)) vars) as b.
  intros b a D Hb Ha. induction Ha as [|x a Hx Ha IHa]; simpl; auto.
  constructor.
  - intros H; apply in_app_or in H as [H|H]; auto. apply (D x); simpl; auto.
  - apply IHa. intros y Hy; apply D; simpl; auto.
Qed.

Definition def_entries (labels : string -> list string) (pre : string -> string) : list entry :=
  flat_map (fun var => map (fun l => mkEntry var (pre var ++ l)) (wanted labels var)) variable_list.

Lemma def_entries_0 labels name : ns_entries (namespace_from_model labels name) = def_entries labels (fun _ => "").
Proof. reflexivity. Qed.

Lemma map_def_entries {B} (f : entry -> B) labels pre :
  map f (def_entries labels pre) = flat_map (fun var => map (fun l => f (mkEntry var (pre var ++ l))) (wanted labels var)) variable_list.
Proof.
  unfold def_entries. induction variable_list as [|v vs IH]; simpl; auto. now rewrite map_app, IH, map_map.
Qed.

Lemma flat_map_ext_in {A B} (f g : A -> list B) l : (forall x, In x l -> f x = g x) -> flat_map f l = flat_map g l.
Proof. induction l; simpl; intros H; auto. rewrite H, IHl; auto. Qed.

Lemma rename_def_entries labels pre :
  map (fun e => mkEntry (e_obj e) (nm e)) (def_entries labels pre) = def_entries labels (fun var => var ++ pre var).
Proof.
  rewrite map_def_entries. apply flat_map_ext_in; intros v _. apply map_ext; intros l. unfold nm; simpl.
  now rewrite app_str_assoc.
Qed.

Lemma vars_nodup : NoDup variable_list.
Proof. unfold variable_list. repeat constructor; simpl; intuition discriminate. Qed.

Lemma get_def_entries name idx labels pre var : In var variable_list ->
  ns_get (mkNs name (def_entries labels pre) (Some idx)) var = Ok (map (fun l => (idx, pre var ++ l)) (wanted labels var)).
Proof.
  intros Hv. unfold ns_get; cbn [ns_entries ns_index].
  assert (E : forall es, mapM (get_node_id (Some idx)) es = Ok (map (fun e => (idx, e_var e)) es)).
  { induction es as [|e es IH]; simpl; auto. now rewrite IH. }
  rewrite E; f_equal.
  assert (F : forall vs, NoDup vs -> In var vs ->
    filter (fun e => String.eqb (e_obj e) var) (flat_map (fun var => map (fun l => mkEntry var (pre var ++ l)) (wanted labels var)) vs)
    = map (fun l => mkEntry var (pre var ++ l)) (wanted labels var)).
  { assert (Fn : forall v, v <> var -> filter (fun e => String.eqb (e_obj e) var) (map (fun l => mkEntry v (pre v ++ l)) (wanted labels v)) = []).
    { intros v Hne. induction (wanted labels v); simpl; auto. destruct (String.eqb_spec v var); [congruence|auto]. }
    assert (F0 : forall vs, ~ In var vs ->
      filter (fun e => String.eqb (e_obj e) var) (flat_map (fun var => map (fun l => mkEntry var (pre var ++ l)) (wanted labels var)) vs) = []).
    { induction vs as [|v vs IH]; simpl; auto. intros Hn. rewrite filter_app, IH by tauto. rewrite app_nil_r.
      apply Fn. intros ->; apply Hn; auto. }
    assert (F1 : filter (fun e => String.eqb (e_obj e) var) (map (fun l => mkEntry var (pre var ++ l)) (wanted labels var))
                 = map (fun l => mkEntry var (pre var ++ l)) (wanted labels var)).
    { induction (wanted labels var); simpl; auto. rewrite String.eqb_refl; congruence. }
    induction vs as [|v vs IH]; intros Hnd Hin; [destruct Hin|].
    inversion Hnd as [|? ? Hn Hnd']; subst. cbn [flat_map]. rewrite filter_app.
    destruct (String.string_dec v var) as [->|Hne].
    - rewrite F1, F0 by auto. apply app_nil_r.
    - destruct Hin as [->|Hin]; [congruence|]. rewrite IH by auto. rewrite Fn by auto. reflexivity. }
  unfold def_entries. rewrite F; auto using vars_nodup. now rewrite map_map.
Qed.

Section T.
  Variable V : Type.
  Variable zero : V.

  Lemma find_new idx (pre : string -> string) labels var l :
    In var variable_list -> In l (wanted labels var) ->
    find (idx, var ++ pre var ++ l) (map (fun e => ((idx, nm e), [zero])) (def_entries labels pre)) = Some [zero].
  Proof.
    intros Hv Hl.
    assert (Hin : In (idx, var ++ pre var ++ l) (map fst (map (fun e => ((idx, nm e), [zero])) (def_entries labels pre)))).
    { rewrite map_map. simpl. apply in_map_iff. exists (mkEntry var (pre var ++ l)); split; auto.
      unfold def_entries. apply in_flat_map; exists var; split; auto. apply in_map_iff; exists l; auto. }
    destruct (find _ _) as [v|] eqn:E; [|apply find_none in E; contradiction].
    revert E. generalize (def_entries labels pre) as es. intros es E.
    induction es as [|e es IH]; simpl in E; [discriminate|]. rewrite find_cons in E; simpl in E.
    destruct (nodeid_eqb _ _); [congruence|auto].
  Qed.

  (** ** C51: registering the namespace of a model under a new name on any reachable server succeeds; the
      tags of each kind of variable are, in order, those of its labels (without the placeholders); all
      tags are distinct; every tag can be read and holds 0; nodes that existed keep their value. *)
  Theorem C51_register : forall (s : server V) labels name,
    reach zero s -> labels_ok labels -> ~ In name (sv_names s) ->
    let idx := List.length (sv_names s) in
    exists s' ns', namespace_from_client zero s (namespace_from_model labels name) = (s', ns', Ok tt)
      /\ (forall var, In var model_variables -> ns_get ns' var = Ok (map (fun l => (idx, var ++ l)) (wanted labels var)))
      /\ NoDup (flat_map (fun var => map (fun l => (idx, var ++ l)) (wanted labels var)) model_variables)
      /\ (forall var l, In var model_variables -> In l (wanted labels var) -> find (idx, var ++ l) (sv_nodes s') = Some [zero])
      /\ (forall id v, find id (sv_nodes s) = Some v -> find id (sv_nodes s') = Some v).
  Proof. change model_variables with variable_list.
    intros s labels name Hr Hl Hn idx.
    assert (Hfresh : forall x, find (idx, x) (sv_nodes s) = None).
    { intros x; apply find_none. intros H; apply (reach_ok Hr) in H; simpl in H. unfold idx in H; lia. }
    assert (Hnames : map nm (def_entries labels (fun _ => "")) = flat_map (fun var => map (fun l => var ++ l) (wanted labels var)) variable_list)
      by (rewrite map_def_entries; reflexivity).
    assert (Hnd : NoDup (flat_map (fun var => map (fun l => var ++ l) (wanted labels var)) variable_list)).
    { apply (@tag_list_nodup labels (fun v => v)); auto using vars_nodup, vars_upto. }
    unfold namespace_from_client. rewrite def_entries_0. cbn [ns_name namespace_from_model].
    unfold register. rewrite (index_of_none _ _ Hn). fold idx.
    rewrite reg_loop_ok; [|rewrite Hnames; auto|intros; apply Hfresh].
    rewrite rename_def_entries. eexists _, _; split; [reflexivity|].
    split; [|split; [|split]].
    - intros var Hv. rewrite get_def_entries by auto. now rewrite app_str_nil.
    - replace (flat_map _ _) with (map (pair idx) (flat_map (fun var => map (fun l => var ++ l) (wanted labels var)) variable_list)).
      + apply FinFun.Injective_map_NoDup; auto. intros a b; congruence.
      + generalize variable_list as vs. induction vs as [|v vs IH]; simpl; auto. now rewrite map_app, map_map, IH.
    - intros var l Hv Hin. cbn [sv_nodes]. rewrite find_app, Hfresh.
      eapply (find_new idx (fun _ => "")); eauto.
    - intros id v H; cbn [sv_nodes]. now rewrite find_app, H.
  Qed.

  (** Writing as many numbers as there are (existing, distinct) tags succeeds; reading the tags gives the
      numbers back in order; no other node changes. *)
  Theorem C51_roundtrip : forall (s : server V) tags data,
    NoDup tags -> (forall t, In t tags -> find t (sv_nodes s) <> None) -> List.length data = List.length tags ->
    exists s', write_to_tags s tags (WArr data) = (s', Ok tt) /\ read_from_tags s' tags = Ok data
      /\ forall id, ~ In id tags -> find id (sv_nodes s') = find id (sv_nodes s).
  Proof.
    intros s tags data Hnd Hf Hlen. unfold write_to_tags. rewrite (proj2 (Nat.eqb_eq _ _) Hlen).
    destruct (@write_loop_last V (combine tags data) s) as [s' [Hw Hv]].
    { intros w Hw. apply Hf. rewrite <- (map_fst_combine tags data Hlen). now apply in_map. }
    exists s'; split; auto; split.
    - apply read_ok; auto. intros k id v Hk Hd.
      destruct (find id (sv_nodes s)) as [v0|] eqn:E; [|exfalso; apply (Hf id); auto; eapply nth_error_In; eauto].
      rewrite (Hv _ _ E). destruct (@last_written_tags V tags data v0 Hnd Hlen k id Hk) as [v' [H1 H2]].
      rewrite H2; congruence.
    - intros id Hid. destruct (find id (sv_nodes s)) as [v0|] eqn:E.
      + rewrite (Hv _ _ E). rewrite last_written_notin; auto. now rewrite map_fst_combine.
      + apply find_none. destruct (write_loop_ids _ _ Hw) as [_ ->]. now apply find_none.
  Qed.

  (** After any sequence of writes to existing tags, a tag holds the number last written to it. *)
  Theorem C51_last_write : forall calls (s : server V),
    (forall tags data, In (tags, data) calls -> List.length data = List.length tags /\ forall t, In t tags -> find t (sv_nodes s) <> None) ->
    exists s', fold_left (fun st c => fst (write_to_tags st (fst c) (WArr (snd c)))) calls s = s' /\
      forall id v0, find id (sv_nodes s) = Some v0 ->
        find id (sv_nodes s') = Some (last_written id (flat_map (fun c => combine (fst c) (snd c)) calls) v0).
  Proof.
    induction calls as [|[tags data] calls IH]; intros s H.
    - exists s; split; auto.
    - destruct (H tags data (or_introl eq_refl)) as [Hlen Hf].
      cbn [fold_left fst snd]. unfold write_to_tags at 2. rewrite (proj2 (Nat.eqb_eq _ _) Hlen).
      destruct (@write_loop_last V (combine tags data) s) as [s1 [Hw Hv]].
      { intros w Hw. apply Hf. rewrite <- (map_fst_combine tags data Hlen). now apply in_map. }
      rewrite Hw; cbn [fst].
      destruct (IH s1) as [s' [E Hs']].
      { intros tg d Hin. destruct (H tg d (or_intror Hin)) as [H1 H2]; split; auto.
        intros t Ht. specialize (H2 t Ht). destruct (find t (sv_nodes s)) as [v|] eqn:F; [|congruence].
        rewrite (Hv _ _ F); discriminate. }
      exists s'; split; auto. intros id v0 F. rewrite (Hs' id _ (Hv _ _ F)).
      cbn [flat_map fst snd]. unfold last_written. now rewrite fold_left_app.
  Qed.

  (** The wrong number of values, or a value of another type, is refused and nothing is written. *)
  Theorem C51_refused : forall (s : server V) tags,
    (forall data, List.length data <> List.length tags -> write_to_tags s tags (WArr data) = (s, Err ExcGeneric))
    /\ write_to_tags s tags (@WOther V) = (s, Err ExcType).
  Proof. intros s tags; split; auto. intros data H; unfold write_to_tags. now apply Nat.eqb_neq in H as ->. Qed.

  (** The tags of a model that has not been registered with a server cannot be asked for (unless no
      variable of that kind has a node). *)
  Theorem C51_unregistered : forall labels name var, In var model_variables -> wanted labels var <> [] ->
    ns_get (namespace_from_model labels name) var = Err ExcGeneric.
  Proof.
    intros labels name var Hv Hw. unfold ns_get. rewrite def_entries_0.
    assert (X : exists e es, filter (fun e => String.eqb (e_obj e) var) (def_entries labels (fun _ => "")) = e :: es).
    { destruct (wanted labels var) as [|l ls] eqn:E; [congruence|].
      assert (Hin : In (mkEntry var l) (filter (fun e => String.eqb (e_obj e) var) (def_entries labels (fun _ => "")))).
      { apply filter_In. split; [|apply String.eqb_refl]. unfold def_entries. apply in_flat_map. exists var. split; [exact Hv|].
        apply in_map_iff. exists l. split; [reflexivity|rewrite E; left; reflexivity]. }
      destruct (filter _ _) as [|e es]; [destruct Hin|eauto]. }
    destruct X as (e & es & ->). reflexivity.
  Qed.

  (** A step reads its inputs, calls make_step once with them and writes its result; if reading, the
      step or the size check fails, nothing is written. *)
  Theorem C51_step : forall (f : list V -> res (wdata V)) (s : server V) tagin tagout,
    NoDup tagout -> (forall t, In t tagout -> find t (sv_nodes s) <> None) ->
    match read_from_tags s tagin with
    | Err e => make_step f s tagin tagout = (s, Err e)
    | Ok input =>
        match f input with
        | Ok (WArr out) =>
            if (List.length out =? List.length tagout)%nat
            then exists s', make_step f s tagin tagout = (s', Ok tt) /\ read_from_tags s' tagout = Ok out
                   /\ forall id, ~ In id tagout -> find id (sv_nodes s') = find id (sv_nodes s)
            else make_step f s tagin tagout = (s, Err ExcGeneric)
        | Ok (WOther _) => make_step f s tagin tagout = (s, Err ExcType)
        | Err e => make_step f s tagin tagout = (s, Err e)
        end
    end.
  Proof.
    intros f s tagin tagout Hnd Hf. unfold make_step. destruct (read_from_tags s tagin) as [i|e]; auto.
    destruct (f i) as [[out|]|e]; auto. destruct (Nat.eqb_spec (List.length out) (List.length tagout)) as [E|E].
    - apply (@C51_roundtrip _ _ _ Hnd Hf E).
    - apply (proj1 (C51_refused s tagout) _ E).
  Qed.

  (** ** C51 (refuted).  A variable whose label contains 'default' gets no node: its tag cannot be read. *)
  Theorem C51_default_refuted : forall (s : server V) labels name s' ns' var l,
    reach zero s -> labels_ok labels -> ~ In name (sv_names s) -> In var model_variables ->
    In l (labels var) -> mentions_default l ->
    namespace_from_client zero s (namespace_from_model labels name) = (s', ns', Ok tt) ->
    exists tags, ns_get ns' var = Ok tags /\ ~ In (List.length (sv_names s), var ++ l) tags
      /\ find (List.length (sv_names s), var ++ l) (sv_nodes s') = None.
  Proof. change model_variables with variable_list.
    intros s labels name s' ns' var l Hr Hl Hn Hv Hin Hd E.
    assert (Hno : forall w m, In w variable_list -> In m (wanted labels w) -> w ++ m <> var ++ l).
    { intros w m Hw Hm Eq. pose proof (proj1 (C51_wanted labels w m) Hm) as [Hm1 Hm2].
      destruct (proj2 (Hl w) _ Hm1) as [t ->]. destruct (proj2 (Hl var) _ Hin) as [t' ->].
      destruct (app_label_inj _ _ (@vars_upto _ Hw) (@vars_upto _ Hv) Eq) as [-> ->]. auto. }
    destruct (@C51_register _ _ _ Hr Hl Hn) as [s1 [ns1 [E1 [H1 _]]]]. rewrite E in E1. injection E1 as <- <-.
    eexists; split; [apply H1; auto|split].
    - intros H; apply in_map_iff in H as [m [Em Hm]]. injection Em as Em. apply (Hno var m); auto.
    - unfold namespace_from_client in E. rewrite def_entries_0 in E. cbn [ns_name namespace_from_model] in E.
      unfold register in E. rewrite (index_of_none _ _ Hn) in E.
      rewrite reg_loop_ok in E.
      + injection E as <- <-. cbn [sv_nodes]. apply find_none. intros H.
        rewrite map_app in H; apply in_app_or in H as [H|H].
        * apply (reach_ok Hr) in H; simpl in H; lia.
        * rewrite map_map in H; apply in_map_iff in H as [e [Ee He]]. simpl in Ee. injection Ee as Ee.
          unfold def_entries in He; apply in_flat_map in He as [w [Hw He]]. apply in_map_iff in He as [m [<- Hm]].
          apply (Hno w m); auto.
      + rewrite map_def_entries. apply (@tag_list_nodup labels (fun v => v)); auto using vars_nodup, vars_upto.
      + intros e _; apply find_none. intros H'; apply (reach_ok Hr) in H'; simpl in H'; lia.
  Qed.

  (** Registering the same client again succeeds but renames every variable: its tags are new ones, none
      of which is an old one. *)
  Theorem C51_register_twice_refuted : forall (s : server V) labels name s1 ns1,
    reach zero s -> labels_ok labels -> ~ In name (sv_names s) ->
    namespace_from_client zero s (namespace_from_model labels name) = (s1, ns1, Ok tt) ->
    let idx := List.length (sv_names s) in
    exists s2 ns2, namespace_from_client zero s1 ns1 = (s2, ns2, Ok tt)
      /\ (forall var, In var model_variables -> ns_get ns2 var = Ok (map (fun l => (idx, var ++ var ++ l)) (wanted labels var)))
      /\ (forall var l w m, In var model_variables -> In w model_variables -> In l (wanted labels var) -> In m (wanted labels w) ->
            (idx, var ++ l) <> (idx, w ++ w ++ m)).
  Proof. change model_variables with variable_list.
    intros s labels name s1 ns1 Hr Hl Hn E idx.
    assert (Hfresh : forall x, find (idx, x) (sv_nodes s) = None).
    { intros x; apply find_none. intros H; apply (reach_ok Hr) in H; simpl in H. unfold idx in H; lia. }
    assert (Hdiff : forall var l w m, In var variable_list -> In w variable_list -> In l (wanted labels var) -> In m (wanted labels w) ->
            var ++ l <> w ++ w ++ m).
    { intros var l w m Hv Hw Hlv Hm Eq. apply filter_In in Hlv as [Hlv _]. apply filter_In in Hm as [Hm _].
      destruct (proj2 (Hl var) _ Hlv) as [t ->]. destruct (proj2 (Hl w) _ Hm) as [t' ->].
      rewrite <- app_str_assoc in Eq.
      destruct (app_label_inj _ _ (@vars_upto _ Hv) (double_upto (@vars_upto _ Hw)) Eq) as [Ev _].
      rewrite Ev in Hv. clear - Hv Hw. simpl in Hw. repeat (destruct Hw as [<-|Hw]; [simpl in Hv; intuition discriminate|]). destruct Hw. }
    unfold namespace_from_client in E. rewrite def_entries_0 in E. cbn [ns_name namespace_from_model] in E.
    unfold register in E. rewrite (index_of_none _ _ Hn) in E. fold idx in E.
    rewrite reg_loop_ok in E; [|rewrite map_def_entries; apply (@tag_list_nodup labels (fun v => v)); auto using vars_nodup, vars_upto|intros; apply Hfresh].
    rewrite rename_def_entries in E. injection E as <- <-.
    unfold namespace_from_client. cbn [ns_name sv_names ns_entries sv_nodes]. unfold register.
    rewrite (index_of_app _ _ Hn). fold idx.
    rewrite reg_loop_ok.
    - rewrite rename_def_entries. eexists _, _; split; [reflexivity|]. split.
      + intros var Hv. rewrite get_def_entries by auto. f_equal; apply map_ext; intros l. now rewrite app_str_nil, app_str_assoc.
      + intros var l w m Hv Hw Hlv Hm [= Eq]. exact (Hdiff _ _ _ _ Hv Hw Hlv Hm Eq).
    - rewrite map_def_entries. unfold nm; cbn [e_obj e_var].
      replace (flat_map _ variable_list) with (flat_map (fun var => map (fun l => (var ++ var) ++ l) (wanted labels var)) variable_list).
      + apply (@tag_list_nodup labels (fun v => v ++ v)); auto using vars_nodup.
        * intros v Hv; apply double_upto, vars_upto; auto.
        * intros v w Hv Hw Eq. clear - Hv Hw Eq. simpl in Hv.
          repeat (destruct Hv as [<-|Hv]; [simpl in Hw; repeat (destruct Hw as [<-|Hw]; [try discriminate; auto|]); destruct Hw|]). destruct Hv.
      + apply flat_map_ext_in; intros v _. apply map_ext; intros l. now rewrite app_str_nil, app_str_assoc.
    - intros e He. unfold def_entries in He. apply in_flat_map in He as [w [Hw He]]. apply in_map_iff in He as [m [<- Hm]].
      rewrite find_app, Hfresh. unfold nm; cbn [e_obj e_var]. rewrite app_str_nil.
      apply find_none. rewrite map_map; simpl. intros H; apply in_map_iff in H as [e [Ee He]]. injection Ee as Ee.
      unfold def_entries in He; apply in_flat_map in He as [v [Hv He]]. apply in_map_iff in He as [l [<- Hlv]].
      unfold nm in Ee; simpl in Ee. exact (Hdiff _ _ _ _ Hv Hw Hlv Hm Ee).
  Qed.

  (** A second client with the same name and a common variable cannot be registered. *)
  Theorem C51_same_name_refuted : forall (s : server V) labels name s1 ns1 var,
    reach zero s -> labels_ok labels -> ~ In name (sv_names s) -> In var model_variables -> wanted labels var <> [] ->
    namespace_from_client zero s (namespace_from_model labels name) = (s1, ns1, Ok tt) ->
    exists s2 ns2, namespace_from_client zero s1 (namespace_from_model labels name) = (s2, ns2, Err ExcGeneric)
                   /\ ns_get ns2 var = Err ExcGeneric.
  Proof. change model_variables with variable_list.
    intros s labels name s1 ns1 var Hr Hl Hn Hv Hne E.
    destruct (@C51_register _ _ _ Hr Hl Hn) as [s' [ns' [E' [_ [_ [Hf _]]]]]]. rewrite E in E'. injection E' as <- <-.
    assert (Hnames : sv_names s1 = (sv_names s ++ [name])%list).
    { unfold namespace_from_client in E. cbn [ns_name namespace_from_model] in E. unfold register in E.
      rewrite (index_of_none _ _ Hn) in E. destruct (reg_loop _ _ _ _) as [[n es] []]; [injection E as <- <-; auto|discriminate]. }
    assert (Hmem : forall l, In l (wanted labels var) -> In (mkEntry var l) (def_entries labels (fun _ => ""))).
    { intros l Hin. apply in_flat_map; exists var; split; auto. apply in_map_iff; exists l; split; auto. }
    destruct (wanted labels var) as [|l0 ls] eqn:W; [congruence|].
    unfold namespace_from_client. rewrite def_entries_0. cbn [ns_name namespace_from_model]. unfold register.
    rewrite Hnames, (index_of_app _ _ Hn).
    assert (X : exists e es, def_entries labels (fun _ => "") = e :: es /\ exists v l, e = mkEntry v l /\ In v variable_list /\ In l (wanted labels v)).
    { specialize (Hmem l0 (or_introl eq_refl)).
      destruct (def_entries labels (fun _ => "")) as [|e es] eqn:D; [destruct Hmem|]. exists e, es; split; auto.
      assert (He : In e (def_entries labels (fun _ => ""))) by (rewrite D; left; auto).
      apply in_flat_map in He as [v [Hv' He]]. apply in_map_iff in He as [l [<- Hl']]. exists v, l; auto. }
    destruct X as [e [es [D [v [l [-> [Hv' Hl']]]]]]]. rewrite D. cbn [reg_loop e_obj e_var].
    rewrite (Hf v l Hv' Hl'). eexists _, _; split; [reflexivity|]. unfold ns_get; cbn [ns_index ns_entries namespace_from_model].
    rewrite <- D. specialize (Hmem l0 (or_introl eq_refl)).
    destruct (filter (fun e => String.eqb (e_obj e) var) (def_entries labels (fun _ => ""))) as [|e' es'] eqn:F; [|reflexivity].
    exfalso. assert (In (mkEntry var l0) []); [|auto]. rewrite <- F. apply filter_In; split; auto. apply String.eqb_refl.
  Qed.

  (** A write that fails because of an unknown tag has already changed the tags before it. *)
  Theorem C51_atomic_refuted : forall (s : server V) tags bad rest data b data',
    NoDup tags -> (forall t, In t tags -> find t (sv_nodes s) <> None) -> find bad (sv_nodes s) = None ->
    List.length data = List.length tags -> List.length data' = List.length rest ->
    exists s', write_to_tags s (tags ++ bad :: rest)%list (WArr (data ++ b :: data')%list) = (s', Err ExcGeneric)
               /\ read_from_tags s' tags = Ok data.
  Proof.
    intros s tags bad rest data b data' Hnd Hf Hb Hlen Hlen'.
    destruct (@C51_roundtrip s tags data Hnd Hf Hlen) as [s' [Hw [Hrd _]]].
    exists s'; split; auto. unfold write_to_tags in *. rewrite (proj2 (Nat.eqb_eq _ _) Hlen) in Hw.
    replace (_ =? _)%nat with true by (symmetry; apply Nat.eqb_eq; rewrite !app_length; simpl; lia).
    assert (C : combine (tags ++ bad :: rest) (data ++ b :: data') = (combine tags data ++ (bad, b) :: combine rest data')%list).
    { clear - Hlen. revert data Hlen; induction tags; destruct data; simpl; intros; try discriminate; auto. f_equal; auto. }
    rewrite C. clear C. assert (Hb' : ~ In bad (map fst (sv_nodes s))) by now apply find_none.
    clear - Hw Hb'. revert s Hw Hb'. induction (combine tags data) as [|[t v] ws IH]; simpl; intros s Hw Hb.
    - injection Hw as <-. unfold write_data. apply find_none in Hb as ->. auto.
    - destruct (write_data s t [v]) as [s1|] eqn:E; [|discriminate]. apply write_data_ok in E as [_ [E2 _]].
      apply IH; auto. now rewrite E2.
  Qed.
End T.
Print Assumptions C51_register.
Print Assumptions C51_roundtrip.
Print Assumptions C51_last_write.
Print Assumptions C51_refused.
Print Assumptions C51_unregistered.
Print Assumptions C51_step.
Print Assumptions C51_default_refuted.
Print Assumptions C51_register_twice_refuted.
Print Assumptions C51_same_name_refuted.
Print Assumptions C51_atomic_refuted.

(** The hypotheses are met: a model with a two-entry state, an input and the placeholder. *)
Definition ex_labels (var : string) : list string :=
  if String.eqb var "x" then ["[a,0]"; "[a,1]"; "[my_default,0]"] else if String.eqb var "u" then ["[q,0]"]
  else ["[default,0]"].
Example C51_nonvacuous : labels_ok ex_labels /\ reach 0%nat (mkSrv ["ua"; "urn"] [])
  /\ wanted ex_labels "x" = ["[a,0]"; "[a,1]"]
  /\ exists s ns, namespace_from_client 0%nat (mkSrv ["ua"; "urn"] []) (namespace_from_model ex_labels "plant") = (s, ns, Ok tt)
       /\ ns_get ns "x" = Ok [(2%nat, "x[a,0]"); (2%nat, "x[a,1]")]
       /\ exists s', write_to_tags s [(2%nat, "x[a,0]"); (2%nat, "x[a,1]")] (WArr [5; 7]%nat) = (s', Ok tt)
                     /\ read_from_tags s' [(2%nat, "x[a,1]")] = Ok [7%nat].
Proof.
  split.
  { intros var; unfold ex_labels. destruct (String.eqb var "x"); [|destruct (String.eqb var "u")].
    all: split; [repeat constructor; simpl; intuition discriminate|].
    all: intros l Hl; simpl in Hl; repeat (destruct Hl as [<-|Hl]; [eexists; reflexivity|]); destruct Hl. }
  split; [constructor|]. split; [reflexivity|].
  eexists _, _; split; [vm_compute; reflexivity|]. split; [reflexivity|].
  eexists; split; vm_compute; reflexivity.
Qed.
