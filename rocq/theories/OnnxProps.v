(** * Theorems about the ONNX conversion: C55. *)
From Coq Require Import Reals ZArith Lra.
From Verif Require Import Base OnnxModel OnnxSpec OnnxProofs.
Set Implicit Arguments.
Local Open Scope string_scope.

Section T.
  Variables V At : Type.
  Variable shapeof : V -> list nat.
  Variable ops : string -> option (list V -> At -> res V).
  Notation convert := (convert shapeof ops).
  Notation convert_kw := (convert_kw shapeof ops).
  Notation converter := (converter shapeof ops).
  Notation solves := (solves ops).

  Lemma py_kwargs_get (kw : dict (kwval V)) k : k <> "verbose" -> dget (py_kwargs kw) k = dget kw k.
  Proof.
    intros H. induction kw as [|[a b] kw IH]; simpl; auto. destruct (String.eqb_spec a "verbose"); simpl.
    - destruct (String.eqb_spec a k); [congruence|auto].
    - destruct (String.eqb_spec a k); auto.
  Qed.
  Lemma py_kwargs_keys (kw : dict (kwval V)) k : In k (map fst (py_kwargs kw)) <-> In k (map fst kw) /\ k <> "verbose".
  Proof.
    unfold py_kwargs. rewrite !in_map_iff. split.
    - intros [x [<- H]]. apply filter_In in H as [H1 H2]. apply negb_true_iff, String.eqb_neq in H2. split; eauto.
    - intros [[x [<- H]] H2]. exists x; split; auto. apply filter_In; split; auto. now apply negb_true_iff, String.eqb_neq.
  Qed.
  Lemma py_kwargs_nodup (kw : dict (kwval V)) : kwargs_ok kw -> NoDup (map fst (py_kwargs kw)).
  Proof.
    unfold kwargs_ok. induction kw as [|e kw IH]; simpl; intros H; [constructor|]. inversion H; subst.
    destruct (String.eqb_spec (fst e) "verbose"); simpl; auto. constructor; auto. rewrite py_kwargs_keys; tauto.
  Qed.

  (** The keys of a call that passes the first two checks are exactly the free inputs. *)
  Lemma keys_exact (g : graph V At) (kw : dict (kwval V)) : NoDup (map fst (g_input g)) -> NoDup (map fst kw) ->
    (List.length kw = List.length (shapes_of g) /\ forallb (fun e => dmem kw (fst e)) (shapes_of g) = true)
    <-> (forall k, In k (map fst kw) <-> free_input g k).
  Proof.
    intros Hg Hk. assert (Hs := @shapes_nodup V At g Hg). rewrite forallb_forall. split.
    - intros [Hl Ha] k. rewrite <- (shapes_free g k Hg).
      assert (I : incl (map fst (shapes_of g)) (map fst kw)).
      { intros x Hx. apply in_map_iff in Hx as [e [<- He]]. apply dmem_in; auto. }
      split; [|apply I]. apply (NoDup_length_incl Hs); auto. rewrite !map_length. lia.
    - intros H. assert (E : forall k, In k (map fst kw) <-> In k (map fst (shapes_of g))).
      { intros k; rewrite H. symmetry; now apply shapes_free. }
      split.
      + rewrite <- (map_length fst kw), <- (map_length fst (shapes_of g)).
        apply Nat.le_antisymm; apply NoDup_incl_length; auto; intros x Hx; apply E; auto.
      + intros e He. apply dmem_in, E. now apply in_map.
  Qed.

  (** Any successful conversion, on any converter: what the checks imply. *)
  Lemma convert_inv g st kw st' : NoDup (map fst (g_input g)) -> converter g st -> kwargs_ok kw -> convert st kw = (st', Ok tt) ->
    (forall k, In k (map fst (py_kwargs kw)) <-> free_input g k)
    /\ (forall k v, In (k, v) (py_kwargs kw) -> v <> KOther)
    /\ (forall e, In e (shapes_of g) -> pass1 shapeof (py_kwargs kw) e)
    /\ exists inp a nv, (forall k, dget inp k = if dmem (shapes_of g) k then kwvalue (py_kwargs kw) k else None)
         /\ foldM (do_node ops) (g_node g) (dupdate inp (of_list (g_init g)), inp) = Ok (a, nv)
         /\ c_values st' = Some nv.
  Proof.
    intros Hg Hc Hk E. destruct (converter_static Hc) as (S1 & S2 & S3 & S4).
    unfold OnnxModel.convert in E. destruct (dmem kw "self"); [discriminate|].
    unfold OnnxModel.convert_kw in E. rewrite S1, S2, S3 in E.
    destruct (Nat.eqb_spec (List.length (py_kwargs kw)) (List.length (shapes_of g))) as [L|L]; simpl in E; [|discriminate].
    destruct (forallb (fun e => dmem (py_kwargs kw) (fst e)) (shapes_of g)) eqn:F; simpl in E; [|discriminate].
    destruct (forallb _ (py_kwargs kw)) eqn:T; simpl in E; [|discriminate].
    split; [apply keys_exact; auto using py_kwargs_nodup|].
    split. { intros k v Hin ->. rewrite forallb_forall in T. specialize (T _ Hin). discriminate. }
    destruct (check_inputs shapeof (py_kwargs kw) (shapes_of g) []) as [inp [[]|]] eqn:C; [|discriminate].
    destruct (check_inputs_ok _ _ _ _ C (shapes_nodup _ Hg)) as [C1 C2]. split; auto.
    destruct (foldM _ _ _) as [[a nv]|] eqn:Fo; [|discriminate]. injection E as <-.
    exists inp, a, nv. auto.
  Qed.

  Lemma start_values (g : graph V At) (inp : dict V) kw : NoDup (map fst (g_init g)) -> NoDup (map fst (g_input g)) ->
    (forall k, dget inp k = if dmem (shapes_of g) k then kwvalue (V := V) kw k else None) ->
    forall k, dget (dupdate inp (of_list (g_init g))) k =
      match dget (g_init g) k with Some v => Some v | None => if dmem (shapes_of (At := At) g) k then kwvalue kw k else None end.
  Proof.
    intros Hi Hg H k. rewrite dupdate_get by apply of_list_nodup. rewrite of_list_get by auto.
    destruct (dget (g_init g) k); auto.
  Qed.

  (** ** C55.  After a successful conversion (of any converter, whatever happened to it before), the
      results solve the equations of the graph for the given inputs, this solution is the only one, the
      value of every input and of every node can be queried, and nothing else can. *)
  Theorem C55_evaluates : forall g st kw st',
    well_formed g -> converter g st -> kwargs_ok kw -> convert st kw = (st', Ok tt) ->
    exists rho, solves g (kwvalue kw) rho
      /\ (forall k, free_input g k \/ In k (node_outputs (g_node g)) -> exists v, rho k = Some v /\ getitem st' k = Ok v)
      /\ (forall k, ~ free_input g k -> ~ In k (node_outputs (g_node g)) -> getitem st' k = Err ExcGeneric)
      /\ (forall rho', solves g (kwvalue kw) rho' ->
            forall k, In k (map fst (g_init g)) \/ free_input g k \/ In k (node_outputs (g_node g)) -> rho' k = rho k).
  Proof.
    intros g st kw st' Hw Hc Hk E. destruct Hw as (W1 & W2 & W3 & W4 & W5 & W6).
    destruct (convert_inv W2 Hc Hk E) as (Kx & Ky & Kp & inp & a & nv & Hinp & Hf & Hv).
    pose proof (@start_values g inp (py_kwargs kw) W1 W2 Hinp) as Hst.
    assert (Hkwv : forall k, free_input g k -> kwvalue (py_kwargs kw) k = kwvalue kw k).
    { intros k Hfi. apply Kx, py_kwargs_keys in Hfi as [_ Hne]. unfold kwvalue. now rewrite py_kwargs_get. }
    assert (Hshp : forall k, dmem (shapes_of g) k = true <-> free_input g k) by (intros k; rewrite dmem_in; now apply shapes_free).
    assert (Hgiv : forall k, free_input g k -> kwvalue kw k <> None).
    { intros k Hfi. rewrite <- Hkwv by auto. pose proof (proj2 (Kx k) Hfi) as Hin. apply dget_some_in in Hin as [v Hv'].
      unfold kwvalue. rewrite Hv'. destruct v; [discriminate|]. apply dget_in in Hv'. exfalso; eapply Ky; eauto. }
    assert (Hfresh : forall o, In o (node_outputs (g_node g)) -> dget (dupdate inp (of_list (g_init g))) o = None).
    { intros o Ho. rewrite Hst. destruct (W5 o Ho) as [Wa Wb]. apply dget_none in Wa as ->.
      destruct (dmem (shapes_of g) o) eqn:D; auto. apply Hshp in D. destruct D; contradiction. }
    destruct (@loop_sound V At ops _ _ _ _ _ Hf W3 Hfresh) as (L1 & L2 & L3).
    assert (Hfree : forall k, free_input g k -> dget a k = kwvalue kw k /\ dget nv k = kwvalue kw k).
    { intros k Hfi. assert (Hno : ~ In k (node_outputs (g_node g))) by (intros Ho; destruct (W5 k Ho), Hfi; auto).
      destruct (L1 k Hno) as [-> ->]. rewrite Hst, Hinp, (proj2 (Hshp k) Hfi), Hkwv by auto.
      destruct Hfi as [_ Hfi]. apply dget_none in Hfi as ->. auto. }
    assert (Hinit : forall k v, In (k, v) (g_init g) -> dget a k = Some v).
    { intros k v Hin. assert (Hk' : In k (map fst (g_init g))) by (apply in_map_iff; exists (k, v); auto).
      assert (Hno : ~ In k (node_outputs (g_node g))) by (intros Ho; destruct (W5 k Ho); auto).
      rewrite (proj1 (L1 k Hno)), Hst. now rewrite (dget_nodup _ _ _ W1 Hin). }
    exists (dget a). split; [|split; [|split]].
    - split; [exact Hinit|split; [|exact L3]]. intros k Hfi; split; [apply Hfree; auto|auto].
    - intros k Hk'. unfold getitem. rewrite Hv. destruct Hk' as [Hfi|Ho].
      + destruct (Hfree k Hfi) as [Ha Hn]. rewrite Ha, Hn. specialize (Hgiv k Hfi). destruct (kwvalue kw k) as [v|]; [eauto|congruence].
      + destruct (L2 k Ho) as [Ha Hn]. rewrite Hn. destruct (dget a k) as [v|]; [eauto|congruence].
    - intros k Hfi Ho. unfold getitem. rewrite Hv. rewrite (proj2 (L1 k Ho)), Hinp.
      destruct (dmem (shapes_of g) k) eqn:D; auto. apply Hshp in D; contradiction.
    - intros rho' (R1 & R2 & R3) k Hk'.
      destruct (@loop_complete V At ops rho' (g_node g) (dupdate inp (of_list (g_init g))) inp) as (a' & nv' & E' & Hag).
      + intros x v. rewrite Hst. destruct (dget (g_init g) x) as [w|] eqn:D.
        * intros [= <-]. apply R1. now apply dget_in.
        * destruct (dmem (shapes_of g) x) eqn:D'; [|discriminate]. apply Hshp in D'. intros Hx.
          rewrite (proj1 (R2 x D')), <- Hkwv by auto. exact Hx.
      + exact R3.
      + intros pre n post Hsp x Hx. destruct (W6 pre n post Hsp x Hx) as [H|[H|H]]; auto; left; rewrite Hst.
        * apply dget_some_in in H as [w ->]. discriminate.
        * destruct (dget (g_init g) x) as [w|] eqn:D; [discriminate|]. apply dget_none in D.
          assert (Hfi : free_input g x) by (split; auto). rewrite (proj2 (Hshp x) Hfi), Hkwv by auto. auto.
      + rewrite Hf in E'. injection E' as <- <-.
        assert (X : exists v, dget a k = Some v).
        { destruct Hk' as [Hi|[Hfi|Ho]].
          - apply in_map_iff in Hi as [[k' v] [Ek Hin]]. simpl in Ek; subst k'. rewrite (Hinit k v Hin); eauto.
          - rewrite (proj1 (Hfree k Hfi)). specialize (Hgiv k Hfi). destruct (kwvalue kw k); [eauto|congruence].
          - destruct (L2 k Ho) as [Ha _]. destruct (dget a k); [eauto|congruence]. }
        destruct X as [v Hv']. rewrite Hv'. auto.
  Qed.

  (** ** C55.  Conversely, if the inputs are given under their names, one-dimensional ones with the right
      length, and the equations of the graph have a solution (all operations are known and defined on
      their arguments), the conversion succeeds. *)
  Theorem C55_converts : forall g st kw rho,
    well_formed g -> converter g st -> kwargs_ok kw -> ~ In "self" (map fst kw) ->
    gives_inputs shapeof g (py_kwargs kw) -> shapes_pass shapeof g (kwvalue (py_kwargs kw)) ->
    solves g (kwvalue (py_kwargs kw)) rho ->
    exists st', convert st kw = (st', Ok tt).
  Proof.
    intros g st kw rho Hw Hc Hk Hself (G1 & G2 & G3) Hsh (R1 & R2 & R3). destruct Hw as (W1 & W2 & W3 & W4 & W5 & W6).
    destruct (converter_static Hc) as (S1 & S2 & S3 & S4).
    unfold OnnxModel.convert. assert (dmem kw "self" = false) as ->.
    { destruct (dmem kw "self") eqn:D; auto. apply dmem_in in D; contradiction. }
    unfold OnnxModel.convert_kw. rewrite S1, S2, S3.
    destruct (proj2 (@keys_exact g (py_kwargs kw) W2 G1) G2) as [L F]. rewrite L, Nat.eqb_refl, F. cbn [negb].
    assert (T : forallb (fun e => match snd e with KVal _ => true | KOther => false end) (py_kwargs kw) = true).
    { apply forallb_forall. intros [k v] Hin. destruct (G3 k v Hin) as [x [-> _]]; auto. }
    rewrite T; cbn [negb].
    destruct (@check_inputs_pass V shapeof (py_kwargs kw) (shapes_of g) []) as [inp C].
    { intros [k sh] He. apply shapes_in in He as [He Hfi]; auto.
      destruct (Hsh k sh He Hfi) as (d & ds & -> & Hd).
      pose proof (proj2 (G2 k) Hfi) as Hin. apply dget_some_in in Hin as [v Hv].
      destruct (G3 k v (dget_in _ _ Hv)) as [x [-> Hx]]. destruct (shapeof x) as [|s ss] eqn:Es; [congruence|].
      exists x, d, ds, s, ss; repeat split; auto. intros Hds. apply (Hd x s ss); auto. unfold kwvalue; now rewrite Hv. }
    rewrite C. destruct (check_inputs_ok _ _ _ _ C (shapes_nodup _ W2)) as [_ C2].
    pose proof (@start_values g inp (py_kwargs kw) W1 W2 C2) as Hst.
    assert (Hshp : forall k, dmem (shapes_of g) k = true <-> free_input g k) by (intros k; rewrite dmem_in; now apply shapes_free).
    destruct (@loop_complete V At ops rho (g_node g) (dupdate inp (of_list (g_init g))) inp) as (a' & nv' & E' & Hag).
    - intros x v. rewrite Hst. destruct (dget (g_init g) x) as [w|] eqn:D.
      + intros [= <-]. apply R1. now apply dget_in.
      + destruct (dmem (shapes_of g) x) eqn:D'; [|discriminate]. apply Hshp in D'. intros Hx.
        rewrite (proj1 (R2 x D')). exact Hx.
    - exact R3.
    - intros pre n post Hsp x Hx. destruct (W6 pre n post Hsp x Hx) as [H|[H|H]]; auto; left; rewrite Hst.
      + apply dget_some_in in H as [w ->]. discriminate.
      + destruct (dget (g_init g) x) as [w|] eqn:D; [discriminate|]. apply dget_none in D.
        assert (Hfi : free_input g x) by (split; auto). rewrite (proj2 (Hshp x) Hfi). apply R2; auto.
    - rewrite E'. eauto.
  Qed.

  (** ** C55.  A call whose keywords are not exactly the free inputs, or with a value that is neither a CasADi
      value nor an array, is refused and changes nothing at all. *)
  Theorem C55_refused : forall g st kw,
    well_formed g -> converter g st -> kwargs_ok kw ->
    (~ (forall k, In k (map fst (py_kwargs kw)) <-> free_input g k)) \/ In KOther (map snd (py_kwargs kw)) ->
    exists e, convert st kw = (st, Err e).
  Proof.
    intros g st kw Hw Hc Hk H. destruct Hw as (W1 & W2 & _). destruct (converter_static Hc) as (S1 & S2 & S3 & S4).
    unfold OnnxModel.convert. destruct (dmem kw "self"); [eauto|]. unfold OnnxModel.convert_kw. rewrite S3.
    destruct (Nat.eqb_spec (List.length (py_kwargs kw)) (List.length (shapes_of g))) as [L|L]; simpl; [|eauto].
    destruct (forallb (fun e => dmem (py_kwargs kw) (fst e)) (shapes_of g)) eqn:F; simpl; [|eauto].
    destruct (forallb _ (py_kwargs kw)) eqn:T; simpl; [|eauto]. exfalso.
    destruct H as [H|H].
    - apply H. apply (@keys_exact g (py_kwargs kw) W2 (py_kwargs_nodup Hk)). auto.
    - apply in_map_iff in H as [[k v] [Ev Hin]]. simpl in Ev; subst v. rewrite forallb_forall in T.
      specialize (T _ Hin); discriminate.
  Qed.

  (** An input declared with one dimension must have that length. *)
  Theorem C55_length : forall g st kw k d v s ss,
    well_formed g -> converter g st -> kwargs_ok kw -> In (k, [d]) (g_input g) -> free_input g k ->
    In (k, KVal v) kw -> shapeof v = s :: ss -> s <> d -> k <> "verbose" ->
    exists st' e, convert st kw = (st', Err e).
  Proof.
    intros g st kw k d v s ss Hw Hc Hk Hin Hfi Hkv Hsh Hne Hnv. destruct (convert st kw) as [st' [[]|e]] eqn:E; [|eauto]. exfalso.
    destruct Hw as (W1 & W2 & _). destruct (convert_inv W2 Hc Hk E) as (_ & _ & Kp & _).
    destruct (Kp (k, [d])) as (v' & d' & ds & s' & ss' & H1 & H2 & H3 & H4); [apply shapes_in; auto|].
    simpl in H1, H2. rewrite py_kwargs_get, (dget_nodup _ _ _ Hk Hkv) in H1 by auto. injection H1 as <-.
    injection H2 as <- <-. rewrite Hsh in H3. injection H3 as <- <-. apply Hne; auto.
  Qed.

  (** ** C55.  A conversion that fails leaves the results of the last successful one in place. *)
  Theorem C55_failure_keeps : forall st kw st' e, convert st kw = (st', Err e) -> forall k, getitem st' k = getitem st k.
  Proof.
    intros st kw st' e H k. unfold getitem. assert (c_values st' = c_values st) as ->; auto.
    unfold OnnxModel.convert in H. destruct (dmem kw "self"); [injection H as <- _; auto|]. eapply convert_kw_err; eauto.
  Qed.

  (** ** C55 (refuted).  A declared shape with two or more dimensions is not checked: every value with at
      least one dimension is accepted and returned for it. *)
  Theorem C55_shape_refuted : forall k d1 d2 ds v, k <> "self" -> k <> "verbose" -> shapeof v <> [] ->
    let g := mkGraph (At := At) [] [(k, d1 :: d2 :: ds)] [] [k] in
    exists st, init_conv g = Ok st /\ exists st', convert st [(k, KVal v)] = (st', Ok tt) /\ getitem st' k = Ok v.
  Proof.
    intros k d1 d2 ds v H1 H2 Hs g. eexists; split; [reflexivity|].
    unfold OnnxModel.convert, py_kwargs, dmem; simpl. apply String.eqb_neq in H1 as ->. simpl. apply String.eqb_neq in H2 as ->. simpl.
    unfold OnnxModel.convert_kw, dmem; simpl. rewrite String.eqb_refl. simpl. unfold check_input; simpl. rewrite String.eqb_refl.
    simpl. destruct (shapeof v) as [|s ss]; [congruence|]. simpl. eexists; split; [reflexivity|]. unfold getitem; simpl. now rewrite String.eqb_refl.
  Qed.

  (** A graph with an input called 'verbose' or 'self' can never be converted: these names are parameters
      of convert itself. *)
  Theorem C55_name_refuted : forall g st kw, well_formed g -> converter g st -> kwargs_ok kw ->
    free_input g "verbose" \/ free_input g "self" -> exists st' e, convert st kw = (st', Err e).
  Proof.
    intros g st kw Hw Hc Hk H. destruct (convert st kw) as [st' [[]|e]] eqn:E; [|eauto]. exfalso.
    destruct Hw as (W1 & W2 & _). destruct (convert_inv W2 Hc Hk E) as (Kx & _).
    destruct H as [H|H]; apply Kx, py_kwargs_keys in H as [H1 H2]; auto.
    unfold OnnxModel.convert in E. apply dmem_in in H1. rewrite H1 in E. discriminate.
  Qed.

  (** A graph input that is initialized is printed among the names that can be queried, but never can be. *)
  Theorem C55_listed_refuted : forall g st k, well_formed g -> converter g st ->
    In k (map fst (g_input g)) -> In k (map fst (g_init g)) -> In k (c_layers st) /\ exists e, getitem st k = Err e.
  Proof.
    intros g st k Hw Hc H1 H2. destruct (converter_static Hc) as (_ & _ & _ & outs & _ & Hl).
    split; [rewrite Hl; apply in_or_app; auto|].
    destruct Hw as (W1 & W2 & W3 & W4 & W5 & W6).
    assert (Hno : ~ In k (node_outputs (g_node g))) by (intros Ho; destruct (W5 k Ho); auto).
    assert (X : forall st d, converter g st -> c_values st = Some d -> dget d k = None).
    { clear st Hc Hl. induction 1 as [st H|st kw Hc IH]; intros Hd.
      - unfold init_conv in H. destruct (mapM _ _); simpl in H; [|discriminate]. injection H as <-. discriminate.
      - unfold OnnxModel.convert in Hd. destruct (dmem kw "self"); auto. unfold OnnxModel.convert_kw in Hd.
        destruct (converter_static Hc) as (S1 & S2 & S3 & S4). rewrite S1, S2, S3 in Hd.
        destruct (negb _); auto. destruct (negb _); auto. destruct (negb _); auto.
        destruct (check_inputs shapeof (py_kwargs kw) (shapes_of g) []) as [inp [[]|]] eqn:C; [|auto].
        destruct (check_inputs_ok _ _ _ _ C (shapes_nodup _ W2)) as [_ C2].
        destruct (foldM _ _ _) as [[a nv]|] eqn:F; [|auto]. simpl in Hd. injection Hd as <-.
        assert (Hfr : forall nodes a nv a' nv', foldM (do_node ops) nodes (a, nv) = Ok (a', nv') ->
                      ~ In k (node_outputs nodes) -> dget nv' k = dget nv k).
        { clear. induction nodes as [|n nodes IH]; intros a nv a' nv' H Hn; cbn [foldM] in H; [congruence|].
          destruct (do_node ops (a, nv) n) as [[a1 nv1]|] eqn:E; [|discriminate].
          apply do_node_ok in E as (f & vs & v & o & rest & _ & _ & _ & E4 & -> & ->).
          rewrite (node_outputs_cons _ _ E4) in Hn. rewrite (IH _ _ _ _ H) by (intros Hx; apply Hn; right; auto).
          rewrite dget_dset. destruct (String.eqb_spec o k); auto. exfalso; apply Hn; left; auto. }
        rewrite (Hfr _ _ _ _ _ F Hno), C2. destruct (dmem (shapes_of g) k) eqn:D; auto.
        apply dmem_in in D. apply shapes_free in D as [_ D]; auto. contradiction. }
    unfold getitem. destruct (c_values st) as [d|] eqn:E; [|eauto]. rewrite (X st d Hc E). eauto.
  Qed.
End T.
Print Assumptions C55_evaluates.
Print Assumptions C55_converts.
Print Assumptions C55_refused.
Print Assumptions C55_length.
Print Assumptions C55_failure_keeps.
Print Assumptions C55_shape_refuted.
Print Assumptions C55_name_refuted.
Print Assumptions C55_listed_refuted.

(** The hypotheses are met: a dense layer with weights, over natural numbers. *)
Definition ex_ops (name : string) : option (list nat -> unit -> res nat) :=
  if String.eqb name "Mul" then Some (fun l _ => Ok (fold_right Nat.mul 1%nat l))
  else if String.eqb name "Add" then Some (fun l _ => Ok (fold_right Nat.add 0%nat l)) else None.
Definition ex_graph : graph nat unit :=
  mkGraph [("w", 3%nat); ("b", 4%nat)] [("x", [1%nat]); ("w", [1%nat])]
    [mkNode "Mul" ["x"; "w"] ["h"] tt; mkNode "Add" ["h"; "b"; "x"] ["y"] tt] ["y"].
Example C55_nonvacuous : well_formed ex_graph /\ exists st, init_conv ex_graph = Ok st
  /\ exists st', convert (fun _ => [1%nat]) ex_ops st [("x", KVal 5%nat)] = (st', Ok tt)
     /\ getitem st' "y" = Ok 24%nat /\ getitem st' "w" = Err ExcGeneric
     /\ exists st'', convert (fun _ => [1%nat]) ex_ops st' [("z", KVal 5%nat)] = (st'', Err ExcGeneric)
     /\ getitem st'' "y" = Ok 24%nat.
Proof.
  split.
  - split; [repeat constructor; simpl; intuition discriminate|]. split; [repeat constructor; simpl; intuition discriminate|].
    split; [repeat constructor; simpl; intuition discriminate|]. split; [intros n [<-|[<-|[]]]; discriminate|].
    split; [intros o [<-|[<-|[]]]; simpl; intuition discriminate|].
    intros pre n post E k Hk. destruct pre as [|n1 [|n2 pre]]; simpl in E; injection E; intros; subst; simpl in *.
    + intuition.
    + intuition.
    + destruct pre; discriminate.
  - eexists; split; [reflexivity|]. eexists; split; [reflexivity|]. split; [reflexivity|]. split; [reflexivity|].
    eexists; split; reflexivity.
Qed.
