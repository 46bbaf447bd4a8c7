(** * Proofs about the ONNX conversion *)
From Coq Require Import Reals ZArith Lra.
From Verif Require Import Base OnnxModel OnnxSpec.
Set Implicit Arguments.
Local Open Scope string_scope.

Lemma Forall2_impl {X Y} (P Q : X -> Y -> Prop) l m : (forall x y, P x y -> Q x y) -> Forall2 P l m -> Forall2 Q l m.
Proof. intros H F; induction F; constructor; auto. Qed.

Section D.
  Variable A : Type.
  Implicit Types d : dict A.
  Lemma dget_dset d k v k' : dget (dset d k v) k' = if String.eqb k k' then Some v else dget d k'.
  Proof.
    induction d as [|[a b] d IH]; simpl; auto.
    destruct (String.eqb_spec a k); subst; simpl.
    - destruct (String.eqb_spec k k'); auto.
    - destruct (String.eqb_spec a k'); subst; auto. destruct (String.eqb_spec k k'); congruence.
  Qed.
  Lemma dget_in d k v : dget d k = Some v -> In (k, v) d.
  Proof. induction d as [|[a b] d IH]; simpl; [discriminate|]. destruct (String.eqb_spec a k); intros H; [left; congruence|right; auto]. Qed.
  Lemma dget_none d k : dget d k = None <-> ~ In k (map fst d).
  Proof.
    induction d as [|[a b] d IH]; simpl; [tauto|]. destruct (String.eqb_spec a k); subst.
    - split; [discriminate|intros H; exfalso; auto].
    - rewrite IH; intuition congruence.
  Qed.
  Lemma dget_nodup d k v : NoDup (map fst d) -> In (k, v) d -> dget d k = Some v.
  Proof.
    induction d as [|[a b] d IH]; simpl; [tauto|]. intros Hn [H|H]; inversion Hn; subst.
    - injection H as -> ->. now rewrite String.eqb_refl.
    - destruct (String.eqb_spec a k); subst; auto. exfalso; apply H2, in_map_iff. exists (k, v); auto.
  Qed.
  Lemma dmem_in d k : dmem d k = true <-> In k (map fst d).
  Proof.
    unfold dmem. rewrite existsb_exists, in_map_iff. split.
    - intros [x [H1 H2]]. apply String.eqb_eq in H2. eauto.
    - intros [x [H1 H2]]. exists x; split; auto. now apply String.eqb_eq.
  Qed.
  Lemma dset_keys d k v x : In x (map fst (dset d k v)) <-> x = k \/ In x (map fst d).
  Proof.
    induction d as [|[a b] d IH]; simpl; [intuition|]. destruct (String.eqb_spec a k); subst; simpl; [intuition|].
    rewrite IH; intuition.
  Qed.
  Lemma dset_nodup d k v : NoDup (map fst d) -> NoDup (map fst (dset d k v)).
  Proof.
    induction d as [|[a b] d IH]; simpl; intros H; [repeat constructor; auto|].
    inversion H; subst. destruct (String.eqb_spec a k); subst; simpl; constructor; auto.
    rewrite dset_keys. intros [E|E]; auto.
  Qed.
  Lemma dupdate_get e : forall d k, NoDup (map fst e) -> dget (dupdate d e) k = match dget e k with Some v => Some v | None => dget d k end.
  Proof.
    unfold dupdate. induction e as [|[a b] e IH]; simpl; intros d k Hn; auto. inversion Hn; subst.
    rewrite IH, dget_dset by auto. destruct (String.eqb_spec a k); subst; auto.
    assert (dget e k = None) as -> by now apply dget_none. auto.
  Qed.
  Lemma dget_some_in d k : (exists v, dget d k = Some v) <-> In k (map fst d).
  Proof.
    destruct (dget d k) eqn:E.
    - split; [intros _|eauto]. apply dget_in in E. apply in_map_iff; exists (k, a); auto.
    - split; [intros [v H]; discriminate|]. intros H; apply dget_none in E; contradiction.
  Qed.
End D.

Section S0.
  Variables V At : Type.
  (** ** The static part of a converter *)
  Definition shapes_of (g : graph V At) : dict (list nat) :=
    fold_left (fun acc e => if dmem (of_list (g_init g)) (fst e) then acc else dset acc (fst e) (snd e)) (g_input g) [].

  Lemma of_list_get A (l : list (string * A)) k : NoDup (map fst l) -> dget (of_list l) k = dget l k.
  Proof. intros H. unfold of_list. rewrite dupdate_get by auto. destruct (dget l k); auto. Qed.

  Lemma of_list_keys A (l : list (string * A)) k : In k (map fst (of_list l)) <-> In k (map fst l).
  Proof.
    unfold of_list, dupdate. assert (H : forall d, In k (map fst (fold_left (fun acc x => dset acc (fst x) (snd x)) l d)) <-> In k (map fst l) \/ In k (map fst d)).
    { induction l as [|[a b] l IH]; simpl; intros d; [tauto|]. rewrite IH, dset_keys. intuition. }
    rewrite H; simpl; tauto.
  Qed.

  Lemma of_list_nodup A (l : list (string * A)) : NoDup (map fst (of_list l)).
  Proof.
    unfold of_list, dupdate. assert (H : forall d, NoDup (map fst d) -> NoDup (map fst (fold_left (fun acc x => dset acc (fst x) (snd x)) l d))).
    { induction l as [|[a b] l IH]; simpl; intros d H; auto. apply IH, dset_nodup; auto. }
    apply H; constructor.
  Qed.

  Lemma shapes_aux tens : forall l (d : dict (list nat)), NoDup (map fst d) -> NoDup (map fst l) ->
    let r := fold_left (fun acc e => if dmem (A := V) tens (fst e) then acc else dset acc (fst e) (snd e)) l d in
    NoDup (map fst r) /\ forall k, dget r k = match dget l k with Some sh => if dmem tens k then dget d k else Some sh | None => dget d k end.
  Proof.
    induction l as [|[a b] l IH]; simpl; intros d Hd Hl; [split; auto|]. inversion Hl; subst.
    destruct (IH (if dmem tens a then d else dset d a b)) as [I1 I2]; auto.
    { destruct (dmem tens a); auto. apply dset_nodup; auto. }
    split; auto. intros k; rewrite I2. destruct (String.eqb_spec a k); subst.
    - assert (dget l k = None) as -> by now apply dget_none.
      destruct (dmem tens k); auto. now rewrite dget_dset, String.eqb_refl.
    - destruct (dget l k); destruct (dmem tens a), (dmem tens k); auto; rewrite dget_dset; destruct (String.eqb_spec a k); congruence.
  Qed.

  Lemma shapes_get g k : NoDup (map fst (g_input g)) ->
    dget (shapes_of g) k = match dget (g_input g) k with Some sh => if dmem (of_list (g_init g)) k then None else Some sh | None => None end.
  Proof. intros H. unfold shapes_of. apply (@shapes_aux (of_list (g_init g)) (g_input g) []); auto. constructor. Qed.
  Lemma shapes_nodup g : NoDup (map fst (g_input g)) -> NoDup (map fst (shapes_of g)).
  Proof. intros H. unfold shapes_of. apply (@shapes_aux (of_list (g_init g)) (g_input g) []); auto. constructor. Qed.

  Lemma shapes_free g k : NoDup (map fst (g_input g)) -> In k (map fst (shapes_of g)) <-> free_input g k.
  Proof.
    intros H. rewrite <- dget_some_in, shapes_get by auto. unfold free_input. rewrite <- (dget_some_in (g_input g)).
    rewrite <- (of_list_keys (g_init g)), <- dmem_in. destruct (dget (g_input g) k), (dmem _ k); intuition; try (destruct H0; discriminate); eauto; try congruence.
  Qed.

  Lemma shapes_in g k sh : NoDup (map fst (g_input g)) -> In (k, sh) (shapes_of g) <-> In (k, sh) (g_input g) /\ free_input g k.
  Proof.
    intros H. split.
    - intros Hin. pose proof (dget_nodup _ _ _ (@shapes_nodup g H) Hin) as D.
      split. + rewrite shapes_get in D by auto. destruct (dget (g_input g) k) eqn:E; [|discriminate].
        destruct (dmem _ k); [discriminate|]. injection D as ->. now apply dget_in.
      + apply shapes_free; auto. apply in_map_iff; exists (k, sh); auto.
    - intros [Hin [_ Hf]]. apply dget_in. rewrite shapes_get by auto. rewrite (dget_nodup _ _ _ H Hin).
      destruct (dmem (of_list (g_init g)) k) eqn:E; auto. apply dmem_in in E. rewrite of_list_keys in E. contradiction.
  Qed.

End S0.

Section P.
  Variables V At : Type.
  Variable ops : string -> option (list V -> At -> res V).
  Notation do_node := (@do_node V At ops).

  Lemma mapM_forall2 {X Y} (f : X -> res Y) l ys : mapM f l = Ok ys <-> Forall2 (fun x y => f x = Ok y) l ys.
  Proof.
    revert ys; induction l as [|x l IH]; intros ys; simpl.
    - split; intros H; [injection H as <-; constructor|inversion H; auto].
    - destruct (f x) as [y|] eqn:E; simpl.
      + destruct (mapM f l) as [zs|] eqn:E'; simpl.
        * split; intros H; [injection H as <-; constructor; auto; now apply IH|].
          inversion H as [|? ? ? ? H1 H2]; subst. apply IH in H2. congruence.
        * split; intros H; [discriminate|]. inversion H as [|? ? ? ? H1 H2]; subst. apply IH in H2; discriminate.
      + split; intros H; [discriminate|]. inversion H; congruence.
  Qed.

  Lemma node_outputs_cons n l o rest : n_out n = o :: rest -> node_outputs (n :: l) = o :: node_outputs (At := At) l.
  Proof. intros H; unfold node_outputs; simpl. now rewrite H. Qed.

  Definition lookups (a : dict V) (names : list string) :=
    mapM (fun name => match dget a name with Some v => Ok v | None => Err ExcKey end) names.
  Lemma lookups_ok a names vs : lookups a names = Ok vs <-> Forall2 (fun k x => dget a k = Some x) names vs.
  Proof.
    unfold lookups. rewrite mapM_forall2. split; intros H; eapply Forall2_impl; try eassumption; simpl.
    - intros k x. destruct (dget a k); congruence.
    - intros k x ->; auto.
  Qed.

  (** A successful node. *)
  Lemma do_node_ok a nv n a' nv' : do_node (a, nv) n = Ok (a', nv') <->
    exists f vs v o rest, ops (n_op n) = Some f /\ Forall2 (fun k x => dget a k = Some x) (n_in n) vs
      /\ f vs (n_attr n) = Ok v /\ n_out n = o :: rest /\ a' = dset a o v /\ nv' = dset nv o v.
  Proof.
    unfold OnnxModel.do_node. fold (lookups a (n_in n)). split.
    - destruct (lookups a (n_in n)) as [vs|] eqn:E; simpl; [|discriminate]. apply lookups_ok in E.
      destruct (ops (n_op n)) as [f|] eqn:Ef; [|discriminate]. destruct (f vs (n_attr n)) as [v|] eqn:Ev; simpl; [|discriminate].
      unfold out0. destruct (n_out n) as [|o rest] eqn:Eo; simpl; [discriminate|]. intros [= <- <-].
      exists f, vs, v, o, rest; repeat split; auto.
    - intros (f & vs & v & o & rest & H1 & H2 & H3 & H4 & -> & ->). apply lookups_ok in H2.
      rewrite H2; simpl. rewrite H1, H3; simpl. unfold out0; rewrite H4; auto.
  Qed.

  (** Any successful run of the node loop yields a solution of the nodes' equations. *)
  Lemma loop_sound : forall nodes a nv a' nv',
    foldM do_node nodes (a, nv) = Ok (a', nv') -> NoDup (node_outputs nodes) ->
    (forall o, In o (node_outputs nodes) -> dget a o = None) ->
    (forall k, ~ In k (node_outputs nodes) -> dget a' k = dget a k /\ dget nv' k = dget nv k)
    /\ (forall k, In k (node_outputs nodes) -> dget a' k <> None /\ dget nv' k = dget a' k)
    /\ (forall n, In n nodes -> exists f vs v o rest, ops (n_op n) = Some f /\ Forall2 (fun k x => dget a' k = Some x) (n_in n) vs
          /\ f vs (n_attr n) = Ok v /\ n_out n = o :: rest /\ dget a' o = Some v).
  Proof.
    induction nodes as [|n nodes IH]; intros a nv a' nv' H Hnd Hfr.
    - simpl in H. injection H as <- <-. simpl. repeat split; auto; tauto.
    - cbn [foldM] in H. destruct (do_node (a, nv) n) as [[a1 nv1]|] eqn:E; [|discriminate].
      apply do_node_ok in E as (f & vs & v & o & rest & E1 & E2 & E3 & E4 & -> & ->).
      rewrite (node_outputs_cons _ _ E4) in Hnd, Hfr. inversion Hnd as [|? ? Hno Hnd']; subst.
      destruct (IH _ _ _ _ H Hnd') as [K1 [K2 K3]].
      { intros o' Ho'. rewrite dget_dset. destruct (String.eqb_spec o o'); [congruence|]. apply Hfr; right; auto. }
      assert (Ho : dget a' o = Some v).
      { rewrite (proj1 (K1 o Hno)), dget_dset, String.eqb_refl; auto. }
      rewrite (node_outputs_cons _ _ E4). split; [|split].
      + intros k Hk. simpl in Hk. destruct (K1 k) as [-> ->]; [tauto|]. rewrite !dget_dset.
        destruct (String.eqb_spec o k); [subst; tauto|auto].
      + intros k [<-|Hk]; [|apply K2; auto]. rewrite Ho; split; [discriminate|].
        rewrite (proj2 (K1 o Hno)), dget_dset, String.eqb_refl; auto.
      + intros m [<-|Hm]; [|apply K3; auto]. exists f, vs, v, o, rest; repeat split; auto.
        eapply Forall2_impl; [|exact E2]. simpl. intros k x Hx.
        assert (Hk : ~ In k (node_outputs nodes)) by (intros Hk; rewrite (Hfr k) in Hx; [discriminate|right; auto]).
        rewrite (proj1 (K1 k Hk)), dget_dset. destruct (String.eqb_spec o k); auto. subst.
        rewrite (Hfr k) in Hx; [discriminate|left; auto].
  Qed.

  (** If the equations of the nodes have a solution that agrees with the values known so far, the loop
      succeeds and its values are those of the solution. *)
  Lemma loop_complete (rho : string -> option V) : forall nodes a nv,
    (forall k v, dget a k = Some v -> rho k = Some v) ->
    (forall n, In n nodes -> exists f vs v o rest, ops (n_op n) = Some f /\ Forall2 (fun k x => rho k = Some x) (n_in n) vs
          /\ f vs (n_attr n) = Ok v /\ n_out n = o :: rest /\ rho o = Some v) ->
    (forall pre n post, nodes = (pre ++ n :: post)%list -> forall k, In k (n_in n) -> dget a k <> None \/ In k (node_outputs pre)) ->
    exists a' nv', foldM do_node nodes (a, nv) = Ok (a', nv') /\ (forall k v, dget a' k = Some v -> rho k = Some v).
  Proof.
    induction nodes as [|n nodes IH]; intros a nv Ha Hn Ht.
    - exists a, nv; split; auto.
    - destruct (Hn n (or_introl eq_refl)) as (f & vs & v & o & rest & E1 & E2 & E3 & E4 & E5).
      assert (E : do_node (a, nv) n = Ok (dset a o v, dset nv o v)).
      { apply do_node_ok. exists f, vs, v, o, rest; repeat split; auto.
        specialize (Ht [] n nodes eq_refl). clear E3; revert E2 Ht. generalize (n_in n) as l. intros l E2; induction E2 as [|k x l vs' Hk E2 IH2]; intros Ht; constructor.
        - destruct (Ht k (or_introl eq_refl)) as [H|[]]. destruct (dget a k) eqn:D; [|congruence]. apply Ha in D. congruence.
        - apply IH2. intros k' Hk'. apply Ht; right; auto. }
      cbn [foldM]. rewrite E. apply IH.
      + intros k w. rewrite dget_dset. destruct (String.eqb_spec o k); [congruence|apply Ha].
      + intros m Hm; apply Hn; right; auto.
      + intros pre m post -> k Hk. specialize (Ht (n :: pre) m post eq_refl k Hk).
        rewrite (node_outputs_cons _ _ E4) in Ht. rewrite dget_dset. destruct (String.eqb_spec o k); [left; discriminate|].
        destruct Ht as [Ht|[Ht|Ht]]; auto; congruence.
  Qed.

  Variable shapeof : V -> list nat.
  Notation convert := (convert shapeof ops).
  Notation convert_kw := (convert_kw shapeof ops).
  Definition static (g : graph V At) (st : conv V At) : Prop :=
    c_nodes st = g_node g /\ c_init st = of_list (g_init g) /\ c_shape st = shapes_of g
    /\ exists outs, mapM (@out0 At) (g_node g) = Ok outs /\ c_layers st = (map fst (g_input g) ++ outs)%list.

  Lemma convert_kw_static g st kw : static g st -> static g (fst (convert_kw st kw)).
  Proof.
    intros H. unfold OnnxModel.convert_kw. destruct (negb _); auto. destruct (negb _); auto. destruct (negb _); auto.
    destruct (check_inputs _ _ _ _) as [inp [u|x]]; [|exact H]. destruct (foldM _ _ _) as [[a nv]|]; exact H.
  Qed.
  Lemma convert_static g st kw : static g st -> static g (fst (convert st kw)).
  Proof. intros H. unfold OnnxModel.convert. destruct (dmem kw "self"); auto. now apply convert_kw_static. Qed.
  Lemma converter_static g st : converter shapeof ops g st -> static g st.
  Proof.
    induction 1 as [st H|st kw _ IH]; [|now apply convert_static].
    unfold init_conv in H. destruct (mapM _ _) as [outs|] eqn:E; simpl in H; [|discriminate]. injection H as <-.
    repeat split; simpl. exists outs; auto.
  Qed.

  Lemma convert_kw_err st kw st' e : convert_kw st kw = (st', Err e) -> c_values st' = c_values st.
  Proof.
    unfold OnnxModel.convert_kw. destruct (negb _); [intros [= <- _]; auto|]. destruct (negb _); [intros [= <- _]; auto|].
    destruct (negb _); [intros [= <- _]; auto|].
    destruct (check_inputs _ _ _ _) as [inp [u|x]]; [|intros [= <- _]; auto].
    destruct (foldM _ _ _) as [[a nv]|]; [discriminate|intros [= <- _]; auto].
  Qed.

  (** ** The shape checks *)
  Definition pass1 (kw : dict (kwval V)) (e : string * list nat) : Prop :=
    exists v d ds s ss, dget kw (fst e) = Some (KVal v) /\ snd e = d :: ds /\ shapeof v = s :: ss /\ (ds = [] -> s = d).

  Lemma check_input_ok kw inp e inp' : check_input shapeof kw inp e = (inp', Ok tt) <->
    pass1 kw e /\ exists v, dget kw (fst e) = Some (KVal v) /\ inp' = dset inp (fst e) v.
  Proof.
    unfold check_input, pass1. destruct (dget kw (fst e)) as [[v|]|].
    2,3: split; [discriminate|intros [_ [v [H _]]]; discriminate].
    destruct e as [k sh]; simpl. destruct sh as [|d ds]; [split; [discriminate|intros [(? & ? & ? & ? & ? & _ & ? & _) _]; discriminate]|].
    destruct (shapeof v) as [|s ss] eqn:Es.
    { split; [discriminate|]. intros [(v' & ? & ? & ? & ? & [= <-] & _ & H & _) _]; congruence. }
    destruct ((_ && _ && _)%bool) eqn:B.
    - split; [discriminate|]. intros [(v' & d' & ds' & s' & ss' & [= <-] & [= <- <-] & H & H4) _].
      assert (s' = s /\ ss' = ss) as [-> ->] by (split; congruence).
      apply andb_prop in B as [B _]. apply andb_prop in B as [B1 B2].
      destruct ds; [|discriminate B1]. rewrite H4, Nat.eqb_refl in B2 by auto. discriminate.
    - split.
      + intros [= <-]. split; [|eauto]. exists v, d, ds, s, ss; repeat split; auto. intros ->.
        destruct (Nat.eq_dec d s) as [e|ne]; auto. exfalso. apply Nat.eqb_neq in ne as ne'. rewrite ne' in B.
        revert B. destruct (list_eq_dec Nat.eq_dec [d] (s :: ss)); simpl; [congruence|discriminate].
      + intros [_ (v' & [= <-] & ->)]; auto.
  Qed.

  Lemma check_inputs_ok kw : forall l inp inp', check_inputs shapeof kw l inp = (inp', Ok tt) -> NoDup (map fst l) ->
    (forall e, In e l -> pass1 kw e)
    /\ forall k, dget inp' k = if dmem l k then kwvalue kw k else dget inp k.
  Proof.
    induction l as [|e l IH]; intros inp inp' H Hn; simpl in H.
    - injection H as <-. split; [intros e []|auto].
    - destruct (check_input shapeof kw inp e) as [i1 [[]|x]] eqn:E; [|discriminate].
      apply check_input_ok in E as [P1 [v [Hv ->]]]. inversion Hn; subst.
      destruct (IH _ _ H) as [I1 I2]; auto. split; [intros e' [<-|He']; auto|].
      intros k. rewrite I2, dget_dset. simpl. destruct (String.eqb_spec (fst e) k).
      + subst k. simpl. assert (dmem l (fst e) = false) as ->.
        { destruct (dmem l (fst e)) eqn:D; auto. apply dmem_in in D. contradiction. }
        unfold kwvalue. now rewrite Hv.
      + simpl. reflexivity.
  Qed.

  Lemma check_inputs_pass kw : forall l inp, (forall e, In e l -> pass1 kw e) -> exists inp', check_inputs shapeof kw l inp = (inp', Ok tt).
  Proof.
    induction l as [|e l IH]; intros inp H; simpl; [eauto|].
    assert (P1 := H e (or_introl eq_refl)). destruct P1 as (v & d & ds & s & ss & E1 & E2 & E3 & E4).
    assert (E : check_input shapeof kw inp e = (dset inp (fst e) v, Ok tt)).
    { apply check_input_ok. split; [exists v, d, ds, s, ss; auto|eauto]. }
    rewrite E. apply IH; intros e' He'; apply H; right; auto.
  Qed.

  Lemma kw_filter kw : ~ In "verbose" (map fst kw) -> py_kwargs (V := V) kw = kw.
  Proof.
    intros H. unfold py_kwargs. induction kw as [|e kw IH]; simpl in *; auto.
    destruct (String.eqb_spec (fst e) "verbose"); [exfalso; auto|]. simpl. rewrite IH; auto.
  Qed.
End P.
