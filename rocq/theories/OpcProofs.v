(** * Lemmas for the OPC UA data exchange (C51). *)
From Coq Require Import Ascii.
From Verif Require Import Base OpcModel OpcSpec.
Set Implicit Arguments.
Local Open Scope string_scope.

Lemma app_str_nil s : s ++ "" = s. Proof. induction s; simpl; congruence. Qed.
Lemma app_str_assoc a b c : (a ++ b) ++ c = a ++ b ++ c. Proof. induction a; simpl; congruence. Qed.

Lemma prefix_app p : forall s, prefix p s = true <-> exists b, s = p ++ b.
Proof.
  induction p as [|c p IH]; intros s.
  - split; [exists s; auto|]. destruct s; auto.
  - destruct s as [|d s]; [split; [discriminate|intros [b H]; discriminate]|]. cbn [prefix append].
    destruct (ascii_dec c d) as [->|Hne].
    + rewrite IH; split; intros [b H]; exists b; congruence.
    + split; [discriminate|intros [b H]; congruence].
Qed.

Lemma str_in_app p : forall s, str_in p s = true <-> exists a b, s = a ++ p ++ b.
Proof.
  induction s as [|c s IH].
  - cbn [str_in]. rewrite orb_false_r, prefix_app. split.
    + intros [b H]; exists "", b; auto.
    + intros [a [b H]]. exists b. destruct a; [auto|discriminate].
  - cbn [str_in]. rewrite orb_true_iff, prefix_app, IH. split.
    + intros [[b H]|[a [b H]]]; [exists "", b; auto|exists (String c a), b; simpl; congruence].
    + intros [[|d a] [b H]]; [left; exists b; auto|right; exists a, b]. simpl in H; congruence.
Qed.

Lemma nodeid_eqb_eq a b : nodeid_eqb a b = true <-> a = b.
Proof.
  destruct a as [i x], b as [j y]; unfold nodeid_eqb; simpl. rewrite andb_true_iff, Nat.eqb_eq, String.eqb_eq.
  split; [intros [-> ->]; auto|intros [= -> ->]; auto].
Qed.
Lemma nodeid_eqb_refl a : nodeid_eqb a a = true. Proof. now apply nodeid_eqb_eq. Qed.
Lemma nodeid_eqb_ne a b : a <> b -> nodeid_eqb a b = false.
Proof. intros H; destruct (nodeid_eqb a b) eqn:E; auto; apply nodeid_eqb_eq in E; congruence. Qed.

Section P.
  Variable V : Type.
  Variable zero : V.
  Implicit Types (l : list (nodeid * list V)) (s : server V).

  Lemma find_cons id q l : find id (q :: l) = if nodeid_eqb id (fst q) then Some (snd q) else find id l.
  Proof. unfold find; simpl; destruct (nodeid_eqb id (fst q)); auto. Qed.

  Lemma find_app id l l' : find id (l ++ l') = match find id l with Some v => Some v | None => find id l' end.
  Proof.
    induction l as [|q l IH]; simpl; auto. rewrite !find_cons. destruct (nodeid_eqb id (fst q)); auto.
  Qed.

  Lemma find_none id l : find id l = None <-> ~ In id (map fst l).
  Proof.
    induction l as [|q l IH]; simpl; [split; auto|]. rewrite find_cons.
    destruct (nodeid_eqb id (fst q)) eqn:E.
    - apply nodeid_eqb_eq in E; split; [discriminate|intros H; exfalso; apply H; auto].
    - rewrite IH. split; [intros H [H1|H1]; auto; subst; rewrite nodeid_eqb_refl in E; discriminate|tauto].
  Qed.

  Lemma find_set id id' v l : find id (set_node id' v l) =
    if nodeid_eqb id id' then match find id l with Some _ => Some v | None => None end else find id l.
  Proof.
    induction l as [|q l IH]; simpl.
    - destruct (nodeid_eqb id id'); auto.
    - destruct (nodeid_eqb id' (fst q)) eqn:E.
      + apply nodeid_eqb_eq in E; subst id'. rewrite !find_cons; simpl. destruct (nodeid_eqb id (fst q)); auto.
      + rewrite !find_cons, IH. destruct (nodeid_eqb id (fst q)) eqn:E2; auto.
        apply nodeid_eqb_eq in E2; subst id. destruct (nodeid_eqb (fst q) id') eqn:E3; auto.
        apply nodeid_eqb_eq in E3; subst id'. rewrite nodeid_eqb_refl in E; discriminate.
  Qed.

  Lemma set_ids id v l : map fst (set_node id v l) = map fst l.
  Proof. induction l as [|q l IH]; simpl; auto. destruct (nodeid_eqb id (fst q)); simpl; congruence. Qed.

  Definition nm (e : entry) : string := e_obj e ++ e_var e.

  Lemma reg_loop_ok idx todo : forall l,
    NoDup (map nm todo) -> (forall e, In e todo -> find (idx, nm e) l = None) ->
    reg_loop zero idx todo l = ((l ++ map (fun e => ((idx, nm e), [zero])) todo)%list,
                                map (fun e => mkEntry (e_obj e) (nm e)) todo, true).
  Proof.
    induction todo as [|e t IH]; intros l Hnd Hf; simpl.
    - now rewrite app_nil_r.
    - inversion Hnd as [|? ? Hn Hnd']; subst. fold (nm e). rewrite (Hf e) by (left; auto).
      rewrite IH; auto.
      + now rewrite <- app_assoc.
      + intros e' He'. rewrite find_app, (Hf e') by (right; auto). rewrite find_cons; simpl.
        rewrite nodeid_eqb_ne; auto. intros [= Heq]. apply Hn. rewrite <- Heq. now apply in_map.
  Qed.

  Lemma reg_loop_ids idx todo : forall l l' es ok, reg_loop zero idx todo l = (l', es, ok) ->
    forall id, In id (map fst l') -> In id (map fst l) \/ fst id = idx.
  Proof.
    induction todo as [|e t IH]; intros l l' es ok E id Hin; simpl in E.
    - injection E as <- <- <-; auto.
    - destruct (find (idx, e_obj e ++ e_var e) l) eqn:F; [injection E as <- <- <-; auto|].
      destruct (reg_loop zero idx t _) as [[n1 t1] ok1] eqn:R. injection E as <- <- <-.
      destruct (IH _ _ _ _ R id Hin) as [H|H]; auto.
      rewrite map_app in H; apply in_app_or in H as [H|[<-|[]]]; auto.
  Qed.

  Definition srv_ok s : Prop := forall id, In id (map fst (sv_nodes s)) -> fst id < List.length (sv_names s).

  Lemma index_of_lt x : forall (l : list string) i, index_of x l = Some i -> i < List.length l.
  Proof.
    induction l as [|y l IH]; simpl; intros i H; [discriminate|].
    destruct (String.eqb x y); [injection H as <-; lia|].
    destruct (index_of x l) as [j|]; [|discriminate]. injection H as <-. specialize (IH _ eq_refl); lia.
  Qed.
  Lemma index_of_none x (l : list string) : ~ In x l -> index_of x l = None.
  Proof.
    induction l as [|y l IH]; simpl; auto. intros H. destruct (String.eqb_spec x y) as [->|]; [exfalso; auto|].
    rewrite IH; auto.
  Qed.
  Lemma index_of_app x (l : list string) : ~ In x l -> index_of x (l ++ [x]) = Some (List.length l).
  Proof.
    induction l as [|y l IH]; simpl; intros H.
    - now rewrite String.eqb_refl.
    - destruct (String.eqb_spec x y) as [->|]; [exfalso; auto|]. rewrite IH; auto.
  Qed.

  Lemma write_data_ok s id v s' : write_data s id v = Ok s' ->
    sv_names s' = sv_names s /\ map fst (sv_nodes s') = map fst (sv_nodes s) /\ find id (sv_nodes s) <> None /\
    forall id', find id' (sv_nodes s') = if nodeid_eqb id' id then Some v else find id' (sv_nodes s).
  Proof.
    unfold write_data. destruct (find id (sv_nodes s)) eqn:E; [|discriminate]. intros [= <-]; simpl.
    split; auto; split; [apply set_ids|split; [discriminate|]]. intros id'; rewrite find_set.
    destruct (nodeid_eqb id' id) eqn:E2; auto. apply nodeid_eqb_eq in E2; subst; now rewrite E.
  Qed.

  Lemma write_loop_ids ws : forall s s' r, write_loop s ws = (s', r) ->
    sv_names s' = sv_names s /\ map fst (sv_nodes s') = map fst (sv_nodes s).
  Proof.
    induction ws as [|[id v] t IH]; intros s s' r; simpl; [intros [= <- _]; auto|].
    destruct (write_data s id [v]) as [s1|e] eqn:E; [|intros [= <- _]; auto].
    intros H. apply write_data_ok in E as [E1 [E2 _]]. apply IH in H as [-> ->]; auto.
  Qed.

  Lemma reach_ok s : reach zero s -> srv_ok s.
  Proof.
    induction 1 as [names|s ns s' ns' r _ IH E|s tags d s' r _ IH E].
    - intros id [].
    - unfold namespace_from_client in E. destruct (register (ns_name ns) (sv_names s)) as [idx names] eqn:R.
      destruct (reg_loop zero idx (ns_entries ns) (sv_nodes s)) as [[nodes es] ok] eqn:L.
      assert (X : srv_ok (mkSrv names nodes)).
      { assert (Hl : idx < List.length names /\ List.length (sv_names s) <= List.length names).
        { unfold register in R. destruct (index_of (ns_name ns) (sv_names s)) as [i|] eqn:I; injection R as <- <-.
          - split; auto. eapply index_of_lt; eauto.
          - rewrite app_length; simpl; lia. }
        intros id Hid; simpl in *. destruct (reg_loop_ids _ _ _ L _ Hid) as [H|H]; [|lia].
        specialize (IH _ H); lia. }
      destruct ok; injection E as <- <- <-; exact X.
    - unfold write_to_tags in E. destruct d as [l|]; [|injection E as <- <-; auto].
      destruct (_ =? _)%nat; [|injection E as <- <-; auto].
      apply write_loop_ids in E as [E1 E2]. intros id; rewrite E1, E2; apply IH.
  Qed.

  (** Writing. *)
  Lemma write_loop_last (ws : list (nodeid * V)) : forall s, (forall w, In w ws -> find (fst w) (sv_nodes s) <> None) ->
    exists s', write_loop s ws = (s', Ok tt) /\
      forall id v0, find id (sv_nodes s) = Some v0 -> find id (sv_nodes s') = Some (last_written id ws v0).
  Proof.
    induction ws as [|[id v] t IH]; intros s Hf; simpl.
    - exists s; split; auto.
    - assert (H0 := Hf (id, v) (or_introl eq_refl)); simpl in H0.
      destruct (write_data s id [v]) as [s1|e] eqn:E.
      2:{ unfold write_data in E. destruct (find id (sv_nodes s)); congruence. }
      destruct (write_data_ok _ _ _ E) as [_ [_ [_ Hs1]]].
      destruct (IH s1) as [s' [Hw Hv]].
      { intros w Hw; rewrite Hs1. destruct (nodeid_eqb (fst w) id); [discriminate|]. apply Hf; right; auto. }
      exists s'; split; auto. intros id' v0 H. apply Hv. rewrite Hs1.
      destruct (nodeid_eqb id' id); auto.
  Qed.

  Lemma last_written_notin id (ws : list (nodeid * V)) v0 : ~ In id (map fst ws) -> last_written id ws v0 = v0.
  Proof.
    unfold last_written; revert v0; induction ws as [|w t IH]; intros v0; simpl; auto. intros H.
    rewrite nodeid_eqb_ne; auto.
  Qed.

  Lemma map_fst_combine {A B} (a : list A) (b : list B) : List.length b = List.length a -> map fst (combine a b) = a.
  Proof. revert b; induction a; destruct b; simpl; intros; try discriminate; auto. f_equal; auto. Qed.

  Lemma last_written_tags tags : forall (l : list V) v0, NoDup tags -> List.length l = List.length tags ->
    forall k id, nth_error tags k = Some id -> exists v, nth_error l k = Some v /\ last_written id (combine tags l) v0 = [v].
  Proof.
    induction tags as [|t tags IH]; intros [|v l] v0 Hnd Hl k id Hk; try discriminate; [destruct k; discriminate|].
    inversion Hnd as [|? ? Hn Hnd']; subst. destruct k as [|k]; simpl in *.
    - injection Hk as ->. exists v; split; auto. unfold last_written; simpl; rewrite nodeid_eqb_refl.
      apply last_written_notin. rewrite map_fst_combine; auto.
    - destruct (IH l (if nodeid_eqb id t then [v] else v0) Hnd' (eq_add_S _ _ Hl) k id Hk) as [v' [H1 H2]].
      exists v'; split; auto.
  Qed.

  (** Reading one number per tag. *)
  Lemma read_singles s tags : forall (l : list V),
    List.length l = List.length tags ->
    (forall k id v, nth_error tags k = Some id -> nth_error l k = Some v -> find id (sv_nodes s) = Some [v]) ->
    mapM (fun id => match find id (sv_nodes s) with Some v => Ok v | None => Err ExcGeneric end) tags = Ok (map (fun v => [v]) l).
  Proof.
    induction tags as [|t tags IH]; intros [|v l] Hl H; try discriminate; simpl; auto.
    rewrite (H 0 t v) by auto. rewrite (IH l); auto.
    intros k id w Hk Hw. apply (H (S k)); auto.
  Qed.
  Lemma concat_singles (l : list V) : List.concat (map (fun v => [v]) l) = l.
  Proof. induction l; simpl; congruence. Qed.
  Lemma read_ok s tags (l : list V) : List.length l = List.length tags ->
    (forall k id v, nth_error tags k = Some id -> nth_error l k = Some v -> find id (sv_nodes s) = Some [v]) ->
    read_from_tags s tags = Ok l.
  Proof.
    intros Hl H. unfold read_from_tags. rewrite (read_singles s tags l Hl H). cbn [bind].
    destruct l as [|v l]; simpl; auto.
    replace (forallb _ _) with true; [now rewrite concat_singles|].
    symmetry; apply forallb_forall. intros q Hq; apply in_map_iff in Hq as [w [<- _]]; auto.
  Qed.
End P.

(** Names: the text before the first bracket. *)
Fixpoint upto (s : string) : string :=
  match s with
  | EmptyString => EmptyString
  | String c t => if ascii_dec c "["%char then EmptyString else String c (upto t)
  end.
Lemma upto_app a t : upto a = a -> upto (a ++ String "["%char t) = a.
Proof.
  induction a as [|c a IH]; simpl; auto. destruct (ascii_dec c "["%char); [discriminate|]. intros H; f_equal.
  apply IH; congruence.
Qed.
Lemma app_str_inj a b c : a ++ b = a ++ c -> b = c.
Proof. induction a; simpl; auto. intros H; apply IHa; congruence. Qed.
Lemma app_label_inj a b s t : upto a = a -> upto b = b ->
  a ++ String "["%char s = b ++ String "["%char t -> a = b /\ s = t.
Proof.
  intros Ha Hb E. assert (a = b) by (rewrite <- (upto_app s Ha), E; now apply upto_app). subst b.
  split; auto. apply app_str_inj in E. congruence.
Qed.
Lemma vars_upto var : In var variable_list -> upto var = var.
Proof. intros H; simpl in H; repeat (destruct H as [<-|H]; [reflexivity|]); destruct H. Qed.
Lemma double_upto a : upto a = a -> upto (a ++ a) = a ++ a.
Proof.
  assert (X : forall b c, upto b = b -> upto c = c -> upto (b ++ c) = b ++ c).
  { induction b as [|x b IH]; simpl; auto. intros c. destruct (ascii_dec x "["%char); [discriminate|].
    intros H Hc; f_equal; apply IH; auto; congruence. }
  auto.
Qed.
