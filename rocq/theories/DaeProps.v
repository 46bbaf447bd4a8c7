(** * C48: conversion of an index-1 DAE model to an ODE model. *)
From Coq Require Import Reals Lra FinFun.
From Verif Require Import Base DataModel DataProofs SaveProofs MdlModel MdlSpec MdlProofs MdlProps DaeModel DaeSpec DaeProofs DaeProofs2.
Import List.
Local Open Scope R_scope.

Section P.
  Variable inv : list (list R) -> list (list R).
  Variable struct_ok : list string -> bool.
  Variable resetup : model E -> model E * res unit.
  Hypothesis struct_ok_nodup : forall l, NoDup l -> struct_ok l = true.
  Notation dae2ode := (dae2ode inv struct_ok resetup).

  Lemma dae2ode_ok d : wf_dae d -> distinct_names d ->
    exists m a, dae2ode d = Ok m /\ vx m = (d_x d ++ d_u d ++ d_z d)%list
      /\ vu m = [("default"%string, 0%nat); ("q"%string, vsum (d_u d))] /\ functions m = Ok a
      /\ forall e, List.length (inv (d_gz d (point d e))) = vsum (d_z d) ->
         rhs_at a e = (xdot d e ++ flat_map (fun jv => repeat (e_q e (fst jv)) (snd (snd jv))) (combine (seq 0 (List.length (d_u d))) (d_u d))
                       ++ z_next inv d e)%list.
  Proof.
    intros W [DN DD].
    assert (FV : Forall is_var (Vd d)).
    { unfold Vd. rewrite !Forall_app. pose proof (wf_p d W) as Wp. pose proof (wf_tvp d W) as Wt.
      assert (K : forall t k l, names_kind t k = true -> t <> "timevarying_parameter"%string -> (forall n, In n (map fst l) -> ~ In n (reserved k)) ->
                  Forall is_var (map (fun v => DVar t (fst v) (snd v)) l : list (decl E))).
      { intros t k l K1 K2 K3. apply Forall_forall. intros x Hx. apply in_map_iff in Hx. destruct Hx as (v & <- & Hv).
        cbn. exists k. split; [exact K1|]. split; [exact K2|]. apply K3. apply in_map. exact Hv. }
      assert (R1 : forall l, NoDup ("default"%string :: map fst l) -> forall n, In n (map fst (l : list (string * nat))) -> ~ In n ["default"%string]).
      { intros l ND n Hn [<-|[]]. inversion ND; contradiction. }
      split; [apply (K _ Kx); [reflexivity|discriminate|intros n _ []]|]. split; [apply (K _ Kp); [reflexivity|discriminate|apply R1; exact Wp]|].
      split; [apply (K _ Ktvp); [reflexivity|discriminate|apply R1; exact Wt]|].
      apply (K _ Ku); [reflexivity|discriminate|]. intros n [<-|[]] [X|[]]. discriminate X. }
    assert (RV : forall k n, In n (map fst (requested k (Vd d))) -> ~ In n (reserved k)).
    { intros k n. rewrite req_V. destruct k; cbn [reserved]; intros Hn.
      - intros [].
      - destruct Hn as [<-|[]]. intros [X|[]]. discriminate X.
      - destruct Hn.
      - pose proof (wf_p d W) as Wp. inversion Wp; subst. intros [<-|[]]. contradiction.
      - pose proof (wf_tvp d W) as Wp. inversion Wp; subst. intros [<-|[]]. contradiction. }
    assert (ND : forall k, NoDup (map fst (requested k (Vd d)))).
    { intros k. rewrite req_V. destruct k.
      - exact DN.
      - constructor; [intros []|constructor].
      - constructor.
      - pose proof (wf_p d W) as Wp. inversion Wp; assumption.
      - pose proof (wf_tvp d W) as Wp. inversion Wp; assumption. }
    assert (FR : Forall (fun dd => match dd with DRhs n _ _ => In n (map fst (requested Kx (Vd d))) | _ => False end) (Rd inv d)).
    { apply Forall_forall. intros x Hx. rewrite req_V. rewrite <- (calls_names inv d), <- (calls_Rd inv d).
      assert (IsR : exists n e b, x = DRhs n e b).
      { unfold Rd in Hx. rewrite !in_app_iff in Hx. destruct Hx as [Hx|[Hx|Hx]]; apply in_map_iff in Hx; destruct Hx as (c & <- & _); eauto. }
      destruct IsR as (n & e & b & ->). apply in_map_iff. exists (n, e, b). split; [reflexivity|].
      apply in_flat_map. exists (DRhs n e b). split; [exact Hx|left; reflexivity]. }
    destruct (assembled_split e_zero e_plus e_nsym e_ssym struct_ok resetup struct_ok_nodup (Vd d) (Rd inv d) FV ND RV FR) as (a & A1 & A2 & A3 & A4 & A5 & A6).
    - rewrite calls_Rd, calls_names, req_V. reflexivity.
    - rewrite calls_Rd, req_V. apply calls_sizes.
    - apply req_V.
    - rewrite req_V. exact DD.
    - exists (fst (setup E e_zero e_plus e_nsym struct_ok e_ssym resetup (fun _ _ => true) (fold_left (decl_run E e_plus e_nsym) (Vd d ++ Rd inv d) (model_init E e_zero)))), a.
      split; [|split; [|split; [|split]]].
      + unfold DaeModel.dae2ode. rewrite (wf_setup d W). cbn [py_assert bind]. rewrite decls_split, A1. cbn [bind]. rewrite A2. reflexivity.
      + rewrite A4, req_V. reflexivity.
      + rewrite A5, req_V. reflexivity.
      + exact A3.
      + intros e Li. unfold rhs_at. rewrite A6, calls_Rd, req_V. apply eval_calls; [exact W|].
        unfold z_next. rewrite map2_length. unfold mv. rewrite !map_length, Li. lia.
  Qed.

  Lemma scalar_q d e : scalar_inputs d ->
    flat_map (fun jv => repeat (e_q e (fst jv)) (snd (snd jv))) (combine (seq 0 (List.length (d_u d))) (d_u d)) = q_of d e.
  Proof.
    unfold scalar_inputs, q_of. intros S.
    assert (V : vsum (d_u d) = List.length (d_u d)).
    { unfold vsum. induction S as [|v l H _ IH]; [reflexivity|]. cbn. rewrite H. change (fold_right Nat.add 0%nat) with list_sum. rewrite IH. reflexivity. }
    rewrite V. clear V. generalize 0%nat. induction S as [|v l H _ IH]; intros o; [reflexivity|].
    cbn [List.length seq combine flat_map map]. cbn [fst snd]. rewrite H. cbn. f_equal. apply IH.
  Qed.

  (** ** Linear algebra on lists *)
  Lemma dot_map2 (r : list R) : forall a b, List.length a = List.length r -> List.length b = List.length r ->
    dot r (map2 (fun x y => - x - y) a b) = - dot r a - dot r b.
  Proof.
    induction r as [|x r IH]; intros [|y a] [|z b] La Lb; try discriminate; cbn; [lra|].
    change (map (fun p : R * R => - fst p - snd p) (combine a b)) with (map2 (fun x y => - x - y) a b).
    rewrite IH by (cbn in *; lia). lra.
  Qed.
  Lemma mv_map2 M a b k : Forall (fun r => List.length r = k) M -> List.length a = k -> List.length b = k ->
    mv M (map2 (fun x y => - x - y) a b) = map2 (fun x y => - x - y) (mv M a) (mv M b).
  Proof.
    intros F La Lb. induction F as [|r M Hr _ IH]; [reflexivity|]. cbn [mv map]. rewrite map2_cons. f_equal; [|exact IH].
    apply dot_map2; congruence.
  Qed.
  Lemma cancel (a b : list R) : List.length a = List.length b ->
    vadd (vadd a b) (map2 (fun x y => - x - y) a b) = repeat 0 (List.length a).
  Proof.
    revert b. induction a as [|x a IH]; intros [|y b] L; try discriminate; [reflexivity|].
    unfold vadd in *. rewrite !map2_cons. cbn [List.length repeat]. f_equal; [lra|]. apply IH. cbn in L. lia.
  Qed.

  (** ** Noise in declaration order *)
  Lemma in_has d n : In n (d_w d) <-> has_noise d n = true.
  Proof.
    unfold has_noise. rewrite existsb_exists. split.
    - intros H. exists n. split; [exact H|apply String.eqb_refl].
    - intros (x & Hx & Ex). apply String.eqb_eq in Ex. subst. exact Hx.
  Qed.
  Definition wpart d e (l : list (string * nat)) : list R :=
    flat_map (fun v => if has_noise d (fst v) then map (e_noise e (fst v ++ "_noise")%string) (seq 0 (snd v)) else []) l.
  Definition wsize d (l : list (string * nat)) : nat := list_sum (map (fun v => if has_noise d (fst v) then snd v else 0%nat) l).
  Lemma wpart_length d e l : List.length (wpart d e l) = wsize d l.
  Proof.
    induction l as [|[n s] l IH]; [reflexivity|]. unfold wpart, wsize in *. cbn [flat_map map list_sum fold_right fst snd].
    rewrite app_length, IH. destruct (has_noise d n); [rewrite map_length, seq_length|]; reflexivity.
  Qed.
  Lemma w_offset_at d : NoDup (map fst (d_x d)) -> forall pre n s post, d_x d = (pre ++ (n, s) :: post)%list -> has_noise d n = true ->
    w_offset d (filter (has_noise d) (map fst (d_x d))) n = wsize d pre.
  Proof.
    intros ND pre n s post Ex H.
    assert (Sz : forall v, In v (d_x d) -> size_of (fst v) (d_x d) = snd v).
    { intros v Hv. eapply size_of_in; [exact e_zero|exact e_plus|exact e_ssym|exact ND|destruct v; exact Hv]. }
    assert (G : forall p q, d_x d = (p ++ q ++ (n, s) :: post)%list ->
      w_offset d (filter (has_noise d) (map fst (q ++ (n, s) :: post))) n = wsize d q).
    { intros p q. revert p. induction q as [|[k t] q IH]; intros p Ep.
      - cbn [app map filter fst]. rewrite H. cbn. rewrite String.eqb_refl. reflexivity.
      - cbn [app map filter fst]. specialize (IH (p ++ [(k, t)])%list). rewrite <- app_assoc in IH. specialize (IH Ep).
        unfold wsize in *. cbn [map fst snd list_sum fold_right]. change (fold_right Nat.add 0%nat) with list_sum.
        destruct (has_noise d k) eqn:Hk.
        + cbn [w_offset]. destruct (String.eqb_spec n k) as [->|Nk].
          * exfalso. rewrite Ep in ND. rewrite map_app in ND. apply NoDup_app_remove_l in ND. cbn in ND. inversion ND as [|? ? N1 _]; subst.
            apply N1. rewrite map_app. apply in_or_app. right. left. reflexivity.
          * rewrite IH. pose proof (Sz (k, t)) as Sk. cbn [fst snd] in Sk. rewrite Sk; [reflexivity|]. rewrite Ep. apply in_or_app. right. left. reflexivity.
        + rewrite IH. reflexivity. }
    rewrite Ex. exact (G [] pre Ex).
  Qed.
  Lemma scatter_new d e : NoDup (map fst (d_x d)) -> noise_in_order d -> scatter d (w_new d e) = noise_named d e.
  Proof.
    intros ND No. unfold scatter, noise_named.
    assert (G : forall l pre, d_x d = (pre ++ l)%list ->
      flat_map (fun v => map (fun i => if has_noise d (fst v) then nth (w_offset d (d_w d) (fst v) + i) (w_new d e) 0 else 0) (seq 0 (snd v))) l
      = flat_map (fun v => map (fun i => if has_noise d (fst v) then e_noise e (fst v ++ "_noise")%string i else 0) (seq 0 (snd v))) l).
    { induction l as [|[n s] l IH]; intros pre Ep; [reflexivity|]. cbn [flat_map fst snd]. f_equal.
      - apply map_ext_in. intros i Hi. apply in_seq in Hi. destruct (has_noise d n) eqn:Hn; [|reflexivity].
        rewrite No. rewrite (w_offset_at d ND pre n s l Ep Hn). unfold w_new. fold (wpart d e (d_x d)). rewrite Ep.
        unfold wpart. rewrite flat_map_app. fold (wpart d e pre). rewrite app_nth2; rewrite wpart_length; [|lia].
        replace (wsize d pre + i - wsize d pre)%nat with i by lia. cbn [flat_map fst snd]. rewrite Hn.
        rewrite app_nth1 by (rewrite map_length, seq_length; lia).
        rewrite (nth_indep _ 0 (e_noise e (n ++ "_noise")%string 0%nat)) by (rewrite map_length, seq_length; lia).
        rewrite map_nth. rewrite seq_nth by lia. reflexivity.
      - apply (IH (pre ++ [(n, s)])%list). rewrite <- app_assoc. exact Ep. }
    apply (G (d_x d) []). reflexivity.
  Qed.

  Lemma gather_length l v : List.length (gather l v) = vsum l.
  Proof. unfold gather, vsum. induction l as [|[n s] l IH]; [reflexivity|]. cbn. rewrite app_length, map_length, seq_length. rewrite IH. reflexivity. Qed.
  Lemma noise_length d e : List.length (noise_named d e) = vsum (d_x d).
  Proof. unfold noise_named, vsum. induction (d_x d) as [|[n s] l IH]; [reflexivity|]. cbn. rewrite app_length, map_length, seq_length. rewrite IH. reflexivity. Qed.

  (** The rate of z keeps the algebraic equations: gx x' + gu q + gz z' = 0. *)
  Lemma z_rate d e : wf_dae d -> NoDup (map fst (d_x d)) -> noise_in_order d -> inverts inv d (point d e) ->
    vadd (vadd (mv (d_gx d (point d e)) (xdot d e)) (mv (d_gu d (point d e)) (q_of d e))) (mv (d_gz d (point d e)) (z_next inv d e))
    = repeat 0 (vsum (d_z d)).
  Proof.
    intros W ND No [Li Hi]. set (P := point d e) in *.
    assert (EQ : rhs_fun d P (w_new d e) = xdot d e).
    { unfold rhs_fun, xdot. rewrite scatter_new by assumption. reflexivity. }
    unfold z_next. fold P. rewrite EQ.
    rewrite (mv_map2 _ _ _ (vsum (d_z d))); [|apply (wf_gz d W)|unfold mv; rewrite map_length; exact Li|unfold mv; rewrite map_length; exact Li].
    destruct (wf_gx d W P) as [L1 _]. destruct (wf_gu d W P) as [L2 _].
    rewrite !Hi by (unfold mv; rewrite map_length; assumption).
    rewrite cancel by (unfold mv; rewrite !map_length; congruence). unfold mv. rewrite map_length, L1. reflexivity.
  Qed.

  (** C48 (partial): for every well-formed DAE model with distinct names, scalar inputs and noise declared
      in state order, the conversion succeeds; the new model has the old states, inputs and algebraic
      states (in this order) as states and one input vector q with as many entries as the old
      model had inputs; its right-hand side is f (with the noise of each state) for x, q for the
      inputs, and for z a rate under which the algebraic equations do not change to first order. *)
  Theorem C48_dae2ode_partial : forall d, wf_dae d -> distinct_names d -> scalar_inputs d ->
    exists m a, dae2ode d = Ok m /\ vx m = (d_x d ++ d_u d ++ d_z d)%list
      /\ vu m = [("default"%string, 0%nat); ("q"%string, vsum (d_u d))] /\ functions m = Ok a
      /\ forall e, inverts inv d (point d e) ->
         exists zd, rhs_at a e = (xdot d e ++ map (e_q e) (seq 0 (vsum (d_u d))) ++ zd)%list /\ List.length zd = vsum (d_z d)
           /\ (noise_in_order d ->
               vadd (vadd (mv (d_gx d (point d e)) (xdot d e)) (mv (d_gu d (point d e)) (map (e_q e) (seq 0 (vsum (d_u d))))))
                    (mv (d_gz d (point d e)) zd) = repeat 0 (vsum (d_z d))).
  Proof.
    intros d W DN S. destruct (dae2ode_ok d W DN) as (m & a & M1 & M2 & M3 & M4 & M5).
    exists m, a. split; [exact M1|]. split; [exact M2|]. split; [exact M3|]. split; [exact M4|].
    intros e Hi. exists (z_next inv d e). split; [|split].
    - rewrite (M5 e) by apply Hi. rewrite (scalar_q d e S). reflexivity.
    - apply z_next_length; assumption.
    - intros No. apply z_rate; try assumption. destruct DN as [DN _]. rewrite map_app in DN. eapply NoDup_app_remove_r. exact DN.
  Qed.

  (** C48 (refuted): a model with an input of two or more entries is converted without complaint,
      but the rates of the inputs are not the entries of q. *)
  Theorem C48_vector_input_refuted : forall d n s, wf_dae d -> distinct_names d -> In (n, s) (d_u d) -> (2 <= s)%nat ->
    (forall P, List.length (inv (d_gz d P)) = vsum (d_z d)) ->
    exists m a e, dae2ode d = Ok m /\ functions m = Ok a /\
      firstn (vsum (d_u d)) (skipn (vsum (d_x d)) (rhs_at a e)) <> map (e_q e) (seq 0 (vsum (d_u d))).
  Proof.
    intros d n s W DN I2 S2 Li. destruct (dae2ode_ok d W DN) as (m & a & M1 & M2 & M3 & M4 & M5).
    exists m, a, (mkEnv (fun _ _ => 0) INR (fun _ _ => 0) (fun _ _ => 0) (fun _ _ => 0)).
    split; [exact M1|]. split; [exact M4|]. set (e := mkEnv _ _ _ _ _). rewrite (M5 e (Li _)).
    assert (Lx : List.length (xdot d e) = vsum (d_x d)).
    { unfold xdot. rewrite map2_length, (wf_f d W), noise_length. lia. }
    set (U := flat_map _ _).
    assert (Lu : List.length U = vsum (d_u d)).
    { unfold U, vsum. clear. generalize 0%nat at 1. induction (d_u d) as [|[k t] l IH]; intros o; [reflexivity|].
      cbn [List.length seq combine flat_map map list_sum fold_right fst snd]. rewrite app_length, repeat_length.
      change (fold_right Nat.add 0%nat) with list_sum. rewrite <- (IH (Datatypes.S o)). reflexivity. }
    rewrite <- Lx. rewrite skipn_app, skipn_all, Nat.sub_diag. cbn [app skipn]. rewrite <- Lu at 1.
    rewrite firstn_app, firstn_all, Nat.sub_diag. cbn [firstn]. rewrite app_nil_r.
    intros X. assert (ND : NoDup U).
    { rewrite X. apply FinFun.Injective_map_NoDup; [|apply seq_NoDup]. intros i j. apply INR_eq. }
    unfold U in ND. clear - ND I2 S2. revert ND. generalize 0%nat. induction (d_u d) as [|[k t] l IH]; intros o ND; [contradiction|].
    cbn [List.length seq combine flat_map fst snd] in ND. destruct I2 as [X|X].
    - injection X as -> ->. destruct s as [|[|s]]; try lia. cbn in ND. inversion ND as [|? ? N _]; subst. apply N. left. reflexivity.
    - apply (IH X (Datatypes.S o)). apply NoDup_app_remove_l in ND. exact ND.
  Qed.

  (** C48 (refuted): an input and a state (or algebraic state) of the same name, which a Model allows,
      make the conversion raise. *)
  Theorem C48_name_clash_refuted : forall d, ~ NoDup (map fst (d_x d ++ d_u d ++ d_z d)) -> is_ok (dae2ode d) = false.
  Proof.
    intros d ND. unfold DaeModel.dae2ode. destruct (d_setup d); [|reflexivity]. cbn [py_assert bind].
    rewrite decls_split. unfold Vd. rewrite <- app_assoc. rewrite foldM_app.
    match goal with |- context [bind (foldM ?f ?l ?i) _] => destruct (foldM f l i) as [m|] eqn:Em end; [|reflexivity].
    exfalso. apply ND. revert Em. generalize (d_x d ++ d_u d ++ d_z d)%list. intros l Em.
    assert (G : forall l (m0 m : model E), ph m0 = Building -> NoDup (map fst (vx m0)) ->
      foldM (decl_call E e_plus e_nsym) (map (fun v => DVar "_x" (fst v) (snd v)) l) m0 = Ok m -> NoDup (map fst (vx m0 ++ l))).
    { clear. induction l as [|[n s] l IH]; intros m0 m P N0 Em; [rewrite app_nil_r; exact N0|].
      cbn [map foldM decl_call fst snd] in Em. unfold set_variable in Em. rewrite P in Em.
      change (kind_of "_x") with (Ok Kx) in Em. cbn [bind vars] in Em.
      destruct (mem_name n (vx m0)) eqn:Mn; [discriminate|].
      assert (Hn : ~ In n (map fst (vx m0))).
      { intros X. unfold mem_name, names in Mn. apply Bool.not_true_iff_false in Mn. apply Mn. apply existsb_exists. exists n. split; [exact X|apply String.eqb_refl]. }
      destruct m0 as [x u z p t w v y ae ye rl al f]. cbn [add_var vx ph] in *.
      specialize (IH (mkModel (x ++ [(n, s)])%list u z p t w v y ae ye rl al f) m P). cbn [vx] in IH.
      rewrite <- app_assoc in IH. apply IH; [|exact Em]. rewrite map_app. cbn [map fst].
      rewrite <- (rev_involutive (map fst x ++ [n])). apply NoDup_rev. rewrite rev_app_distr. cbn. constructor.
      - intros X. apply in_rev in X. contradiction.
      - apply NoDup_rev. exact N0. }
    apply (G l (model_init E e_zero) m); [reflexivity|constructor|exact Em].
  Qed.

  Lemma gather_app l1 l2 v : gather (l1 ++ l2) v = (gather l1 v ++ gather l2 v)%list.
  Proof. apply flat_map_app. Qed.

  (** C48 (partial): along every solution of the converted ODE the algebraic equations keep their value
      (so a consistent start stays consistent), whatever the new input q and the noise do. *)
  Theorem C48_consistency_partial : forall d m a, wf_dae d -> distinct_names d -> scalar_inputs d -> noise_in_order d -> jacobian d ->
    dae2ode d = Ok m -> functions m = Ok a ->
    forall c : R -> env, follows d a c -> (forall t, inverts inv d (point d (c t))) ->
    forall k t, nth k (d_g d (point d (c t))) 0 = nth k (d_g d (point d (c 0))) 0.
  Proof.
    intros d m a W DN S No J Hm Ha c Fo Hi k.
    destruct (C48_dae2ode_partial d W DN S) as (m' & a' & M1 & _ & _ & M4 & M5).
    rewrite Hm in M1. injection M1 as <-. rewrite Ha in M4. injection M4 as <-.
    assert (D : forall t, derivable_pt_lim (fun s => nth k (d_g d (point d (c s))) 0) t 0).
    { intros t. destruct (M5 (c t) (Hi t)) as (zd & Rh & Lz & Z). specialize (Z No).
      destruct (Fo t) as [F1 F2]. rewrite Rh in F1.
      assert (Lx : List.length (xdot d (c t)) = vsum (d_x d)).
      { unfold xdot. rewrite map2_length, (wf_f d W), noise_length. lia. }
      assert (Lq : List.length (map (e_q (c t)) (seq 0 (vsum (d_u d)))) = vsum (d_u d)) by (rewrite map_length, seq_length; reflexivity).
      assert (Sh : forall (l1 l2 : list R) n i, List.length l1 = n -> nth (n + i) (l1 ++ l2)%list 0 = nth i l2 0).
      { intros l1 l2 n i <-. rewrite app_nth2 by lia. f_equal. lia. }
      assert (Out : forall (f : R -> list R) v n i, (forall s, List.length (f s) = n) -> List.length v = n -> (n <= i)%nat -> derivable_pt_lim (fun s => nth i (f s) 0) t (nth i v 0)).
      { intros f v n i Hf Hv Hn. rewrite nth_overflow by lia. apply (derivable_pt_lim_ext (fun _ => 0)); [|apply derivable_pt_lim_const].
        intros s. rewrite nth_overflow; [reflexivity|rewrite Hf; lia]. }
      assert (K := J (fun s => point d (c s)) t (xdot d (c t)) (map (e_q (c t)) (seq 0 (vsum (d_u d)))) zd).
      specialize (K ltac:(intros s; cbn [point px pu pz ptvp pp]; rewrite !gather_length; destruct (F2 s) as [? ?]; auto) Lx Lq Lz).
      cbn beta in K. rewrite Z in K.
      assert (N0 : nth k (repeat 0 (vsum (d_z d))) 0 = 0) by apply nth_repeat0. enough (G0 : derivable_pt_lim (fun s => nth k (d_g d (point d (c s))) 0) t (nth k (repeat 0 (vsum (d_z d))) 0)) by (rewrite N0 in G0; exact G0).
      apply K; clear K Z N0; cbn [point px pu pz]; intros i.
      - destruct (Nat.lt_ge_cases i (vsum (d_x d))) as [Hlt|Hge]; [|apply (Out _ _ (vsum (d_x d))); [intros; apply gather_length|exact Lx|exact Hge]].
        specialize (F1 i). rewrite app_nth1 in F1 by lia. eapply derivable_pt_lim_ext; [|exact F1].
        intros s. cbn beta. rewrite gather_app, app_nth1; [reflexivity|rewrite gather_length; exact Hlt].
      - destruct (Nat.lt_ge_cases i (vsum (d_u d))) as [Hlt|Hge]; [|apply (Out _ _ (vsum (d_u d))); [intros; apply gather_length|exact Lq|exact Hge]].
        specialize (F1 (vsum (d_x d) + i)%nat). rewrite (Sh _ _ _ _ Lx) in F1. rewrite app_nth1 in F1 by lia.
        eapply derivable_pt_lim_ext; [|exact F1]. intros s. cbn beta. rewrite !gather_app.
        rewrite (Sh _ _ _ _ (gather_length (d_x d) (e_s (c s)))), app_nth1; [reflexivity|rewrite gather_length; exact Hlt].
      - destruct (Nat.lt_ge_cases i (vsum (d_z d))) as [Hlt|Hge]; [|apply (Out _ _ (vsum (d_z d))); [intros; apply gather_length|exact Lz|exact Hge]].
        specialize (F1 (vsum (d_x d) + (vsum (d_u d) + i))%nat). rewrite (Sh _ _ _ _ Lx), (Sh _ _ _ _ Lq) in F1.
        eapply derivable_pt_lim_ext; [|exact F1]. intros s. cbn beta. rewrite !gather_app.
        rewrite (Sh _ _ _ _ (gather_length (d_x d) (e_s (c s)))), (Sh _ _ _ _ (gather_length (d_u d) (e_s (c s)))). reflexivity. }
    pose (pr := (fun t => exist _ 0 (D t)) : derivable (fun s => nth k (d_g d (point d (c s))) 0)).
    assert (C := null_derivative_1 _ pr). intros t. apply C. intros x. reflexivity.
  Qed.
End P.
Print Assumptions C48_dae2ode_partial.
Print Assumptions C48_vector_input_refuted.
Print Assumptions C48_name_clash_refuted.
Print Assumptions C48_consistency_partial.
