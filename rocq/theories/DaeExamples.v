(** * C48: examples and the refutations on concrete models. *)
From Coq Require Import Reals Lra.
From Verif Require Import Base MdlModel DaeModel DaeSpec DaeProofs DaeProofs2 DaeProps.
Import List.
Local Open Scope R_scope.

Definition h0 (l : list R) : R := nth 0 l 0.
(** x' = u, 0 = z - x^2. *)
Definition ex1 : dae :=
  mkDae true [("x"%string, 1%nat)] [("u"%string, 1%nat)] [("z"%string, 1%nat)] [] [] []
    (fun P => [h0 (pu P)]) (fun P => [h0 (pz P) - h0 (px P) * h0 (px P)])
    (fun P => [[- 2 * h0 (px P)]]) (fun _ => [[0]]) (fun _ => [[1]]).
Definition idinv (M : list (list R)) := M.
Lemma nd_default : NoDup ["default"%string]. Proof. constructor; [intros []|constructor]. Qed.
Ltac wf_tac := split; [reflexivity|apply nd_default|apply nd_default|cbn; tauto| | | |]; intros P; cbn; auto.
Lemma ex1_wf : wf_dae ex1. Proof. wf_tac. Qed.
Lemma ex1_distinct : distinct_names ex1.
Proof.
  split; cbn.
  - repeat constructor; cbn; intuition discriminate.
  - intuition discriminate.
Qed.
Lemma ex1_inverts P : inverts idinv ex1 P.
Proof.
  split; [reflexivity|]. intros [|a [|b v]] L; try discriminate. cbn. f_equal. ring.
Qed.
Lemma ex1_jac : jacobian ex1.
Proof.
  intros P t dx du dz Sh Lx Lu Lz Hx Hu Hz k. cbn [ex1 d_g d_gx d_gu d_gz].
  destruct dx as [|ax [|? ?]]; try discriminate. destruct du as [|au [|? ?]]; try discriminate. destruct dz as [|az [|? ?]]; try discriminate.
  destruct k as [|k].
  - cbn. specialize (Hx 0%nat). specialize (Hz 0%nat). cbn in Hx, Hz. unfold h0.
    replace (-2 * nth 0 (px (P t)) 0 * ax + 0 + (0 * au + 0) + (1 * az + 0))
      with (az - (ax * nth 0 (px (P t)) 0 + nth 0 (px (P t)) 0 * ax)) by ring.
    apply (derivable_pt_lim_minus (fun s => nth 0 (pz (P s)) 0) (fun s => nth 0 (px (P s)) 0 * nth 0 (px (P s)) 0)); [exact Hz|].
    apply (derivable_pt_lim_mult (fun s => nth 0 (px (P s)) 0) (fun s => nth 0 (px (P s)) 0)); exact Hx.
  - replace (nth (Datatypes.S k) _ 0) with 0 by (cbn; destruct k; reflexivity).
    apply (derivable_pt_lim_ext (fun _ => 0)); [|apply derivable_pt_lim_const]. intros s. cbn. destruct k; reflexivity.
Qed.

Section Ex.
  Variable struct_ok : list string -> bool.
  Variable resetup : model E -> model E * res unit.
  Hypothesis struct_ok_nodup : forall l, NoDup l -> struct_ok l = true.

  (** The hypotheses of C48_dae2ode_partial and C48_consistency_partial are met by a non-trivial model and
      solution: x = t, u = 1, z = t^2. *)
  Example C48_nonvacuous :
    wf_dae ex1 /\ distinct_names ex1 /\ scalar_inputs ex1 /\ noise_in_order ex1 /\ jacobian ex1 /\
    exists m a c, dae2ode idinv struct_ok resetup ex1 = Ok m /\ functions m = Ok a /\ follows ex1 a c
      /\ (forall t, inverts idinv ex1 (point ex1 (c t))) /\ e_s (c 2) "z"%string 0%nat = 4.
  Proof.
    split; [exact ex1_wf|]. split; [exact ex1_distinct|]. split; [constructor; [reflexivity|constructor]|].
    split; [reflexivity|]. split; [exact ex1_jac|].
    destruct (C48_dae2ode_partial idinv struct_ok resetup struct_ok_nodup ex1 ex1_wf ex1_distinct) as (m & a & M1 & _ & _ & M4 & M5);
      [constructor; [reflexivity|constructor]|].
    exists m, a, (fun t => mkEnv (fun n _ => if String.eqb n "x" then t else if String.eqb n "u" then 1 else t * t) (fun _ => 0) (fun _ _ => 0) (fun _ _ => 0) (fun _ _ => 0)).
    split; [exact M1|]. split; [exact M4|]. split; [|split; [intros t; apply ex1_inverts|cbn; lra]].
    intros t. split; [|intros s; split; reflexivity].
    set (e := mkEnv _ _ _ _ _). destruct (M5 e (ex1_inverts _)) as (zd & Rh & Lz & Z). specialize (Z eq_refl).
    destruct zd as [|z' [|? ?]]; try discriminate. cbn in Z. injection Z as Z. unfold h0 in Z. cbn in Z.
    assert (Ez : z' = t + t) by lra. subst z'. rewrite Rh.
    intros i. destruct i as [|[|[|i]]]; cbn.
    - apply (derivable_pt_lim_ext id); [reflexivity|]. replace (1 + 0) with 1 by ring. apply derivable_pt_lim_id.
    - apply (derivable_pt_lim_ext (fun _ => 1)); [reflexivity|apply derivable_pt_lim_const].
    - apply (derivable_pt_lim_ext (fun s => id s * id s)); [reflexivity|].
      replace (t + t) with (1 * id t + id t * 1) by (unfold id; ring).
      apply (derivable_pt_lim_mult id id); apply derivable_pt_lim_id.
    - apply (derivable_pt_lim_ext (fun _ => 0)); [destruct i; reflexivity|]. destruct i; apply derivable_pt_lim_const.
  Qed.

  (** x' = 2 components in one input: hypotheses of C48_vector_input_refuted. *)
  Definition ex2 : dae :=
    mkDae true [("x"%string, 1%nat)] [("u"%string, 2%nat)] [] [] [] []
      (fun P => [h0 (pu P)]) (fun P => []) (fun P => []) (fun _ => []) (fun _ => []).
  Example C48_nonvacuous_vector : wf_dae ex2 /\ distinct_names ex2 /\ In ("u"%string, 2%nat) (d_u ex2)
    /\ (forall P, List.length (idinv (d_gz ex2 P)) = vsum (d_z ex2)).
  Proof.
    split; [wf_tac|]. split; [|split; [left; reflexivity|reflexivity]].
    split; cbn; [repeat constructor; cbn; intuition discriminate|intuition discriminate].
  Qed.

  (** C48 (refuted): when the process noise was declared in another order than the states, the rate of z
      uses the noise of the wrong state: x1' = w1, x2' = w2, 0 = z - x1, noise declared for x2 first. *)
  Definition ex3 : dae :=
    mkDae true [("x1"%string, 1%nat); ("x2"%string, 1%nat)] [] [("z"%string, 1%nat)] [] [] ["x2"; "x1"]%string
      (fun P => [0; 0]) (fun P => [h0 (pz P) - h0 (px P)]) (fun P => [[-1; 0]]) (fun _ => [[]]) (fun _ => [[1]]).
  Lemma ex3_wf : wf_dae ex3. Proof. wf_tac. Qed.
  Theorem C48_noise_order_refuted : wf_dae ex3 /\ distinct_names ex3 /\ scalar_inputs ex3 /\
    exists m a e, dae2ode idinv struct_ok resetup ex3 = Ok m /\ functions m = Ok a /\ inverts idinv ex3 (point ex3 e) /\
      rhs_at a e = [1; 0; 0].
  Proof.
    assert (DN : distinct_names ex3).
    { split; cbn; [repeat constructor; cbn; intuition discriminate|intuition discriminate]. }
    split; [exact ex3_wf|]. split; [exact DN|]. split; [constructor|].
    destruct (dae2ode_ok idinv struct_ok resetup struct_ok_nodup ex3 ex3_wf DN) as (m & a & M1 & _ & _ & M4 & M5).
    exists m, a, (mkEnv (fun _ _ => 0) (fun _ => 0) (fun _ _ => 0) (fun _ _ => 0) (fun n _ => if String.eqb n "x1_noise" then 1 else 0)).
    split; [exact M1|]. split; [exact M4|]. split.
    - split; [reflexivity|]. intros [|x [|? ?]] L; try discriminate. cbn. f_equal. ring.
    - rewrite M5 by reflexivity. cbn. repeat f_equal; lra.
  Qed.

  (** C48 (refuted): for a discrete-time model the same formula is used for the next value of z, and the next
      state violates the algebraic equation: x+ = x + 1, 0 = z - x^2, started consistently at x = 2. *)
  Definition ex4 : dae :=
    mkDae true [("x"%string, 1%nat)] [] [("z"%string, 1%nat)] [] [] []
      (fun P => [h0 (px P) + 1]) (fun P => [h0 (pz P) - h0 (px P) * h0 (px P)])
      (fun P => [[- 2 * h0 (px P)]]) (fun _ => [[]]) (fun _ => [[1]]).
  Theorem C48_discrete_refuted : wf_dae ex4 /\ distinct_names ex4 /\ noise_in_order ex4 /\
    exists m a e, dae2ode idinv struct_ok resetup ex4 = Ok m /\ functions m = Ok a /\ d_g ex4 (point ex4 e) = [0] /\
      exists x' z', rhs_at a e = [x'; z'] /\ d_g ex4 (mkPt [x'] [] [z'] [] []) <> [0].
  Proof.
    assert (W : wf_dae ex4) by wf_tac.
    assert (DN : distinct_names ex4).
    { split; cbn; [repeat constructor; cbn; intuition discriminate|intuition discriminate]. }
    split; [exact W|]. split; [exact DN|]. split; [reflexivity|].
    destruct (dae2ode_ok idinv struct_ok resetup struct_ok_nodup ex4 W DN) as (m & a & M1 & _ & _ & M4 & M5).
    exists m, a, (mkEnv (fun n _ => if String.eqb n "x" then 2 else 4) (fun _ => 0) (fun _ _ => 0) (fun _ _ => 0) (fun _ _ => 0)).
    split; [exact M1|]. split; [exact M4|]. split; [cbn; unfold h0; cbn; f_equal; lra|].
    rewrite M5 by reflexivity. cbn. eexists. eexists. split; [reflexivity|]. unfold h0. cbn. intros X. injection X as X. lra.
  Qed.

  (** The situation of C48_name_clash_refuted: a state and an input called "T". *)
  Example C48_nonvacuous_clash :
    let d := mkDae true [("T"%string, 1%nat)] [("T"%string, 1%nat)] [] [] [] []
      (fun P => [h0 (pu P)]) (fun P => []) (fun P => []) (fun _ => []) (fun _ => []) in
    wf_dae d /\ ~ NoDup (map fst (d_x d ++ d_u d ++ d_z d)).
  Proof.
    split; [wf_tac|]. cbn. intros X. inversion X as [|? ? N _]; subst. apply N. left. reflexivity.
  Qed.
End Ex.
Print Assumptions C48_noise_order_refuted.
Print Assumptions C48_discrete_refuted.
