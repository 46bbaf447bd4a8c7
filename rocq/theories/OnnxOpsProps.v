(** * Theorems about the ONNX operations: C74. *)
From Coq Require Import Reals ZArith Lra.
From Verif Require Import Base OnnxModel OnnxSpec OnnxProofs.
Set Implicit Arguments.
Local Open Scope string_scope.
Local Open Scope R_scope.

(** ** C74: the activation functions, entry by entry. *)
Theorem C74_activations : forall x,
  (forall i j, m_e (op_Relu x) i j = if Rlt_dec 0 (m_e x i j) then m_e x i j else 0)
  /\ (forall i j, m_e (op_Sigmoid x) i j = / (1 + exp (- m_e x i j)))
  /\ (forall i j, m_e (op_Tanh x) i j = (exp (m_e x i j) - exp (- m_e x i j)) / (exp (m_e x i j) + exp (- m_e x i j)))
  /\ (forall a i j, m_e (op_Elu x a) i j = if Rlt_dec (m_e x i j) 0 then exp (m_e x i j) - 1 else m_e x i j)
  /\ forall y a, In y [op_Relu x; op_Sigmoid x; op_Tanh x; op_Elu x a] -> m_r y = m_r x /\ m_c y = m_c x.
Proof.
  intros x. split; [|split; [|split; [|split]]].
  - intros i j. cbn. unfold Rmax. destruct (Rle_dec 0 (m_e x i j)), (Rlt_dec 0 (m_e x i j)); lra.
  - intros i j. cbn. unfold Rdiv. lra.
  - intros i j. cbn. unfold tanh, sinh, cosh, Rdiv.
    assert (0 < exp (m_e x i j)) by apply exp_pos. assert (0 < exp (- m_e x i j)) by apply exp_pos. field. lra.
  - intros a i j. cbn. set (t := m_e x i j). unfold Rmax, Rmin.
    destruct (Rlt_dec t 0) as [H|H].
    + assert (exp t < 1) by (rewrite <- exp_0; now apply exp_increasing).
      destruct (Rle_dec 0 t), (Rle_dec 0 (exp t - 1)); lra.
    + assert (1 <= exp t). { destruct (Req_dec t 0) as [->|Hn]; [rewrite exp_0; lra|]. left; rewrite <- exp_0; apply exp_increasing; lra. }
      destruct (Rle_dec 0 t), (Rle_dec 0 (exp t - 1)); lra.
  - intros y a [<-|[<-|[<-|[<-|[]]]]]; auto.
Qed.
Print Assumptions C74_activations.

(** ** C74 (refuted): Elu ignores its attribute alpha; for every alpha other than 1 every negative entry
    is wrong. *)
Theorem C74_elu_refuted : forall x alpha i j, alpha <> 1 -> m_e x i j < 0 ->
  m_e (op_Elu x [("alpha", AFlt alpha)]) i j <> alpha * (exp (m_e x i j) - 1).
Proof.
  intros x alpha i j Ha Hx. rewrite (proj1 (proj2 (proj2 (proj2 (C74_activations x))))).
  destruct (Rlt_dec (m_e x i j) 0) as [_|]; [|lra].
  assert (exp (m_e x i j) < 1) by (rewrite <- exp_0; now apply exp_increasing).
  intros E. apply Ha. apply (Rmult_eq_reg_r (exp (m_e x i j) - 1)); lra.
Qed.
Print Assumptions C74_elu_refuted.

Lemma scalar_dims a : is_scalar a = true <-> m_r a = 1%nat /\ m_c a = 1%nat.
Proof. unfold is_scalar. rewrite andb_true_iff, !Nat.eqb_eq. tauto. Qed.

(** ** C74: Add, Sub and Mul of two matrices: when ONNX defines the result (broadcastable operands) and the
    operation does not raise, it is the broadcast result; it never raises for equal shapes or with a
    1x1 operand. *)
Lemma bdim_1l n : bdim 1 n = Some n.
Proof. unfold bdim. destruct (Nat.eqb_spec 1 n) as [<-|]; auto. Qed.
Lemma bdim_1r n : bdim n 1 = Some n.
Proof. unfold bdim. destruct (Nat.eqb_spec n 1) as [->|]; auto. Qed.
Lemma bdim_refl n : bdim n n = Some n.
Proof. unfold bdim. now rewrite Nat.eqb_refl. Qed.
Lemma bdim_ne a b : a <> b -> bdim a b <> None -> a = 1%nat \/ b = 1%nat.
Proof. unfold bdim. destruct (Nat.eqb_spec a b); [congruence|]. destruct (Nat.eqb_spec a 1); auto. destruct (Nat.eqb_spec b 1); auto. congruence. Qed.
Lemma bidx_lt n i : (i < n)%nat -> bidx n i = i.
Proof. unfold bidx. destruct (Nat.eqb_spec n 1); lia. Qed.
Lemma bidx_1 i : bidx 1 i = 0%nat. Proof. reflexivity. Qed.

Lemma binop_broadcast f a b out : broadcastable a b -> binop f a b = Ok out -> is_broadcast f a b out.
Proof.
  intros [B1 B2] H. unfold binop in H. unfold is_broadcast.
  destruct (is_scalar a) eqn:Sa; [|destruct (is_scalar b) eqn:Sb; [|destruct (shape_eqb a b) eqn:Sh]].
  - apply scalar_dims in Sa as [R1 C1]. injection H as <-. cbn [m_r m_c m_e]. rewrite R1, C1, !bdim_1l.
    split; [auto|split; [auto|]]. intros i j Hi Hj. now rewrite !bidx_1, !bidx_lt by auto.
  - apply scalar_dims in Sb as [R1 C1]. injection H as <-. cbn [m_r m_c m_e]. rewrite R1, C1, !bdim_1r.
    split; [auto|split; [auto|]]. intros i j Hi Hj. now rewrite !bidx_1, !bidx_lt by auto.
  - unfold shape_eqb in Sh. apply andb_true_iff in Sh as [E1 E2]. apply Nat.eqb_eq in E1, E2. injection H as <-. cbn [m_r m_c m_e].
    rewrite <- E1, <- E2, !bdim_refl. split; [auto|split; [auto|]]. intros i j Hi Hj. now rewrite !bidx_lt by auto.
  - destruct (_ || _)%bool eqn:Z in H; [discriminate|]. rewrite !orb_false_iff, !Nat.eqb_neq in Z.
    destruct Z as [[[Z1 Z2] Z3] Z4].
    unfold shape_eqb in Sh.
    destruct (Nat.eqb_spec (m_r a) (m_r b)) as [Er|]; simpl in H; [|discriminate]. simpl in Sh. apply Nat.eqb_neq in Sh.
    destruct (bdim_ne Sh B2) as [C1|C1].
    + rewrite C1 in H.
      destruct (Nat.eqb_spec (1 mod m_c b) 0) as [Mo|_].
      { rewrite Nat.mod_small in Mo by lia. discriminate. }
      rewrite Nat.mod_1_r in H. simpl in H. injection H as <-. cbn [m_r m_c m_e].
      rewrite C1, Er, bdim_refl, bdim_1l. split; [auto|split; [auto|]]. intros i j Hi Hj. now rewrite bidx_1, !bidx_lt by auto.
    + rewrite C1, Nat.mod_1_r in H. simpl in H. injection H as <-. cbn [m_r m_c m_e].
      rewrite C1, Er, bdim_refl, bdim_1r. split; [auto|split; [auto|]]. intros i j Hi Hj. rewrite bidx_1, !bidx_lt by lia.
      reflexivity.
Qed.

Theorem C74_elementwise : forall a b, broadcastable a b ->
  (forall out, op_Sub [a; b] = Ok out -> is_broadcast Rminus a b out)
  /\ (forall out, op_Mul [a; b] = Ok out -> is_broadcast Rmult a b out)
  /\ (forall out, op_Add [a; b] = Ok out -> is_broadcast Rplus a b out)
  /\ ((m_r a = m_r b /\ m_c a = m_c b) \/ (m_r a = 1%nat /\ m_c a = 1%nat) \/ (m_r b = 1%nat /\ m_c b = 1%nat) ->
      (exists out, op_Sub [a; b] = Ok out) /\ (exists out, op_Mul [a; b] = Ok out) /\ (exists out, op_Add [a; b] = Ok out)).
Proof.
  intros a b B. split; [|split; [|split]].
  - intros out H; now apply binop_broadcast.
  - intros out H; now apply binop_broadcast.
  - intros out H. unfold op_Add in H. cbn [foldM] in H. unfold binop at 1 in H. simpl in H.
    destruct (binop Rplus _ b) as [o|] eqn:E; [|discriminate]. injection H as ->.
    apply binop_broadcast in E; [|exact B]. destruct E as [E1 [E2 E3]]. split; [exact E1|split; [exact E2|]].
    intros i j Hi Hj. rewrite E3 by auto. simpl. lra.
  - intros H. assert (G : forall f a', m_r a' = m_r a -> m_c a' = m_c a -> exists out, binop f a' b = Ok out).
    { intros f a' Hr Hc. unfold binop. destruct (is_scalar a') eqn:Sa; [eauto|]. destruct (is_scalar b) eqn:Sb; [eauto|].
      unfold shape_eqb. rewrite Hr, Hc. destruct H as [[-> ->]|[[H1 H2]|H]].
      - rewrite !Nat.eqb_refl. simpl; eauto.
      - exfalso. assert (is_scalar a' = true) by (apply scalar_dims; lia). congruence.
      - exfalso. apply scalar_dims in H. congruence. }
    split; [apply G; auto|split; [apply G; auto|]]. unfold op_Add. cbn [foldM]. unfold binop at 1; simpl.
    match goal with |- context [binop Rplus ?x b] => destruct (G Rplus x) as [o Ho]; auto; rewrite Ho end. eauto.
Qed.
Print Assumptions C74_elementwise.

(** Add and Sum of any number of matrices of the same shape. *)
Theorem C74_sum : forall l r c, l <> [] -> (forall m, In m l -> m_r m = r /\ m_c m = c) ->
  exists out, op_Add l = Ok out /\ m_r out = r /\ m_c out = c
    /\ forall i j, (i < r)%nat -> (j < c)%nat -> m_e out i j = fold_right Rplus 0 (map (fun m => m_e m i j) l).
Proof.
  assert (G : forall l acc, (forall m, In m l -> m_r m = m_r acc /\ m_c m = m_c acc) ->
    exists out, foldM (fun out arg => binop Rplus out arg) l acc = Ok out /\ m_r out = m_r acc /\ m_c out = m_c acc
      /\ forall i j, (i < m_r acc)%nat -> (j < m_c acc)%nat -> m_e out i j = m_e acc i j + fold_right Rplus 0 (map (fun m => m_e m i j) l)).
  { induction l as [|m l IH]; intros acc H; [exists acc; split; auto; split; auto; split; auto; intros; simpl; lra|].
    destruct (H m (or_introl eq_refl)) as [Hr Hc]. cbn [foldM].
    assert (B : exists o, binop Rplus acc m = Ok o /\ m_r o = m_r acc /\ m_c o = m_c acc
              /\ forall i j, (i < m_r acc)%nat -> (j < m_c acc)%nat -> m_e o i j = m_e acc i j + m_e m i j).
    { unfold binop. destruct (is_scalar acc) eqn:S1.
      - apply scalar_dims in S1 as [E1 E2]. eexists; split; [reflexivity|]. simpl. split; [congruence|split; [congruence|]].
        intros i j Hi Hj. replace i with 0%nat by lia. replace j with 0%nat by lia. auto.
      - destruct (is_scalar m) eqn:S2; [apply scalar_dims in S2 as [E1 E2]; exfalso; assert (is_scalar acc = true) by (apply scalar_dims; lia); congruence|].
        unfold shape_eqb. rewrite Hr, Hc, !Nat.eqb_refl. simpl. eexists; split; [reflexivity|]. simpl; auto. }
    destruct B as [o [-> [O1 [O2 O3]]]]. destruct (IH o) as [out [E [P1 [P2 P3]]]].
    { intros m' Hm'. rewrite O1, O2. apply H; right; auto. }
    exists out; split; auto. split; [congruence|split; [congruence|]]. intros i j Hi Hj.
    rewrite P3 by lia. rewrite O3 by auto. simpl. lra. }
  intros l r c Hne H. destruct l as [|m l]; [congruence|]. clear Hne.
  destruct (H m (or_introl eq_refl)) as [Hr Hc]. unfold op_Add. cbn [foldM]. unfold binop at 1; simpl.
  set (acc := mkMat (m_r m) (m_c m) (fun i j => 0 + m_e m i j)).
  destruct (G l acc) as [out [E [P1 [P2 P3]]]].
  { intros m' Hm'. simpl. rewrite Hr, Hc. apply H; right; auto. }
  exists out. split; auto. simpl in P1, P2. split; [congruence|split; [congruence|]]. intros i j Hi Hj.
  rewrite P3 by (simpl; lia). simpl. lra.
Qed.
Print Assumptions C74_sum.

(** ** C74 (refuted): a row of more than one entry is not spread over the rows of a matrix, as ONNX demands:
    the operation raises. *)
Theorem C74_row_refuted : forall a b, m_r a = 1%nat -> (1 < m_r b)%nat -> (1 < m_c a)%nat -> m_c a = m_c b ->
  broadcastable a b /\ op_Add [a; b] = Err ExcGeneric /\ op_Mul [a; b] = Err ExcGeneric /\ op_Sub [b; a] = Err ExcGeneric.
Proof.
  intros a b Ha Hb Hc E.
  assert (B : forall f x y, (m_r x = 1%nat /\ m_c x = m_c a /\ m_r y = m_r b /\ m_c y = m_c a)
                         \/ (m_r x = m_r b /\ m_c x = m_c a /\ m_r y = 1%nat /\ m_c y = m_c a) -> binop f x y = Err ExcGeneric).
  { intros f x y H. unfold binop, is_scalar, shape_eqb.
    destruct H as [(-> & -> & -> & ->)|(-> & -> & -> & ->)].
    all: destruct (Nat.eqb_spec (m_c a) 1); [lia|]; destruct (Nat.eqb_spec (m_r b) 1); [lia|].
    all: rewrite ?andb_false_r; simpl; destruct (Nat.eqb_spec 1 (m_r b)); [lia|].
    all: destruct (m_r b) as [|[|n']]; try lia; simpl; destruct (_ || _)%bool; auto. }
  split; [|split; [|split]].
  - split; unfold bdim.
    + rewrite Ha. destruct (Nat.eqb 1 (m_r b)); simpl; discriminate.
    + rewrite E, Nat.eqb_refl; discriminate.
  - unfold op_Add. cbn [foldM]. unfold binop at 1; simpl. rewrite B; auto.
  - unfold op_Mul. apply B. left; auto.
  - unfold op_Sub. apply B. right; auto.
Qed.
Print Assumptions C74_row_refuted.

(** ** C74: MatMul of matrices that fit is the matrix product. *)
Lemma mtimes_product a b : m_c a = m_r b -> exists out, mtimes a b = Ok out /\ is_product a b out.
Proof.
  intros E. unfold mtimes. destruct (is_scalar a || is_scalar b)%bool eqn:S.
  - unfold binop. destruct (is_scalar a) eqn:Sa.
    + apply scalar_dims in Sa as [R1 C1]. eexists; split; [reflexivity|]. split; [simpl; congruence|split; [auto|]].
      intros i j Hi Hj. rewrite C1. simpl. replace i with 0%nat by lia. lra.
    + simpl in S. rewrite S. apply scalar_dims in S as [R1 C1]. eexists; split; [reflexivity|].
      split; [auto|split; [simpl; congruence|]]. intros i j Hi Hj. rewrite E, R1. simpl. replace j with 0%nat by lia. lra.
  - rewrite E, Nat.eqb_refl. eexists; split; [reflexivity|]. repeat split; auto. intros i j _ _; simpl. now rewrite E.
Qed.
Theorem C74_matmul : forall a b, m_c a = m_r b -> exists out, op_MatMul [a; b] = Ok out /\ is_product a b out.
Proof. intros a b E. apply (mtimes_product _ _ E). Qed.
Print Assumptions C74_matmul.

(** ** C74: Gemm is alpha A' B' + beta C (with C broadcast), when it does not raise; A', B' are transposed
    exactly if the attribute is 1.  It does not raise if C has the shape of the product, is 1x1, or the
    product is a row and C one-dimensional of its length. *)
Definition gemm_opt (a : attrs) (name : string) : R := match dget a name with Some x => attr_num x | None => 1 end.
Definition gemm_mat (a : attrs) (name : string) (m : mat) : mat :=
  match dget a name with Some (AInt 1) => mkMat (m_c m) (m_r m) (fun i j => m_e m j i) | _ => m end.

Theorem C74_gemm : forall A B C a,
  NoDup (map fst a) -> (forall k x, In (k, x) a -> (k = "transA" \/ k = "transB") -> exists z, x = AInt z) ->
  let A' := gemm_mat a "transA" (as_mat A) in let B' := gemm_mat a "transB" (as_mat B) in
  m_c A' = m_r B' ->
  exists AB, is_product A' B' AB
    /\ (forall out, broadcastable AB (row_of C) -> op_Gemm [A; B; C] a = Ok out ->
          is_broadcast (fun p c => gemm_opt a "alpha" * p + gemm_opt a "beta" * c) AB (row_of C) out)
    /\ ((m_r (row_of C) = m_r AB /\ m_c (row_of C) = m_c AB) \/ (m_r (row_of C) = 1%nat /\ m_c (row_of C) = 1%nat) ->
          exists out, op_Gemm [A; B; C] a = Ok out).
Proof.
  intros A B C a Hn Ht A' B' E. destruct (mtimes_product A' B' E) as [AB [Hab HP]]. exists AB; split; auto.
  assert (EA : forall m nme, nme = "transA" \/ nme = "transB" -> (if is_one (dget (of_list a) nme) then mtrans m else m) = gemm_mat a nme m).
  { intros m nme Hm. rewrite of_list_get by auto. unfold gemm_mat. destruct (dget a nme) as [x|] eqn:D; auto.
    destruct (Ht nme x (dget_in _ _ D) Hm) as [z ->]. simpl. destruct (Z.eqb_spec z 1) as [->|Hz]; auto.
    destruct z as [|[p|p|]|p]; auto; congruence. }
  assert (G : op_Gemm [A; B; C] a = binop Rplus (mscale (gemm_opt a "alpha") AB) (mscale (gemm_opt a "beta") (row_of C))).
  { unfold op_Gemm. rewrite !EA by auto. fold A' B'. rewrite Hab. simpl. unfold gemm_opt. rewrite !of_list_get by auto. reflexivity. }
  rewrite G. split.
  - intros out HB H. apply binop_broadcast in H; [|exact HB]. destruct H as [H1 [H2 H3]].
    split; [exact H1|split; [exact H2|]]. intros i j Hi Hj. rewrite H3 by auto. reflexivity.
  - intros H. unfold binop. destruct (is_scalar (mscale _ AB)) eqn:S1; [eauto|]. destruct (is_scalar (mscale _ (row_of C))) eqn:S2; [eauto|].
    unfold shape_eqb; simpl. destruct H as [[-> ->]|H].
    + rewrite !Nat.eqb_refl; simpl; eauto.
    + exfalso. assert (is_scalar (mscale (gemm_opt a "beta") (row_of C)) = true) by (apply scalar_dims; auto). congruence.
Qed.
Print Assumptions C74_gemm.

(** ** C74 (refuted): C is optional in ONNX, but leaving it out raises IndexError; a one-dimensional C (a
    bias) cannot be added to a product of several rows, as ONNX demands. *)
Theorem C74_gemm_refuted : forall A B a,
  op_Gemm [A; B] a = Err ExcIndex
  /\ forall n f, (1 < n)%nat -> m_c (as_mat A) = m_r (as_mat B) -> m_c (as_mat B) = n -> (1 < m_r (as_mat A))%nat ->
       dget (of_list a) "transA" = None -> dget (of_list a) "transB" = None ->
       op_Gemm [A; B; M1 n f] a = Err ExcGeneric.
Proof.
  intros A B a; split; auto. intros n f Hn E Hb Hr T1 T2. unfold op_Gemm. rewrite T1, T2. cbn [is_one].
  destruct (mtimes_product _ _ E) as [AB [-> [P1 [P2 _]]]]. cbn [bind].
  unfold binop, is_scalar, shape_eqb. simpl. rewrite P1, P2, Hb.
  destruct (Nat.eqb_spec (m_r (as_mat A)) 1); [lia|]. simpl. destruct (Nat.eqb_spec n 1); [lia|]. simpl.
  destruct (Nat.eqb_spec (m_r (as_mat A)) 0); [lia|]. destruct (Nat.eqb_spec n 0); [lia|]. reflexivity.
Qed.
Print Assumptions C74_gemm_refuted.

(** ** C74: Concat of two matrices along axis 0 stacks rows, along axis 1 or -1 columns. *)
Theorem C74_concat : forall a b,
  (m_c a = m_c b -> exists out, op_Concat [a; b] [("axis", AInt 0)] = Ok out
     /\ m_r out = (m_r a + m_r b)%nat /\ m_c out = m_c a
     /\ (forall i j, (i < m_r a)%nat -> m_e out i j = m_e a i j) /\ (forall i j, m_e out (m_r a + i)%nat j = m_e b i j))
  /\ (m_r a = m_r b -> forall z, z = 1%Z \/ z = (-1)%Z -> exists out, op_Concat [a; b] [("axis", AInt z)] = Ok out
     /\ m_r out = m_r a /\ m_c out = (m_c a + m_c b)%nat
     /\ (forall i j, (j < m_c a)%nat -> m_e out i j = m_e a i j) /\ (forall i j, m_e out i (m_c a + j)%nat = m_e b i j)).
Proof.
  intros a b; split.
  - intros E. unfold op_Concat; simpl. unfold vert2. rewrite E, Nat.eqb_refl. eexists; split; [reflexivity|]; simpl.
    repeat split; auto; intros i j.
    + intros H. apply Nat.ltb_lt in H as ->; auto.
    + destruct (Nat.ltb_spec (m_r a + i) (m_r a)); [lia|]. f_equal; lia.
  - intros E z Hz. unfold op_Concat; simpl.
    assert ((Z.eqb z 0 || Z.eqb z 2)%bool = false) as -> by (destruct Hz as [->| ->]; reflexivity).
    unfold cat; cbn [foldM]. unfold horz2. rewrite E, Nat.eqb_refl. eexists; split; [reflexivity|]; simpl.
    repeat split; auto; intros i j.
    + intros H. apply Nat.ltb_lt in H as ->; auto.
    + destruct (Nat.ltb_spec (m_c a + j) (m_c a)); [lia|]. f_equal; lia.
Qed.
Print Assumptions C74_concat.

(** ** C74 (refuted): axis -2 (the rows, counted from the end) is treated as the columns. *)
Theorem C74_concat_refuted : forall a b, m_r a = m_r b -> m_c a = m_c b -> (0 < m_r a)%nat ->
  exists out, op_Concat [a; b] [("axis", AInt (-2))] = Ok out /\ m_r out <> (m_r a + m_r b)%nat.
Proof.
  intros a b E E' H. unfold op_Concat; simpl. unfold horz2. rewrite E, Nat.eqb_refl. eexists; split; [reflexivity|]; simpl. lia.
Qed.
Print Assumptions C74_concat_refuted.

(** ** C74: Slice of the rows (or columns) with attributes in the order axes, ends, starts selects exactly
    the rows k with start <= k < end, negative bounds counting from the end; axis -2 stands for the rows,
    axis -1 for the columns. *)
Definition from_end (n : nat) (z : Z) : Z := if (z <? 0)%Z then (z + Z.of_nat n)%Z else z.

Lemma clamp_bounds n z k : (k < n)%nat -> ((clampz n z <= k)%nat <-> (from_end n z <= Z.of_nat k)%Z).
Proof.
  intros Hk. unfold clampz, from_end. set (y := if (z <? 0)%Z then (z + Z.of_nat n)%Z else z).
  destruct (Z.ltb_spec y 0); [split; lia|]. destruct (Nat.min_spec (Z.to_nat y) n) as [[H1 ->]|[H1 ->]]; lia.
Qed.
Lemma clamp_le n z : (clampz n z <= n)%nat.
Proof. unfold clampz. destruct (Z.ltb_spec (if (z <? 0)%Z then (z + Z.of_nat n)%Z else z) 0); lia. Qed.

Theorem C74_slice : forall m axis s e, (axis = 0 \/ axis = -2 \/ axis = 1 \/ axis = -1)%Z ->
  let rows := (Z.eqb axis 0 || Z.eqb axis (-2))%bool in
  exists out off, op_Slice [m] [("axes", AInts [axis]); ("ends", AInts [e]); ("starts", AInts [s])] = Ok out
    /\ let '(len, total, other, other') := if rows then (m_r out, m_r m, m_c out, m_c m) else (m_c out, m_c m, m_r out, m_r m) in
       other = other'
       /\ (forall k, (exists i, (i < len)%nat /\ k = (off + i)%nat) <-> (k < total)%nat /\ (from_end total s <= Z.of_nat k < from_end total e)%Z)
       /\ forall i j, m_e out i j = if rows then m_e m (off + i)%nat j else m_e m i (off + j)%nat.
Proof.
  intros m axis s e Hax rows.
  assert (G : forall n k, (exists i, (i < clampz n e - clampz n s)%nat /\ k = (clampz n s + i)%nat) <->
                (k < n)%nat /\ (from_end n s <= Z.of_nat k < from_end n e)%Z).
  { intros n k. split.
    - intros [i [Hi ->]]. pose proof (clamp_le n e). assert (Hk : (clampz n s + i < n)%nat) by lia. split; auto. split.
      + apply clamp_bounds; auto; lia.
      + destruct (Z.lt_ge_cases (Z.of_nat (clampz n s + i)) (from_end n e)) as [|Hc]; auto. apply clamp_bounds in Hc; auto. lia.
    - intros [Hk [H1 H2]]. apply clamp_bounds in H1; auto. exists (k - clampz n s)%nat. split; [|lia].
      destruct (Nat.lt_ge_cases k (clampz n e)) as [|Hc]; [lia|]. apply clamp_bounds in Hc; auto. lia. }
  unfold rows; clear rows; destruct Hax as [-> | [-> | [-> | ->]]]; unfold op_Slice; cbn -[clampz]; eexists _, _; split; try reflexivity; cbn -[clampz]; split; auto; split; auto.
Qed.
Print Assumptions C74_slice.

(** ** C74 (refuted): the attributes of Slice are taken by position, although ONNX attributes are named and
    'axes' is optional: with the same attributes in the order starts, ends, axes the result differs, and
    without 'axes' the operation raises. *)
Theorem C74_slice_refuted : forall m, (3 < m_r m)%nat ->
  (exists o1 o2, op_Slice [m] [("axes", AInts [0%Z]); ("ends", AInts [3%Z]); ("starts", AInts [1%Z])] = Ok o1
     /\ op_Slice [m] [("starts", AInts [1%Z]); ("ends", AInts [3%Z]); ("axes", AInts [0%Z])] = Ok o2
     /\ m_r o1 = 2%nat /\ m_r o2 = m_r m)
  /\ forall s e, op_Slice [m] [("ends", AInts e); ("starts", AInts s)] = Err ExcIndex.
Proof.
  intros m Hm; split; [|reflexivity].
  destruct m as [r c e]; cbn [m_r] in Hm. do 4 (destruct r as [|r]; [lia|]).
  eexists _, _. split; [reflexivity|split; [reflexivity|split; reflexivity]].
Qed.
Print Assumptions C74_slice_refuted.

(** ** C74: Reshape between a row and a column keeps the order of the entries; (refuted) other shapes do
    not follow the row-major order of ONNX. *)
Theorem C74_reshape_vector : forall m n, (0 < n)%nat ->
  (m_r m = 1%nat -> m_c m = n -> exists out, op_Reshape m n 1 = Ok out /\ m_r out = n /\ m_c out = 1%nat /\ forall i, (i < n)%nat -> m_e out i 0%nat = m_e m 0%nat i)
  /\ (m_c m = 1%nat -> m_r m = n -> exists out, op_Reshape m 1 n = Ok out /\ m_r out = 1%nat /\ m_c out = n /\ forall i, (i < n)%nat -> m_e out 0%nat i = m_e m i 0%nat).
Proof.
  intros m n Hn; split; intros H1 H2; unfold op_Reshape; rewrite H1, H2.
  - replace (1 * n)%nat with (n * 1)%nat by lia. rewrite Nat.eqb_refl. eexists; split; [reflexivity|]. repeat split. intros i Hi.
    cbn [m_e]. replace (0 * n + i)%nat with i by lia. now rewrite Nat.mod_1_r, Nat.div_1_r.
  - replace (1 * n)%nat with (n * 1)%nat by lia. rewrite Nat.eqb_refl. eexists; split; [reflexivity|]. repeat split. intros i Hi.
    cbn [m_e]. replace (i * 1 + 0)%nat with i by lia. now rewrite Nat.mod_small, Nat.div_small by auto.
Qed.
Print Assumptions C74_reshape_vector.

(** Row-major reshaping: entry (i, j) of the result is the entry number i*c + j of the argument, read row
    by row. *)
Definition is_reshape (m : mat) (r c : nat) (out : mat) : Prop :=
  m_r out = r /\ m_c out = c /\ forall i j, (i < r)%nat -> (j < c)%nat ->
    m_e out i j = m_e m ((i * c + j) / m_c m)%nat ((i * c + j) mod m_c m)%nat.

Theorem C74_reshape_refuted : forall m, m_r m = 2%nat -> m_c m = 3%nat -> m_e m 0%nat 1%nat <> m_e m 1%nat 1%nat \/ m_e m 0%nat 2%nat <> m_e m 1%nat 0%nat ->
  exists out, op_Reshape m 3 2 = Ok out /\ ~ is_reshape m 3 2 out.
Proof.
  intros m R C H. unfold op_Reshape. rewrite R, C. simpl. eexists; split; [reflexivity|]. intros [_ [_ E]]. rewrite C in E.
  pose proof (E 0%nat 1%nat ltac:(lia) ltac:(lia)) as E1. pose proof (E 1%nat 0%nat ltac:(lia) ltac:(lia)) as E2.
  pose proof (E 2%nat 0%nat ltac:(lia) ltac:(lia)) as E3.  pose proof (E 1%nat 1%nat ltac:(lia) ltac:(lia)) as E4.
  cbn in E1, E2, E3, E4. destruct H as [H|H]; apply H; congruence.
Qed.
Print Assumptions C74_reshape_refuted.

(** The hypotheses are met: a dense layer x W + b with Relu, as the converter builds it. *)
Definition ex_x : mat := mkMat 1 2 (fun _ j => if Nat.eqb j 0 then 1 else 2).
Definition ex_w : mat := mkMat 2 2 (fun i j => if Nat.eqb i j then 1 else -1).
Example C74_nonvacuous : exists h y, op_Gemm [M2 ex_x; M2 ex_w; M1 2 (fun _ => -1)] [("alpha", AFlt 2); ("beta", AFlt 3)] = Ok h
  /\ y = op_Relu h /\ m_e h 0%nat 0%nat = -5 /\ m_e h 0%nat 1%nat = -1 /\ m_e y 0%nat 0%nat = 0
  /\ broadcastable ex_x (row_of (M1 2 (fun _ => -1))).
Proof.
  eexists _, _; split; [reflexivity|split; [reflexivity|]]. split; [cbn; lra|]. split; [cbn; lra|]. split.
  - cbn. unfold Rmax. destruct (Rle_dec _ _); lra.
  - split; discriminate.
Qed.
