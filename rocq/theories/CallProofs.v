(** * Lemmas on sample functions and on the keys of planned cases. *)
From Verif Require Import Base DataModel DataProofs SaveProofs ProductModel SamplingModel SamplingSpec SamplingProofs CallModel CallSpec.
Import List.

Lemma bind_param_spec {A} (kw : list (string * A)) ps :
  (exists b, mapM (bind_param kw) ps = Ok b) <-> forall n, In (n, false) ps -> In n (map fst kw).
Proof.
  induction ps as [|[n d] ps IH]; simpl.
  - split; [intros _ n []|eauto].
  - unfold bind_param at 1. simpl. destruct (alookup n kw) as [a|] eqn:E.
    + assert (Hn : In n (map fst kw)) by (apply amem_in; unfold amem; rewrite E; reflexivity).
      destruct (mapM (bind_param kw) ps) as [b|e].
      * split; [|eauto]. intros _ m [X|H]; [inversion X; subst; exact Hn|]. apply IH; eauto.
      * split; [intros [? X]; discriminate|]. intros H. exfalso. destruct (proj2 IH) as [? X]; [|discriminate]. intros m Hm. apply H; auto.
    + assert (Hn : ~ In n (map fst kw)) by (intros X; apply amem_in in X; unfold amem in X; rewrite E in X; discriminate).
      destruct d.
      * destruct (mapM (bind_param kw) ps) as [b|e].
        -- split; [|eauto]. intros _ m [X|H]; [discriminate|]. apply IH; eauto.
        -- split; [intros [? X]; discriminate|]. intros H. exfalso. destruct (proj2 IH) as [? X]; [|discriminate]. intros m Hm. apply H; auto.
      * split; [intros [? X]; discriminate|]. intros H. exfalso. apply Hn, H. auto.
Qed.

Lemma bind_param_err {A} (kw : list (string * A)) ps e : mapM (bind_param kw) ps = Err e -> e = ExcType.
Proof.
  induction ps as [|[n d] ps IH]; simpl; [discriminate|]. unfold bind_param at 1. simpl.
  destruct (alookup n kw); [|destruct d; [|congruence]]; (destruct (mapM _ ps); [discriminate|]; intros X; inversion X; subst; auto).
Qed.

Lemma bind_param_vals {A} (kw : list (string * A)) ps : forall b, mapM (bind_param kw) ps = Ok b ->
  b = map (fun p => (fst p, match alookup (fst p) kw with Some a => Given a | None => Default end)) ps.
Proof.
  induction ps as [|[n d] ps IH]; simpl; intros b H; [inversion H; reflexivity|].
  unfold bind_param at 1 in H. simpl in H.
  destruct (alookup n kw); [|destruct d; [|discriminate]]; (destruct (mapM _ ps) eqn:E; [|discriminate]; inversion H; subst; f_equal; apply IH; reflexivity).
Qed.

Lemma named_in s k : In k (named s) <-> keyword_param s k.
Proof.
  unfold named, keyword_param. rewrite in_map_iff. split.
  - intros [[m d] [E H]]. simpl in E. subst. eauto.
  - intros [d H]. exists (k, d). auto.
Qed.

Lemma py_call_iff {A} s (kw : list (string * A)) :
  (exists r, py_call s kw = Ok r) <-> callable_with s (map fst kw).
Proof.
  unfold py_call, callable_with, required.
  destruct (forallb snd (sg_posonly s)) eqn:F; simpl.
  - rewrite forallb_forall in F.
    assert (FP : forall n d, In (n, d) (sg_posonly s) -> d = true) by (intros n d H; exact (F _ H)).
    set (extra := filter _ kw).
    assert (EX : extra = [] <-> forall k, In k (map fst kw) -> keyword_param s k).
    { unfold extra. split.
      - intros E k Hk. apply in_map_iff in Hk. destruct Hk as [[m a] [Em Hm]]. simpl in Em. subst m.
        apply named_in. destruct (existsb (String.eqb k) (named s)) eqn:X; [apply existsb_eqb in X; exact X|].
        exfalso. assert (In (k, a) []) as []. rewrite <- E. apply filter_In. split; [exact Hm|]. simpl. rewrite X. reflexivity.
      - intros H. destruct (filter _ kw) as [|[m a] l] eqn:E; [reflexivity|]. exfalso.
        assert (X : In (m, a) ((m, a) :: l)) by (left; reflexivity). rewrite <- E in X. apply filter_In in X. destruct X as [X Y]. simpl in Y.
        assert (Z : In m (named s)). { apply named_in, H. apply in_map_iff. exists (m, a). auto. }
        apply existsb_eqb in Z. rewrite Z in Y. discriminate. }
    destruct (sg_varkw s) eqn:VK; simpl.
    + destruct (mapM (bind_param kw) (sg_args s ++ sg_kwonly s)) as [b|e] eqn:B; simpl.
      * split; [|eauto]. intros _. split; [exact FP|]. split; [|left; reflexivity].
        intros n Hn. apply (proj1 (bind_param_spec kw (sg_args s ++ sg_kwonly s))); eauto.
      * split; [intros [? X]; discriminate|]. intros (_ & H & _). apply bind_param_spec in H. destruct H as [? X]. rewrite B in X. discriminate.
    + destruct extra as [|x ex] eqn:E; simpl.
      * destruct (mapM (bind_param kw) (sg_args s ++ sg_kwonly s)) as [b|e] eqn:B; simpl.
        -- split; [|eauto]. intros _. split; [exact FP|]. split; [|right; apply EX; reflexivity].
           intros n Hn. apply (proj1 (bind_param_spec kw (sg_args s ++ sg_kwonly s))); eauto.
        -- split; [intros [? X]; discriminate|]. intros (_ & H & _). apply bind_param_spec in H. destruct H as [? X]. rewrite B in X. discriminate.
      * split; [intros [? X]; discriminate|]. intros (_ & _ & [X|X]); [discriminate|]. apply EX in X. discriminate.
  - split; [intros [? X]; discriminate|]. intros (H & _). exfalso.
    assert (X : forallb snd (sg_posonly s) = true) by (apply forallb_forall; intros [n d] Hn; exact (H n d Hn)). congruence.
Qed.

Lemma py_call_err {A} s (kw : list (string * A)) e : py_call s kw = Err e -> e = ExcType.
Proof.
  unfold py_call. destruct (negb _); [congruence|]. destruct (_ && _); [congruence|].
  destruct (mapM _ _) eqn:B; simpl; [discriminate|]. intros X; inversion X; subst. eapply bind_param_err; eassumption.
Qed.

Lemma nodup_fst_eq {A} (l : list (string * A)) n a b : NoDup (map fst l) -> In (n, a) l -> In (n, b) l -> a = b.
Proof.
  induction l as [|[m c] l IH]; simpl; intros ND Ha Hb; [tauto|]. inversion ND as [|? ? Hm ND']; subst.
  destruct Ha as [Ha|Ha], Hb as [Hb|Hb].
  - congruence.
  - inversion Ha; subst. exfalso. apply Hm, in_map_iff. exists (n, b). auto.
  - inversion Hb; subst. exfalso. apply Hm, in_map_iff. exists (n, a). auto.
  - apply IH; assumption.
Qed.

Lemma alookup_nodup {A} n (a : A) l : NoDup (map fst l) -> In (n, a) l -> alookup n l = Some a.
Proof.
  induction l as [|[m c] l IH]; simpl; intros ND H; [tauto|]. inversion ND as [|? ? Hm ND']; subst.
  destruct (String.eqb_spec n m) as [->|Hne].
  - destruct H as [H|H]; [inversion H; reflexivity|]. exfalso. apply Hm, in_map_iff. exists (m, a). auto.
  - destruct H as [H|H]; [inversion H; subst; congruence|]. auto.
Qed.

(** Keys of dictionaries. *)
Lemma aset_keys_or {A} k (a : A) l n : In n (map fst (aset k a l)) <-> n = k \/ In n (map fst l).
Proof.
  induction l as [|[m c] l IH]; simpl; [intuition|]. destruct (String.eqb_spec k m) as [->|Hne]; simpl; [intuition|]. rewrite IH. intuition.
Qed.
Lemma aset_nodup {A} k (a : A) l : NoDup (map fst l) -> NoDup (map fst (aset k a l)).
Proof.
  induction l as [|[m c] l IH]; simpl; intros ND; [constructor; [intros []|constructor]|]. inversion ND; subst.
  destruct (String.eqb_spec k m) as [->|Hne]; simpl; constructor; auto. rewrite aset_keys_or. intuition.
Qed.
Lemma adel_keys {V} k (l : case V) n : NoDup (map fst l) -> In n (map fst (adel k l)) <-> n <> k /\ In n (map fst l).
Proof.
  induction l as [|[m c] l IH]; simpl; intros ND; [tauto|]. inversion ND as [|? ? Hm ND']; subst.
  destruct (String.eqb_spec k m) as [->|Hne]; simpl.
  - split; [intros H; split; [intros ->; contradiction|auto]|]. intros [Hn [<-|H]]; [congruence|exact H].
  - rewrite (IH ND'). split; [intros [<-|H]; [split; [congruence|auto]|tauto]|tauto].
Qed.
Lemma adel_lookup {V} k (l : case V) n : n <> k -> alookup n (adel k l) = alookup n l.
Proof.
  intros Hn. induction l as [|[m c] l IH]; simpl; [reflexivity|]. destruct (String.eqb_spec k m) as [->|Hne]; simpl.
  - destruct (String.eqb_spec n m); [congruence|reflexivity].
  - destruct (String.eqb n m); [reflexivity|exact IH].
Qed.

Section P.
  Context {V W : Type}.
  (** A case has exactly the keys [names] and "id". *)
  Definition case_keys (names : list string) (c : case V) : Prop :=
    NoDup (map fst c) /\ (forall n, In n (map fst c) <-> n = "id"%string \/ In n names)
    /\ forall n, In n names -> n <> "id"%string -> assigns c n.

  Lemma take_kwargs_keys names (kw : list (string * V)) : forall tmp t, take_kwargs names kw tmp = Ok t ->
    NoDup (map fst tmp) -> NoDup (map fst t) /\ forall n, In n (map fst t) <-> In n (map fst kw) \/ In n (map fst tmp).
  Proof.
    induction kw as [|[k v] kw IH]; intros tmp t H ND; simpl in *.
    - inversion H; subst. split; [exact ND|]. intuition.
    - destruct (existsb (String.eqb k) names); [|discriminate]. destruct (IH _ _ H) as [N K]; [apply aset_nodup; exact ND|].
      split; [exact N|]. intros n. rewrite K, aset_keys_or. intuition.
  Qed.
  Lemma augment_keys vars keys : forall (tmp t : case V) (w : W), fst (augment vars keys tmp w) = Ok t ->
    NoDup (map fst tmp) -> NoDup (map fst t) /\ forall n, In n (map fst t) <-> (In n (map fst vars) /\ ~ In n keys) \/ In n (map fst tmp).
  Proof.
    induction vars as [|[m g] vars IH]; intros tmp t w H ND; simpl in *.
    - inversion H; subst. split; [exact ND|]. intuition.
    - destruct (existsb (String.eqb m) keys) eqn:E.
      + destruct (IH _ _ _ H ND) as [N K]. split; [exact N|]. intros n. rewrite K. apply existsb_eqb in E. intuition (subst; tauto).
      + assert (Hm : ~ In m keys) by (intros X; apply existsb_eqb in X; congruence).
        destruct g as [f|]; [|discriminate]. destruct (f w) as [v w']. destruct (IH _ _ _ H) as [N K]; [apply aset_nodup; exact ND|].
        split; [exact N|]. intros n. rewrite K, aset_keys_or. intuition (subst; tauto).
  Qed.

  Lemma add_keys (p p' : planner V W) kw r names : add_sampling_case p kw = (p', r) -> map fst (pl_vars p) = names ->
    (forall c, In c (pl_plan p) -> case_keys names c) ->
    map fst (pl_vars p') = names /\ forall c, In c (pl_plan p') -> case_keys names c.
  Proof.
    intros H HN HC. pose proof (add_spec p kw) as S. rewrite H in S. destruct S as (Hv & Hp & Hok & Hbad & Hgood).
    rewrite Hv. split; [exact HN|].
    unfold add_sampling_case in H.
    destruct (take_kwargs (map fst (pl_vars p)) kw []) as [tmp|e] eqn:E1; [|inversion H; subst; exact HC].
    destruct (augment (pl_vars p) (map fst kw) tmp (pl_world p)) as [[t|e] w'] eqn:E2; [|inversion H; subst; exact HC].
    inversion H; subst p' r. simpl in *. intros c Hc. apply in_app_iff in Hc. destruct Hc as [Hc|[<-|[]]]; [apply HC; exact Hc|].
    destruct (take_kwargs_keys _ _ _ _ E1) as [N1 K1]; [constructor|].
    destruct (augment_keys (pl_vars p) (map fst kw) tmp t (pl_world p)) as [N2 K2]; [rewrite E2; reflexivity|exact N1|].
    assert (IN : incl (map fst kw) (map fst (pl_vars p))) by (apply (take_kwargs_ok _ kw []); eauto).
    split; [apply aset_nodup; exact N2|]. split.
    - intros n. rewrite aset_keys_or, K2, K1, HN. rewrite HN in IN.
      destruct (in_dec string_dec n (map fst kw)) as [Y|Y]; simpl; intuition.
    - intros n Hn Hid. destruct (Hgood eq_refl) as (c & Ec & _ & HA & _).
      apply app_inv_head in Ec. inversion Ec; subst c. apply HA; [exact Hid|]. rewrite HN. exact Hn.
  Qed.

  Lemma add_cases_keys names kws : forall (p p' : planner V W) r, add_cases p kws = (p', r) -> map fst (pl_vars p) = names ->
    (forall c, In c (pl_plan p) -> case_keys names c) ->
    map fst (pl_vars p') = names /\ forall c, In c (pl_plan p') -> case_keys names c.
  Proof.
    induction kws as [|kw kws IH]; intros p p' r H HN HC; simpl in H; [inversion H; subst; auto|].
    destruct (add_sampling_case p kw) as [q [u|e]] eqn:E; destruct (add_keys _ _ _ _ names E HN HC) as [A B]; [eauto|].
    inversion H; subst. auto.
  Qed.

  Lemma calls_keys names (h : list (pop V W)) : forall p, only_cases h -> map fst (pl_vars p) = names ->
    (forall c, In c (pl_plan p) -> case_keys names c) ->
    forall c, In c (pl_plan (fold_left (fun p o => fst (pcall p o)) h p)) -> case_keys names c.
  Proof.
    induction h as [|o h IH]; intros p OC HN HC; simpl; [exact HC|].
    assert (OC' : only_cases h) by (intros x Hx; apply OC; right; exact Hx).
    assert (X : map fst (pl_vars (fst (pcall p o))) = names /\ forall c, In c (pl_plan (fst (pcall p o))) -> case_keys names c).
    { destruct o as [n g|k|kw|n|kw]; simpl.
      - destruct (OC (PVar n g)); left; reflexivity.
      - auto.
      - destruct (add_sampling_case p kw) as [q r] eqn:E. exact (add_keys _ _ _ _ names E HN HC).
      - unfold gen_sampling_plan. destruct (Nat.eqb n 0); [auto|].
        destruct (add_cases p (repeat [] n)) as [q r] eqn:E. exact (add_cases_keys names _ _ _ _ E HN HC).
      - unfold product. destruct (negb _); [auto|]. destruct (negb _); [auto|].
        destruct (add_cases p _) as [q r] eqn:E. exact (add_cases_keys names _ _ _ _ E HN HC). }
    destruct X as [X Y]. apply IH; assumption.
  Qed.

  Lemma declare_vars (vs : list (string * option (W -> V * W))) : forall p,
    let q := fold_left (fun p o => fst (pcall p o)) (map (fun v => PVar (fst v) (snd v)) vs) p in
    map fst (pl_vars q) = map fst (pl_vars p) ++ map fst vs /\ pl_plan q = pl_plan p.
  Proof.
    induction vs as [|[n g] vs IH]; intros p; simpl; [rewrite app_nil_r; auto|].
    destruct (IH (set_sampling_var p n g)) as [A B]. cbv zeta in *. rewrite A, B. simpl. rewrite map_app, <- app_assoc. auto.
  Qed.

  Lemma plan_keys w (vs : list (string * option (W -> V * W))) (h : list (pop V W)) c : only_cases h ->
    In c (pl_plan (prun w (map (fun v => PVar (fst v) (snd v)) vs ++ h))) -> case_keys (map fst vs) c.
  Proof.
    intros OC. unfold prun. rewrite fold_left_app. destruct (declare_vars vs (planner_init w)) as [A B]. cbv zeta in *. simpl in A, B.
    apply calls_keys; [exact OC|exact A|]. rewrite B. intros ? [].
  Qed.
End P.
