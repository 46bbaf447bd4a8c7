(** * Lemmas on the sampling planner. *)
From Verif Require Import Base DataModel DataProofs SaveProofs ProductModel TreeProofs2 SamplingModel SamplingSpec.
From Coq Require Import DecimalString DecimalNat Ascii.
Import List.

Lemma zfill_inj p q a b : zfill p a = zfill q b -> a = b.
Proof.
  intros H. assert (Ha : option_map Nat.of_uint (NilEmpty.uint_of_string (zfill p a)) = Some a) by (unfold zfill; rewrite zeros_uint; apply decimal_of_uint).
  rewrite H in Ha. unfold zfill in Ha. rewrite zeros_uint, decimal_of_uint in Ha. congruence.
Qed.

Lemma existsb_eqb k l : existsb (String.eqb k) l = true <-> In k l.
Proof.
  rewrite existsb_exists. split.
  - intros (x & Hx & E). apply String.eqb_eq in E. subst. exact Hx.
  - intros H. exists k. split; [exact H|apply String.eqb_refl].
Qed.

Lemma Forall2_impl {A B} (P Q : A -> B -> Prop) l m : (forall a b, P a b -> Q a b) -> Forall2 P l m -> Forall2 Q l m.
Proof. induction 2; constructor; auto. Qed.

Section P.
  Context {V W : Type}.
  Implicit Types p : planner V W.

  Lemma take_kwargs_ok names (kw : list (string * V)) tmp :
    (exists t, take_kwargs names kw tmp = Ok t) <-> incl (map fst kw) names.
  Proof.
    revert tmp; induction kw as [|[k v] kw IH]; intros tmp; simpl.
    - split; [intros _ x []|eauto].
    - destruct (existsb (String.eqb k) names) eqn:E.
      + apply existsb_eqb in E. rewrite IH. split; intros H x Hx; [destruct Hx as [<-|Hx]; auto|apply H; simpl; auto].
      + split; [intros [t H]; discriminate|]. intros H. exfalso. assert (X : In k names) by (apply H; simpl; auto).
        apply existsb_eqb in X. congruence.
  Qed.

  Lemma take_kwargs_err names (kw : list (string * V)) tmp e : take_kwargs names kw tmp = Err e -> e = ExcGeneric.
  Proof.
    revert tmp; induction kw as [|[k v] kw IH]; intros tmp; simpl; [discriminate|].
    destruct (existsb _ names); [apply IH|]. intros H; inversion H; reflexivity.
  Qed.

  Lemma take_kwargs_lookup names (kw : list (string * V)) : forall tmp t, NoDup (map fst kw) -> take_kwargs names kw tmp = Ok t ->
    forall n, alookup n t = match alookup n kw with Some v => Some (SUser v) | None => alookup n tmp end.
  Proof.
    induction kw as [|[k v] kw IH]; intros tmp t ND H n; simpl in *.
    - inversion H; reflexivity.
    - inversion ND as [|? ? Hk ND']; subst. destruct (existsb (String.eqb k) names); [|discriminate].
      rewrite (IH _ _ ND' H). rewrite alookup_aset. destruct (String.eqb_spec n k) as [->|Hn].
      + destruct (alookup k kw) eqn:E; [|reflexivity]. exfalso. apply Hk. apply amem_in. unfold amem. rewrite E. reflexivity.
      + reflexivity.
  Qed.

  Lemma take_kwargs_assigns names (kw : list (string * V)) : forall tmp t n, take_kwargs names kw tmp = Ok t ->
    In n (map fst kw) \/ assigns tmp n -> assigns t n.
  Proof.
    induction kw as [|[k v] kw IH]; intros tmp t n H Hn; simpl in *.
    - inversion H; subst. destruct Hn as [[]|Hn]; exact Hn.
    - destruct (existsb (String.eqb k) names); [|discriminate]. apply (IH _ _ _ H).
      unfold assigns. rewrite alookup_aset. destruct (String.eqb_spec n k) as [->|Hk].
      + right. exists v. reflexivity.
      + destruct Hn as [[E|Hn]|Hn]; [congruence|left; exact Hn|right; exact Hn].
  Qed.

  Lemma augment_ok vars keys : forall (tmp : case V) (w : W),
    (exists t, fst (augment vars keys tmp w) = Ok t) <-> forall n g, In (n, g) vars -> ~ In n keys -> g <> None.
  Proof.
    induction vars as [|[n g] vars IH]; intros tmp w; simpl.
    - split; [intros _ n g []|eauto].
    - destruct (existsb (String.eqb n) keys) eqn:E.
      + apply existsb_eqb in E. rewrite IH. split; intros H m g' Hin Hm; [destruct Hin as [X|Hin]; [inversion X; subst; contradiction|eauto]|eapply H; eauto].
      + assert (Hn : ~ In n keys) by (intros X; apply existsb_eqb in X; congruence).
        destruct g as [f|].
        * destruct (f w) as [v w']. rewrite IH. split; intros H m g' Hin Hm; [destruct Hin as [X|Hin]; [inversion X; subst; discriminate|eauto]|eapply H; eauto].
        * split; [intros [t H]; discriminate|]. intros H. exfalso. apply (H n None); auto.
  Qed.

  Lemma augment_lookup vars keys : forall (tmp t : case V) (w : W) n, fst (augment vars keys tmp w) = Ok t ->
    In n keys -> alookup n t = alookup n tmp.
  Proof.
    induction vars as [|[m g] vars IH]; intros tmp t w n H Hn; simpl in *.
    - inversion H; reflexivity.
    - destruct (existsb (String.eqb m) keys) eqn:E; [eauto|]. destruct g as [f|]; [|discriminate].
      destruct (f w) as [v w']. rewrite (IH _ _ _ _ H Hn). rewrite alookup_aset.
      destruct (String.eqb_spec n m) as [->|]; [|reflexivity]. apply existsb_eqb in Hn. congruence.
  Qed.

  Lemma augment_assigns vars keys : forall (tmp t : case V) (w : W) n, fst (augment vars keys tmp w) = Ok t ->
    (In n (map fst vars) /\ ~ In n keys) \/ assigns tmp n -> assigns t n.
  Proof.
    induction vars as [|[m g] vars IH]; intros tmp t w n H Hn; simpl in *.
    - inversion H; subst. destruct Hn as [[[] _]|Hn]; exact Hn.
    - destruct (existsb (String.eqb m) keys) eqn:E.
      + apply existsb_eqb in E. apply (IH _ _ _ _ H). destruct Hn as [[[->|Hn] Hk]|Hn]; [contradiction|left; auto|right; auto].
      + destruct g as [f|]; [|discriminate]. destruct (f w) as [v w']. apply (IH _ _ _ _ H).
        unfold assigns. rewrite alookup_aset. destruct (String.eqb_spec n m) as [->|Hm].
        * right. exists v. reflexivity.
        * destruct Hn as [[[->|Hn] Hk]|Hn]; [congruence|left; auto|right; exact Hn].
  Qed.

  (** a keyword call can be completed *)
  Definition acceptable (vars : list (string * option (W -> V * W))) (keys : list string) : Prop :=
    incl keys (map fst vars) /\ forall n g, In (n, g) vars -> ~ In n keys -> g <> None.

  Lemma add_spec p (kw : list (string * V)) :
    let '(p', r) := add_sampling_case p kw in
    pl_vars p' = pl_vars p /\ pl_prec p' = pl_prec p
    /\ (is_ok r = true <-> acceptable (pl_vars p) (map fst kw))
    /\ (is_ok r = false -> pl_plan p' = pl_plan p)
    /\ (is_ok r = true -> exists c, pl_plan p' = pl_plan p ++ [c]
          /\ alookup "id" c = Some (SId (zfill (pl_prec p) (length (pl_plan p))))
          /\ (forall n, n <> "id"%string -> In n (map fst (pl_vars p)) -> assigns c n)
          /\ (NoDup (map fst kw) -> forall n v, n <> "id"%string -> alookup n kw = Some v -> alookup n c = Some (SUser v))).
  Proof.
    unfold add_sampling_case, acceptable.
    pose proof (take_kwargs_ok (map fst (pl_vars p)) kw []) as T.
    destruct (take_kwargs (map fst (pl_vars p)) kw []) as [tmp|e] eqn:E1.
    2:{ simpl. split; [reflexivity|]. split; [reflexivity|]. split.
        - split; [discriminate|]. intros [H _]. apply T in H. destruct H; discriminate.
        - split; [reflexivity|discriminate]. }
    assert (T1 : incl (map fst kw) (map fst (pl_vars p))) by (apply T; eauto).
    pose proof (augment_ok (pl_vars p) (map fst kw) tmp (pl_world p)) as A.
    destruct (augment (pl_vars p) (map fst kw) tmp (pl_world p)) as [[tmp'|e] w'] eqn:E2; simpl in A |- *.
    - split; [reflexivity|]. split; [reflexivity|]. split.
      + split; [|reflexivity]. intros _. split; [exact T1|]. apply A. eauto.
      + split; [discriminate|]. intros _. eexists. split; [reflexivity|]. split.
        * rewrite alookup_aset. reflexivity.
        * assert (E2' : fst (augment (pl_vars p) (map fst kw) tmp (pl_world p)) = Ok tmp') by (rewrite E2; reflexivity).
          split.
          -- intros n Hn Hin. assert (X : assigns tmp' n).
             { apply (augment_assigns _ _ _ _ _ _ E2'). destruct (in_dec string_dec n (map fst kw)) as [Hk|Hk].
               - right. apply (take_kwargs_assigns _ _ _ _ _ E1). left; exact Hk.
               - left. auto. }
             destruct X as [v X]. exists v. rewrite alookup_aset. destruct (String.eqb_spec n "id"); [contradiction|exact X].
          -- intros ND n v Hn Hv. rewrite alookup_aset. destruct (String.eqb_spec n "id"); [contradiction|].
             rewrite (augment_lookup _ _ _ _ _ _ E2'). { rewrite (take_kwargs_lookup _ _ _ _ ND E1), Hv. reflexivity. }
             apply amem_in. unfold amem. rewrite Hv. reflexivity.
    - split; [reflexivity|]. split; [reflexivity|]. split.
      + split; [discriminate|]. intros [_ H]. apply A in H. destruct H; discriminate.
      + split; [reflexivity|discriminate].
  Qed.

  (** adding several cases with the same keywords *)
  Lemma add_cases_spec keys (kws : list (list (string * V))) : forall p,
    Forall (fun kw => map fst kw = keys) kws ->
    let '(p', r) := add_cases p kws in
    pl_vars p' = pl_vars p /\ pl_prec p' = pl_prec p
    /\ (is_ok r = true <-> (kws = [] \/ acceptable (pl_vars p) keys))
    /\ (is_ok r = false -> pl_plan p' = pl_plan p)
    /\ (is_ok r = true -> exists new, pl_plan p' = pl_plan p ++ new
         /\ Forall2 (fun c kw =>
              (forall n, n <> "id"%string -> In n (map fst (pl_vars p)) -> assigns c n)
              /\ (NoDup keys -> forall n v, n <> "id"%string -> alookup n kw = Some v -> alookup n c = Some (SUser v))) new kws
         /\ forall j c, nth_error new j = Some c -> alookup "id" c = Some (SId (zfill (pl_prec p) (length (pl_plan p) + j)))).
  Proof.
    induction kws as [|kw kws IH]; intros p H; simpl.
    - split; [reflexivity|]. split; [reflexivity|]. split; [tauto|]. split; [reflexivity|]. intros _.
      exists []. rewrite app_nil_r. split; [reflexivity|]. split; [constructor|]. intros [|j] c; discriminate.
    - inversion H as [|? ? Hk Hks]; subst. pose proof (add_spec p kw) as A.
      destruct (add_sampling_case p kw) as [p1 [u|e]].
      + destruct A as (A1 & A2 & A3 & _ & A5). destruct (A5 eq_refl) as (c & C1 & C2 & C3 & C4).
        specialize (IH p1 Hks). destruct (add_cases p1 kws) as [p2 r]. destruct IH as (I1 & I2 & I3 & I4 & I5).
        assert (Acc : acceptable (pl_vars p) (map fst kw)) by (apply A3; reflexivity).
        split; [congruence|]. split; [congruence|].
        assert (R : is_ok r = true) by (apply I3; right; rewrite A1; exact Acc).
        split; [tauto|]. split; [congruence|]. intros _. destruct (I5 R) as (new & N1 & N2 & N3).
        exists (c :: new). rewrite N1, C1, <- app_assoc. split; [reflexivity|]. split.
        * constructor; [split; assumption|]. eapply Forall2_impl; [|exact N2]. intros c' kw' [X Y]. rewrite A1 in X. split; assumption.
        * intros [|j] c' Hj; simpl in Hj.
          -- inversion Hj; subst. rewrite Nat.add_0_r. exact C2.
          -- rewrite (N3 _ _ Hj), A2, C1, app_length. simpl. do 3 f_equal. lia.
      + destruct A as (A1 & A2 & A3 & A4 & _). split; [exact A1|]. split; [exact A2|]. split.
        * split; [discriminate|]. intros [X|X]; [discriminate|]. apply A3 in X. discriminate.
        * split; [intros _; apply A4; reflexivity|discriminate].
  Qed.
End P.

Lemma map_fst_combine {A B} (l : list A) (m : list B) : length l = length m -> map fst (combine l m) = l.
Proof. revert m; induction l as [|a l IH]; intros [|b m] H; simpl in *; try discriminate; [reflexivity|]. f_equal. apply IH. lia. Qed.

Lemma combine_lookup {B} (keys : list string) (vals : list B) : NoDup keys -> length keys = length vals ->
  map (fun k => alookup k (combine keys vals)) keys = map Some vals.
Proof.
  revert vals; induction keys as [|k keys IH]; intros [|v vals] ND H; simpl in *; try discriminate; [reflexivity|].
  inversion ND as [|? ? Hk ND']; subst. rewrite String.eqb_refl. f_equal. rewrite <- (IH vals) by (auto; lia).
  apply map_ext_in. intros x Hx. destruct (String.eqb_spec x k) as [->|]; [contradiction|reflexivity].
Qed.
