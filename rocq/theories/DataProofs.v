(** * Lemmas on Data and save_results. *)
From Verif Require Import Base DataModel DataSpec.

Lemma alookup_aset {A} k k' (a : A) l : alookup k (aset k' a l) = if String.eqb k k' then Some a else alookup k l.
Proof.
  induction l as [|[k0 b] l IH]; simpl.
  - reflexivity.
  - destruct (String.eqb_spec k' k0) as [->|Hk]; simpl.
    + destruct (String.eqb k k0); reflexivity.
    + rewrite IH. destruct (String.eqb_spec k k0) as [->|H0]; [|reflexivity].
      destruct (String.eqb_spec k0 k') as [->|H1]; [congruence|reflexivity].
Qed.

Lemma alookup_fold_reset {B} (fs : list (string * nat)) (a : list (string * list B)) k :
  alookup k (fold_left (fun a fd => aset (fst fd) [] a) fs a) = if amem k fs then Some [] else alookup k a.
Proof.
  revert a; induction fs as [|[k' n] fs IH]; intros a; simpl; [reflexivity|].
  rewrite IH. unfold amem. simpl. rewrite alookup_aset. destruct (alookup k fs).
  - destruct (String.eqb k k'); reflexivity.
  - destruct (String.eqb k k'); reflexivity.
Qed.

Section D.
  Context {T ix : Type}.
  Variable ix_eqb : list ix -> list ix -> bool.
  Hypothesis ix_eqb_eq : forall a b, ix_eqb a b = true <-> a = b.
  Variable f_of : string -> list ix -> res (list nat).
  Notation data := (data T ix).

  (** every field has an array; the cache agrees with f_of *)
  Definition dinv (d : data) : Prop :=
    (forall k, amem k (dfields d) = true -> exists r, alookup k (darrays d) = Some r)
    /\ Forall (fun e => f_of (fst (fst e)) (snd (fst e)) = Ok (snd e)) (dcache d).

  Lemma dinv_init_storage d : Forall (fun e => f_of (fst (fst e)) (snd (fst e)) = Ok (snd e)) (dcache d) -> dinv (init_storage d).
  Proof.
    intros H. split; [|exact H]. intros k Hk. simpl in *. exists []. rewrite alookup_fold_reset, Hk. reflexivity.
  Qed.

  Lemma step_update_one d k v : dinv d ->
    update_one d k v =
      match alookup k (dfields d) with
      | None => Err ExcAssertion
      | Some dim => if Nat.eqb (List.length v) dim
                    then Ok (mkData (dfields d) (aset k (match alookup k (darrays d) with Some r => r | None => [] end ++ [v])%list (darrays d)) (dcache d))
                    else Err ExcValue
      end.
  Proof.
    intros [H _]. unfold update_one. destruct (alookup k (dfields d)) eqn:E; [|reflexivity].
    destruct (H k) as [r Hr]; [unfold amem; rewrite E; reflexivity|]. rewrite Hr. reflexivity.
  Qed.

  Lemma dinv_update_one d k v d' : dinv d -> update_one d k v = Ok d' ->
    dinv d' /\ dfields d' = dfields d /\
    forall f, stored d' f = (stored d f ++ if String.eqb f k then [v] else [])%list.
  Proof.
    intros Hd. rewrite step_update_one by exact Hd. destruct (alookup k (dfields d)) as [dim|] eqn:E; [|discriminate].
    destruct (Nat.eqb _ dim); [|discriminate]. intros X; inversion X; subst; clear X. destruct Hd as [H1 H2].
    split; [split; [|exact H2]|split; [reflexivity|]].
    - simpl. intros k0 Hk0. rewrite alookup_aset. destruct (String.eqb k0 k); [eauto|]. apply H1. exact Hk0.
    - intros f. unfold stored; simpl. rewrite alookup_aset. destruct (String.eqb_spec f k) as [->|Hf]; [|rewrite app_nil_r; reflexivity].
      destruct (alookup k (darrays d)); reflexivity.
  Qed.

  Lemma update_spec kvs : forall d, dinv d ->
    let d' := fst (update d kvs) in
    dinv d' /\ dfields d' = dfields d /\ dcache d' = dcache d
    /\ (forall f, stored d' f = (stored d f ++ rows_of f (accepted (dfields d) kvs))%list)
    /\ snd (update d kvs) = verdict (dfields d) kvs.
  Proof.
    induction kvs as [|[k v] kvs IH]; intros d Hd; simpl.
    - split; [exact Hd|]. split; [reflexivity|]. split; [reflexivity|]. split; [|reflexivity]. intros f. rewrite app_nil_r. reflexivity.
    - destruct (update_one d k v) as [d1|e] eqn:E.
      + destruct (dinv_update_one d k v d1 Hd E) as (H1 & H2 & H3). destruct (IH d1 H1) as (I1 & I2 & I3 & I4 & I5).
        pose proof E as E'. rewrite step_update_one in E' by exact Hd. unfold valid_kv. simpl.
        destruct (alookup k (dfields d)) as [dim|] eqn:El; [|discriminate]. destruct (Nat.eqb (List.length v) dim); [|discriminate].
        split; [exact I1|]. split; [congruence|]. split.
        { rewrite I3. inversion E'; reflexivity. }
        split.
        * intros f. rewrite I4, H3, H2. rewrite <- app_assoc. f_equal. unfold rows_of; simpl. destruct (String.eqb f k); reflexivity.
        * rewrite I5, H2. reflexivity.
      + rewrite step_update_one in E by exact Hd. unfold valid_kv; simpl.
        destruct (alookup k (dfields d)) as [dim|] eqn:El.
        * destruct (Nat.eqb (List.length v) dim); [discriminate|]. inversion E; subst. simpl.
          split; [exact Hd|]. split; [reflexivity|]. split; [reflexivity|]. split; [|reflexivity]. intros f. rewrite app_nil_r. reflexivity.
        * inversion E; subst. simpl.
          split; [exact Hd|]. split; [reflexivity|]. split; [reflexivity|]. split; [|reflexivity]. intros f. rewrite app_nil_r. reflexivity.
  Qed.

  Lemma cache_find_ok c field ind r : Forall (fun e => f_of (fst (fst e)) (snd (fst e)) = Ok (snd e)) c ->
    cache_find ix_eqb field ind c = Some r -> f_of field ind = Ok r.
  Proof.
    induction 1 as [|[[f i] r'] c Hr Hc IH]; simpl; [discriminate|].
    destruct (String.eqb_spec field f) as [->|]; simpl; [|exact IH].
    destruct (ix_eqb ind i) eqn:E; [|exact IH]. apply ix_eqb_eq in E. subst. intros X; inversion X; subst. exact Hr.
  Qed.

  Lemma getitem_spec d field ind : dinv d ->
    let d' := fst (getitem ix_eqb f_of d field ind) in
    dinv d' /\ dfields d' = dfields d /\ darrays d' = darrays d
    /\ snd (getitem ix_eqb f_of d field ind) =
       if amem field (dfields d)
       then match ind with
            | [] => Ok (stored d field)
            | _ => let! f_ind := f_of field ind in columns (stored d field) f_ind
            end
       else Err ExcAssertion.
  Proof.
    intros Hd. pose proof Hd as [H1 H2]. unfold getitem, amem. destruct (alookup field (dfields d)) eqn:E.
    - destruct (H1 field) as [r Hr]; [unfold amem; rewrite E; reflexivity|]. unfold stored. rewrite Hr.
      destruct ind as [|i ind].
      + simpl. auto.
      + destruct (cache_find ix_eqb field (i :: ind) (dcache d)) as [f_ind|] eqn:Ec.
        * simpl. rewrite (cache_find_ok _ _ _ _ H2 Ec). auto.
        * destruct (f_of field (i :: ind)) as [f_ind|e] eqn:Ef; simpl; [|auto].
          split; [|auto]. split; [exact H1|]. simpl. apply Forall_app. split; [exact H2|]. constructor; [exact Ef|constructor].
    - simpl. auto.
  Qed.

  (** histories *)
  Lemma dstep_spec d o : dinv d ->
    dinv (dstep ix_eqb f_of d o) /\ dfields (dstep ix_eqb f_of d o) = fields_after (dfields d) [o]
    /\ forall f, amem f (fields_after (dfields d) [o]) = true ->
         stored (dstep ix_eqb f_of d o) f = recorded (dfields d) (stored d f) [o] f.
  Proof.
    intros Hd. destruct o as [kvs| |extra|field ind]; simpl.
    - destruct (update_spec kvs d Hd) as (A & B & C & E & _). split; [exact A|]. split; [exact B|]. intros f _. apply E.
    - split; [apply dinv_init_storage; apply Hd|]. split; [reflexivity|]. intros f Hf. unfold stored; simpl.
      rewrite alookup_fold_reset, Hf. reflexivity.
    - split; [apply dinv_init_storage; apply Hd|]. split; [reflexivity|]. intros f Hf. unfold stored; simpl.
      rewrite alookup_fold_reset, Hf. reflexivity.
    - destruct (getitem_spec d field ind Hd) as (A & B & C & _). split; [exact A|]. split; [exact B|]. intros f _.
      unfold stored. rewrite C. reflexivity.
  Qed.

  Lemma fields_mono fs (h : list (dop T ix)) f : amem f fs = true -> amem f (fields_after fs h) = true.
  Proof.
    revert fs; induction h as [|o h IH]; intros fs Hf; simpl; [exact Hf|]. apply IH. destruct o as [kvs| |extra|field ind]; try exact Hf.
    clear - Hf. revert fs Hf; induction extra as [|[k n] ex IH]; intros fs Hf; simpl; [exact Hf|]. apply IH.
    unfold amem in *. rewrite alookup_aset. destruct (String.eqb f k); [reflexivity|exact Hf].
  Qed.

  Lemma drun_spec h : forall d, dinv d ->
    dinv (drun ix_eqb f_of d h) /\ dfields (drun ix_eqb f_of d h) = fields_after (dfields d) h
    /\ forall f, amem f (dfields d) = true -> stored (drun ix_eqb f_of d h) f = recorded (dfields d) (stored d f) h f.
  Proof.
    induction h as [|o h IH]; intros d Hd; [simpl; auto|].
    destruct (dstep_spec d o Hd) as (A & B & C). destruct (IH _ A) as (A' & B' & C').
    change (drun ix_eqb f_of d (o :: h)) with (drun ix_eqb f_of (dstep ix_eqb f_of d o) h).
    split; [exact A'|]. split; [rewrite B', B; reflexivity|].
    intros f Hf. assert (Hf1 : amem f (fields_after (dfields d) [o]) = true) by (apply fields_mono; exact Hf).
    rewrite C'; [|rewrite B; exact Hf1]. rewrite C by exact Hf1. rewrite B. reflexivity.
  Qed.
End D.
