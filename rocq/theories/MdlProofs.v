(** * Lemmas for C36-C38. *)
From Verif Require Import Base DataModel DataProofs SaveProofs MdlModel MdlSpec.
Import List.

Lemma kind_of_doc t k : names_kind t k = true -> t <> "timevarying_parameter"%string -> kind_of t = Ok k.
Proof.
  unfold names_kind, documented. intros H N.
  apply existsb_exists in H. destruct H as ((d & k') & Hin & Heq).
  apply andb_prop in Heq. destruct Heq as [Ht Hk]. apply String.eqb_eq in Ht. cbn [fst snd] in *. subst d.
  repeat (destruct Hin as [Hin|Hin]; [inversion Hin; subst; destruct k; try discriminate Hk; try reflexivity; contradiction|]).
  contradiction.
Qed.

Lemma doc_kind t : (exists k, names_kind t k = true) -> t <> "timevarying_parameter"%string ->
  exists k, kind_of t = Ok k /\ forall k', names_kind t k' = kind_eqb k' k.
Proof.
  intros [k H] N. exists k. split; [apply kind_of_doc; assumption|].
  intros k'. pose proof H as H'. unfold names_kind, documented in H.
  apply existsb_exists in H. destruct H as ((d & k2) & Hin & Heq).
  apply andb_prop in Heq. destruct Heq as [Ht Hk]. apply String.eqb_eq in Ht. cbn [fst snd] in *. subst d.
  repeat (destruct Hin as [Hin|Hin]; [inversion Hin; subst; destruct k; try discriminate Hk; destruct k'; reflexivity|]).
  contradiction.
Qed.

Lemma existsb_ext_in (s1 s2 : list string) n : (forall x, In x s1 <-> In x s2) -> existsb (String.eqb n) s1 = existsb (String.eqb n) s2.
Proof.
  intros H. apply Bool.eq_iff_eq_true. rewrite !existsb_exists. split; intros (x & A & B); exists x; split; auto; apply H; exact A.
Qed.
Lemma keep_first_ext l : forall s1 s2, (forall x, In x s1 <-> In x s2) -> keep_first s1 l = keep_first s2 l.
Proof.
  induction l as [|[n s] l IH]; intros s1 s2 H; cbn; [reflexivity|].
  rewrite (existsb_ext_in s1 s2 n H). destruct (existsb (String.eqb n) s2); [apply IH; exact H|].
  f_equal. apply IH. intros x. cbn. rewrite H. tauto.
Qed.
Lemma keep_first_app l l' : forall seen,
  keep_first seen (l ++ l') = (keep_first seen l ++ keep_first (seen ++ map fst (keep_first seen l)) l')%list.
Proof.
  induction l as [|[n s] l IH]; intros seen; cbn.
  - rewrite app_nil_r. reflexivity.
  - destruct (existsb (String.eqb n) seen) eqn:Es; [apply IH|].
    cbn. f_equal. rewrite IH. f_equal. apply keep_first_ext. intros x. cbn. rewrite !in_app_iff. cbn. tauto.
Qed.
Lemma keep_first_nodup l : forall seen, NoDup (map fst (keep_first seen l)) /\ (forall x, In x (map fst (keep_first seen l)) -> ~ In x seen).
Proof.
  induction l as [|[n s] l IH]; intros seen; cbn; [split; [constructor|intros ? []]|].
  destruct (existsb (String.eqb n) seen) eqn:Es; [apply IH|].
  destruct (IH (n :: seen)) as [A B]. cbn. split.
  - constructor; [|exact A]. intros X. apply (B n X). left. reflexivity.
  - intros x [<-|X].
    + intros Y. assert (existsb (String.eqb n) seen = true); [|congruence]. apply existsb_exists. exists n. split; [exact Y|apply String.eqb_refl].
    + specialize (B x X). intros Y. apply B. right. exact Y.
Qed.

Section P0.
  Context {E : Type}.
  Notation decl := (decl E).
  Lemma requested_app k (h h' : list decl) : requested k (h ++ h') = (requested k h ++ requested k h')%list.
  Proof. apply flat_map_app. Qed.
  Lemma declared_snoc k (h : list decl) d : declared k (h ++ [d]) =
    (declared k h ++ keep_first (reserved k ++ map fst (declared k h)) (requested k [d]))%list.
  Proof. unfold declared. rewrite requested_app, keep_first_app. reflexivity. Qed.

  (** states visible to rhs_calls at the end of a history *)
  Fixpoint st_after (states : list string) (h : list decl) : list string :=
    match h with
    | [] => states
    | DVar t n _ :: h' => st_after (if names_kind t Kx then n :: states else states) h'
    | _ :: h' => st_after states h'
    end.
  Lemma rhs_calls_app (h : list decl) : forall st h', rhs_calls st (h ++ h') = (rhs_calls st h ++ rhs_calls (st_after st h) h')%list.
  Proof.
    induction h as [|d h IH]; intros st h'; [reflexivity|]. destruct d as [t n s| | |n e b|]; cbn; try apply IH.
    destruct (existsb (String.eqb n) st); cbn; [f_equal|]; apply IH.
  Qed.
  Lemma st_after_in (h : list decl) : forall st n, In n (st_after st h) <-> In n st \/ In n (map fst (requested Kx h)).
  Proof.
    induction h as [|d h IH]; intros st n; [cbn; tauto|]. destruct d as [t n' s| | |n' e b|]; cbn -[names_kind]; try apply IH.
    rewrite IH, map_app, in_app_iff. destruct (names_kind t Kx); cbn; tauto.
  Qed.
  Lemma keep_first_in l : forall seen n, In n (map fst (keep_first seen l)) <-> In n (map fst l) /\ ~ In n seen.
  Proof.
    induction l as [|[m s] l IH]; intros seen n; cbn; [tauto|].
    destruct (existsb (String.eqb m) seen) eqn:Es.
    - rewrite IH. apply existsb_exists in Es. destruct Es as (x & Hx & Ex). apply String.eqb_eq in Ex. subst x.
      split; [tauto|]. intros [[->|H] Hn]; [contradiction|tauto].
    - cbn. rewrite IH. cbn. split.
      + intros [->|[A B]]; [split; [tauto|]|tauto].
        intros X. assert (existsb (String.eqb n) seen = true); [|congruence]. apply existsb_exists. exists n. split; [exact X|apply String.eqb_refl].
      + intros [[->|H] Hn]; [tauto|]. destruct (string_dec m n) as [->|]; tauto.
  Qed.
  Lemma st_after_declared (h : list decl) n : existsb (String.eqb n) (st_after [] h) = mem_name n (declared Kx h).
  Proof.
    unfold mem_name, names. apply existsb_ext_in. intros x. rewrite st_after_in. unfold declared. rewrite keep_first_in. cbn. tauto.
  Qed.

End P0.

Section P.
  Context {E : Type}.
  Variable zero : E.
  Variable plus : E -> E -> E.
  Variable noise_sym : bool -> string -> nat -> E.
  Notation decl := (decl E).
  Notation model := (model E).
  Notation run := (decl_run E plus noise_sym).
  Notation dcall := (decl_call E plus noise_sym).
  Notation init := (model_init E zero).
  Notation addn := (add_noise E plus noise_sym).

  Definition good (d : decl) : Prop :=
    match d with DVar t _ _ => (exists k, names_kind t k = true) /\ t <> "timevarying_parameter"%string | _ => True end.

  (** everything the model holds while building, as a function of the history *)
  Definition noised (w : bool) (c : string * list E * bool) : string * list E :=
    match c with (n, e, b) => (n, if b then addn w (n ++ "_noise")%string e else e) end.
  Definition noise_of (c : string * list E * bool) : list (string * nat) :=
    match c with (n, e, b) => if b then [((n ++ "_noise")%string, List.length e)] else [] end.
  Definition dft : list (string * nat) := [("default"%string, 0)].
  Definition built (h : list decl) : model :=
    mkModel (declared Kx h) (dft ++ declared Ku h) (dft ++ declared Kz h) (dft ++ declared Kp h) (dft ++ declared Ktvp h)
            (dft ++ flat_map noise_of (rhs_calls [] h)) (dft ++ flat_map noise_of (meas_calls h))
            (dft ++ map (fun c => (fst (fst c), List.length (snd (fst c)))) (meas_calls h))
            (("default"%string, [zero]) :: expr_calls h) (map (noised false) (meas_calls h))
            (map (noised true) (rhs_calls [] h)) (("default"%string, []) :: alg_calls h) Building.

  Lemma reserved_defaults k (h : list decl) : map fst (vars k (built h)) = (reserved k ++ map fst (declared k h))%list.
  Proof. destruct k; reflexivity. Qed.

  Lemma add_var_built k n s h t : (forall k', names_kind t k' = kind_eqb k' k) ->
    mem_name n (vars k (built h)) = false -> add_var k (n, s) (built h) = built (h ++ [DVar t n s]).
  Proof.
    intros Hk Hm. unfold mem_name, names in Hm. rewrite reserved_defaults in Hm.
    assert (D : forall k', declared k' (h ++ [DVar t n s]) = if kind_eqb k' k then (declared k' h ++ [(n, s)])%list else declared k' h).
    { intros k'. rewrite declared_snoc. cbn -[names_kind keep_first]. rewrite Hk.
      destruct (kind_eqb k' k) eqn:Ek; cbn -[keep_first].
      - assert (k' = k) by (destruct k', k; (reflexivity || discriminate Ek)). subst k'. cbn [keep_first]. rewrite Hm. reflexivity.
      - cbn. rewrite app_nil_r. reflexivity. }
    assert (R : rhs_calls [] (h ++ [DVar t n s]) = rhs_calls [] h).
    { rewrite rhs_calls_app. cbn. rewrite app_nil_r. reflexivity. }
    unfold built. rewrite R.
    unfold meas_calls, expr_calls, alg_calls. rewrite !flat_map_app. cbn [flat_map app]. rewrite !app_nil_r.
    rewrite !D. destruct k; cbn -[declared rhs_calls]; reflexivity.
  Qed.

  Lemma built_same (h : list decl) d : (forall k, requested k [d] = []) -> rhs_calls (st_after [] h) [d] = [] ->
    meas_calls [d] = [] -> expr_calls [d] = [] -> alg_calls [d] = [] -> built (h ++ [d]) = built h.
  Proof.
    intros R1 R2 R3 R4 R5. unfold built. rewrite !declared_snoc, !R1. cbn [keep_first]. rewrite !app_nil_r.
    rewrite rhs_calls_app, R2, app_nil_r.
    unfold meas_calls, expr_calls, alg_calls in *. rewrite !flat_map_app, R3, R4, R5, !app_nil_r. reflexivity.
  Qed.

  Lemma run_built h : Forall good h -> fold_left run h init = built h.
  Proof.
    induction h as [|d h IH] using rev_ind; intros G; [reflexivity|].
    apply Forall_app in G. destruct G as [G Gd]. inversion Gd as [|? ? Gd' _]; subst.
    rewrite fold_left_app, (IH G). cbn [fold_left]. unfold decl_run.
    destruct d as [t n s|n e|n e b|n e b|n e]; cbn [decl_call].
    - destruct Gd' as [Hd Hn]. destruct (doc_kind t Hd Hn) as (k & Ek & Hk).
      unfold set_variable. cbn [ph built]. rewrite Ek. cbn [bind].
      destruct (mem_name n (vars k (built h))) eqn:Em.
      + (* rejected: name already there *)
        unfold mem_name, names in Em. rewrite reserved_defaults in Em.
        assert (D : forall k', declared k' (h ++ [DVar t n s]) = declared k' h).
        { intros k'. rewrite declared_snoc. cbn -[names_kind keep_first]. rewrite Hk.
          destruct (kind_eqb k' k) eqn:Ekk; cbn -[keep_first]; [|cbn; apply app_nil_r].
          assert (k' = k) by (destruct k', k; (reflexivity || discriminate Ekk)). subst k'. cbn [keep_first]. rewrite Em. apply app_nil_r. }
        unfold built. rewrite !D, rhs_calls_app. cbn [rhs_calls]. rewrite app_nil_r.
        unfold meas_calls, expr_calls, alg_calls. rewrite !flat_map_app. cbn [flat_map app]. rewrite !app_nil_r. reflexivity.
      + apply add_var_built; assumption.
    - cbn [set_expression ph built]. unfold set_expression. cbn [ph built].
      unfold built. cbn -[declared rhs_calls flat_map]. rewrite !declared_snoc. cbn [requested flat_map keep_first app]. rewrite !app_nil_r.
      rewrite rhs_calls_app. cbn [rhs_calls]. rewrite app_nil_r.
      unfold meas_calls, expr_calls, alg_calls. rewrite !flat_map_app. cbn [flat_map app]. rewrite !app_nil_r. reflexivity.
    - unfold set_meas. cbn [ph built].
      unfold built. cbn -[declared rhs_calls flat_map add_noise]. rewrite !declared_snoc. cbn [requested flat_map keep_first app]. rewrite !app_nil_r.
      rewrite rhs_calls_app. cbn [rhs_calls]. rewrite app_nil_r.
      unfold meas_calls, expr_calls, alg_calls. rewrite !flat_map_app. cbn [flat_map app]. rewrite !app_nil_r.
      rewrite !map_app, ?flat_map_app. cbn [map flat_map noised noise_of app fst snd]. f_equal.
      + destruct b; [reflexivity|]. rewrite !app_nil_r. reflexivity.
    - unfold set_rhs. cbn [ph built vx]. rewrite <- st_after_declared.
      destruct (existsb (String.eqb n) (st_after [] h)) eqn:Es.
      + unfold built. cbn -[declared rhs_calls flat_map add_noise]. rewrite !declared_snoc. cbn [requested flat_map keep_first app]. rewrite !app_nil_r.
        rewrite rhs_calls_app. cbn [rhs_calls]. rewrite Es.
        unfold meas_calls, expr_calls, alg_calls. rewrite !flat_map_app. cbn [flat_map app]. rewrite !app_nil_r.
        rewrite !map_app. cbn [map noised]. f_equal.
        destruct b; cbn [noise_of app]; rewrite ?app_nil_r; reflexivity.
      + symmetry. apply built_same; try reflexivity. cbn. rewrite Es. reflexivity.
    - unfold set_alg. cbn [ph built].
      unfold built. cbn -[declared rhs_calls flat_map]. rewrite !declared_snoc. cbn [requested flat_map keep_first app]. rewrite !app_nil_r.
      rewrite rhs_calls_app. cbn [rhs_calls]. rewrite app_nil_r.
      unfold meas_calls, expr_calls, alg_calls. rewrite !flat_map_app. cbn [flat_map app]. rewrite !app_nil_r. reflexivity.
  Qed.
End P.
