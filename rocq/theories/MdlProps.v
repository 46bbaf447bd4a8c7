(** * Theorems C36 (declaration), C37 (setup), C38 (frozen after setup), C59 (failed setup). *)
From Verif Require Import Base DataModel DataProofs SaveProofs MdlModel MdlSpec MdlProofs.
Import List.

Section P.
  Context {E : Type}.
  Variable zero : E.
  Variable plus : E -> E -> E.
  Variable noise_sym : bool -> string -> nat -> E.
  Variable state_sym : string -> nat -> E.
  Variable struct_ok : list string -> bool.
  Variable resetup : model E -> model E * res unit.
  Variable fun_ok : model E -> assembled E -> bool.
  Notation decl := (decl E).
  Notation model := (model E).
  Notation run := (decl_run E plus noise_sym).
  Notation dcall := (decl_call E plus noise_sym).
  Notation init := (model_init E zero).
  Notation setup := (setup E zero plus noise_sym struct_ok state_sym resetup fun_ok).
  Notation crun := (call_run E zero plus noise_sym struct_ok state_sym resetup fun_ok).
  Notation built := (built zero plus noise_sym).
  Notation addn := (add_noise E plus noise_sym).

  (** ** C36 *)
  Lemma vars_built k h : vars k (built h) = (map (fun n => (n, 0)) (reserved k) ++ declared k h)%list.
  Proof. destruct k; reflexivity. Qed.

  (** C36: for every history of declaring calls (variables, expressions, measurements, right-hand sides,
      algebraic equations, with failing calls caught) that uses documented type names except
      'timevarying_parameter', the variables of each kind are the reserved entry followed by exactly the
      requested ones in order of first request, without duplicates; and the next declaration of a name is
      accepted iff that name is neither reserved nor declared for that kind. *)
  Theorem C36_declaration_partial : forall h : list decl,
    Forall good h -> forall k,
    let m := fold_left run h init in
    vars k m = (map (fun n => (n, 0)) (reserved k) ++ declared k h)%list /\
    NoDup (map fst (vars k m)) /\
    (forall n s, In (n, s) (declared k h) -> In (n, s) (requested k h)) /\
    (forall n, In n (map fst (declared k h)) <-> In n (map fst (requested k h)) /\ ~ In n (reserved k)) /\
    (forall t n s, names_kind t k = true -> t <> "timevarying_parameter"%string ->
       is_ok (dcall m (DVar t n s)) = true <-> ~ In n (reserved k) /\ ~ In n (map fst (declared k h))).
  Proof.
    intros h G k m. unfold m. rewrite (run_built zero plus noise_sym h G). rewrite vars_built.
    split; [reflexivity|]. destruct (keep_first_nodup (requested k h) (reserved k)) as [ND DJ].
    split; [|split; [|split]].
    - rewrite map_app. rewrite map_map. cbn. rewrite map_id. destruct k; cbn; try exact ND;
        (constructor; [intros X; apply (DJ _ X); left; reflexivity|exact ND]).
    - unfold declared. generalize (reserved k). generalize (requested k h) as l.
      induction l as [|[n' s'] l IH]; intros seen n s; cbn; [tauto|].
      destruct (existsb (String.eqb n') seen); [intros X; right; eapply IH; exact X|].
      intros [X|X]; [left; exact X|right; eapply IH; exact X].
    - intros n. apply keep_first_in.
    - intros t n s Ht Hn. cbn [decl_call]. unfold set_variable. cbn [ph MdlProofs.built].
      rewrite (kind_of_doc t k Ht Hn). cbn [bind].
      rewrite (vars_built k h). unfold mem_name, names. rewrite map_app, map_map. cbn [fst]. rewrite map_id.
      destruct (existsb (String.eqb n) (reserved k ++ map fst (declared k h))) eqn:Ex; cbn.
      + apply existsb_exists in Ex. destruct Ex as (x & Hx & E1). apply String.eqb_eq in E1. subst x.
        apply in_app_iff in Hx. split; [discriminate|tauto].
      + split; [intros _|reflexivity].
        assert (N : ~ In n (reserved k ++ map fst (declared k h))).
        { intros X. assert (existsb (String.eqb n) (reserved k ++ map fst (declared k h)) = true); [|congruence].
          apply existsb_exists. exists n. split; [exact X|apply String.eqb_refl]. }
        rewrite in_app_iff in N. tauto.
  Qed.

  (** The documented type name 'timevarying_parameter' is always rejected. *)
  Theorem C36_timevarying_parameter_refuted : forall (m : model) n s, is_ok (dcall m (DVar "timevarying_parameter" n s)) = false.
  Proof. intros m n s. cbn. unfold set_variable. destruct (ph m); reflexivity. Qed.

  (** ** C37 *)
  (** [e'] is what an expression [e] becomes in a slot of [s] entries: itself, or its single entry
      repeated. *)
  Definition placed (s : nat) (e e' : list E) : Prop :=
    List.length e' = s /\ (e' = e \/ exists a, e = [a] /\ e' = repeat a s).
  Definition with_noise (process : bool) (n : string) (e : list E) (b : bool) : list E :=
    if b then addn process (n ++ "_noise")%string e else e.

  (** Process or measurement noise: entry i of the expression plus entry i of the noise variable. *)
  Theorem C37_noise_entries : forall process nn e i,
    nth_error (addn process nn e) i = option_map (fun a => plus a (noise_sym process nn i)) (nth_error e i).
  Proof.
    intros process nn e i. unfold add_noise. rewrite nth_error_map.
    assert (X : forall (e : list E) b i, nth_error (combine (seq b (List.length e)) e) i = option_map (pair (b + i)) (nth_error e i)).
    { clear. induction e as [|a e IH]; intros b [|i]; simpl; [reflexivity..| |].
      - now rewrite Nat.add_0_r.
      - rewrite IH. replace (S b + i) with (b + S i) by lia. reflexivity. }
    rewrite X. destruct (nth_error e i); reflexivity.
  Qed.

  Lemma addn_length w nn e : List.length (addn w nn e) = List.length e.
  Proof. unfold add_noise. rewrite map_length, combine_length, seq_length. lia. Qed.

  Lemma fit_spec s e : (exists e', fit s e = Ok e' /\ placed s e e') <-> (List.length e = s \/ List.length e = 1).
  Proof.
    unfold fit. destruct (Nat.eqb_spec (List.length e) s) as [<-|N].
    - split; [tauto|]. intros _. exists e. repeat split. left. reflexivity.
    - destruct e as [|a [|b e]].
      + split; [intros (? & X & _); discriminate|cbn in *; lia].
      + split; [cbn; tauto|]. intros _. exists (repeat a s). repeat split; [apply repeat_length|right; eauto].
      + split; [intros (? & X & _); discriminate|cbn in *; lia].
  Qed.
  Lemma fit_ok s e e' : fit s e = Ok e' -> placed s e e'.
  Proof.
    intros H. unfold fit in H. destruct (Nat.eqb_spec (List.length e) s) as [<-|N].
    - inversion H; subst. split; auto.
    - destruct e as [|a [|b e]]; try discriminate. inversion H; subst. split; [apply repeat_length|right; eauto].
  Qed.

  Lemma foldM_app {A B} (f : A -> B -> res A) l1 l2 a : foldM f (l1 ++ l2) a = bind (foldM f l1 a) (fun a' => foldM f l2 a').
  Proof. revert a. induction l1 as [|x l1 IH]; intros a; [reflexivity|]. cbn. destruct (f a x); cbn; [apply IH|reflexivity]. Qed.

  Lemma aset_keys_in {A} k (a : A) l : In k (map fst l) -> map fst (aset k a l) = map fst l.
  Proof.
    induction l as [|[k' b] l IH]; cbn; [tauto|]. intros H. destruct (String.eqb_spec k k') as [->|N]; [reflexivity|].
    cbn. f_equal. apply IH. destruct H; [congruence|assumption].
  Qed.

  Fixpoint find_last (n : string) (rl : list (string * list E)) : option (list E) :=
    match rl with
    | [] => None
    | (k, e) :: rl' => match find_last n rl' with Some x => Some x | None => if String.eqb n k then Some e else None end
    end.
  Lemma find_last_snoc n rl k e : find_last n (rl ++ [(k, e)]) = if String.eqb n k then Some e else find_last n rl.
  Proof.
    induction rl as [|[k' e'] rl IH]; cbn; [destruct (String.eqb n k); reflexivity|]. rewrite IH.
    destruct (String.eqb n k); reflexivity.
  Qed.

  Lemma rhs_loop_spec xs rl : NoDup (map fst xs) -> Forall (fun re => In (fst re) (map fst xs)) rl ->
    (forall r, rhs_loop E zero xs rl = Ok r ->
       map fst r = map fst xs /\
       (forall n e, find_last n rl = Some e -> exists e', alookup n r = Some e' /\ placed (size_of n xs) e e') /\
       Forall (fun re => List.length (snd re) = size_of (fst re) xs \/ List.length (snd re) = 1) rl) /\
    (Forall (fun re => List.length (snd re) = size_of (fst re) xs \/ List.length (snd re) = 1) rl ->
       is_ok (rhs_loop E zero xs rl) = true).
  Proof.
    intros ND. induction rl as [|[k e] rl IH] using rev_ind; intros F.
    - split; [|reflexivity]. intros r H. cbn in H. inversion H; subst. split; [rewrite map_map; reflexivity|].
      split; [intros; discriminate|constructor].
    - apply Forall_app in F. destruct F as [F Fk]. inversion Fk as [|? ? Hk _]; subst. cbn in Hk.
      specialize (IH F). destruct IH as [I1 I2]. unfold rhs_loop in *. split.
      + intros r H. rewrite foldM_app in H.
        match type of H with bind ?q _ = _ => destruct q as [r0|] eqn:E0 end; [|discriminate].
        cbn in H. destruct (fit (size_of k xs) e) as [e'|] eqn:Ef; [|discriminate]. cbn in H. inversion H; subst r.
        destruct (I1 r0 eq_refl) as (K & L & A). split; [|split].
        * rewrite aset_keys_in; [exact K|rewrite K; exact Hk].
        * intros n x. rewrite find_last_snoc, alookup_aset. destruct (String.eqb_spec n k) as [->|Nk].
          -- intros X; inversion X; subst x. exists e'. split; [reflexivity|]. apply fit_ok. exact Ef.
          -- intros X. apply L. exact X.
        * apply Forall_app. split; [exact A|]. constructor; [|constructor]. cbn.
          apply fit_spec. exists e'. split; [exact Ef|apply fit_ok; exact Ef].
      + intros A. apply Forall_app in A. destruct A as [A Ak]. inversion Ak as [|? ? Hl _]; subst. cbn in Hl.
        rewrite foldM_app. specialize (I2 A). unfold is_ok in *.
        match goal with |- context [bind ?q _] => destruct q as [r0|] eqn:E0; [|discriminate] end.
        cbn. apply fit_spec in Hl. destruct Hl as (e' & Ef & _). rewrite Ef. reflexivity.
  Qed.

  Lemma find_last_rhs n (h : list decl) : find_last n (map (noised plus noise_sym true) (rhs_calls [] h)) =
    option_map (fun eb => with_noise true n (fst eb) (snd eb)) (last_rhs n h).
  Proof.
    unfold last_rhs. generalize (rhs_calls [] h) as l. induction l as [|[[k e] b] l IH] using rev_ind; [reflexivity|].
    rewrite map_app, rev_app_distr. cbn [map noised rev app filter fst]. rewrite find_last_snoc.
    destruct (String.eqb_spec n k) as [->|N]; [reflexivity|exact IH].
  Qed.

  Lemma last_rhs_none n (h : list decl) : last_rhs n h = None <-> ~ In n (map (fun c => fst (fst c)) (rhs_calls [] h)).
  Proof.
    unfold last_rhs. generalize (rhs_calls [] h) as l. intros l.
    destruct (filter (fun c => String.eqb n (fst (fst c))) (rev l)) as [|[[k e] b] f] eqn:Ef.
    - split; [|reflexivity]. intros _ X. apply in_map_iff in X. destruct X as (c & Ec & Hc).
      assert (In c (filter (fun c => String.eqb n (fst (fst c))) (rev l))).
      { apply filter_In. split; [apply in_rev in Hc; exact Hc|]. rewrite Ec. apply String.eqb_refl. }
      rewrite Ef in H. destruct H.
    - split; [discriminate|]. intros X. exfalso. apply X.
      assert (In (k, e, b) (filter (fun c => String.eqb n (fst (fst c))) (rev l))) by (rewrite Ef; left; reflexivity).
      apply filter_In in H. destruct H as [H1 H2]. apply String.eqb_eq in H2. cbn in H2. subst k.
      apply in_map_iff. exists (n, e, b). split; [reflexivity|]. apply in_rev. exact H1.
  Qed.

  Lemma default_meas_frame (xs : list (string * nat)) : forall m m', ph m = Building ->
    foldM (fun m v => set_meas E plus noise_sym m (fst v) (map (state_sym (fst v)) (seq 0 (snd v))) true) xs m = Ok m' ->
    ph m' = Building /\ vx m' = vx m /\ vu m' = vu m /\ vz m' = vz m /\ vp m' = vp m /\ vtvp m' = vtvp m /\ vw m' = vw m /\
    aux_expr m' = aux_expr m /\ rhs_list m' = rhs_list m /\ alg_list m' = alg_list m /\
    map fst (y_expr m') = (map fst (y_expr m) ++ map fst xs)%list /\ map fst (vy m') = (map fst (vy m) ++ map fst xs)%list /\
    map fst (vv m') = (map fst (vv m) ++ map (fun n => (n ++ "_noise")%string) (map fst xs))%list /\
    y_expr m' = (y_expr m ++ map (fun v => (fst v, addn false (fst v ++ "_noise")%string (map (state_sym (fst v)) (seq 0 (snd v))))) xs)%list.
  Proof.
    induction xs as [|v xs IH]; intros m m' P H.
    - cbn in H. inversion H; subst. rewrite !app_nil_r. repeat split; assumption.
    - cbn [foldM] in H. unfold set_meas in H at 1. rewrite P in H.
      apply IH in H; [|reflexivity]. cbn in H. decompose [and] H. repeat split; try assumption.
      + rewrite H10, map_app. cbn [map app fst]. rewrite <- app_assoc. reflexivity.
      + rewrite H11, map_app. cbn [map app fst]. rewrite <- app_assoc. reflexivity.
      + rewrite H12, map_app. cbn [map app fst]. rewrite <- app_assoc. reflexivity.
      + rewrite H14. rewrite <- app_assoc. reflexivity.
  Qed.
  Lemma default_meas_ok (xs : list (string * nat)) : forall m : model, ph m = Building ->
    is_ok (foldM (fun m v => set_meas E plus noise_sym m (fst v) (map (state_sym (fst v)) (seq 0 (snd v))) true) xs m) = true.
  Proof.
    induction xs as [|v xs IH]; intros m P; [reflexivity|]. cbn [foldM]. unfold set_meas at 1. rewrite P. apply IH. reflexivity.
  Qed.

  (** what setup does on a model being built *)
  Lemma dm_built h : exists m, default_meas E plus noise_sym state_sym (built h) = Ok m /\ ph m = Building /\
    vx m = vx (built h) /\ vu m = vu (built h) /\ vz m = vz (built h) /\ vp m = vp (built h) /\ vtvp m = vtvp (built h) /\ vw m = vw (built h) /\
    aux_expr m = aux_expr (built h) /\ rhs_list m = rhs_list (built h) /\ alg_list m = alg_list (built h) /\
    (meas_calls h <> [] -> m = built h) /\
    (meas_calls h = [] -> map fst (y_expr m) = map fst (declared Kx h) /\ map fst (vy m) = ("default"%string :: map fst (declared Kx h)) /\
       map fst (vv m) = ("default"%string :: map (fun n => (n ++ "_noise")%string) (map fst (declared Kx h))) /\
       y_expr m = map (fun v => (fst v, addn false (fst v ++ "_noise")%string (map (state_sym (fst v)) (seq 0 (snd v))))) (declared Kx h)).
  Proof.
    unfold default_meas. destruct (y_expr (built h)) as [|y ys] eqn:Ey.
    - assert (M : meas_calls h = []) by (cbn in Ey; destruct (meas_calls h); [reflexivity|discriminate]).
      pose proof (default_meas_ok (vx (built h)) (built h) eq_refl) as O. unfold is_ok in O.
      match type of O with match ?q with _ => _ end = _ => destruct q as [m|] eqn:Em; [|discriminate] end.
      apply default_meas_frame in Em; [|reflexivity].
      exists m. split; [reflexivity|]. decompose [and] Em. repeat split; try assumption.
      + intros N. contradiction.
      + rewrite H9. cbn [MdlProofs.built y_expr vx]. rewrite M. reflexivity.
      + rewrite H10. cbn [MdlProofs.built vy vx]. rewrite M. reflexivity.
      + rewrite H11. cbn [MdlProofs.built vv vx]. rewrite M. reflexivity.
      + rewrite H13, Ey. reflexivity.
    - exists (built h). repeat split; try reflexivity; (cbn in Ey; destruct (meas_calls h); discriminate).
  Qed.

  (** the sizes of the declared states *)
  Lemma size_of_in n s (l : list (string * nat)) : NoDup (map fst l) -> In (n, s) l -> size_of n l = s.
  Proof.
    unfold size_of. induction l as [|[n' s'] l IH]; cbn; [tauto|]. intros ND. inversion ND; subst.
    intros [X|X].
    - inversion X; subst. rewrite String.eqb_refl. reflexivity.
    - destruct (String.eqb_spec n n') as [->|]; [|apply IH; assumption].
      exfalso. apply H1. apply in_map_iff. exists (n', s). auto.
  Qed.

  Lemma rhs_calls_states (h : list decl) : Forall (fun c => In (fst (fst c)) (map fst (declared Kx h))) (rhs_calls [] h).
  Proof.
    induction h as [|d h IH] using rev_ind; [constructor|]. rewrite rhs_calls_app. apply Forall_app. split.
    - eapply Forall_impl; [|exact IH]. intros c Hc. rewrite declared_snoc, map_app. apply in_app_iff. left. exact Hc.
    - destruct d as [t n s| | |n e b|]; try constructor. cbn. destruct (existsb (String.eqb n) (st_after [] h)) eqn:Es; [|constructor].
      constructor; [|constructor]. cbn. rewrite st_after_declared in Es. unfold mem_name, names in Es.
      apply existsb_exists in Es. destruct Es as (x & Hx & Ex). apply String.eqb_eq in Ex. subst x.
      rewrite declared_snoc, map_app. apply in_app_iff. left. exact Hx.
  Qed.

  Lemma setup_built h : let m := built h in
    let rhs := rhs_loop E zero (declared Kx h) (map (noised plus noise_sym true) (rhs_calls [] h)) in
    snd (setup m) = Ok tt ->
    (exists r, rhs = Ok r /\ functions (fst (setup m)) = Ok (mkAsm r (("default"%string, []) :: alg_calls h) (("default"%string, [zero]) :: expr_calls h)
        (match meas_calls h with [] => map (fun v => (fst v, addn false (fst v ++ "_noise")%string (map (state_sym (fst v)) (seq 0 (snd v))))) (declared Kx h) | l => map (noised plus noise_sym false) l end)) /\
       construct (fst (setup m)) = Ok tt /\
       (forall m' a, default_meas E plus noise_sym state_sym m = Ok m' -> functions (fst (setup m)) = Ok a -> fun_ok m' a = true)) /\
    (forall n, In n (map fst (declared Kx h)) -> In n (map (fun c => fst (fst c)) (rhs_calls [] h))) /\
    list_sum (map snd (declared Kz h)) = list_sum (map (fun e => List.length (snd e)) (alg_calls h)).
  Proof.
    intros m rhs. unfold MdlModel.setup. unfold m at 1 2 3. cbn [ph MdlProofs.built]. fold m.
    destruct (dm_built h) as (m' & D & P & X & U & Z & Pp & T & W & A & R & G & M1 & M2). unfold m. rewrite D.
    destruct (negb (struct_ok (names (y_expr m')))); [discriminate|].
    match goal with |- context [if ?c then _ else _] => destruct c; [|discriminate] end.
    rewrite X, R. change (vx (built h)) with (declared Kx h). change (rhs_list (built h)) with (map (noised plus noise_sym true) (rhs_calls [] h)).
    fold rhs. destruct rhs as [r|] eqn:Er; [|discriminate].
    destruct (forallb (fun v => mem_name (fst v) (map (noised plus noise_sym true) (rhs_calls [] h))) (declared Kx h)) eqn:Ef; [|discriminate].
    match goal with |- context [fun_ok ?a ?b] => destruct (fun_ok a b) eqn:Fo; [|discriminate] end. cbn [negb].
    rewrite Z, G. cbn [vz alg_list MdlProofs.built].
    match goal with |- context [Nat.eqb ?a ?b] => destruct (Nat.eqb_spec a b) as [En|]; [|discriminate] end.
    intros _. split; [|split].
    - exists r. split; [reflexivity|]. split; [|split; [reflexivity|]].
      2:{ intros m'' a Em. injection Em as <-. cbn [fst functions with_phase ph]. intros Fa. injection Fa as <-. rewrite G in Fo. exact Fo. }
      cbn [fst functions with_phase ph]. rewrite ?G, ?A. cbn [alg_list aux_expr MdlProofs.built].
      f_equal. f_equal. destruct (meas_calls h) as [|c l] eqn:Em.
      + destruct (M2 eq_refl) as (_ & _ & _ & ->). reflexivity.
      + rewrite (M1 ltac:(discriminate)). cbn [MdlProofs.built y_expr]. rewrite Em. reflexivity.
    - intros n Hn. rewrite forallb_forall in Ef. apply in_map_iff in Hn. destruct Hn as (v & <- & Hv).
      specialize (Ef v Hv). unfold mem_name, names in Ef. apply existsb_exists in Ef. destruct Ef as (x & Hx & Ex).
      apply String.eqb_eq in Ex. subst x. rewrite map_map in Hx. apply in_map_iff in Hx. destruct Hx as ([[k e] b] & Ek & Hk).
      apply in_map_iff. exists (k, e, b). split; [exact Ek|exact Hk].
    - unfold total_n, total in En. cbn in En. exact En.
  Qed.

  Lemma map_fst_nth {A B} (l : list (A * B)) (l' : list A) : map fst l = l' -> List.length l = List.length l'.
  Proof. intros <-. rewrite map_length. reflexivity. Qed.

  Lemma forall2_lookup (xs : list (string * nat)) (r : list (string * list E)) (Q : string * nat -> list E -> Prop) :
    NoDup (map fst xs) -> map fst r = map fst xs ->
    (forall v, In v xs -> exists e, alookup (fst v) r = Some e /\ Q v e) ->
    Forall2 (fun v re => fst re = fst v /\ Q v (snd re)) xs r.
  Proof.
    revert r. induction xs as [|v xs IH]; intros [|[k e] r] ND K H; try discriminate; constructor.
    - cbn in K. inversion K; subst k. split; [reflexivity|]. destruct (H v (or_introl eq_refl)) as (e' & L & HQ).
      cbn in L. rewrite String.eqb_refl in L. inversion L; subst. exact HQ.
    - inversion ND as [|? ? Hn ND']; subst. cbn in K. inversion K; subst k. apply IH; [exact ND'|assumption|].
      intros w Hw. destruct (H w (or_intror Hw)) as (e' & L & HQ). exists e'. split; [|exact HQ].
      cbn in L. destruct (String.eqb_spec (fst w) (fst v)) as [Ew|]; [|exact L].
      exfalso. apply Hn. rewrite <- Ew. apply in_map. exact Hw.
  Qed.

  (** [a] holds the equations of the history [h]: per state, in state order, the right-hand side last set
      (with its noise); the algebraic equations; the expressions; the measurements (all states, with noise,
      if none was set).  "default" is the placeholder every model has. *)
  Definition assembled_from (h : list decl) (a : assembled E) : Prop :=
      Forall2 (fun v re => fst re = fst v /\ exists e b, last_rhs (fst v) h = Some (e, b) /\ placed (snd v) (with_noise true (fst v) e b) (snd re))
              (declared Kx h) (a_rhs a) /\
      a_alg a = ("default"%string, []) :: alg_calls h /\
      a_aux a = ("default"%string, [zero]) :: expr_calls h /\
      a_meas a = match meas_calls h with
                 | [] => map (fun v => (fst v, addn false (fst v ++ "_noise")%string (map (state_sym (fst v)) (seq 0 (snd v))))) (declared Kx h)
                 | l => map (fun c => (fst (fst c), with_noise false (fst (fst c)) (snd (fst c)) (snd c))) l
                 end.

  Lemma rhs_from h r : (forall v, In v (declared Kx h) -> exists eb, last_rhs (fst v) h = Some eb) ->
    rhs_loop E zero (declared Kx h) (map (noised plus noise_sym true) (rhs_calls [] h)) = Ok r ->
    Forall2 (fun v re => fst re = fst v /\ exists e b, last_rhs (fst v) h = Some (e, b) /\ placed (snd v) (with_noise true (fst v) e b) (snd re))
              (declared Kx h) r.
  Proof.
    intros HL Er.
    assert (ND : NoDup (map fst (declared Kx h))) by apply keep_first_nodup.
    assert (RS : Forall (fun re => In (fst re) (map fst (declared Kx h))) (map (noised plus noise_sym true) (rhs_calls [] h))).
    { rewrite Forall_map. eapply Forall_impl; [|apply rhs_calls_states]. intros [[k e] b] H. exact H. }
    destruct (rhs_loop_spec (declared Kx h) _ ND RS) as [L1 _]. destruct (L1 r Er) as (K & L & A).
    eapply (forall2_lookup _ _ (fun v x => exists e b, last_rhs (fst v) h = Some (e, b) /\ placed (snd v) (with_noise true (fst v) e b) x)); [exact ND|exact K|].
    intros v Hv. destruct (HL v Hv) as [[e b] El].
    destruct (L (fst v) (with_noise true (fst v) e b)) as (e' & La & Pl).
    { rewrite find_last_rhs, El. reflexivity. }
    exists e'. split; [exact La|]. exists e, b. split; [exact El|].
    rewrite (size_of_in (fst v) (snd v) _ ND) in Pl; [exact Pl|]. destruct v; exact Hv.
  Qed.

  (** C37 (necessity and result): if setup succeeds after any such history, then every declared state
      has an accepted set_rhs call, the number of algebraic equations equals the number of algebraic
      states, every accepted right-hand side has the size of its state (or size 1), the assembled
      right-hand side lists, in state order, the expression last set for each state (with its noise),
      and the algebraic equations and measurements are those declared (all states if none). *)
  Theorem C37_setup_requires : forall h : list decl, Forall good h ->
    let m := fold_left run h init in
    snd (setup m) = Ok tt ->
    (forall v, In v (declared Kx h) -> exists eb, last_rhs (fst v) h = Some eb) /\
    list_sum (map snd (declared Kz h)) = list_sum (map (fun e => List.length (snd e)) (alg_calls h)) /\
    (forall n e b s, In (n, e, b) (rhs_calls [] h) -> In (n, s) (declared Kx h) -> List.length e = s \/ List.length e = 1) /\
    exists a, functions (fst (setup m)) = Ok a /\ assembled_from h a /\
      (forall m', default_meas E plus noise_sym state_sym m = Ok m' -> fun_ok m' a = true).
  Proof.
    intros h G m. unfold m. rewrite (run_built zero plus noise_sym h G). intros S.
    destruct (setup_built h S) as ((r & Er & Ff & _ & Fo) & Hx & Hz).
    assert (ND : NoDup (map fst (declared Kx h))) by apply keep_first_nodup.
    assert (RS : Forall (fun re => In (fst re) (map fst (declared Kx h))) (map (noised plus noise_sym true) (rhs_calls [] h))).
    { rewrite Forall_map. eapply Forall_impl; [|apply rhs_calls_states]. intros [[k e] b] H. exact H. }
    destruct (rhs_loop_spec (declared Kx h) _ ND RS) as [L1 _]. destruct (L1 r Er) as (K & L & A).
    assert (HL : forall v, In v (declared Kx h) -> exists eb, last_rhs (fst v) h = Some eb).
    { intros v Hv. destruct (last_rhs (fst v) h) as [eb|] eqn:El; [eauto|]. exfalso. apply last_rhs_none in El. apply El. apply Hx. apply in_map. exact Hv. }
    split; [exact HL|]. split; [exact Hz|]. split.
    - intros n e b s Hc Hs. rewrite Forall_map in A. rewrite Forall_forall in A. specialize (A _ Hc). cbn [noised fst snd] in A.
      rewrite (size_of_in n s _ ND Hs) in A. destruct b; [rewrite addn_length in A|]; exact A.
    - eexists. split; [exact Ff|]. split; [|intros m' Em; exact (Fo m' _ Em Ff)]. split; [|split; [|split]].
      + apply rhs_from; [exact HL|exact Er].
      + reflexivity.
      + reflexivity.
      + cbn [a_meas]. destruct (meas_calls h) as [|c l]; [reflexivity|]. apply map_ext. intros [[n e] b]. reflexivity.
  Qed.

  (** C37 (sufficiency): conversely setup succeeds when each state has a right-hand side of its size,
      the algebraic equations and states match in number and names are not repeated. *)
  Hypothesis struct_ok_nodup : forall l, NoDup l -> struct_ok l = true.
  Lemma nodup_noise (l : list string) : NoDup l -> NoDup ("default"%string :: map (fun n => (n ++ "_noise")%string) l).
  Proof.
    intros ND. constructor.
    - intros X. apply in_map_iff in X. destruct X as (n & En & _).
      destruct n as [|a1 [|a2 [|a3 n]]]; try discriminate En. destruct n as [|a4 [|a5 n]]; try discriminate En.
      destruct n as [|a6 [|a7 [|a8 n]]]; discriminate En.
    - induction ND as [|x l Hx ND IH]; cbn; constructor; [|exact IH].
      intros X. apply in_map_iff in X. destruct X as (n & En & Hn). apply append_inj_r in En. subst n. contradiction.
  Qed.
  Lemma names_noise_of (l : list (string * list E * bool)) :
    map fst (flat_map noise_of l) = map (fun n => (n ++ "_noise")%string) (map (fun c => fst (fst c)) (filter (fun c => snd c) l)).
  Proof. induction l as [|[[n e] b] l IH]; [reflexivity|]. cbn. destruct b; cbn; [f_equal|]; exact IH. Qed.
  Lemma NoDup_filter_map {A} (f : A -> string) (p : A -> bool) (l : list A) : NoDup (map f l) -> NoDup (map f (filter p l)).
  Proof.
    induction l as [|a l IH]; cbn; intros ND; [constructor|]. inversion ND; subst. destruct (p a); cbn; [|auto].
    constructor; [|auto]. intros X. apply H1. apply in_map_iff in X. destruct X as (y & E1 & Hy). apply filter_In in Hy.
    apply in_map_iff. exists y. tauto.
  Qed.

  Theorem C37_setup_succeeds : forall h : list decl, Forall good h ->
    let m := fold_left run h init in
    (forall v, In v (declared Kx h) -> exists eb, last_rhs (fst v) h = Some eb) ->
    list_sum (map snd (declared Kz h)) = list_sum (map (fun e => List.length (snd e)) (alg_calls h)) ->
    (forall n e b s, In (n, e, b) (rhs_calls [] h) -> In (n, s) (declared Kx h) -> List.length e = s \/ List.length e = 1) ->
    NoDup (map (fun c => fst (fst c)) (rhs_calls [] h)) ->
    NoDup ("default"%string :: map (fun c => fst (fst c)) (meas_calls h)) ->
    (meas_calls h = [] -> ~ In "default"%string (map fst (declared Kx h))) ->
    NoDup ("default"%string :: map fst (expr_calls h)) -> NoDup ("default"%string :: map fst (alg_calls h)) ->
    (forall m' a, default_meas E plus noise_sym state_sym m = Ok m' -> assembled_from h a -> fun_ok m' a = true) ->
    snd (setup m) = Ok tt.
  Proof.
    intros h G m HL Hz HS N1 N2 N2' N3 N4 HF. unfold m. unfold m in HF. rewrite (run_built zero plus noise_sym h G) in HF. rewrite (run_built zero plus noise_sym h G).
    destruct (dm_built h) as (m' & D & P & X & U & Z & Pp & T & W & A & R & Ga & M1 & M2).
    assert (ND : forall k, NoDup (map fst (vars k (built h)))).
    { intros k. apply (C36_declaration_partial h G k) || idtac. pose proof (C36_declaration_partial h G k) as C. cbv zeta in C.
      rewrite (run_built zero plus noise_sym h G) in C. apply C. }
    assert (NX := ND Kx). cbn [vars MdlProofs.built vx] in NX.
    assert (Ny : NoDup (names (y_expr m')) /\ NoDup (names (vy m')) /\ NoDup (names (vv m'))).
    { unfold names. destruct (meas_calls h) as [|c l] eqn:Em.
      - destruct (M2 eq_refl) as (-> & -> & -> & _). specialize (N2' eq_refl).
        split; [exact NX|]. split; [constructor; [exact N2'|exact NX]|apply nodup_noise; exact NX].
      - rewrite (M1 ltac:(discriminate)). cbn [MdlProofs.built y_expr vy vv]. rewrite Em. split; [|split].
        + inversion N2 as [|? ? _ N2'']; subst. rewrite map_map. replace (map (fun x => fst (noised plus noise_sym false x)) (c :: l)) with (map (fun c => fst (fst c)) (c :: l)); [exact N2''|].
          apply map_ext. intros [[n e] b]. reflexivity.
        + rewrite map_app, map_map. exact N2.
        + rewrite map_app, names_noise_of. apply nodup_noise. apply NoDup_filter_map. inversion N2; assumption. }
    destruct Ny as (Ny1 & Ny2 & Ny3).
    unfold MdlModel.setup. cbn [ph MdlProofs.built]. rewrite D. rewrite (struct_ok_nodup _ Ny1). cbn [negb].
    replace (forallb struct_ok _) with true.
    2:{ symmetry. apply forallb_forall. intros l Hl. apply struct_ok_nodup. unfold names in *.
        cbn [In] in Hl. rewrite X, W, U, Z, Pp, T, A, Ga in Hl.
        repeat (destruct Hl as [<-|Hl]); try contradiction; try assumption; try apply (ND Kx); try apply (ND Ku); try apply (ND Kz); try apply (ND Kp); try apply (ND Ktvp).
        cbn [vw MdlProofs.built]. rewrite map_app, names_noise_of. apply nodup_noise. apply NoDup_filter_map. exact N1. }
    rewrite X, R. cbn [vx rhs_list MdlProofs.built].
    assert (RS : Forall (fun re => In (fst re) (map fst (declared Kx h))) (map (noised plus noise_sym true) (rhs_calls [] h))).
    { rewrite Forall_map. eapply Forall_impl; [|apply rhs_calls_states]. intros [[k e] b] H. exact H. }
    destruct (rhs_loop_spec (declared Kx h) _ NX RS) as [_ L2].
    assert (Q : is_ok (rhs_loop E zero (declared Kx h) (map (noised plus noise_sym true) (rhs_calls [] h))) = true).
    { apply L2. rewrite Forall_map. rewrite Forall_forall. intros [[n e] b] Hc. cbn [noised fst snd].
      pose proof (rhs_calls_states h) as RC. rewrite Forall_forall in RC. specialize (RC _ Hc). cbn in RC.
      apply in_map_iff in RC. destruct RC as ([n' s] & En & Hn). cbn in En. subst n'.
      rewrite (size_of_in n s _ NX Hn). specialize (HS n e b s Hc Hn). destruct b; [rewrite addn_length|]; exact HS. }
    destruct (rhs_loop E zero (declared Kx h) (map (noised plus noise_sym true) (rhs_calls [] h))) as [r|] eqn:Er; [|discriminate].
    replace (forallb _ (declared Kx h)) with true.
    2:{ symmetry. apply forallb_forall. intros v Hv. unfold mem_name, names. apply existsb_exists. exists (fst v). split; [|apply String.eqb_refl].
        destruct (HL v Hv) as [eb El]. destruct (in_dec string_dec (fst v) (map (fun c => fst (fst c)) (rhs_calls [] h))) as [I|I]; [|apply last_rhs_none in I; congruence].
        rewrite map_map. replace (map (fun x => fst (noised plus noise_sym true x)) (rhs_calls [] h)) with (map (fun c => fst (fst c)) (rhs_calls [] h)); [exact I|].
        apply map_ext. intros [[n e] b]. reflexivity. }
    rewrite (HF m'); [cbn [negb]| exact D|].
    2:{ split; [apply rhs_from; [exact HL|exact Er]|]. cbn [a_alg a_aux a_meas]. split; [exact Ga|]. split; [exact A|].
        destruct (meas_calls h) as [|c l] eqn:Em; [apply (M2 eq_refl)|]. rewrite (M1 ltac:(discriminate)). cbn [MdlProofs.built y_expr]. rewrite Em.
        apply map_ext. intros [[n e] b]. reflexivity. }
    rewrite Z, Ga. cbn [vz alg_list MdlProofs.built]. unfold total_n, total, dft. cbn [map snd app list_sum fold_right List.length]. change (fold_right Nat.add 0) with list_sum. rewrite Hz. cbn [Nat.add]. rewrite Nat.eqb_refl. reflexivity.
  Qed.

  (** ** C38 *)
  (** C38: once a setup has succeeded, after any further calls every declaring call raises and the
      model is what it was; objects can be created from it and its functions are those assembled. *)
  Theorem C38_frozen : forall (m : model) a, ph m = Ready a -> forall cs : list (call E),
    let m' := fold_left crun cs m in
    m' = m /\ (forall d, dcall m' d = Err ExcAssertion) /\ construct m' = Ok tt /\ functions m' = Ok a.
  Proof.
    intros m a P cs. cbv zeta.
    assert (I : fold_left crun cs m = m).
    { induction cs as [|c cs IH]; [reflexivity|]. cbn [fold_left].
      replace (crun m c) with m; [exact IH|]. destruct c as [d|].
      - unfold call_run, decl_run, decl_call, set_variable, set_expression, set_meas, set_rhs, set_alg.
        destruct d; rewrite P; reflexivity.
      - unfold call_run, MdlModel.setup. rewrite P. reflexivity. }
    rewrite I. repeat split.
    - intros d. unfold decl_call, set_variable, set_expression, set_meas, set_rhs, set_alg. destruct d; rewrite P; reflexivity.
    - unfold construct. rewrite P. reflexivity.
    - unfold functions. rewrite P. reflexivity.
  Qed.

  (** Before the first setup, no object can be created from the model and the functions do not exist;
      a successful setup is what changes that. *)
  Theorem C38_before_setup : forall h : list decl, Forall good h ->
    let m := fold_left run h init in
    construct m = Err ExcAssertion /\ functions m = Err ExcAttribute /\
    (construct (fst (setup m)) = Ok tt <-> snd (setup m) = Ok tt).
  Proof.
    intros h G m. unfold m. rewrite (run_built zero plus noise_sym h G). split; [reflexivity|]. split; [reflexivity|].
    split; [|intros S; destruct (setup_built h S) as ((r & _ & _ & C & _) & _); exact C].
    unfold MdlModel.setup. cbn [ph MdlProofs.built]. destruct (dm_built h) as (m' & D & P & _). rewrite D.
    destruct (negb (struct_ok (names (y_expr m')))); [cbn; unfold construct; rewrite P; discriminate|].
    match goal with |- context [if ?c then _ else _] => destruct c; [|discriminate] end.
    destruct (rhs_loop E zero (vx m') (rhs_list m')); [|discriminate].
    match goal with |- context [if ?c then _ else _] => destruct c; [|discriminate] end.
    match goal with |- context [if negb ?c then _ else _] => destruct c; [cbn [negb]|discriminate] end.
    match goal with |- context [if ?c then _ else _] => destruct c; [reflexivity|discriminate] end.
  Qed.

  (** ** C59 *)
  (** A setup that fails because a right-hand side is missing does not leave the model as it was:
      measurements and expressions can no longer be added. *)
  Theorem C59_failed_setup_refuted : exists h : list decl, Forall good h /\
    let m := fold_left run h init in
    let m' := fst (setup m) in
    snd (setup m) <> Ok tt /\
    (forall n e b, is_ok (dcall m (DMeas n e b)) = true /\ dcall m' (DMeas n e b) = Err ExcAttribute) /\
    (forall n e, is_ok (dcall m (DExpr n e)) = true /\ dcall m' (DExpr n e) = Err ExcAttribute).
  Proof.
    exists [DVar "_x" "a" 1]. split.
    { constructor; [|constructor]. split; [exists Kx; reflexivity|discriminate]. }
    assert (G : Forall good ([DVar "_x" "a" 1] : list decl)).
    { constructor; [|constructor]. split; [exists Kx; reflexivity|discriminate]. }
    cbv zeta. rewrite (run_built zero plus noise_sym _ G).
    assert (S : setup (built [DVar "_x" "a" 1]) =
       (fst (setup (built [DVar "_x" "a" 1])), Err ExcAssertion) /\ ph (fst (setup (built [DVar "_x" "a" 1]))) = BrokenEarly).
    { unfold MdlModel.setup. vm_compute. rewrite !struct_ok_nodup by (repeat constructor; cbn; intuition discriminate). split; reflexivity. }
    destruct S as [S1 S2]. split; [rewrite S1; discriminate|]. split; intros.
    - split; [reflexivity|]. cbn [decl_call]. unfold set_meas. rewrite S2. reflexivity.
    - split; [reflexivity|]. cbn [decl_call]. unfold set_expression. rewrite S2. reflexivity.
  Qed.
  (** What a failed setup leaves: no object can be created from the model; and either everything is as before (the
      measurement structure itself was refused), or measurements and expressions can no longer be added while
      variables, right-hand sides and algebraic equations can, or (only if the numbers of algebraic
      equations and states differ, every state having its right-hand side) the model functions exist and
      nothing but algebraic equations can be added. *)
  Theorem C59_after_failed_setup_partial : forall (h : list decl) e, Forall good h ->
    let m := fold_left run h init in let m' := fst (setup m) in
    snd (setup m) = Err e ->
    construct m' = Err ExcAssertion /\
    ((forall d, is_ok (dcall m' d) = is_ok (dcall m d)) /\ functions m' = Err ExcAttribute /\ ~ NoDup (map (fun c => fst (fst c)) (meas_calls h))
     \/ (forall d, is_ok (dcall m' d) = match d with DMeas _ _ _ | DExpr _ _ => false | _ => is_ok (dcall m d) end) /\ functions m' = Err ExcAttribute
     \/ (forall d, is_ok (dcall m' d) = match d with DAlg _ _ => true | _ => false end) /\
        (forall v, In v (declared Kx h) -> exists eb, last_rhs (fst v) h = Some eb) /\
        ((exists a, functions m' = Ok a) /\
           list_sum (map snd (declared Kz h)) <> list_sum (map (fun e => List.length (snd e)) (alg_calls h))
         \/ functions m' = Err ExcAttribute /\
           exists m'' a, default_meas E plus noise_sym state_sym m = Ok m'' /\ assembled_from h a /\ fun_ok m'' a = false)).
  Proof.
    intros h e G. cbv zeta. rewrite (run_built zero plus noise_sym h G). unfold MdlModel.setup. cbn [ph MdlProofs.built].
    destruct (dm_built h) as (m' & D & P & X & U & Z & Pp & T & W & A & R & Ga & M1 & M2). rewrite D.
    assert (DV : forall k, vars k m' = vars k (built h)) by (intros []; cbn [vars]; assumption).
    assert (EARLY : forall e', (with_phase BrokenEarly m', Err e' : res unit) = (with_phase BrokenEarly m', Err e) ->
      construct (with_phase BrokenEarly m') = Err ExcAssertion /\
      (forall d, is_ok (dcall (with_phase BrokenEarly m') d) = match d with DMeas _ _ _ | DExpr _ _ => false | _ => is_ok (dcall (built h) d) end) /\ functions (with_phase BrokenEarly m') = Err ExcAttribute).
    { intros _ _. split; [reflexivity|]. split; [|reflexivity]. intros [t n s|n ex|n ex b|n ex b|n ex]; try reflexivity; cbn [decl_call].
      - unfold set_variable. cbn [ph with_phase MdlProofs.built]. destruct (kind_of t) as [k|]; [|reflexivity]. cbn [bind].
        replace (vars k (with_phase BrokenEarly m')) with (vars k m') by (destruct k; reflexivity). rewrite DV.
        destruct (mem_name n (vars k (built h))); reflexivity.
      - unfold set_rhs. cbn [ph with_phase MdlProofs.built vx]. rewrite X. cbn [vx MdlProofs.built]. destruct (mem_name n (declared Kx h)); reflexivity. }
    destruct (negb (struct_ok (names (y_expr m')))) eqn:Q1.
    { cbn [fst snd]. intros _. split; [unfold construct; rewrite P; reflexivity|]. left.
      assert (NM : ~ NoDup (names (y_expr m'))) by (intros ND; apply struct_ok_nodup in ND; rewrite ND in Q1; discriminate).
      destruct (meas_calls h) as [|c l] eqn:Em.
      - exfalso. apply NM. unfold names. destruct (M2 eq_refl) as (-> & _). apply (keep_first_nodup _ []).
      - rewrite (M1 ltac:(discriminate)) in *. split; [reflexivity|]. split; [reflexivity|]. intros ND. apply NM. unfold names. cbn [MdlProofs.built y_expr]. rewrite Em, map_map.
        replace (map (fun x => fst (noised plus noise_sym false x)) (c :: l)) with (map (fun c => fst (fst c)) (c :: l)); [exact ND|]. apply map_ext. intros [[n ex] b]. reflexivity. }
    match goal with |- context [if ?c then _ else _] => destruct c; [|cbn [fst snd]; intros _; destruct (EARLY e eq_refl) as (? & ? & ?); auto] end.
    destruct (rhs_loop E zero (vx m') (rhs_list m')) as [r|] eqn:Er; [|cbn [fst snd]; intros _; destruct (EARLY e eq_refl) as (? & ? & ?); auto].
    destruct (forallb _ (vx m')) eqn:Q2; [|cbn [fst snd]; intros _; destruct (EARLY e eq_refl) as (? & ? & ?); auto].
    assert (HL : forall v, In v (declared Kx h) -> exists eb, last_rhs (fst v) h = Some eb).
    { rewrite X, R in Q2. rewrite forallb_forall in Q2. intros v Hv. destruct (last_rhs (fst v) h) as [eb|] eqn:El; [eauto|]. exfalso. apply last_rhs_none in El. apply El.
      specialize (Q2 v Hv). unfold mem_name, names in Q2. apply existsb_exists in Q2. destruct Q2 as (x & Hx & Ex). apply String.eqb_eq in Ex. subst x.
      cbn [MdlProofs.built rhs_list] in Hx. rewrite map_map in Hx. apply in_map_iff in Hx as ([[k ex] b] & Ek & Hk). apply in_map_iff. exists (k, ex, b). split; [exact Ek|exact Hk]. }
    assert (LATE : forall l d, is_ok (dcall (with_phase (BrokenLate l) m') d) = match d with DAlg _ _ => true | _ => false end).
    { intros l [t n s|n ex|n ex b|n ex b|n ex]; try reflexivity. cbn [decl_call]. unfold set_variable. cbn [ph with_phase]. destruct (kind_of t); reflexivity. }
    destruct (fun_ok m' _) eqn:Fo; cbn [negb].
    - destruct (Nat.eqb_spec (total_n (vz m')) (total (alg_list m'))) as [Q3|Q3]; [discriminate|]. cbn [fst snd]. intros _.
      split; [reflexivity|]. right; right. split; [apply LATE|]. split; [exact HL|]. left. split; [eexists; reflexivity|].
      rewrite Z, Ga in Q3. exact Q3.
    - cbn [fst snd]. intros _. split; [reflexivity|]. right; right. split; [apply LATE|]. split; [exact HL|]. right. split; [reflexivity|].
      exists m'. eexists. split; [reflexivity|]. split; [|exact Fo].
      split; [apply rhs_from; [exact HL|rewrite X, R in Er; exact Er]|]. cbn [a_alg a_aux a_meas]. split; [exact Ga|]. split; [exact A|].
      destruct (meas_calls h) as [|c l] eqn:Em; [apply (M2 eq_refl)|]. rewrite (M1 ltac:(discriminate)). cbn [MdlProofs.built y_expr]. rewrite Em.
      apply map_ext. intros [[n ex] b]. reflexivity.
  Qed.
End P.

(** Concrete model: two states (one a vector), an input, an algebraic state, a re-set right-hand side,
    measurements.  Expressions are natural numbers here. *)
Definition ex_h : list (decl nat) :=
  [DVar "states" "x1" 1; DVar "_x" "x2" 2; DVar "_u" "u" 1; DVar "algebraic" "z" 1; DVar "_x" "x1" 5;
   DRhs "x1" [10] false; DRhs "x2" [1; 2] true; DRhs "x1" [7] false; DRhs "q" [1] false; DAlg "a" [3]; DMeas "y" [4] true].
Example C36_C37_nonvacuous : Forall good ex_h /\
  let st := setup nat 0 Nat.add (fun (w : bool) _ i => (if w then 100 else 200) + i) (fun _ => true) (fun _ i => i) (fun m => (m, Err ExcGeneric)) (fun _ _ => true) in
  let m := fold_left (decl_run nat Nat.add (fun (w : bool) _ i => (if w then 100 else 200) + i)) ex_h (model_init nat 0) in
  vars Kx m = [("x1", 1); ("x2", 2)]%string /\ snd (st m) = Ok tt /\
  functions (fst (st m)) = Ok (mkAsm [("x1", [7]); ("x2", [101; 103])]%string [("default", []); ("a", [3])]%string [("default", [0])]%string [("y", [204])]%string).
Proof.
  split; [|vm_compute; repeat split].
  assert (N : forall k t, names_kind t k = true -> t <> "timevarying_parameter"%string -> (exists k, names_kind t k = true) /\ t <> "timevarying_parameter"%string) by eauto.
  repeat (constructor; [first [exact I | cbn [good]; first [apply (N Kx); [reflexivity|discriminate]|apply (N Ku); [reflexivity|discriminate]|apply (N Kz); [reflexivity|discriminate]]]|]). constructor.
Qed.
Example C38_nonvacuous : exists m a, ph m = Ready a /\
  m = fst (setup nat 0 Nat.add (fun (w : bool) _ i => (if w then 100 else 200) + i) (fun _ => true) (fun _ i => i) (fun m => (m, Err ExcGeneric)) (fun _ _ => true)
           (fold_left (decl_run nat Nat.add (fun (w : bool) _ i => (if w then 100 else 200) + i)) ex_h (model_init nat 0))).
Proof. eexists. eexists. split; [|reflexivity]. vm_compute. reflexivity. Qed.
(** The four ways a setup fails: a measurement name twice; a state without right-hand side; an algebraic equation missing;
    a function CasADi refuses (here: one with the expression 9). *)
Definition nodupb (l : list string) : bool := Nat.eqb (List.length (nodup string_dec l)) (List.length l).
Lemma nodupb_ok l : NoDup l -> nodupb l = true.
Proof. intros H. unfold nodupb. rewrite (nodup_fixed_point string_dec H). apply Nat.eqb_refl. Qed.
Example C59_nonvacuous :
  let st := setup nat 0 Nat.add (fun (w : bool) _ i => (if w then 100 else 200) + i) nodupb (fun _ i => i) (fun m => (m, Err ExcGeneric))
            (fun _ a => forallb (fun re => negb (existsb (Nat.eqb 9) (snd re))) (a_rhs a)) in
  let run h := st (fold_left (decl_run nat Nat.add (fun (w : bool) _ i => (if w then 100 else 200) + i)) h (model_init nat 0)) in
  let can d h := is_ok (decl_call nat Nat.add (fun (w : bool) _ i => (if w then 100 else 200) + i) (fst (run h)) d) in
  let h1 := [DVar "_x" "a" 1; DRhs "a" [1] false; DMeas "y" [1] false; DMeas "y" [2] false]%string in
  let h2 := [DVar "_x" "a" 1]%string in
  let h3 := [DVar "_x" "a" 1; DRhs "a" [1] false; DVar "_z" "z" 1]%string in
  let h4 := [DVar "_x" "a" 1; DRhs "a" [9] false]%string in
  (forall l, NoDup l -> nodupb l = true) /\
  map (fun h => is_ok (snd (run h))) [h1; h2; h3; h4] = [false; false; false; false] /\
  map (can (DMeas "q" [1] false)%string) [h1; h2; h3; h4] = [true; false; false; false] /\
  map (can (DVar "_x" "q" 1)%string) [h1; h2; h3; h4] = [true; true; false; false] /\
  map (can (DAlg "q" [1])%string) [h1; h2; h3; h4] = [true; true; true; true] /\
  map (fun h => is_ok (functions (fst (run h)))) [h1; h2; h3; h4] = [false; false; true; false].
Proof. cbv zeta. split; [exact nodupb_ok|]. repeat split; vm_compute; reflexivity. Qed.
Print Assumptions C36_declaration_partial.
Print Assumptions C36_timevarying_parameter_refuted.
Print Assumptions C37_noise_entries.
Print Assumptions C37_setup_requires.
Print Assumptions C37_setup_succeeds.
Print Assumptions C38_frozen.
Print Assumptions C38_before_setup.
Print Assumptions C59_failed_setup_refuted.
Print Assumptions C59_after_failed_setup_partial.
