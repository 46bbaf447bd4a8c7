(** * Lemmas for C48. *)
From Coq Require Import Reals Lra.
From Verif Require Import Base DataModel DataProofs SaveProofs MdlModel MdlSpec MdlProofs MdlProps DaeModel DaeSpec.
Import List.
Local Open Scope R_scope.

(** ** Lists of declaring calls that are all accepted *)
Section Acc.
  Context {E : Type}.
  Variable zero : E.
  Variable plus : E -> E -> E.
  Variable noise_sym : bool -> string -> nat -> E.
  Notation run := (decl_run E plus noise_sym).
  Notation dcall := (decl_call E plus noise_sym).
  Notation init := (model_init E zero).

  Definition acceptable (h1 : list (decl E)) (d : decl E) : Prop :=
    match d with
    | DVar t n _ => exists k, names_kind t k = true /\ t <> "timevarying_parameter"%string /\ ~ In n (reserved k) /\ ~ In n (map fst (declared k h1))
    | DRhs n _ _ => In n (map fst (declared Kx h1))
    | _ => False
    end.

  Lemma accept_one h d : Forall good h -> acceptable h d -> dcall (fold_left run h init) d = Ok (run (fold_left run h init) d) /\ good d.
  Proof.
    intros G A. assert (X : is_ok (dcall (fold_left run h init) d) = true -> dcall (fold_left run h init) d = Ok (run (fold_left run h init) d)).
    { generalize (fold_left run h init). intros M. unfold decl_run. destruct (dcall M d); [reflexivity|discriminate]. }
    destruct d as [t n s|n e|n e b|n e b|n e]; cbn [acceptable] in A; try contradiction.
    - destruct A as (k & K1 & K2 & K3 & K4).
      destruct (C36_declaration_partial zero plus noise_sym (noise_sym true) (fun _ => true) (fun m => (m, Ok tt)) (fun _ _ => true) h G k) as (_ & _ & _ & _ & H).
      specialize (H t n s K1 K2). destruct H as [_ H]. specialize (H (conj K3 K4)).
      split; [|split; [eauto|exact K2]]. apply X. exact H.
    - split; [|exact I]. apply X. rewrite (run_built zero plus noise_sym h G). cbn [decl_call]. unfold set_rhs. cbn [ph built].
      replace (mem_name n (vx (built zero plus noise_sym h))) with true; [reflexivity|].
      symmetry. cbn [vx built]. unfold mem_name, names. apply existsb_exists. exists n. split; [exact A|apply String.eqb_refl].
  Qed.

  Lemma accept_all h : (forall h1 d h2, h = (h1 ++ d :: h2)%list -> acceptable h1 d) ->
    foldM dcall h init = Ok (fold_left run h init) /\ Forall good h.
  Proof.
    induction h as [|d h IH] using rev_ind; intros H; [split; [reflexivity|constructor]|].
    destruct IH as [IH G]. { intros h1 d' h2 ->. apply (H h1 d' (h2 ++ [d])%list). rewrite <- app_assoc. reflexivity. }
    destruct (accept_one h d G (H h d [] eq_refl)) as [A Gd].
    split; [|apply Forall_app; split; [exact G|constructor; [exact Gd|constructor]]].
    rewrite foldM_app, IH. cbn [bind foldM]. rewrite A. rewrite fold_left_app. reflexivity.
  Qed.

  (** Declarations of variables followed by right-hand sides. *)
  Definition is_var (d : decl E) : Prop :=
    match d with DVar t n _ => exists k, names_kind t k = true /\ t <> "timevarying_parameter"%string /\ ~ In n (reserved k) | _ => False end.
  Lemma requested_app' k (h h' : list (decl E)) : requested k (h ++ h') = (requested k h ++ requested k h')%list.
  Proof. apply requested_app. Qed.

  Lemma accept_split V Rs : Forall is_var V -> (forall k, NoDup (map fst (requested k V))) ->
    Forall (fun d => match d with DRhs n _ _ => In n (map fst (requested Kx V)) | _ => False end) Rs ->
    foldM dcall (V ++ Rs) init = Ok (fold_left run (V ++ Rs) init) /\ Forall good (V ++ Rs).
  Proof.
    intros FV ND FR. apply accept_all. intros h1 d h2 El.
    apply app_eq_app in El. destruct El as (l & [[E1 E2]|[E1 E2]]).
    - (* V = h1 ++ l *)
      destruct l as [|d' l].
      + cbn in E2. rewrite app_nil_r in E1. subst h1 Rs. inversion FR as [|? ? Hd _]; subst.
        destruct d as [t n s|n e|n e b|n e b|n e]; try contradiction. cbn [acceptable].
        unfold declared. apply keep_first_in. split; [exact Hd|intros []].
      + cbn in E2. injection E2 as -> E2. subst V.
        apply Forall_app in FV. destruct FV as [_ FV]. inversion FV as [|? ? Hd _]; subst.
        destruct d' as [t n s|n e|n e b|n e b|n e]; try contradiction. cbn [is_var] in Hd.
        destruct Hd as (k & K1 & K2 & K3). cbn [acceptable]. exists k. split; [exact K1|]. split; [exact K2|]. split; [exact K3|].
        intros X. apply keep_first_in in X. destruct X as [X _].
        specialize (ND k). rewrite requested_app' in ND. change (DVar t n s :: l)%list with ([DVar t n s] ++ l)%list in ND.
        rewrite requested_app' in ND. cbn [requested flat_map] in ND. rewrite K1 in ND. cbn [app] in ND.
        rewrite map_app in ND. cbn [map fst] in ND. apply NoDup_remove_2 in ND. apply ND. apply in_or_app. left. exact X.
    - (* h1 = V ++ l *)
      subst h1. assert (Hd : match d with DRhs n _ _ => In n (map fst (requested Kx V)) | _ => False end).
      { rewrite E2 in FR. apply Forall_app in FR. destruct FR as [_ FR]. inversion FR; assumption. }
      destruct d as [t n s|n e|n e b|n e b|n e]; try contradiction. cbn [acceptable].
      unfold declared. apply keep_first_in. split; [|intros []].
      rewrite requested_app', map_app. apply in_or_app. left. exact Hd.
  Qed.

  Lemma requested_vars k t (l : list (string * nat)) :
    requested k (map (fun v => DVar t (fst v) (snd v)) l : list (decl E)) = if names_kind t k then l else [].
  Proof.
    unfold requested. induction l as [|[n s] l IH]; cbn [map flat_map]; [destruct (names_kind t k); reflexivity|].
    cbn [fst snd]. rewrite IH. destruct (names_kind t k); reflexivity.
  Qed.
  Lemma requested_rhs k (l : list (decl E)) : Forall (fun d => match d with DRhs _ _ _ => True | _ => False end) l -> requested k l = [].
  Proof. induction 1 as [|d l Hd _ IH]; [reflexivity|]. destruct d; try contradiction. exact IH. Qed.

  (** The right-hand sides collected from such a list. *)
  Definition call_of (d : decl E) : list (string * list E * bool) := match d with DRhs n e b => [(n, e, b)] | _ => [] end.
  Lemma rhs_calls_rhs Rs : forall st, Forall (fun d => match d with DRhs n _ _ => In n st | _ => False end) Rs ->
    rhs_calls st Rs = flat_map call_of Rs.
  Proof.
    intros st. induction 1 as [|d l Hd _ IH]; [reflexivity|]. destruct d as [t n s|n e|n e b|n e b|n e]; try contradiction.
    cbn. replace (existsb (String.eqb n) st) with true; [cbn; f_equal; exact IH|].
    symmetry. apply existsb_exists. exists n. split; [exact Hd|apply String.eqb_refl].
  Qed.
  Lemma rhs_calls_split V Rs : Forall is_var V ->
    Forall (fun d => match d with DRhs n _ _ => In n (map fst (requested Kx V)) | _ => False end) Rs ->
    rhs_calls [] (V ++ Rs) = flat_map call_of Rs.
  Proof.
    intros FV FR. rewrite rhs_calls_app.
    assert (E0 : forall st, rhs_calls st V = []).
    { clear FR. induction FV as [|d V Hd _ IH]; intros st; [reflexivity|]. destruct d; try contradiction. apply IH. }
    rewrite E0. cbn [app]. apply rhs_calls_rhs. eapply Forall_impl; [|exact FR]. intros d Hd. destruct d; try contradiction.
    apply st_after_in. right. exact Hd.
  Qed.
  Lemma no_others V Rs : Forall is_var V -> Forall (fun d => match d with DRhs _ _ _ => True | _ => False end) Rs ->
    alg_calls (V ++ Rs) = [] /\ expr_calls (V ++ Rs) = [] /\ meas_calls (V ++ Rs) = [].
  Proof.
    intros FV FR. unfold alg_calls, expr_calls, meas_calls. rewrite !flat_map_app.
    induction FV as [|d V Hd _ IH].
    - induction FR as [|d l Hd _ IH]; [repeat split|]. destruct d; try contradiction. exact IH.
    - destruct d; try contradiction. exact IH.
  Qed.

  Lemma last_rhs_in (h : list (decl E)) n e b : NoDup (map (fun c => fst (fst c)) (rhs_calls [] h)) -> In (n, e, b) (rhs_calls [] h) -> last_rhs n h = Some (e, b).
  Proof.
    intros ND I. unfold last_rhs.
    assert (ND' : NoDup (map (fun c => fst (fst c)) (rev (rhs_calls [] h)))) by (rewrite map_rev; apply NoDup_rev; exact ND).
    apply in_rev in I. revert ND' I. generalize (rev (rhs_calls [] h)) as l.
    induction l as [|[[n' e'] b'] l IH]; intros N X; [contradiction|]. destruct X as [X|X].
    - injection X as -> -> ->. cbn. rewrite String.eqb_refl. reflexivity.
    - cbn. destruct (String.eqb_spec n n') as [->|Hn].
      + cbn in N. inversion N as [|? ? N1 _]; subst. exfalso. apply N1. apply in_map_iff. exists (n', e, b). split; [reflexivity|exact X].
      + apply IH; [inversion N; assumption|exact X].
  Qed.
End Acc.

Lemma keep_first_id (l : list (string * nat)) : forall seen, NoDup (map fst l) -> (forall n, In n (map fst l) -> ~ In n seen) -> keep_first seen l = l.
Proof.
  induction l as [|[n s] l IH]; intros seen ND D; [reflexivity|]. cbn.
  replace (existsb (String.eqb n) seen) with false.
  - f_equal. apply IH; [inversion ND; assumption|]. intros k Hk [->|X]; [inversion ND; contradiction|].
    exact (D k (or_intror Hk) X).
  - symmetry. apply Bool.not_true_iff_false. intros X. apply existsb_exists in X. destruct X as (y & Hy & Ey).
    apply String.eqb_eq in Ey. subst y. exact (D n (or_introl eq_refl) Hy).
Qed.

(** ** What setup makes of such a list *)
Section Asm.
  Context {E : Type}.
  Variable zero : E.
  Variable plus : E -> E -> E.
  Variable noise_sym : bool -> string -> nat -> E.
  Variable state_sym : string -> nat -> E.
  Variable struct_ok : list string -> bool.
  Variable resetup : model E -> model E * res unit.
  Hypothesis struct_ok_nodup : forall l, NoDup l -> struct_ok l = true.
  Notation run := (decl_run E plus noise_sym).
  Notation dcall := (decl_call E plus noise_sym).
  Notation init := (model_init E zero).
  Notation setup := (setup E zero plus noise_sym struct_ok state_sym resetup (fun _ _ => true)).

  Definition spread (s : nat) (e : list E) : list E := match e with [a] => repeat a s | _ => e end.
  Lemma placed_spread s e e' : placed s e e' -> e' = spread s e.
  Proof.
    intros [L [->|(a & -> & ->)]]; [|reflexivity]. destruct e as [|a [|b e]]; try reflexivity.
    cbn in L. subst s. reflexivity.
  Qed.

  Lemma assembled_split V Rs : Forall is_var V -> (forall k, NoDup (map fst (requested k V))) ->
    (forall k n, In n (map fst (requested k V)) -> ~ In n (reserved k)) ->
    Forall (fun d => match d with DRhs n _ _ => In n (map fst (requested Kx V)) | _ => False end) Rs ->
    map (fun c => fst (fst c)) (flat_map call_of Rs) = map fst (requested Kx V) ->
    Forall2 (fun v c => List.length (snd (fst c)) = snd v \/ List.length (snd (fst c)) = 1%nat) (requested Kx V) (flat_map call_of Rs) ->
    requested Kz V = [] -> ~ In "default"%string (map fst (requested Kx V)) ->
    exists a, foldM dcall (V ++ Rs) init = Ok (fold_left run (V ++ Rs) init) /\
      snd (setup (fold_left run (V ++ Rs) init)) = Ok tt /\
      functions (fst (setup (fold_left run (V ++ Rs) init))) = Ok a /\
      vx (fst (setup (fold_left run (V ++ Rs) init))) = requested Kx V /\
      vu (fst (setup (fold_left run (V ++ Rs) init))) = (("default"%string, 0%nat) :: requested Ku V)%list /\
      a_rhs a = map (fun vc => (fst (fst vc), spread (snd (fst vc)) (with_noise plus noise_sym true (fst (fst (snd vc))) (snd (fst (snd vc))) (snd (snd vc)))))
                    (combine (requested Kx V) (flat_map call_of Rs)).
  Proof.
    intros FV ND RV FR Nm Sz Kz0 Dft.
    destruct (accept_split zero plus noise_sym V Rs FV ND FR) as [Acc G].
    assert (FR' : Forall (fun d : decl E => match d with DRhs _ _ _ => True | _ => False end) Rs).
    { eapply Forall_impl; [|exact FR]. intros d. destruct d; try contradiction. trivial. }
    assert (RQ : forall k, declared k (V ++ Rs) = requested k V).
    { intros k. unfold declared. rewrite requested_app, (requested_rhs k Rs FR'), app_nil_r. apply keep_first_id; [apply ND|apply RV]. }
    pose proof (rhs_calls_split V Rs FV FR) as RC. destruct (no_others V Rs FV FR') as (NA & NE & NM).
    assert (NDR : NoDup (map (fun c => fst (fst c)) (rhs_calls [] (V ++ Rs)))) by (rewrite RC, Nm; apply ND).
    assert (S : snd (setup (fold_left run (V ++ Rs) init)) = Ok tt).
    { apply C37_setup_succeeds; try assumption.
      - intros v Hv. rewrite RQ in Hv. apply (in_map fst) in Hv. rewrite <- Nm in Hv. rewrite <- RC in Hv.
        apply in_map_iff in Hv. destruct Hv as ([[n e] b] & En & Hc). cbn in En. subst n. exists (e, b). apply last_rhs_in; assumption.
      - rewrite RQ, Kz0, NA. reflexivity.
      - intros n e b s Hc Hs. rewrite RC in Hc. rewrite RQ in Hs.
        assert (NX := ND Kx). clear - Hc Hs Nm Sz NX. revert Hc Hs NX Nm. induction Sz as [|v c lv lc Hvc _ IH]; intros Hc Hs NX Nm; [contradiction|].
        cbn in Nm. injection Nm as N1 N2. cbn in NX. inversion NX as [|? ? X1 X2]; subst.
        destruct Hc as [->|Hc], Hs as [->|Hs]; cbn in *.
        + exact Hvc.
        + exfalso. apply X1. rewrite <- N1. apply (in_map fst) in Hs. exact Hs.
        + exfalso. apply X1. rewrite <- N2. apply (in_map (fun c => fst (fst c))) in Hc. exact Hc.
        + apply IH; assumption.
      - rewrite NM. constructor; [intros []|constructor].
      - intros _. rewrite RQ. exact Dft.
      - rewrite NE. constructor; [intros []|constructor].
      - rewrite NA. constructor; [intros []|constructor].
      - reflexivity. }
    destruct (C37_setup_requires zero plus noise_sym state_sym struct_ok resetup (fun _ _ => true) (V ++ Rs) G S) as (_ & _ & _ & a & Fa & (F2 & _) & _).
    exists a. split; [exact Acc|]. split; [exact S|]. split; [exact Fa|].
    assert (VV : vx (fst (setup (fold_left run (V ++ Rs) init))) = declared Kx (V ++ Rs) /\
                 vu (fst (setup (fold_left run (V ++ Rs) init))) = (("default"%string, 0%nat) :: declared Ku (V ++ Rs))%list).
    { clear Fa F2. revert S. rewrite (run_built zero plus noise_sym _ G). unfold MdlModel.setup. cbn [ph built].
      destruct (dm_built zero plus noise_sym state_sym (V ++ Rs)) as (m' & D & P & X & U & _). rewrite D.
      destruct (negb (struct_ok (names (y_expr m')))); [discriminate|].
      destruct (forallb struct_ok _); [|discriminate].
      destruct (rhs_loop E zero (vx m') (rhs_list m')); [|discriminate].
      destruct (forallb _ (vx m')); [|discriminate]. cbn [negb]. destruct (Nat.eqb _ _); [|discriminate].
      intros _. cbn [fst with_phase vx vu]. rewrite X, U. split; reflexivity. }
    rewrite !RQ in VV. destruct VV as [V1 V2]. split; [exact V1|]. split; [exact V2|].
    rewrite RQ in F2. clear - F2 Nm NDR RC.
    assert (IN : forall c, In c (flat_map call_of Rs) -> last_rhs (fst (fst c)) (V ++ Rs) = Some (snd (fst c), snd c)).
    { intros [[n e] b] Hc. apply last_rhs_in; [exact NDR|]. rewrite RC. exact Hc. }
    clear NDR RC. revert Nm IN F2. generalize (requested Kx V) (flat_map call_of Rs) (a_rhs a). intros lv lc lr Nm IN F2. revert lc Nm IN.
    induction F2 as [|v re lv lr (En & e & b & Hl & Pl) _ IH]; intros [|c lc] Nm IN; try discriminate; [reflexivity|].
    cbn in Nm. injection Nm as N1 N2. cbn [combine map]. f_equal; [|apply IH; [exact N2|intros c' Hc'; apply IN; right; exact Hc']].
    specialize (IN c (or_introl eq_refl)). rewrite N1, Hl in IN. injection IN as -> ->.
    cbn [fst snd]. rewrite N1. destruct re as [n' e']. cbn in *. subst n'. f_equal. apply placed_spread. exact Pl.
  Qed.
End Asm.
