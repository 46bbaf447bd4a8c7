(** * C82-C86: the symbolic side of a model. *)
From Verif Require Import Base DataModel DataProofs SaveProofs MdlModel MdlSpec MdlProofs MdlProps SymModel SymSpec SymProofs SymProofs2 SymProofs3.
Import List.
Local Open Scope string_scope.

Lemma size_of_in' n s (l : list (string * nat)) : NoDup (map fst l) -> In (n, s) l -> size_of n l = s.
Proof.
  unfold size_of. induction l as [|[n' s'] l IH]; cbn; [tauto|]. intros ND. inversion ND as [|? ? NI ND']; subst.
  intros [X|X]; [injection X as -> ->; rewrite String.eqb_refl; reflexivity|]. destruct (String.eqb n n') eqn:Q; [|exact (IH ND' X)].
  apply String.eqb_eq in Q. subst. exfalso. apply NI. apply (in_map fst _ _ X).
Qed.

Section P.
  Context {V : Type}.
  Variable op : nat -> V -> V -> V.
  Variable v0 : V.
  Variable struct_ok : list string -> bool.
  Variable resetup : model (ex V) -> model (ex V) * res unit.
  Notation ex := (ex V).
  Notation eval := (eval V op).
  Notation syms := (syms V).
  Notation decl := (decl ex).
  Notation sysmodel := (sysmodel V).
  Notation run := (decl_run ex (Op V 0) (noise_sym V)).
  Notation init := (model_init ex (Cst V v0)).
  Notation sys_setup := (sys_setup V v0 struct_ok resetup).
  Notation call := (call V op v0).

  (** C82: after any history of declarations and a successful setup, the model's functions, called with
      numbers for all variables, return the values of the user's expressions with the noise. *)
  Theorem C82_functions : forall t (h : list decl) (s : sysmodel), Forall good h -> user_history h ->
    sys_setup t (fold_left run h init) = Ok s ->
    forall val rho, means rho 0 val ->
      call (rhs_fun V (s_funs V s)) (columns h val rhs_args) = Ok (rhs_values op v0 val rho h) /\
      call (alg_fun V (s_funs V s)) (columns h val rhs_args) = Ok (alg_values op rho h) /\
      call (aux_fun V (s_funs V s)) (columns h val x_u_z_tvp_p) = Ok (aux_values op v0 rho h) /\
      call (meas_fun V (s_funs V s)) (columns h val meas_args) = Ok (meas_values op val rho h).
  Proof.
    intros t h s G UH H val rho Hr.
    destruct (setup_of_sys v0 struct_ok resetup t h s G H) as (a & Sh & _ & _ & _ & Fu).
    pose proof (sh_vars _ _ _ _ Sh) as VS. pose proof (sh_from _ _ _ _ Sh) as AF.
    destruct (funs_inv h _ a _ VS Fu) as (F1 & F2 & F3 & F4).
    destruct (old_assembled v0 h a UH AF) as (O1 & O2 & O3 & O4).
    destruct (eval_assembled op v0 val rho Hr h a AF) as (E1 & E2 & E3 & E4).
    rewrite <- E1, <- E2, <- E3, <- E4. split; [|split; [|split]].
    - exact (proj1 (proj2 (one_fun op v0 h _ _ _ _ VS O1 F1)) val rho Hr).
    - exact (proj1 (proj2 (one_fun op v0 h _ _ _ _ VS O2 F2)) val rho Hr).
    - exact (proj1 (proj2 (one_fun op v0 h _ _ _ _ VS O3 F3)) val rho Hr).
    - exact (proj1 (proj2 (one_fun op v0 h _ _ _ _ VS O4 F4)) val rho Hr).
  Qed.

  (** The expressions of a set-up (and possibly pickled) model. *)
  Lemma pinv_values h a s : user_history h -> pinv v0 h a s -> forall val rho rg, means rho 0 val -> means rg (s_gen V s) val ->
      map (eval rg) (entries (a_rhs (s_asm V s))) = rhs_values op v0 val rho h /\
      map (eval rg) (entries (a_alg (s_asm V s))) = alg_values op rho h /\
      map (eval rg) (entries (a_aux (s_asm V s))) = aux_values op v0 rho h /\
      map (eval rg) (entries (a_meas (s_asm V s))) = meas_values op val rho h.
  Proof.
    intros UH [Sh Fu P1 P2 P3 P4] val rho rg Hr Hg.
    pose proof (sh_vars _ _ _ _ Sh) as VS. pose proof (sh_from _ _ _ _ Sh) as AF.
    destruct (funs_inv h _ a _ VS Fu) as (F1 & F2 & F3 & F4).
    destruct (old_assembled v0 h a UH AF) as (O1 & O2 & O3 & O4).
    destruct (eval_assembled op v0 val rho Hr h a AF) as (E1 & E2 & E3 & E4).
    rewrite <- E1, <- E2, <- E3, <- E4. split; [|split; [|split]].
    - exact (proj1 (part_values op v0 h _ _ _ _ _ _ VS O1 P1 F1) val rho rg Hr Hg).
    - exact (proj1 (part_values op v0 h _ _ _ _ _ _ VS O2 P2 F2) val rho rg Hr Hg).
    - exact (proj1 (part_values op v0 h _ _ _ _ _ _ VS O3 P3 F3) val rho rg Hr Hg).
    - exact (proj1 (part_values op v0 h _ _ _ _ _ _ VS O4 P4 F4) val rho rg Hr Hg).
  Qed.

  (** C82 (expressions): model.aux, model._rhs, ... of the set-up model, whose symbols are those of
      model.x, model.u, ..., have the values of the user's expressions. *)
  Theorem C82_expressions : forall t (h : list decl) (s : sysmodel), Forall good h -> user_history h ->
    sys_setup t (fold_left run h init) = Ok s ->
    forall val rho r1, means rho 0 val -> means r1 1 val ->
      map (eval r1) (entries (a_rhs (s_asm V s))) = rhs_values op v0 val rho h /\
      map (eval r1) (entries (a_alg (s_asm V s))) = alg_values op rho h /\
      map (eval r1) (entries (a_aux (s_asm V s))) = aux_values op v0 rho h /\
      map (eval r1) (entries (a_meas (s_asm V s))) = meas_values op val rho h.
  Proof.
    intros t h s G UH H val rho r1 Hr H1. destruct (pinv_setup op v0 struct_ok resetup t h s G H) as (a & I & _ & Ge).
    apply (pinv_values h a s UH I); [exact Hr|]. rewrite Ge. exact H1.
  Qed.

  (** C83: setup succeeds only if the expressions in use mention nothing but declared variables that the
      function in question takes: no measurement noise in right-hand sides, no process noise in
      measurements, neither in auxiliary expressions, no symbols from elsewhere. *)
  Theorem C83_only_declared : forall t (h : list decl) (s : sysmodel), Forall good h -> user_history h ->
    sys_setup t (fold_left run h init) = Ok s ->
    (forall v e b x y, In v (declared Kx h) -> 0 < snd v -> last_rhs (fst v) h = Some (e, b) -> In x e -> In y (syms x) -> declared_in h rhs_args y) /\
    (forall n e x y, In (n, e) (alg_calls h) -> In x e -> In y (syms x) -> declared_in h rhs_args y) /\
    (forall n e x y, In (n, e) (expr_calls h) -> In x e -> In y (syms x) -> declared_in h x_u_z_tvp_p y) /\
    (forall n e b x y, In (n, e, b) (meas_calls h) -> In x e -> In y (syms x) -> declared_in h meas_args y).
  Proof.
    intros t h s G UH H.
    destruct (setup_of_sys v0 struct_ok resetup t h s G H) as (a & Sh & _ & _ & _ & Fu).
    pose proof (sh_vars _ _ _ _ Sh) as VS. pose proof (sh_from _ _ _ _ Sh) as AF.
    destruct (funs_inv h _ a _ VS Fu) as (F1 & F2 & F3 & F4).
    destruct (old_assembled v0 h a UH AF) as (O1 & O2 & O3 & O4).
    pose proof (proj1 (one_fun op v0 h _ _ _ _ VS O1 F1)) as D1.
    pose proof (proj1 (one_fun op v0 h _ _ _ _ VS O2 F2)) as D2.
    pose proof (proj1 (one_fun op v0 h _ _ _ _ VS O3 F3)) as D3.
    pose proof (proj1 (one_fun op v0 h _ _ _ _ VS O4 F4)) as D4.
    clear F1 F2 F3 F4 O1 O2 O3 O4 Fu.
    assert (WN : forall (w : bool) n (e : list ex) (b : bool) x y, In x e -> In y (syms x) -> exists x', In x' (with_noise (Op V 0) (noise_sym V) w n e b) /\ In y (syms x')).
    { intros w n e b x y Hx Hy. unfold with_noise. destruct b; [|eauto]. unfold add_noise.
      destruct (In_nth_error _ _ Hx) as [i Hi].
      exists (Op V 0 x (noise_sym V w (n ++ "_noise") i)). split; [|cbn; apply in_app_iff; left; exact Hy].
      apply in_map_iff. exists (i, x). split; [reflexivity|].
      assert (K : forall k, In (k + i, x) (combine (seq k (List.length e)) e)).
      { clear Hx. revert i Hi. induction e as [|z e IH]; intros [|i] Hi k; try discriminate; cbn in *.
        - injection Hi as ->. left. f_equal. lia.
        - right. replace (k + S i) with (S k + i) by lia. apply IH. exact Hi. }
      exact (K 0). }
    destruct AF as (R & A & X & M). split; [|split; [|split]].
    - intros v e b x y Hv Hs Hl Hx Hy.
      assert (RE : exists re, In re (a_rhs a) /\ placed (snd v) (with_noise (Op V 0) (noise_sym V) true (fst v) e b) (snd re)).
      { clear -R Hv Hl. revert R Hv. generalize (declared Kx h) (a_rhs a). intros xs rl R.
        induction R as [|v' re xs rl (En & e' & b' & Hl' & Pl) _ IH]; intros Hv; [contradiction|]. destruct Hv as [->|Hv].
        - exists re. split; [left; reflexivity|]. rewrite Hl in Hl'. injection Hl' as <- <-. exact Pl.
        - destruct (IH Hv) as (re' & P & Q). exists re'. split; [right; exact P|exact Q]. }
      destruct RE as (re & Hre & _ & Pl). destruct (WN true (fst v) e b x y Hx Hy) as (x' & Hx' & Hy').
      apply (D1 x'); [|exact Hy']. unfold flat. apply in_flat_map. exists re. split; [exact Hre|].
      destruct Pl as [->|(x0 & Ex & ->)]; [exact Hx'|]. rewrite Ex in Hx'. destruct Hx' as [->|[]]. destruct (snd v); [lia|]. left. reflexivity.
    - intros n e x y Hn Hx Hy. apply (D2 x); [|exact Hy]. unfold flat. apply in_flat_map. exists (n, e). rewrite A. split; [right; exact Hn|exact Hx].
    - intros n e x y Hn Hx Hy. apply (D3 x); [|exact Hy]. unfold flat. apply in_flat_map. exists (n, e). rewrite X. split; [right; exact Hn|exact Hx].
    - intros n e b x y Hn Hx Hy. destruct (WN false n e b x y Hx Hy) as (x' & Hx' & Hy').
      apply (D4 x'); [|exact Hy']. unfold flat. apply in_flat_map. exists (n, with_noise (Op V 0) (noise_sym V) false n e b). split; [|exact Hx'].
      rewrite M. destruct (meas_calls h) as [|c l] eqn:Em; [contradiction|]. rewrite <- Em in *.
      apply in_map_iff. exists (n, e, b). split; [reflexivity|exact Hn].
  Qed.

  (** C83 (converse): with the conditions of C37 and expressions over declared variables setup succeeds. *)
  Hypothesis struct_ok_nodup : forall l, NoDup l -> struct_ok l = true.
  Theorem C83_setup_succeeds : forall t (h : list decl), Forall good h ->
    (forall v, In v (declared Kx h) -> exists eb, last_rhs (fst v) h = Some eb) ->
    list_sum (map snd (declared Kz h)) = list_sum (map (fun e => List.length (snd e)) (alg_calls h)) ->
    (forall n e b s, In (n, e, b) (rhs_calls [] h) -> In (n, s) (declared Kx h) -> List.length e = s \/ List.length e = 1) ->
    NoDup (map (fun c => fst (fst c)) (rhs_calls [] h)) ->
    NoDup ("default"%string :: map (fun c => fst (fst c)) (meas_calls h)) ->
    (meas_calls h = [] -> ~ In "default"%string (map fst (declared Kx h))) ->
    NoDup ("default"%string :: map fst (expr_calls h)) -> NoDup ("default"%string :: map fst (alg_calls h)) ->
    (forall n e b x y, In (n, e, b) (rhs_calls [] h) -> In x e -> In y (syms x) -> declared_in h rhs_args y) ->
    (forall n e x y, In (n, e) (alg_calls h) -> In x e -> In y (syms x) -> declared_in h rhs_args y) ->
    (forall n e x y, In (n, e) (expr_calls h) -> In x e -> In y (syms x) -> declared_in h x_u_z_tvp_p y) ->
    (forall n e b x y, In (n, e, b) (meas_calls h) -> In x e -> In y (syms x) -> declared_in h meas_args y) ->
    exists s, sys_setup t (fold_left run h init) = Ok s.
  Proof.
    intros t h G HL Hz HS N1 N2 N2' N3 N4 D1 D2 D3 D4.
    assert (NI : forall (w : bool) n (e : list ex) (b : bool), (b = true -> forall i, i < List.length e -> declared_in h (if w then rhs_args else meas_args) (Own 0 (if w then SpW else SpV) (n ++ "_noise") i)) ->
      (forall x y, In x e -> In y (syms x) -> declared_in h (if w then rhs_args else meas_args) y) ->
      forall x y, In x (with_noise (Op V 0) (noise_sym V) w n e b) -> In y (syms x) -> declared_in h (if w then rhs_args else meas_args) y).
    { intros w n e b HN HE x y Hx Hy. unfold with_noise in Hx. destruct b; [|exact (HE x y Hx Hy)].
      unfold add_noise in Hx. apply in_map_iff in Hx. destruct Hx as ([i z] & <- & Hi). cbn in Hy. apply in_app_iff in Hy.
      destruct Hy as [Hy|[<-|[]]]; [exact (HE z y (in_combine_r _ _ _ _ Hi) Hy)|]. apply (HN eq_refl). apply in_combine_l in Hi. apply in_seq in Hi. lia. }
    assert (FO : forall m' a, default_meas ex (Op V 0) (noise_sym V) (state_sym V) (fold_left run h init) = Ok m' ->
       assembled_from (Cst V v0) (Op V 0) (noise_sym V) (state_sym V) h a -> fun_ok V m' a = true).
    { intros m' a D (R & A & X & M). pose proof (dm_shape v0 h m' G D) as VS. unfold fun_ok. rewrite (funs_eq h m' a VS). cbv zeta.
      assert (B1 : forall e, In e (flat V (a_rhs a)) -> forall s, In s (syms e) -> declared_in h rhs_args s).
      { intros x He s Hs. unfold flat in He. apply in_flat_map in He. destruct He as (re & Hre & He).
        assert (VR : exists v e b, In v (declared Kx h) /\ last_rhs (fst v) h = Some (e, b) /\ placed (snd v) (with_noise (Op V 0) (noise_sym V) true (fst v) e b) (snd re)).
        { clear -R Hre. revert R Hre. generalize (declared Kx h) (a_rhs a). intros xs rl R.
          induction R as [|v' re' xs rl (En & e' & b' & Hl' & Pl) _ IH]; intros Hv; [contradiction|]. destruct Hv as [<-|Hv].
          - exists v', e', b'. split; [left; reflexivity|auto].
          - destruct (IH Hv) as (v & e & b & P & Q). exists v, e, b. split; [right; exact P|exact Q]. }
        destruct VR as (v & e & b & Hv & Hl & _ & Pl).
        assert (IN : In (fst v, e, b) (rhs_calls [] h)).
        { unfold last_rhs in Hl. destruct (filter _ (rev (rhs_calls [] h))) as [|[[k e'] b'] f] eqn:Ef; [discriminate|]. injection Hl as <- <-.
          assert (IN : In (k, e', b') (filter (fun c => String.eqb (fst v) (fst (fst c))) (rev (rhs_calls [] h)))) by (rewrite Ef; left; reflexivity).
          apply filter_In in IN. destruct IN as [IN E]. apply String.eqb_eq in E. cbn in E. rewrite E. apply in_rev. exact IN. }
        assert (Hx' : In x (with_noise (Op V 0) (noise_sym V) true (fst v) e b)).
        { destruct Pl as [<-|(x0 & Ex & Er)]; [exact He|]. rewrite Er in He. apply repeat_spec in He. subst x. rewrite Ex. left. reflexivity. }
        revert x s Hx' Hs He. intros x s Hx' Hs _. apply (NI true (fst v) e b) with (x := x); [|intros z y Hz0 Hy; exact (D1 _ _ _ z y IN Hz0 Hy)|exact Hx'|exact Hs].
        intros -> i Hi. exists SpW, ((fst v) ++ "_noise"), i, (List.length e). split; [reflexivity|]. split; [cbn; tauto|]. split; [|exact Hi].
        cbn [vars_of]. unfold noise_vars. apply in_flat_map. exists (fst v, e, true). split; [exact IN|]. left. reflexivity. }
      assert (B2 : forall e, In e (flat V (a_alg a)) -> forall s, In s (syms e) -> declared_in h rhs_args s).
      { intros x He s Hs. unfold flat in He. apply in_flat_map in He. destruct He as ([n e] & Hre & He). rewrite A in Hre. destruct Hre as [Hre|Hre]; [injection Hre as <- <-; contradiction|].
        exact (D2 n e x s Hre He Hs). }
      assert (B3 : forall e, In e (flat V (a_aux a)) -> forall s, In s (syms e) -> declared_in h x_u_z_tvp_p s).
      { intros x He s Hs. unfold flat in He. apply in_flat_map in He. destruct He as ([n e] & Hre & He). rewrite X in Hre. destruct Hre as [Hre|Hre]; [injection Hre as <- <-; destruct He as [<-|[]]; destruct Hs|].
        exact (D3 n e x s Hre He Hs). }
      assert (B4 : forall e, In e (flat V (a_meas a)) -> forall s, In s (syms e) -> declared_in h meas_args s).
      { intros x He s Hs. unfold flat in He. apply in_flat_map in He. destruct He as ([n e] & Hre & He). rewrite M in Hre. destruct (meas_calls h) as [|c l] eqn:Em.
        - apply in_map_iff in Hre. destruct Hre as (v & Ev & Hv). injection Ev as <- <-. cbn [snd] in He.
          apply (NI false (fst v) (map (state_sym V (fst v)) (seq 0 (snd v))) true) with (x := x); [| |exact He|exact Hs].
          + intros _ i Hi. rewrite map_length, seq_length in Hi. exists SpV, (fst v ++ "_noise"), i, (snd v). split; [reflexivity|]. split; [cbn; tauto|]. split; [|exact Hi].
            cbn [vars_of]. rewrite Em. apply in_map_iff. exists v. auto.
          + intros z y Hz0 Hy. apply in_map_iff in Hz0. destruct Hz0 as (i & <- & Hi). apply in_seq in Hi. cbn in Hy. destruct Hy as [<-|[]].
            exists (SpK Kx), (fst v), i, (snd v). split; [reflexivity|]. split; [cbn; tauto|]. split; [|lia]. cbn [vars_of]. destruct v. exact Hv.
        - rewrite <- Em in Hre. apply in_map_iff in Hre. destruct Hre as ([[n' e'] b] & Ev & Hc). cbn [fst snd] in Ev. injection Ev as <- <-. cbn [snd] in He.
          apply (NI false n' e' b) with (x := x); [| |exact He|exact Hs].
          + intros -> i Hi. exists SpV, (n' ++ "_noise"), i, (List.length e'). split; [reflexivity|]. split; [cbn; tauto|]. split; [|exact Hi].
            cbn [vars_of]. rewrite Em, <- Em. unfold noise_vars. apply in_flat_map. exists (n', e', true). split; [exact Hc|left; reflexivity].
          + intros z y Hz0 Hy. rewrite <- Em in D4. exact (D4 n' e' b z y Hc Hz0 Hy). }
      pose proof (one_fun_ok op h m' _ _ VS B1) as K1. pose proof (one_fun_ok op h m' _ _ VS B2) as K2.
      pose proof (one_fun_ok op h m' _ _ VS B3) as K3. pose proof (one_fun_ok op h m' _ _ VS B4) as K4.
      destruct (mk_fun V (ins h 1 rhs_args) (map (substitute_all V (var_dicts V m')) (flat V (a_rhs a)))); [|discriminate].
      destruct (mk_fun V (ins h 1 rhs_args) (map (substitute_all V (var_dicts V m')) (flat V (a_alg a)))); [|discriminate].
      destruct (mk_fun V (ins h 1 x_u_z_tvp_p) (map (substitute_all V (var_dicts V m')) (flat V (a_aux a)))); [|discriminate].
      destruct (mk_fun V (ins h 1 meas_args) (map (substitute_all V (var_dicts V m')) (flat V (a_meas a)))); [|discriminate]. reflexivity. }
    pose proof (C37_setup_succeeds (Cst V v0) (Op V 0) (noise_sym V) (state_sym V) struct_ok resetup (fun_ok V) struct_ok_nodup h G HL Hz HS N1 N2 N2' N3 N4 FO) as S.
    cbv zeta in S. change (snd (setup0 V v0 struct_ok resetup (fold_left run h init)) = Ok tt) in S.
    unfold SymModel.sys_setup. destruct (setup0 V v0 struct_ok resetup (fold_left run h init)) as [m' r] eqn:Es. cbn [snd] in S. subst r.
    destruct (setup_shape v0 struct_ok resetup h m' G Es) as (a & Sh). rewrite (sh_fun _ _ _ _ Sh). cbn [bind].
    pose proof (sh_ok _ _ _ _ Sh) as K. unfold fun_ok in K. destruct (funs_of V m' a) as [f|]; [|discriminate]. cbn [bind]. eauto.
  Qed.

  (** C84: variables returned by set_variable.  Before setup they are the entries of model.x, model.u, ...
      at that time ... *)
  Theorem C84_before_setup : forall (h : list decl) k n size, Forall good h -> In (n, size) (declared k h) ->
    let m := fold_left run h init in
    getvar V 0 m k n = Ok (deref V heap0 m (Exported V k n)) /\
    deref V heap0 m (Exported V k n) = map (fun i => Sy V (Own 0 (SpK k) n i)) (seq 0 size).
  Proof.
    intros h k n size G H. cbv zeta. rewrite (run_built (Cst V v0) (Op V 0) (noise_sym V) h G).
    assert (IN : In (n, size) (vars k (built (Cst V v0) (Op V 0) (noise_sym V) h))) by (destruct k; cbn; auto).
    assert (ND : NoDup (map fst (vars k (built (Cst V v0) (Op V 0) (noise_sym V) h)))).
    { pose proof (C36_declaration_partial (Cst V v0) (Op V 0) (noise_sym V) (state_sym V) struct_ok resetup (fun_ok V) h G k) as C. cbv zeta in C.
      rewrite (run_built (Cst V v0) (Op V 0) (noise_sym V) h G) in C. apply C. }
    unfold getvar, deref. cbn [heap0]. rewrite (size_of_in' n size _ ND IN).
    replace (mem_name n (vars k (built (Cst V v0) (Op V 0) (noise_sym V) h))) with true; [split; reflexivity|].
    symmetry. apply existsb_exists. exists n. split; [apply (in_map fst _ _ IN)|apply String.eqb_refl].
  Qed.

  Lemma export_inner sp (l : list (string * nat)) : forall hp sp' n',
    fold_left (fun h v => export_one sp (fst v) h) l hp sp' n' =
      if space_eqb sp sp' && existsb (String.eqb n') (map fst l) then 1 else hp sp' n'.
  Proof.
    induction l as [|v l IH]; intros hp sp' n'; cbn [fold_left map existsb]; [rewrite andb_false_r; reflexivity|].
    rewrite IH. unfold export_one. rewrite (String.eqb_sym n' (fst v)).
    destruct (space_eqb sp sp'), (String.eqb (fst v) n'), (existsb (String.eqb n') (map fst l)); reflexivity.
  Qed.
  Lemma export_all (ds : list (space * list (string * nat))) : forall hp sp n,
    substitute_exported ds hp sp n =
      if existsb (fun d => space_eqb (fst d) sp && existsb (String.eqb n) (map fst (snd d))) ds then 1 else hp sp n.
  Proof.
    unfold substitute_exported. induction ds as [|d ds IH]; intros hp sp n; cbn [fold_left existsb]; [reflexivity|].
    rewrite IH, export_inner. destruct (space_eqb (fst d) sp && existsb (String.eqb n) (map fst (snd d))), (existsb _ ds); reflexivity.
  Qed.

  (** ... and after setup they are those of model.x, model.u, ... again, so that expressions of them can be
      used with the model (see C84_accepted).  Partial: this holds for the objects returned by set_variable
      only (see the next theorem). *)
  Theorem C84_exported_partial : forall t (h : list decl) (s : sysmodel) k n size, Forall good h ->
    sys_setup t (fold_left run h init) = Ok s -> In (n, size) (declared k h) ->
    let hp := substitute_exported (var_dicts V (s_decl V s)) heap0 in
    getvar V (s_gen V s) (s_decl V s) k n = Ok (deref V hp (s_decl V s) (Exported V k n)) /\
    deref V hp (s_decl V s) (Exported V k n) = map (fun i => Sy V (Own 1 (SpK k) n i)) (seq 0 size).
  Proof.
    intros t h s k n size G H Hin. cbv zeta.
    destruct (setup_of_sys v0 struct_ok resetup t h s G H) as (a & Sh & _ & Ge & _ & _).
    pose proof (sh_vars _ _ _ _ Sh) as VS.
    destruct (var_dicts_hit h _ (SpK k) n size VS Hin) as (l & L1 & L2).
    assert (IN : In (n, size) (vars k (s_decl V s)) /\ NoDup (map fst (vars k (s_decl V s)))).
    { pose proof (C36_declaration_partial (Cst V v0) (Op V 0) (noise_sym V) (state_sym V) struct_ok resetup (fun_ok V) h G k) as C. cbv zeta in C.
      rewrite (run_built (Cst V v0) (Op V 0) (noise_sym V) h G) in C. destruct C as (C & _).
      destruct k; cbn [vars]; [rewrite (sh_x _ _ VS)|rewrite (sh_u _ _ VS)|rewrite (sh_z _ _ VS)|rewrite (sh_p _ _ VS)|rewrite (sh_tvp _ _ VS)];
        (split; [first [exact Hin|right; exact Hin]|]).
      all: match goal with |- NoDup ?x => idtac end.
      all: cbn [vars_of].
      all: pose proof (C36_declaration_partial (Cst V v0) (Op V 0) (noise_sym V) (state_sym V) struct_ok resetup (fun_ok V) h G) as D; cbv zeta in D; rewrite (run_built (Cst V v0) (Op V 0) (noise_sym V) h G) in D.
      - apply (D Kx).
      - apply (D Ku).
      - apply (D Kz).
      - apply (D Kp).
      - apply (D Ktvp). }
    destruct IN as [IN ND].
    unfold getvar, deref. rewrite (size_of_in' n size _ ND IN), export_all, Ge.
    replace (existsb _ (var_dicts V (s_decl V s))) with true.
    2:{ symmetry. apply existsb_exists. exists (SpK k, l). split; [exact L1|]. cbn [fst snd]. rewrite (proj2 (space_eqb_eq _ _) eq_refl). cbn.
        apply existsb_exists. exists n. split; [exact L2|apply String.eqb_refl]. }
    replace (mem_name n (vars k (s_decl V s))) with true; [split; reflexivity|].
    symmetry. apply existsb_exists. exists n. split; [apply (in_map fst _ _ IN)|apply String.eqb_refl].
  Qed.

  (** The structures of the set-up model for a list of spaces, as the other classes of do-mpc hand them to
      casadi.Function (e.g. set_objective, set_nl_cons). *)
  Definition structs (s : sysmodel) (l : list space) : list (list sym) :=
    map (fun sp => struct_syms (s_gen V s) sp (match sp with SpW => vw (s_decl V s) | SpV => vv (s_decl V s) | SpK k => vars k (s_decl V s) end)) l.

  (** A function of the set-up model can be made of an expression exactly if its symbols are entries of
      model.x, model.u, ... as they are after setup. *)
  Theorem C84_accepted : forall t (h : list decl) (s : sysmodel) l e, Forall good h ->
    sys_setup t (fold_left run h init) = Ok s ->
    is_ok (mk_fun V (structs s l) [e]) = true <->
    (forall y, In y (syms e) -> exists sp n i size, y = Own 1 sp n i /\ In sp l /\ In (n, size) (vars_of h sp) /\ i < size).
  Proof.
    intros t h s l e G H. destruct (setup_of_sys v0 struct_ok resetup t h s G H) as (a & Sh & _ & Ge & _ & _).
    pose proof (sh_vars _ _ _ _ Sh) as VS.
    replace (structs s l) with (ins h 1 l).
    2:{ unfold structs, ins. rewrite Ge. apply map_ext. intros [[]| |]; cbn [vars];
        [rewrite (sh_x _ _ VS)|rewrite (sh_u _ _ VS)|rewrite (sh_z _ _ VS)|rewrite (sh_p _ _ VS)|rewrite (sh_tvp _ _ VS)|rewrite (sh_w _ _ VS)|rewrite (sh_v _ _ VS)]; reflexivity. }
    rewrite mk_fun_iff. split.
    - intros K y Hy. specialize (K e (or_introl eq_refl) y Hy). apply in_ins in K. exact K.
    - intros K e' [<-|[]] y Hy. apply in_ins. exact (K y Hy).
  Qed.

  (** Not so for everything else obtained before setup: any expression made before setup that mentions a
      variable (an entry of model.x or of model.aux taken before setup, the value returned by
      set_expression) is refused afterwards. *)
  Theorem C84_stale_refuted : forall t (h : list decl) (s : sysmodel) l e sp n i, Forall good h ->
    sys_setup t (fold_left run h init) = Ok s -> In (Own 0 sp n i) (syms e) -> is_ok (mk_fun V (structs s l) [e]) = false.
  Proof.
    intros t h s l e sp n i G H Hin. destruct (is_ok (mk_fun V (structs s l) [e])) eqn:Q; [|reflexivity].
    rewrite (C84_accepted t h s l e G H) in Q. destruct (Q _ Hin) as (? & ? & ? & ? & X & _). discriminate.
  Qed.

  (** C85: a set-up model with SX variables can be pickled and read back any number of times.  Each time it
      has the same variables and functions, structures of expressions with the same entries, the expressions
      mention only the symbols of the new model.x, model.u, ..., and have the values of the user's. *)
  Fixpoint pickles (js : list (sym -> nat)) (s : sysmodel) : res sysmodel :=
    match js with [] => Ok s | j :: js' => let! s' := pickle V v0 j s in pickles js' s' end.
  Theorem C85_pickle : forall (h : list decl) (s : sysmodel) js, Forall good h -> user_history h ->
    sys_setup SX (fold_left run h init) = Ok s ->
    exists s', pickles js s = Ok s' /\
      s_decl V s' = s_decl V s /\ s_funs V s' = s_funs V s /\ s_gen V s' = 1 + List.length js /\
      same_entries (a_rhs (s_asm V s')) (a_rhs (s_asm V s)) /\ same_entries (a_alg (s_asm V s')) (a_alg (s_asm V s)) /\
      same_entries (a_aux (s_asm V s')) (a_aux (s_asm V s)) /\ same_entries (a_meas (s_asm V s')) (a_meas (s_asm V s)) /\
      is_ok (mk_fun V (structs s' rhs_args) (entries (a_rhs (s_asm V s')))) = true /\
      is_ok (mk_fun V (structs s' rhs_args) (entries (a_alg (s_asm V s')))) = true /\
      is_ok (mk_fun V (structs s' x_u_z_tvp_p) (entries (a_aux (s_asm V s')))) = true /\
      is_ok (mk_fun V (structs s' meas_args) (entries (a_meas (s_asm V s')))) = true /\
      (forall val rho rg, means rho 0 val -> means rg (s_gen V s') val ->
         map (eval rg) (entries (a_rhs (s_asm V s'))) = rhs_values op v0 val rho h /\
         map (eval rg) (entries (a_alg (s_asm V s'))) = alg_values op rho h /\
         map (eval rg) (entries (a_aux (s_asm V s'))) = aux_values op v0 rho h /\
         map (eval rg) (entries (a_meas (s_asm V s'))) = meas_values op val rho h).
  Proof.
    intros h s js G UH H. destruct (pinv_setup op v0 struct_ok resetup SX h s G H) as (a & I & T & Ge).
    assert (K : exists s', pickles js s = Ok s' /\ s_decl V s' = s_decl V s /\ s_funs V s' = s_funs V s /\ s_gen V s' = s_gen V s + List.length js /\ pinv v0 h a s').
    { clear Ge H. revert s I T. induction js as [|j js IH]; intros s I T.
      - exists s. cbn. rewrite Nat.add_0_r. auto.
      - destruct (pinv_pickle op v0 h a s j I T) as (s1 & P & I1 & T1 & G1 & D1 & F1). cbn [pickles]. rewrite P. cbn [bind].
        destruct (IH s1 I1 T1) as (s' & P' & D' & F' & G' & I'). exists s'. split; [exact P'|]. split; [congruence|]. split; [congruence|]. split; [|exact I'].
        rewrite G', G1. cbn. lia. }
    destruct K as (s' & P & D & F & Gs & I'). exists s'. rewrite Ge in Gs.
    split; [exact P|]. split; [exact D|]. split; [exact F|]. split; [exact Gs|].
    assert (SE : forall l l' l0 : list (string * list ex), same_entries l l0 -> same_entries l' l0 -> same_entries l l') by (unfold same_entries; congruence).
    split; [exact (SE _ _ _ (proj1 (pi_rhs _ _ _ _ I')) (proj1 (pi_rhs _ _ _ _ I)))|].
    split; [exact (SE _ _ _ (proj1 (pi_alg _ _ _ _ I')) (proj1 (pi_alg _ _ _ _ I)))|].
    split; [exact (SE _ _ _ (proj1 (pi_aux _ _ _ _ I')) (proj1 (pi_aux _ _ _ _ I)))|].
    split; [exact (SE _ _ _ (proj1 (pi_meas _ _ _ _ I')) (proj1 (pi_meas _ _ _ _ I)))|].
    assert (ST : forall l, structs s' l = ins h (s_gen V s') l).
    { intros l. pose proof (sh_vars _ _ _ _ (pi_shape _ _ _ _ I')) as VS. unfold structs, ins. apply map_ext. intros [[]| |]; cbn [vars];
        [rewrite (sh_x _ _ VS)|rewrite (sh_u _ _ VS)|rewrite (sh_z _ _ VS)|rewrite (sh_p _ _ VS)|rewrite (sh_tvp _ _ VS)|rewrite (sh_w _ _ VS)|rewrite (sh_v _ _ VS)]; reflexivity. }
    pose proof (sh_vars _ _ _ _ (pi_shape _ _ _ _ I')) as VS.
    destruct (funs_inv h _ a _ VS (pi_funs _ _ _ _ I')) as (F1 & F2 & F3 & F4).
    destruct (old_assembled v0 h a UH (sh_from _ _ _ _ (pi_shape _ _ _ _ I'))) as (O1 & O2 & O3 & O4).
    rewrite !ST.
    split; [apply mk_fun_iff; intros e He y Hy; exact (proj2 (part_values op v0 h _ _ _ _ _ _ VS O1 (pi_rhs _ _ _ _ I') F1) e y He Hy)|].
    split; [apply mk_fun_iff; intros e He y Hy; exact (proj2 (part_values op v0 h _ _ _ _ _ _ VS O2 (pi_alg _ _ _ _ I') F2) e y He Hy)|].
    split; [apply mk_fun_iff; intros e He y Hy; exact (proj2 (part_values op v0 h _ _ _ _ _ _ VS O3 (pi_aux _ _ _ _ I') F3) e y He Hy)|].
    split; [apply mk_fun_iff; intros e He y Hy; exact (proj2 (part_values op v0 h _ _ _ _ _ _ VS O4 (pi_meas _ _ _ _ I') F4) e y He Hy)|].
    exact (pinv_values h a s' UH I').
  Qed.
  (** Models with MX variables, and models that are not set up, are refused. *)
  Theorem C85_refused : forall (s : option sysmodel),
    getstate V MX s = Err ExcGeneric /\ getstate V SX None = Err ExcGeneric.
  Proof. intros s. split; reflexivity. Qed.
End P.

(** C86: indexing a model.  The documented attributes. *)
Definition documented_attrs : list string := ["x"; "u"; "z"; "p"; "tvp"; "y"; "aux"; "w"; "v"].
Section I.
  Context {Obj : Type}.
  Variable attr : string -> res Obj.
  (** One name: the attribute itself. *)
  Theorem C86_single : forall n, getitem Obj attr (IName n) = match attr n with Ok o => Ok (One Obj o) | Err e => Err e end.
  Proof. intros n. cbn. destruct (attr n); reflexivity. Qed.
  (** Several names: the attributes in the order of the names.  Partial: not for "v". *)
  Theorem C86_tuple_partial : forall l os, (forall n, In n l -> In n documented_attrs /\ n <> "v") ->
    Forall2 (fun n o => attr n = Ok o) l os -> getitem Obj attr (ITuple l) = Ok (Many Obj os).
  Proof.
    intros l os D F. cbn [getitem]. assert (K : get_all Obj attr l = Ok os); [|rewrite K; reflexivity].
    induction F as [|n o l os A _ IH]; [reflexivity|]. cbn [get_all].
    destruct (D n (or_introl eq_refl)) as [D1 D2].
    replace (existsb (String.eqb n) var_names) with true.
    2:{ symmetry. apply existsb_exists. exists n. split; [|apply String.eqb_refl]. unfold documented_attrs in D1. unfold var_names. cbn in *. intuition congruence. }
    cbn [py_assert bind]. rewrite A. cbn [bind]. rewrite (IH (fun n Hn => D n (or_intror Hn))). reflexivity.
  Qed.
  (** Anything else in a tuple raises: an answer has one object per name, each the attribute of that name. *)
  Theorem C86_tuple_only : forall l r, getitem Obj attr (ITuple l) = Ok r ->
    exists os, r = Many Obj os /\ Forall2 (fun n o => attr n = Ok o) l os /\ (forall n, In n l -> In n documented_attrs).
  Proof.
    intros l r H. cbn [getitem] in H. destruct (get_all Obj attr l) as [os|] eqn:E; [|discriminate]. injection H as <-. exists os. split; [reflexivity|].
    revert os E. induction l as [|n l IH]; intros os E; cbn [get_all] in E; [injection E as <-; split; [constructor|intros n []]|].
    destruct (existsb (String.eqb n) var_names) eqn:Q; [|discriminate]. cbn [py_assert bind] in E. destruct (attr n) as [o|] eqn:A; [|discriminate]. cbn [bind] in E.
    destruct (get_all Obj attr l) as [os'|]; [|discriminate]. cbn [bind] in E. injection E as <-. destruct (IH _ eq_refl) as [F D]. split; [constructor; assumption|].
    intros n' [<-|Hn]; [|exact (D n' Hn)]. apply existsb_exists in Q. destruct Q as (x & Hx & Ex). apply String.eqb_eq in Ex. subst x.
    unfold var_names in Hx. unfold documented_attrs. cbn in *. intuition.
  Qed.
  (** The measurement noise model.v is an attribute, and model['v'] returns it, but not as part of a tuple. *)
  Theorem C86_v_refuted : forall o, attr "v" = Ok o ->
    In "v" documented_attrs /\ getitem Obj attr (IName "v") = Ok (One Obj o) /\ getitem Obj attr (ITuple ["v"]) = Err ExcAssertion.
  Proof. intros o A. cbn. rewrite A. repeat split. tauto. Qed.
End I.
