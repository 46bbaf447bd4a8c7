(** * Lemmas for C82-C85: the model after a successful setup. *)
From Verif Require Import Base DataModel DataProofs SaveProofs MdlModel MdlSpec MdlProofs MdlProps SymModel SymSpec SymProofs.
Import List.
Local Open Scope string_scope.

Section P.
  Context {V : Type}.
  Variable op : nat -> V -> V -> V.
  Variable v0 : V.
  Notation ex := (ex V).
  Notation eval := (eval V op).
  Notation syms := (syms V).
  Notation model := (model ex).
  Notation decl := (decl ex).
  Notation assembled := (assembled ex).
  Notation zero := (Cst V v0).
  Notation plus := (Op V 0).
  Notation nsym := (noise_sym V).
  Notation ssym := (state_sym V).
  Notation run := (decl_run ex plus nsym).
  Notation init := (model_init ex zero).
  Notation built := (built zero plus nsym).
  Notation dmeas := (default_meas ex plus nsym ssym).
  Variable struct_ok : list string -> bool.
  Variable resetup : model -> model * res unit.
  Notation setup0 := (setup0 V v0 struct_ok resetup).
  Notation afrom := (assembled_from zero plus nsym ssym).

  Lemma dm_vv (xs : list (string * nat)) : forall m m' : model, ph m = Building ->
    foldM (fun m v => set_meas ex plus nsym m (fst v) (map (ssym (fst v)) (seq 0 (snd v))) true) xs m = Ok m' ->
    vv m' = (vv m ++ map (fun v => ((fst v ++ "_noise")%string, snd v)) xs)%list.
  Proof.
    induction xs as [|v xs IH]; intros m m' P H.
    - cbn in H. inversion H; subst. rewrite app_nil_r. reflexivity.
    - cbn [foldM] in H. unfold set_meas in H at 1. rewrite P in H. apply IH in H; [|reflexivity]. cbn [vv] in H. rewrite H.
      rewrite <- app_assoc. cbn [app map]. rewrite map_length, seq_length. reflexivity.
  Qed.

  (** the variables of the model at setup *)
  Record vshape (h : list decl) (m' : model) : Prop := mkVShape {
    sh_x : vx m' = vars_of h (SpK Kx);
    sh_u : vu m' = ("default", 0) :: vars_of h (SpK Ku); sh_z : vz m' = ("default", 0) :: vars_of h (SpK Kz);
    sh_tvp : vtvp m' = ("default", 0) :: vars_of h (SpK Ktvp); sh_p : vp m' = ("default", 0) :: vars_of h (SpK Kp);
    sh_w : vw m' = ("default", 0) :: vars_of h SpW; sh_v : vv m' = ("default", 0) :: vars_of h SpV }.
  Record shape (h : list decl) (m' : model) (a : assembled) : Prop := mkShape {
    sh_fun : functions m' = Ok a; sh_from : afrom h a; sh_ok : fun_ok V m' a = true; sh_vars : vshape h m' }.

  Lemma dm_shape h m2 : Forall good h -> dmeas (fold_left run h init) = Ok m2 -> vshape h m2.
  Proof.
    intros G D. rewrite (run_built zero plus nsym h G) in D.
    destruct (dm_built zero plus nsym ssym h) as (m & D' & P & X & U & Z & Pp & T & W & _ & _ & _ & M1 & M2).
    rewrite D in D'. injection D' as <-.
    constructor; try assumption.
    cbn [vars_of]. destruct (meas_calls h) as [|c l] eqn:Em.
    - unfold default_meas in D. cbn [y_expr MdlProofs.built] in D. rewrite Em in D. cbn [map] in D.
      apply dm_vv in D; [|reflexivity]. cbn [vv vx MdlProofs.built] in D. rewrite Em in D. exact D.
    - rewrite (M1 ltac:(discriminate)). cbn [vv MdlProofs.built]. rewrite Em. reflexivity.
  Qed.

  Lemma setup_shape h m' : Forall good h -> setup0 (fold_left run h init) = (m', Ok tt) -> exists a, shape h m' a.
  Proof.
    intros G S. unfold SymModel.setup0 in S.
    destruct (C37_setup_requires zero plus nsym ssym struct_ok resetup (fun_ok V) h G) as (_ & _ & _ & a & Fa & AF & FO).
    { rewrite S. reflexivity. }
    rewrite S in Fa. cbn [fst] in Fa. exists a.
    destruct (dm_built zero plus nsym ssym h) as (m2 & D & _). rewrite <- (run_built zero plus nsym h G) in D.
    pose proof (dm_shape h m2 G D) as VS. specialize (FO m2 D). rewrite (run_built zero plus nsym h G) in S, D.
    revert S. unfold MdlModel.setup. cbn [ph MdlProofs.built]. rewrite D.
    destruct (negb (struct_ok (names (y_expr m2)))); [discriminate|].
    match goal with |- context [if ?c then _ else _] => destruct c; [|discriminate] end.
    destruct (rhs_loop ex zero (vx m2) (rhs_list m2)); [|discriminate].
    match goal with |- context [if ?c then _ else _] => destruct c; [|discriminate] end.
    match goal with |- context [if negb ?c then _ else _] => destruct c; [cbn [negb]|discriminate] end.
    match goal with |- context [if ?c then _ else _] => destruct c; [|discriminate] end.
    intros S. injection S as <-.
    constructor; try assumption. destruct VS. constructor; assumption.
  Qed.

  Lemma setup_of_sys t h s : Forall good h -> sys_setup V v0 struct_ok resetup t (fold_left run h init) = Ok s ->
    exists a, shape h (s_decl V s) a /\ s_type V s = t /\ s_gen V s = 1 /\ s_asm V s = sub_asm V (s_decl V s) a /\ funs_of V (s_decl V s) a = Ok (s_funs V s).
  Proof.
    intros G H. unfold sys_setup in H. destruct (setup0 (fold_left run h init)) as [m' [[]|e]] eqn:Es; [|discriminate].
    destruct (setup_shape h m' G Es) as (a & Sh). rewrite (sh_fun _ _ _ Sh) in H. cbn [bind] in H.
    destruct (funs_of V m' a) as [f|] eqn:Ef; [|discriminate]. cbn [bind] in H. injection H as <-. exists a. cbn. auto.
  Qed.

  (** user expressions of the assembled model mention no symbols of later generations *)
  Definition old (e : ex) : Prop := forall g s n i, ~ In (Own (S g) s n i) (syms e).
  Lemma old_noise w nn (e : list ex) : Forall old e -> Forall old (add_noise ex plus nsym w nn e).
  Proof.
    intros H. unfold add_noise. apply Forall_map, Forall_forall. intros [i x] Hx. apply in_combine_r in Hx.
    rewrite Forall_forall in H. specialize (H x Hx). intros g s n j X. cbn in X. apply in_app_iff in X.
    destruct X as [X|[X|[]]]; [exact (H g s n j X)|discriminate].
  Qed.
  Lemma old_assembled h a : user_history h -> afrom h a ->
    Forall old (flat V (a_rhs a)) /\ Forall old (flat V (a_alg a)) /\ Forall old (flat V (a_aux a)) /\ Forall old (flat V (a_meas a)).
  Proof.
    intros (UH & _) (R & A & X & M).
    assert (OD : forall d, In d h -> Forall old (decl_exprs d)).
    { intros d Hd. apply Forall_forall. intros e He g s n i. intros Q. exact (UH d e g s n i Hd He Q). }
    assert (RC : forall h' st, (forall d, In d h' -> Forall old (decl_exprs d)) -> forall c, In c (rhs_calls st h') -> Forall old (snd (fst c))).
    { induction h' as [|d h' IH]; intros st HO c Hc; [contradiction|].
      assert (HO' : forall d, In d h' -> Forall old (decl_exprs d)) by (intros d' Hd'; apply HO; right; exact Hd').
      destruct d as [t n s|n e|n e b|n e b|n e]; cbn in Hc; try (eapply IH; eassumption).
      destruct (existsb (String.eqb n) st); [|eapply IH; eassumption].
      destruct Hc as [<-|Hc]; [exact (HO _ (or_introl eq_refl))|eapply IH; eassumption]. }
    split; [|split; [|split]].
    - unfold flat. apply Forall_flat_map. apply Forall_forall. intros re Hre. revert R Hre. generalize (declared Kx h) (a_rhs a). intros xs rl R.
      induction R as [|v re' xs rl (En & e & b & Hl & Pl) _ IH]; intros Hre; [contradiction|]. destruct Hre as [<-|Hre]; [|exact (IH Hre)].
      assert (OE : Forall old e).
      { unfold last_rhs in Hl. destruct (filter _ (rev (rhs_calls [] h))) as [|[[k e'] b'] f] eqn:Ef; [discriminate|]. injection Hl as <- <-.
        assert (IN : In (k, e', b') (rhs_calls [] h)).
        { apply in_rev. assert (In (k, e', b') (filter (fun c => String.eqb (fst v) (fst (fst c))) (rev (rhs_calls [] h)))) by (rewrite Ef; left; reflexivity).
          apply filter_In in H. apply H. }
        exact (RC h [] OD _ IN). }
      destruct Pl as (_ & [->|(x & Ex & ->)]).
      + unfold with_noise. destruct b; [apply old_noise|]; exact OE.
      + assert (OX : Forall old (with_noise plus nsym true (fst v) e b)) by (unfold with_noise; destruct b; [apply old_noise|]; exact OE).
        rewrite Ex in OX. inversion OX; subst. apply Forall_forall. intros y Hy. apply repeat_spec in Hy. subst. assumption.
    - rewrite A. unfold flat. cbn [flat_map snd app]. apply Forall_flat_map, Forall_forall. intros [n e] Hn. unfold alg_calls in Hn. apply in_flat_map in Hn.
      destruct Hn as (d & Hd & Hn). destruct d; cbn in Hn; try contradiction. destruct Hn as [Hn|[]]. injection Hn as <- <-. exact (OD _ Hd).
    - rewrite X. unfold flat. cbn [flat_map snd app]. constructor; [intros g s n i []|]. apply Forall_flat_map, Forall_forall. intros [n e] Hn. unfold expr_calls in Hn. apply in_flat_map in Hn.
      destruct Hn as (d & Hd & Hn). destruct d; cbn in Hn; try contradiction. destruct Hn as [Hn|[]]. injection Hn as <- <-. exact (OD _ Hd).
    - rewrite M. unfold flat. apply Forall_flat_map, Forall_forall. intros q Hq. destruct (meas_calls h) as [|c l] eqn:Em.
      + apply in_map_iff in Hq. destruct Hq as (v & <- & _). cbn [snd]. apply old_noise. apply Forall_map, Forall_forall. intros i _ g s n j [Q|[]]. discriminate.
      + rewrite <- Em in Hq. apply in_map_iff in Hq. destruct Hq as ([[n e] b] & <- & Hc). cbn [fst snd].
        unfold meas_calls in Hc. apply in_flat_map in Hc. destruct Hc as (d & Hd & Hn). destruct d; cbn in Hn; try contradiction. destruct Hn as [Hn|[]]. injection Hn as <- <- <-.
        unfold with_noise. destruct noise; [apply old_noise|]; exact (OD _ Hd).
  Qed.

  (** one function: inputs are structures of the model's variables, outputs substituted expressions *)
  Definition ins (h : list decl) (g : nat) (l : list space) : list (list sym) := map (fun s => struct_syms g s (vars_of h s)) l.
  Lemma in_ins h g l y : In y (List.concat (ins h g l)) <-> exists sp n i size, y = Own g sp n i /\ In sp l /\ In (n, size) (vars_of h sp) /\ i < size.
  Proof.
    unfold ins. rewrite <- flat_map_concat_map, in_flat_map. split.
    - intros (sp & A & B). apply in_struct in B. destruct B as (n & i & size & -> & C & D). exists sp, n, i, size. auto.
    - intros (sp & n & i & size & -> & A & B & C). exists sp. split; [exact A|]. apply in_struct. eauto 6.
  Qed.
  Lemma ins_columns h g l val : columns h val l = map (map (vfun v0 val)) (ins h g l).
  Proof. unfold columns, ins. rewrite map_map. apply map_ext. intros s. apply column_struct. Qed.

  Lemma var_dicts_hit h m' sp n size : vshape h m' -> In (n, size) (vars_of h sp) ->
    exists l, In (sp, l) (var_dicts V m') /\ In n (map fst l).
  Proof.
    intros Sh H. apply (in_map fst) in H. cbn [fst] in H. unfold var_dicts. cbn [In].
    rewrite (sh_x _ _ Sh), (sh_u _ _ Sh), (sh_z _ _ Sh), (sh_p _ _ Sh), (sh_tvp _ _ Sh), (sh_w _ _ Sh), (sh_v _ _ Sh).
    destruct sp as [[]| |]; eexists; (split; [eauto 10|]); first [exact H|right; exact H].
  Qed.

  Lemma one_fun h m' l outs F : vshape h m' -> Forall old outs ->
    mk_fun V (ins h 1 l) (map (substitute_all V (var_dicts V m')) outs) = Ok F ->
    (forall e, In e outs -> forall s, In s (syms e) -> declared_in h l s) /\
    (forall val rho, means rho 0 val -> call V op v0 F (columns h val l) = Ok (map (eval rho) outs)) /\
    (forall val rho r1, means rho 0 val -> means r1 1 val -> map (eval r1) (map (substitute_all V (var_dicts V m')) outs) = map (eval rho) outs).
  Proof.
    intros Sh OLD M.
    assert (DI : forall e, In e outs -> forall s, In s (syms e) -> declared_in h l s /\ tgts (var_dicts V m') s = match s with Own _ sp n i => Own 1 sp n i | Foreign k => Foreign k end).
    { intros e He s Hs. destruct (call_map op v0 (fun _ => v0) _ _ _ M) as [_ FA]. rewrite Forall_map, Forall_forall in FA. specialize (FA e He).
      assert (Ht : In (tgts (var_dicts V m') s) (syms (substitute_all V (var_dicts V m') e))).
      { rewrite (proj1 (subs_all op (var_dicts V m') e)). apply in_map. exact Hs. }
      apply FA in Ht. apply in_ins in Ht. destruct Ht as (sp & n & i & size & Et & A & B & C).
      destruct (tgts_cases (var_dicts V m') s) as [Q|(sp' & n' & i' & -> & Q)].
      - rewrite Q in Et. subst s. exfalso. rewrite Forall_forall in OLD. exact (OLD e He 0 sp n i Hs).
      - rewrite Q in Et. injection Et as -> -> ->. split; [|exact Q]. exists sp, n, i, size. auto. }
    split; [intros e He s Hs; apply (DI e He s Hs)|].
    assert (EV : forall val rho r1, means rho 0 val -> (forall sp n i size, In sp l -> In (n, size) (vars_of h sp) -> i < size -> r1 (Own 1 sp n i) = val sp n i) ->
       map (eval r1) (map (substitute_all V (var_dicts V m')) outs) = map (eval rho) outs).
    { intros val rho r1 Hr Hr1. rewrite map_map. apply map_ext_in. intros e He. rewrite (proj2 (subs_all op (var_dicts V m') e)). apply eval_ext.
      intros s Hs. destruct (DI e He s Hs) as ((sp & n & i & size & -> & A & B & C) & T). rewrite T. rewrite Hr. apply (Hr1 sp n i size); assumption. }
    split; [|intros val rho r1 Hr Hr1; apply (EV val); [exact Hr|intros; apply Hr1]].
    intros val rho Hr. rewrite (ins_columns h 1).
    rewrite (proj1 (call_map op v0 (vfun v0 val) _ _ _ M)). f_equal. apply (EV val); [exact Hr|]. reflexivity.
  Qed.

  Lemma one_fun_ok h m' l outs : vshape h m' ->
    (forall e, In e outs -> forall s, In s (syms e) -> declared_in h l s) ->
    is_ok (mk_fun V (ins h 1 l) (map (substitute_all V (var_dicts V m')) outs)) = true.
  Proof.
    intros Sh D. apply mk_fun_iff. intros e He s Hs. apply in_map_iff in He. destruct He as (e0 & <- & He).
    rewrite (proj1 (subs_all op (var_dicts V m') e0)) in Hs. apply in_map_iff in Hs. destruct Hs as (s0 & <- & Hs).
    destruct (D e0 He s0 Hs) as (sp & n & i & size & -> & A & B & C).
    destruct (var_dicts_hit h m' sp n size Sh B) as (d & D1 & D2). rewrite (tgts_hit _ _ _ _ _ D1 D2).
    apply in_ins. exists sp, n, i, size. auto.
  Qed.

  (** the functions of a set-up model *)
  Lemma flat_sub ds l : flat V (sub_entries V ds l) = map (substitute_all V ds) (flat V l).
  Proof. unfold flat, sub_entries. induction l as [|q l IH]; [reflexivity|]. cbn [map flat_map snd]. rewrite IH, map_app. reflexivity. Qed.
  Lemma struct_default g s l : struct_syms g s (("default", 0) :: l) = struct_syms g s l.
  Proof. reflexivity. Qed.
  Lemma funs_eq h m' a : vshape h m' ->
    let su := map (substitute_all V (var_dicts V m')) in
    funs_of V m' a =
      (let! f1 := mk_fun V (ins h 1 rhs_args) (su (flat V (a_rhs a))) in
       let! f2 := mk_fun V (ins h 1 rhs_args) (su (flat V (a_alg a))) in
       let! f3 := mk_fun V (ins h 1 x_u_z_tvp_p) (su (flat V (a_aux a))) in
       let! f4 := mk_fun V (ins h 1 meas_args) (su (flat V (a_meas a))) in Ok (mkFuns V f1 f2 f3 f4)).
  Proof.
    intros Sh su. unfold funs_of, build_funs. cbn [sub_asm a_rhs a_alg a_aux a_meas]. rewrite !flat_sub.
    unfold x_in, u_in, z_in, tvp_in, p_in, w_in, v_in.
    rewrite (sh_x _ _ Sh), (sh_u _ _ Sh), (sh_z _ _ Sh), (sh_p _ _ Sh), (sh_tvp _ _ Sh), (sh_w _ _ Sh), (sh_v _ _ Sh), !struct_default.
    reflexivity.
  Qed.
  Lemma funs_inv h m' a F : vshape h m' -> funs_of V m' a = Ok F ->
    let su := map (substitute_all V (var_dicts V m')) in
    mk_fun V (ins h 1 rhs_args) (su (flat V (a_rhs a))) = Ok (rhs_fun V F) /\
    mk_fun V (ins h 1 rhs_args) (su (flat V (a_alg a))) = Ok (alg_fun V F) /\
    mk_fun V (ins h 1 x_u_z_tvp_p) (su (flat V (a_aux a))) = Ok (aux_fun V F) /\
    mk_fun V (ins h 1 meas_args) (su (flat V (a_meas a))) = Ok (meas_fun V F).
  Proof.
    intros Sh H su. rewrite (funs_eq h m' a Sh) in H. cbv zeta in H. fold su in H.
    destruct (mk_fun V (ins h 1 rhs_args) (su (flat V (a_rhs a)))) as [f1|]; [|discriminate].
    destruct (mk_fun V (ins h 1 rhs_args) (su (flat V (a_alg a)))) as [f2|]; [|discriminate].
    destruct (mk_fun V (ins h 1 x_u_z_tvp_p) (su (flat V (a_aux a)))) as [f3|]; [|discriminate].
    destruct (mk_fun V (ins h 1 meas_args) (su (flat V (a_meas a)))) as [f4|]; [|discriminate].
    cbn [bind] in H. injection H as <-. cbn. auto.
  Qed.
End P.
