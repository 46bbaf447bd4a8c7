(** * Lemmas for C82-C85: values of the assembled expressions, and pickling. *)
From Verif Require Import Base DataModel DataProofs SaveProofs MdlModel MdlSpec MdlProofs MdlProps SymModel SymSpec SymProofs SymProofs2.
Import List.
Local Open Scope string_scope.

Section P.
  Context {V : Type}.
  Variable op : nat -> V -> V -> V.
  Variable v0 : V.
  Notation ex := (ex V).
  Notation eval := (eval V op).
  Notation syms := (syms V).
  Notation model := (model ex).
  Notation decl := (decl ex).
  Notation assembled := (assembled ex).
  Notation zero := (Cst V v0).
  Notation plus := (Op V 0).
  Notation nsym := (noise_sym V).
  Notation ssym := (state_sym V).
  Notation run := (decl_run ex plus nsym).
  Notation init := (model_init ex zero).
  Notation afrom := (assembled_from zero plus nsym ssym).

  Section V.
    Variable val : values (V := V).
    Variable rho : sym -> V.
    Hypothesis R : means rho 0 val.
    Lemma eval_with_noise w n e b :
      map (eval rho) (with_noise plus nsym w n e b) = noisy op val rho (if w then SpW else SpV) n e b.
    Proof.
      unfold with_noise, noisy. destruct b.
      - unfold add_noise. rewrite map_map. apply map_ext. intros [i x]. cbn. rewrite R. reflexivity.
      - generalize 0. induction e as [|x e IH]; intros k; [reflexivity|]. cbn. f_equal. apply IH.
    Qed.
    Lemma eval_placed size e e' : placed size e e' -> map (eval rho) e' = spread v0 size (map (eval rho) e).
    Proof.
      intros (L & [->|(x & -> & ->)]); unfold spread; rewrite map_length.
      - rewrite L, Nat.eqb_refl. reflexivity.
      - assert (K : forall k, map (eval rho) (repeat x k) = repeat (eval rho x) k) by (induction k as [|k IH]; [reflexivity|cbn; rewrite IH; reflexivity]).
        rewrite K. cbn. destruct (Nat.eqb 1 size) eqn:Q; [apply Nat.eqb_eq in Q; subst; reflexivity|]. destruct size as [|[|]]; reflexivity || discriminate.
    Qed.
    Lemma eval_flat l : map (eval rho) (flat V l) = flat_map (fun q => map (eval rho) (snd q)) l.
    Proof. unfold flat. induction l as [|q l IH]; [reflexivity|]. cbn [flat_map]. rewrite map_app, IH. reflexivity. Qed.

    Lemma eval_assembled h a : afrom h a ->
      map (eval rho) (flat V (a_rhs a)) = rhs_values op v0 val rho h /\
      map (eval rho) (flat V (a_alg a)) = alg_values op rho h /\
      map (eval rho) (flat V (a_aux a)) = aux_values op v0 rho h /\
      map (eval rho) (flat V (a_meas a)) = meas_values op val rho h.
    Proof.
      intros (Rh & A & X & M). rewrite !eval_flat. split; [|split; [|split]].
      - unfold rhs_values. revert Rh. generalize (declared Kx h) (a_rhs a). intros xs rl Rh.
        induction Rh as [|v re xs rl (_ & e & b & Hl & Pl) _ IH]; [reflexivity|]. cbn [flat_map]. rewrite IH, Hl. f_equal.
        rewrite (eval_placed _ _ _ Pl), eval_with_noise. reflexivity.
      - rewrite A. reflexivity.
      - rewrite X. reflexivity.
      - rewrite M. unfold meas_values. destruct (meas_calls h) as [|c l].
        + rewrite flat_map_concat_map, map_map, <- flat_map_concat_map. apply flat_map_ext. intros v. cbn [snd].
          change (map (eval rho) (with_noise plus nsym false (fst v) (map (ssym (fst v)) (seq 0 (snd v))) true) = map (fun i => op 0 (val (SpK Kx) (fst v) i) (val SpV (fst v ++ "_noise") i)) (seq 0 (snd v))).
          rewrite eval_with_noise. unfold noisy. rewrite map_length, seq_length.
          assert (K : forall n, map (fun ie : nat * ex => op 0 (eval rho (snd ie)) (val SpV (fst v ++ "_noise") (fst ie))) (combine (seq n (snd v)) (map (ssym (fst v)) (seq n (snd v)))) =
             map (fun i => op 0 (val (SpK Kx) (fst v) i) (val SpV (fst v ++ "_noise") i)) (seq n (snd v))).
          { induction (snd v) as [|k IH]; intros n; [reflexivity|]. cbn [seq map combine]. rewrite IH. f_equal. cbn. rewrite R. reflexivity. }
          apply K.
        + rewrite !flat_map_concat_map, map_map. f_equal. apply map_ext. intros q. cbn [snd]. rewrite eval_with_noise. reflexivity.
    Qed.
  End V.

  (** ** Pickling *)
  Definition regen (g : nat) (y : sym) : sym := match y with Own _ s n i => Own g s n i | Foreign k => Foreign k end.
  Lemma struct_regen g s l : struct_syms g s l = map (regen g) (struct_syms 1 s l).
  Proof. unfold struct_syms. induction l as [|v l IH]; [reflexivity|]. cbn [flat_map]. rewrite map_app, IH, map_map. reflexivity. Qed.
  Lemma refill_flat (l : list (string * list ex)) : forall vec, List.length vec = List.length (flat V l) ->
    flat V (refill V l vec) = vec /\ same_entries (refill V l vec) l.
  Proof.
    unfold same_entries, flat. induction l as [|[n e] l IH]; intros vec L; cbn [refill flat_map snd fst map] in *.
    - destruct vec; [split; reflexivity|discriminate].
    - rewrite app_length in L. destruct (IH (skipn (List.length e) vec)) as [A B]; [rewrite skipn_length; lia|].
      rewrite A, B, firstn_skipn. split; [reflexivity|]. rewrite firstn_length. do 2 f_equal. lia.
  Qed.
  Lemma reread_flat junk l : List.length (flat V (reread V junk l)) = List.length (flat V l) /\ same_entries (reread V junk l) l.
  Proof.
    unfold same_entries, flat, reread. split.
    - induction l as [|q l IH]; [reflexivity|]. cbn [map flat_map snd]. rewrite !app_length, IH, map_length. reflexivity.
    - rewrite map_map. apply map_ext. intros q. cbn. rewrite map_length. reflexivity.
  Qed.
  Lemma entries_len {A B} (l : list (string * list A)) (l' : list (string * list B)) : same_entries l l' ->
    List.length (flat_map snd l) = List.length (flat_map snd l').
  Proof.
    unfold same_entries. revert l'. induction l as [|q l IH]; intros [|q' l'] H; try discriminate; [reflexivity|]. cbn [map] in H. injection H as H1 H2 H3.
    cbn [flat_map]. rewrite !app_length, H2, (IH _ H3). reflexivity.
  Qed.

  Variable struct_ok : list string -> bool.
  Variable resetup : model -> model * res unit.

  (** what holds of a model that was set up and pickled any number of times *)
  Definition part (h : list decl) (m' : model) (g : nat) (sp : list space) (l l0 : list (string * list ex)) : Prop :=
    same_entries l l0 /\
    flat V l = map (subst V (fun y => Sy V (regen g y))) (map (substitute_all V (var_dicts V m')) (flat V l0)).
  Record pinv (h : list decl) (a : assembled) (s : sysmodel V) : Prop := mkPinv {
    pi_shape : shape v0 h (s_decl V s) a; pi_funs : funs_of V (s_decl V s) a = Ok (s_funs V s);
    pi_rhs : part h (s_decl V s) (s_gen V s) rhs_args (a_rhs (s_asm V s)) (a_rhs a);
    pi_alg : part h (s_decl V s) (s_gen V s) rhs_args (a_alg (s_asm V s)) (a_alg a);
    pi_aux : part h (s_decl V s) (s_gen V s) x_u_z_tvp_p (a_aux (s_asm V s)) (a_aux a);
    pi_meas : part h (s_decl V s) (s_gen V s) meas_args (a_meas (s_asm V s)) (a_meas a) }.
  Lemma sub_same ds (l : list (string * list ex)) : same_entries (sub_entries V ds l) l.
  Proof. unfold same_entries, sub_entries. rewrite map_map. apply map_ext. intros q. cbn. rewrite map_length. reflexivity. Qed.

  Lemma subst_id e f : (forall s, In s (syms e) -> f s = Sy V s) -> subst V f e = e.
  Proof.
    induction e as [c|s|k e1 IH1 e2 IH2]; cbn; intros H; [reflexivity|apply H; left; reflexivity|].
    rewrite IH1, IH2; [reflexivity| |]; intros s Hs; apply H; apply in_app_iff; tauto.
  Qed.
  Lemma regen_outs (h : list decl) sp outs F : mk_fun V (ins h 1 sp) outs = Ok F -> map (subst V (fun y => Sy V (regen 1 y))) outs = outs.
  Proof.
    intros M. destruct (call_map op v0 (fun _ => v0) _ _ _ M) as [_ FA]. rewrite Forall_forall in FA.
    rewrite <- (map_id outs) at 2. apply map_ext_in. intros e He. apply subst_id. intros s Hs.
    specialize (FA e He s Hs). apply in_ins in FA. destruct FA as (? & ? & ? & ? & -> & _). reflexivity.
  Qed.

  Lemma pinv_setup t h s : Forall good h -> sys_setup V v0 struct_ok resetup t (fold_left run h init) = Ok s ->
    exists a, pinv h a s /\ s_type V s = t /\ s_gen V s = 1.
  Proof.
    intros G H. destruct (setup_of_sys v0 struct_ok resetup t h s G H) as (a & Sh & T & Ge & As & Fu). exists a. split; [|auto].
    destruct (funs_inv h _ a _ (sh_vars _ _ _ _ Sh) Fu) as (F1 & F2 & F3 & F4).
    constructor; try assumption; rewrite Ge, As; cbn [sub_asm a_rhs a_alg a_aux a_meas]; (split; [apply sub_same|]); rewrite (flat_sub).
    - symmetry. exact (regen_outs _ _ _ _ F1).
    - symmetry. exact (regen_outs _ _ _ _ F2).
    - symmetry. exact (regen_outs _ _ _ _ F3).
    - symmetry. exact (regen_outs _ _ _ _ F4).
  Qed.

  Lemma part_refill h m' g sp sp0 l l0 junk : part h m' g sp0 l l0 ->
    part h m' (S g) sp (refill V (reread V junk l) (map (subst V (fun y => Sy V (regen (S g) y))) (map (substitute_all V (var_dicts V m')) (flat V l0)))) l0.
  Proof.
    intros (A & B). destruct (reread_flat junk l) as [C D].
    destruct (refill_flat (reread V junk l) (map (subst V (fun y => Sy V (regen (S g) y))) (map (substitute_all V (var_dicts V m')) (flat V l0)))) as [E1 E2].
    { rewrite C, !map_length. symmetry. apply (entries_len l l0 A). }
    split; [|exact E1]. unfold same_entries in *. rewrite E2, D. exact A.
  Qed.

  Lemma pinv_pickle h a s junk : pinv h a s -> s_type V s = SX ->
    exists s', pickle V v0 junk s = Ok s' /\ pinv h a s' /\ s_type V s' = SX /\ s_gen V s' = S (s_gen V s) /\ s_decl V s' = s_decl V s /\ s_funs V s' = s_funs V s.
  Proof.
    intros I T. destruct I as [Sh Fu R A X M].
    pose proof (sh_vars _ _ _ _ Sh) as VS.
    destruct (funs_inv h _ a _ VS Fu) as (F1 & F2 & F3 & F4).
    unfold pickle, getstate. rewrite T. cbn [bind]. unfold setstate.
    assert (CS : forall sp outs F, mk_fun V (ins h 1 sp) outs = Ok F ->
       callsym V v0 F (map (fun s0 => sy V (struct_syms (S (s_gen V s)) s0 (vars_of h s0))) sp) = Ok (map (subst V (fun y => Sy V (regen (S (s_gen V s)) y))) outs)).
    { intros sp outs F MF. rewrite <- (callsym_map op v0 (fun y => Sy V (regen (S (s_gen V s)) y)) _ _ _ MF). f_equal. unfold ins. rewrite map_map.
      apply map_ext. intros s0. unfold sy. rewrite struct_regen, map_map. reflexivity. }
    pose proof (CS _ _ _ F1) as C1. pose proof (CS _ _ _ F2) as C2. pose proof (CS _ _ _ F3) as C3. pose proof (CS _ _ _ F4) as C4. clear CS.
    unfold x_in, u_in, z_in, tvp_in, p_in, w_in, v_in.
    rewrite (sh_x _ _ VS), (sh_u _ _ VS), (sh_z _ _ VS), (sh_p _ _ VS), (sh_tvp _ _ VS), (sh_w _ _ VS), (sh_v _ _ VS), !struct_default.
    cbn [map rhs_args x_u_z_tvp_p meas_args] in C1, C2, C3, C4.
    cbn [app]. rewrite C1. cbn [bind]. rewrite C2. cbn [bind]. rewrite C3. cbn [bind]. rewrite C4. cbn [bind].
    eexists. split; [reflexivity|]. cbn [s_type s_gen s_decl s_funs s_asm]. split; [|auto].
    constructor; cbn [s_type s_gen s_decl s_funs s_asm a_rhs a_alg a_aux a_meas]; try assumption; eapply part_refill; eassumption.
  Qed.

  (** the values of the expressions of such a model, and the symbols they mention *)
  Lemma part_values (h : list decl) m' g sp l l0 F : vshape h m' -> Forall (@old V) (flat V l0) -> part h m' g sp l l0 ->
    mk_fun V (ins h 1 sp) (map (substitute_all V (var_dicts V m')) (flat V l0)) = Ok F ->
    (forall val rho rg, means rho 0 val -> means rg g val -> map (eval rg) (flat V l) = map (eval rho) (flat V l0)) /\
    (forall e s, In e (flat V l) -> In s (syms e) -> In s (List.concat (ins h g sp))).
  Proof.
    intros VS O (_ & E) M. destruct (one_fun op v0 h m' sp _ F VS O M) as (_ & _ & EV).
    destruct (call_map op v0 (fun _ => v0) _ _ _ M) as [_ FA]. rewrite Forall_forall in FA. split.
    - intros val rho rg Hr Hg. rewrite E, map_map.
      rewrite <- (EV val rho (fun y => match y with Own 1 s n i => rg (Own g s n i) | _ => rg y end) Hr).
      + apply map_ext_in. intros e He. rewrite (eval_subst op). apply (eval_ext op). intros s Hs. cbn [SymModel.eval].
        specialize (FA e He s Hs). apply in_ins in FA. destruct FA as (? & ? & ? & ? & -> & _). reflexivity.
      + intros s n i. cbn. apply Hg.
    - intros e s He Hs. rewrite E in He. apply in_map_iff in He. destruct He as (e0 & <- & He). rewrite syms_subst in Hs.
      apply in_flat_map in Hs. destruct Hs as (y & Hy & Hs). cbn in Hs. destruct Hs as [<-|[]]. specialize (FA e0 He y Hy). apply in_ins in FA.
      destruct FA as (q & n & i & size & -> & A & B & C). apply in_ins. exists q, n, i, size. auto.
  Qed.
End P.
