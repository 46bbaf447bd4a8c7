(** * C77, C78, C79: the low-level NLP interface of MPC and MHE. *)
From Coq Require Import Reals Lra.
From Verif Require Import Base MpcModel OptModel OptSpec OptProofs.
Import List.
Set Implicit Arguments.
Local Open Scope R_scope.

Section Props.
  Variable E : OEnv.
  Variable build : Cfg E -> res (base E).
  Variable S_ : request E -> answer E.
  Notation do := (do build S_).
  Notation run := (run build S_).
  Notation init := (opt_init E).
  Notation ocall := (ocall E).

  (** The documented manual route: prepare_nlp, additions h1, create_nlp, any use h2. *)
  Definition manual (h0 h1 h2 : list ocall) : list ocall := h0 ++ OPrepare :: h1 ++ OCreate :: h2.
  Record route_ok (h0 h1 h2 : list ocall) (b : base E) : Prop := mkRoute {
    r_h0 : forall c, In c h0 -> creating c = false;
    r_build : build (user_cfg (cfg0 E) h0) = Ok b;
    r_cons : consistent b;
    r_given : bounds_given h1;
    r_h1 : forall c, In c h1 -> building c = false /\ replacing c = false /\ guess_ok (b_n b) c;
    r_h2 : forall c, In c h2 -> building c = false /\ sized (b_n b) (List.length (concat (b_g b ++ extra_cons h1))) c }.

  (** C77: every later solve minimises the objective with the added terms, for the parameters last
      assigned, subject to the constraints of the problem and each added block. *)
  Theorem C77_extra_terms_are_solved : good_solver S_ -> forall h0 h1 h2 b, route_ok h0 h1 h2 b -> (forall c, In c h2 -> replacing c = false) ->
    exists q, snd (do (run init (manual h0 h1 h2)) OSolve) = Ok (Some q) /\
      p_n (q_nlp q) = b_n b /\ q_p q = user_p (prm0 E) (h1 ++ h2) /\
      forall x p,
        p_obj (q_nlp q) x p = user_cost (b_obj b) h1 x p /\
        (holds (p_g (q_nlp q)) (q_lbg q) (q_ubg q) x p <->
         holds (concat (b_g b)) (concat (b_glb b)) (concat (b_gub b)) x p /\
         forall j g l u, nth_error (extra_cons h1) j = Some g -> nth_error (extra_lb h1) j = Some l -> nth_error (extra_ub h1) j = Some u -> holds g l u x p).
  Proof.
    intros GS h0 h1 h2 b [A1 A2 A3 A4 A5 A6] NR.
    destruct (@route_solve E build S_ GS h0 h1 h2 b A1 A2 A3 A4 A5 A6) as (q & Q0 & Q1 & Q2 & Q3 & Q4 & _).
    exists q. split; [exact Q0|]. rewrite Q1. split; [reflexivity|]. split; [rewrite Q4; unfold user_p; rewrite fold_left_app; reflexivity|].
    assert (Ll : forall l0 h, (forall c, In c h -> replacing c = false) -> last_lb (E:=E) l0 h = l0 /\ last_ub (E:=E) l0 h = l0).
    { intros l0 h. unfold last_lb, last_ub. revert l0. induction h as [|c h IH]; intros l0 Hh; [auto|]. cbn [fold_left].
      assert (replacing c = false) by (apply Hh; left; auto). assert (Hh' : forall c, In c h -> replacing c = false) by (intros; apply Hh; right; auto).
      destruct c; try discriminate; apply IH; auto. }
    destruct A4 as [G1 G2].
    rewrite Q2, Q3, (proj1 (Ll _ h2 NR)), (proj2 (Ll _ h2 NR)). intros x p. split; [reflexivity|]. cbn [p_g].
    rewrite !concat_app, holds_app.
    - rewrite (@holds_concat E (extra_cons h1)) by auto. reflexivity.
    - apply concat_lengths. apply A3.
    - apply concat_lengths. apply A3.
  Qed.

  (** Bounds of the constraints assigned as a vector after create_nlp replace the previous ones at the next solve; the
      objective and the constraint functions are not affected. *)
  Theorem C77_new_constraint_bounds : good_solver S_ -> forall h0 h1 h2 b, route_ok h0 h1 h2 b ->
    exists q, snd (do (run init (manual h0 h1 h2)) OSolve) = Ok (Some q) /\
      q_lbg q = last_lb (concat (b_glb b) ++ concat (extra_lb h1)) h2 /\ q_ubg q = last_ub (concat (b_gub b) ++ concat (extra_ub h1)) h2 /\
      p_g (q_nlp q) = concat (b_g b) ++ concat (extra_cons h1) /\ forall x p, p_obj (q_nlp q) x p = user_cost (b_obj b) h1 x p.
  Proof.
    intros GS h0 h1 h2 b [A1 A2 A3 A4 A5 A6].
    destruct (@route_solve E build S_ GS h0 h1 h2 b A1 A2 A3 A4 A5 A6) as (q & Q0 & Q1 & Q2 & Q3 & Q4 & _).
    exists q. split; [exact Q0|]. rewrite Q1, Q2, Q3, !concat_app. cbn. auto.
  Qed.

  (** Before prepare_nlp every access is refused; after create_nlp the objective and the constraints can no longer be
      changed.  A refused call has no effect. *)
  Theorem C77_refused_before : forall h c, (forall k, In k h -> building k = false) -> accessing c = true ->
    do (run init h) c = (run init h, Err ExcAssertion).
  Proof.
    intros h c Hh Ha. assert (Hp : o_prep (run init h) = false).
    { assert (G : forall s, o_prep s = false -> o_prep (run s h) = false); [|apply G; reflexivity].
      induction h as [|k h IH]; intros s Hs; [exact Hs|]. rewrite run_cons. apply IH; [intros; apply Hh; right; auto|].
      destruct (@do_frame E build S_ s k) as (_ & -> & _); auto. apply Hh; left; auto. }
    set (s := run init h) in *.
    destruct c; try discriminate Ha; cbn [OptModel.do]; unfold set_obj, add_cost, get_obj, set_cons, set_glb, set_gub, app_cons, app_glb, app_gub; rewrite Hp; reflexivity.
  Qed.
  Theorem C77_refused_after : good_solver S_ -> forall h0 h1 h2 b, route_ok h0 h1 h2 b ->
    let s := run init (manual h0 h1 h2) in
    (forall f, do s (OObj f) = (s, Err ExcAssertion) /\ do s (OAddCost f) = (s, Err ExcAssertion)) /\
    (forall v, do s (OCons v) = (s, Err ExcAssertion)) /\
    (forall g l u, do s (OAppCons g) = (s, Err ExcAttribute) /\ do s (OAppGlb l) = (s, Err ExcAttribute) /\ do s (OAppGub u) = (s, Err ExcAttribute)).
  Proof.
    intros GS h0 h1 h2 b [A1 A2 A3 A4 A5 A6] s.
    assert (P2 := proj1 (@route E build S_ GS h0 h1 h2 b Lower A1 A2 A3 A4 A5 A6)). cbv zeta in P2. change (run init (h0 ++ OPrepare :: h1 ++ OCreate :: h2)) with s in P2.
    destruct P2 as [H1 H2 H3 H4 H5 H6 _ _ [v H7] _ _ _ Ho].
    split; [|split].
    - intros f. cbn [OptModel.do]. unfold set_obj, add_cost, get_obj. rewrite H2, H3. destruct Ho as [f0 Ho]. cbn [negb bind]. rewrite Ho. unfold set_obj. rewrite H2, H3. auto.
    - intros w. cbn [OptModel.do]. unfold set_cons. rewrite H2, H3. auto.
    - intros g l u. cbn [OptModel.do]. unfold app_cons, app_glb, app_gub. rewrite H2, H5, H6, H7. auto.
  Qed.

  (** C78: whatever assignments to bounds, lb_opt_x and ub_opt_x were made, the solver is called with bounds that a
      (scaled) value r meets exactly if the physical value r * scaling meets the bound last assigned. *)
  Theorem C78_bounds_in_force : good_solver S_ -> forall h0 h1 h2 b, route_ok h0 h1 h2 b ->
    exists q, snd (do (run init (manual h0 h1 h2)) OSolve) = Ok (Some q) /\
      forall d k s r, nth_error (b_scal b) k = Some s ->
        exists v, nth_error (match d with Lower => q_lbx q | Upper => q_ubx q end) k = Some v /\
          (ok_side d v r <-> ok_side d (in_force b d (user_bnd (bnd0 E) h0) (ordinary_bounds b d (user_bnd (bnd0 E) h0) (fun _ => infinite d)) (h1 ++ OCreate :: h2) k) (r * s)).
  Proof.
    intros GS h0 h1 h2 b [A1 A2 A3 A4 A5 A6].
    destruct (@route_solve E build S_ GS h0 h1 h2 b A1 A2 A3 A4 A5 A6) as (q & Q0 & _ & _ & _ & _ & Sc).
    exists q. split; [exact Q0|]. intros d k s r Hs. destruct (Sc d) as [L N].
    assert (Hk : (k < b_n b)%nat) by (rewrite <- (c_sc A3); apply nth_error_Some; congruence).
    eexists. split; [apply (N k s Hk Hs)|]. apply ediv_ok. apply (c_pos A3). eapply nth_error_In; eauto.
  Qed.

  Lemma in_force_app (b : base E) d (h1 : list ocall) : forall bd f h2, in_force b d bd f (h1 ++ h2) = in_force b d (user_bnd bd h1) (in_force b d bd f h1) h2.
  Proof. induction h1 as [|c h1 IH]; intros bd f h2; [reflexivity|]. cbn [app]. destruct c; cbn [in_force user_bnd fold_left]; apply IH. Qed.
  Lemma in_force_other (b : base E) d (h : list ocall) : forall bd f, (forall c, In c h -> match c with OBnd _ => False | OOptx d' _ _ => d' <> d | _ => True end) -> in_force (E:=E) b d bd f h = f.
  Proof.
    induction h as [|c h IH]; intros bd f Hh; [reflexivity|]. pose proof (Hh c (or_introl eq_refl)) as H.
    assert (Hh' : forall c, In c h -> match c with OBnd _ => False | OOptx d' _ _ => d' <> d | _ => True end) by (intros; apply Hh; right; auto).
    destruct c; cbn [in_force]; try (apply IH; auto); try contradiction. destruct d, d0; try congruence; apply IH; auto.
  Qed.

  (** In particular a custom bound stays in force until the next assignment to the same side or to bounds. *)
  Theorem C78_custom_bound : good_solver S_ -> forall h0 h1 h2 h3 b d i pos vals w, 
    b_ix b i = Ok pos -> direct_values pos vals = Some w ->
    route_ok h0 h1 (h2 ++ OOptx d i vals :: h3) b ->
    (forall c, In c h3 -> match c with OBnd _ => False | OOptx d' _ _ => d' <> d | _ => True end) ->
    exists q, snd (do (run init (manual h0 h1 (h2 ++ OOptx d i vals :: h3))) OSolve) = Ok (Some q) /\
      forall k a s r, In (k, a) w -> nth_error (b_scal b) k = Some s ->
        exists v, nth_error (match d with Lower => q_lbx q | Upper => q_ubx q end) k = Some v /\ (ok_side d v r <-> ok_side d a (r * s)).
  Proof.
    intros GS h0 h1 h2 h3 b d i pos vals w Hi Hw Rt H3. destruct (C78_bounds_in_force GS Rt) as (q & Q0 & Q). exists q. split; [exact Q0|].
    intros k a s r Hk Hs. destruct (Q d k s r Hs) as (v & V1 & V2). exists v. split; [exact V1|]. rewrite V2.
    replace (h1 ++ OCreate :: h2 ++ OOptx d i vals :: h3) with ((h1 ++ OCreate :: h2) ++ OOptx d i vals :: h3) by (rewrite <- app_assoc; reflexivity).
    rewrite in_force_app. cbn [in_force]. rewrite Hi, Hw. rewrite in_force_other by auto.
    replace (match d with Lower => match d with Lower => true | Upper => false end | Upper => match d with Lower => false | Upper => true end end) with true by (destruct d; reflexivity).
    unfold assign_pairs. destruct (c_ix (r_cons Rt) _ Hi) as [ND _]. rewrite <- (direct_fst _ _ Hw) in ND.
    assert (F : find (fun pv => Nat.eqb (fst pv) k) w = Some (k, a)).
    { clear - ND Hk. induction w as [|[p x] w IH]; [contradiction|]. cbn. inversion ND as [|? ? N1 N2]; subst. destruct Hk as [[= -> ->]|Hk]; [rewrite Nat.eqb_refl; reflexivity|].
      destruct (Nat.eqb_spec p k) as [->|]; [|auto]. exfalso. apply N1. apply (in_map fst) in Hk. exact Hk. }
    rewrite F. cbn. reflexivity.
  Qed.

  (** Reading a custom bound back gives the assigned value divided by the scaling. *)
  Theorem C78_read_back_is_scaled : forall b s d i pos vals w, o_base s = Some b -> consistent b -> List.length (o_lb s) = b_n b -> List.length (o_ub s) = b_n b ->
    b_ix b i = Ok pos -> direct_values pos vals = Some w ->
    exists out, get_optx (fst (do s (OOptx d i vals))) d i = Ok out /\ List.length out = List.length pos /\
      forall j k a sc, nth_error pos j = Some k -> In (k, a) w -> nth_error (b_scal b) k = Some sc -> nth_error out j = Some (ediv a sc).
  Proof.
    intros b s d i pos vals w Hb C Ll Lu Hi Hw. cbn [OptModel.do]. unfold set_optx. rewrite Hb, Hi. cbn [bind]. rewrite spread_direct, Hw. cbn [bind lift fst].
    unfold get_optx. assert (Eb : o_base (match d with Lower => with_bounds (write_scaled (b_scal b) (o_lb s) w) (o_ub s) s | Upper => with_bounds (o_lb s) (write_scaled (b_scal b) (o_ub s) w) s end) = Some b) by (destruct d; exact Hb).
    rewrite Eb, Hi. cbn [bind]. eexists. split; [reflexivity|]. split; [apply map_length|]. intros j k a sc Hj Hk Hs.
    rewrite (map_nth_error _ _ _ Hj). f_equal. pose proof (direct_fst _ _ Hw) as Fw. destruct (c_ix C _ Hi) as [ND Lt].
    assert (F : find (fun pv => Nat.eqb (fst pv) k) w = Some (k, a)).
    { rewrite <- Fw in ND. clear - ND Hk. induction w as [|[p x] w IH]; [contradiction|]. cbn. inversion ND as [|? ? N1 N2]; subst. destruct Hk as [[= -> ->]|Hk]; [rewrite Nat.eqb_refl; reflexivity|].
      destruct (Nat.eqb_spec p k) as [->|]; [|auto]. exfalso. apply N1. apply (in_map fst) in Hk. exact Hk. }
    assert (Hk' : (k < b_n b)%nat) by (apply Lt; eapply nth_error_In; eauto).
    destruct d; cbn [with_bounds o_lb o_ub]; apply nth_error_nth.
    - destruct (@write_scaled_spec (b_scal b) (o_lb s) w) as [_ W]; [rewrite Fw; auto|rewrite (c_sc C); auto|rewrite Fw, Ll; auto|]. rewrite (W k sc); [|lia|auto]. rewrite F. reflexivity.
    - destruct (@write_scaled_spec (b_scal b) (o_ub s) w) as [_ W]; [rewrite Fw; auto|rewrite (c_sc C); auto|rewrite Fw, Lu; auto|]. rewrite (W k sc); [|lia|auto]. rewrite F. reflexivity.
  Qed.

  (** C79: setup can be called again after changing the configuration, provided the problems have equal sizes:
      the next solve is that of the new configuration with its ordinary bounds, from zeros, and nothing of the
      previous problem except multipliers. *)
  Theorem C79_setup_again_partial : good_solver S_ -> forall n m, (forall c b, build c = Ok b -> b_n b = n /\ List.length (concat (b_g b)) = m) ->
    forall h h2 b, (forall c, In c h -> adding c = false) -> build (user_cfg (cfg0 E) h) = Ok b -> consistent b ->
    (forall c, In c h2 -> building c = false /\ sized n m c) ->
    snd (do (run init h) OSetup) = Ok None /\
    exists q, snd (do (run init (h ++ OSetup :: h2)) OSolve) = Ok (Some q) /\
      (forall x p, p_obj (q_nlp q) x p = b_obj b x p) /\ p_g (q_nlp q) = concat (b_g b) /\
      q_lbg q = last_lb (concat (b_glb b)) h2 /\ q_ubg q = last_ub (concat (b_gub b)) h2 /\ q_p q = user_p (prm0 E) h2 /\
      (h2 = [] -> q_x0 q = repeat 0 n) /\
      forall d k s r, nth_error (b_scal b) k = Some s ->
        exists v, nth_error (match d with Lower => q_lbx q | Upper => q_ubx q end) k = Some v /\
          (ok_side d v r <-> ok_side d (in_force b d (user_bnd (bnd0 E) h) (ordinary_bounds b d (user_bnd (bnd0 E) h) (fun _ => infinite d)) h2 k) (r * s)).
  Proof.
    intros GS n m SZ h h2 b Hh Hb C Hh2.
    destruct (@resetup E build S_ GS n m h h2 b Lower SZ Hh Hb C Hh2) as [A [P2 SL]].
    destruct (@resetup E build S_ GS n m h h2 b Upper SZ Hh Hb C Hh2) as [_ [_ SU]]. split; [exact A|].
    cbv zeta in P2, SL, SU. assert (X0 : h2 = [] -> o_x (run init (h ++ OSetup :: h2)) = repeat 0 n).
    { intros ->. rewrite run_app. cbn [OptModel.run fold_left]. destruct (run_cfg build S_ h init) as [Ec _]. set (s0 := run init h) in *. cbn [opt_init o_cfg] in Ec.
      assert (Hb' : build (o_cfg s0) = Ok b) by congruence. rewrite (setup_is build S_ s0 Hb'). cbn [OptModel.do].
      destruct (create (fst (lift2 (prepare build s0)))) as [s1 r] eqn:Ecr. destruct (create_frame _ Ecr) as (_ & _ & _ & _ & _ & X & _).
      replace (fst (lift2 (s1, r))) with s1 by (destruct r; reflexivity). rewrite X. unfold prepare. rewrite Hb'. unfold update_bounds. cbn. destruct (SZ _ _ Hb) as [<- _]. reflexivity. }
    set (s := run init (h ++ OSetup :: h2)) in *.
    destruct (@phase2_solve E build S_ GS b (@mkNlp E (b_n b) (b_obj b) (concat (b_g b))) _ _ _ h2 s eq_refl (proj1 SL) (proj1 SU) P2) as (q & Q0 & Q1 & Q2 & Q3 & Q4 & Q5 & Q6 & Q7 & _).
    exists q. split; [exact Q0|]. rewrite Q1. split; [reflexivity|]. split; [reflexivity|]. do 3 (split; [assumption|]). split; [rewrite Q7; exact X0|].
    intros d k sc r Hs.
    assert (Hk : (k < b_n b)%nat) by (rewrite <- (c_sc C); apply nth_error_Some; congruence).
    assert (0 < sc) by (apply (c_pos C); eapply nth_error_In; eauto).
    destruct d; rewrite ?Q2, ?Q3; eexists; (split; [|apply ediv_ok; assumption]); cbn [bnds] in SL, SU; [apply SL|apply SU]; auto.
  Qed.

  (** compile_nlp raises NameError on every object that is set up. *)
  Theorem C79_compile_raises_refuted : forall s, o_setup s = true -> do s OCompile = (s, Err ExcName).
  Proof. intros s Hs. cbn [OptModel.do]. unfold compile_nlp. rewrite Hs. reflexivity. Qed.
End Props.
Print Assumptions C77_extra_terms_are_solved.
Print Assumptions C77_new_constraint_bounds.
Print Assumptions C77_refused_before.
Print Assumptions C77_refused_after.
Print Assumptions C78_bounds_in_force.
Print Assumptions C78_custom_bound.
Print Assumptions C78_read_back_is_scaled.
Print Assumptions C79_setup_again_partial.
Print Assumptions C79_compile_raises_refuted.
