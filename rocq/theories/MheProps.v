(** * C19-C21, C64: the moving horizon estimator. *)
From Verif Require Import Base MpcModel MheModel MheSpec MheProofs.
Import List.

(** ** C20: the split of the parameters *)
Section Psplit.
  Context {V : Type}.
  Implicit Types k : names.
  Lemma memb_in n l : memb n l = true <-> In n l.
  Proof.
    unfold memb. rewrite existsb_exists. split.
    - intros (x & Hx & Q). apply String.eqb_eq in Q. congruence.
    - intros H. exists n. split; [exact H|apply String.eqb_refl].
  Qed.
  Lemma entry_length k (flat : list V) n sz : NoDup (keys_of k) -> In (n, sz) k -> length flat = total_size k -> length (entry_of k flat n) = sz.
  Proof.
    revert flat. induction k as [|[m s] k IH]; intros flat ND Hin HL; [destruct Hin|]. cbn [entry_of total_size] in *. inversion ND as [|? ? Hn ND']; subst.
    destruct (String.eqb_spec n m) as [->|Hne].
    - destruct Hin as [Q|Q]; [injection Q as ->; rewrite firstn_length; lia|]. exfalso. apply Hn. apply (in_map fst) in Q. exact Q.
    - destruct Hin as [Q|Q]; [injection Q as -> ->; congruence|]. apply IH; auto. rewrite skipn_length. lia.
  Qed.
  Lemma entry_flat_map (g : string * nat -> list V) k n sz : (forall e, In e k -> length (g e) = snd e) -> NoDup (keys_of k) -> In (n, sz) k ->
    entry_of k (flat_map g k) n = g (n, sz).
  Proof.
    induction k as [|[m s] k IH]; intros HL ND Hin; [destruct Hin|]. cbn [entry_of flat_map]. inversion ND as [|? ? Hn ND']; subst.
    assert (Hg : length (g (m, s)) = s) by (apply (HL (m, s)); left; reflexivity).
    destruct (String.eqb_spec n m) as [->|Hne].
    - destruct Hin as [Q|Q]; [injection Q as ->; rewrite firstn_app, Hg, Nat.sub_diag, firstn_all2 by lia; cbn; apply app_nil_r|].
      exfalso. apply Hn. apply (in_map fst) in Q. exact Q.
    - destruct Hin as [Q|Q]; [injection Q as -> ->; congruence|].
      rewrite skipn_app, Hg, Nat.sub_diag, skipn_all2 by lia. cbn. apply IH; auto. intros e He. apply HL. right. exact He.
  Qed.
  Lemma flat_map_total (g : string * nat -> list V) k : (forall e, In e k -> length (g e) = snd e) -> length (flat_map g k) = total_size k.
  Proof.
    induction k as [|[m s] k IH]; intros HL; [reflexivity|]. cbn. rewrite app_length, IH; [|intros e He; apply HL; right; exact He].
    rewrite (HL (m, s)); [reflexivity|left; reflexivity].
  Qed.
  Lemma nodup_filter k f : NoDup (keys_of k) -> NoDup (keys_of (filter f k)).
  Proof.
    induction k as [|[m s] k IH]; cbn; intros ND; [constructor|]. inversion ND as [|? ? Hn ND']; subst.
    destruct (f (m, s)); [|auto]. cbn. constructor; [|auto]. intros H. apply Hn. apply in_map_iff in H as (e & <- & He). apply filter_In in He as [He _]. apply in_map. exact He.
  Qed.

  (** The model's parameters: named entries, the entry "default" being empty (do-mpc adds it to every model).
      For every list of names [est], estimate vector [pe] and parameter vector [ps] of the sizes the
      structures ask for: the combined vector has the model's size, and each entry is the one of its source. *)
  Theorem C20_parameters_from_one_source (k : names) (est : list string) (pe ps : list V) :
    NoDup (keys_of k) -> (forall sz, In ("default"%string, sz) k -> sz = 0) -> ~ In "default"%string est ->
    length pe = total_size (p_est_struct k est) -> length ps = total_size (p_set_struct k est) ->
    length (p_cat k est pe ps) = total_size k /\
    (forall n sz, In (n, sz) k -> In n est -> entry_of k (p_cat k est pe ps) n = entry_of (p_est_struct k est) pe n /\ In (n, sz) (p_est_struct k est) /\ ~ In n (keys_of (p_set_struct k est))) /\
    (forall n sz, In (n, sz) k -> ~ In n est -> entry_of k (p_cat k est pe ps) n = entry_of (p_set_struct k est) ps n /\ In (n, sz) (p_set_struct k est) /\ (n <> "default"%string -> ~ In n (keys_of (p_est_struct k est)))).
  Proof.
    intros ND HD HE HLe HLs.
    assert (NDe : NoDup (keys_of (filter (fun e : string * nat => memb (fst e) est) k))) by (apply nodup_filter; exact ND).
    assert (NDs : NoDup (keys_of (p_set_struct k est))) by (apply nodup_filter; exact ND).
    assert (NDe' : NoDup (keys_of (p_est_struct k est))).
    { cbn. constructor; [|exact NDe]. intros H. apply in_map_iff in H as ([m s] & Hm & He). cbn in Hm. subst m. apply filter_In in He as [_ He]. cbn in He. apply memb_in in He. contradiction. }
    assert (INe : forall n sz, In (n, sz) k -> In n est -> In (n, sz) (p_est_struct k est)).
    { intros n sz H1 H2. right. apply filter_In. split; [exact H1|]. cbn. apply memb_in. exact H2. }
    assert (INs : forall n sz, In (n, sz) k -> ~ In n est -> In (n, sz) (p_set_struct k est)).
    { intros n sz H1 H2. apply filter_In. split; [exact H1|]. cbn. destruct (memb n est) eqn:Q; [apply memb_in in Q; contradiction|reflexivity]. }
    assert (NIe : forall n sz, In (n, sz) k -> ~ In n est -> n <> "default"%string -> ~ In n (keys_of (p_est_struct k est))).
    { intros n sz H1 H2 H3 [H|H]; [cbn in H; congruence|]. apply in_map_iff in H as ([m s] & Hm & He). cbn in Hm. subst m. apply filter_In in He as [_ He]. cbn in He. apply memb_in in He. contradiction. }
    assert (NIs : forall n sz, In (n, sz) k -> In n est -> ~ In n (keys_of (p_set_struct k est))).
    { intros n sz H1 H2 H. apply in_map_iff in H as ([m s] & Hm & He). cbn in Hm. subst m. apply filter_In in He as [_ He]. cbn in He. apply memb_in in H2. rewrite H2 in He. discriminate. }
    set (g := fun e : string * nat => if memb (fst e) (keys_of (p_est_struct k est)) then entry_of (p_est_struct k est) pe (fst e)
                       else if memb (fst e) (keys_of (p_set_struct k est)) then entry_of (p_set_struct k est) ps (fst e) else [] : list V).
    assert (DEF : entry_of (p_est_struct k est) pe "default" = []) by reflexivity.
    assert (G1 : forall n sz, In (n, sz) k -> In n est -> g (n, sz) = entry_of (p_est_struct k est) pe n).
    { intros n sz H1 H2. unfold g. cbn [fst]. replace (memb n (keys_of (p_est_struct k est))) with true; [reflexivity|]. symmetry. apply memb_in. apply (in_map fst) with (x := (n, sz)). apply INe; auto. }
    assert (G2 : forall n sz, In (n, sz) k -> ~ In n est -> g (n, sz) = entry_of (p_set_struct k est) ps n).
    { intros n sz H1 H2. unfold g. cbn [fst]. destruct (String.eqb_spec n "default") as [->|Hd].
      - assert (Q : memb "default" (keys_of (p_est_struct k est)) = true) by reflexivity. rewrite Q, DEF. symmetry. apply length_zero_iff_nil.
        pose proof (HD _ H1) as ->. eapply entry_length; [exact NDs|apply INs; eauto|exact HLs].
      - destruct (memb n (keys_of (p_est_struct k est))) eqn:Q; [apply memb_in in Q; exfalso; eapply NIe; eauto|].
        replace (memb n (keys_of (p_set_struct k est))) with true; [reflexivity|]. symmetry. apply memb_in. apply (in_map fst) with (x := (n, sz)). apply INs; auto. }
    assert (GL : forall e, In e k -> length (g e) = snd e).
    { intros [n sz] H. destruct (in_dec String.string_dec n est) as [Hi|Hi].
      - rewrite (G1 n sz H Hi). eapply entry_length; [exact NDe'|apply INe; auto|exact HLe].
      - rewrite (G2 n sz H Hi). eapply entry_length; [exact NDs|apply INs; auto|exact HLs]. }
    change (p_cat k est pe ps) with (flat_map g k). split; [apply flat_map_total; exact GL|]. split.
    - intros n sz H1 H2. rewrite (entry_flat_map g k n sz GL ND H1). split; [apply G1; auto|]. split; [apply INe; auto|]. eapply NIs; eauto.
    - intros n sz H1 H2. rewrite (entry_flat_map g k n sz GL ND H1). split; [apply G2; auto|]. split; [apply INs; auto|]. intros. eapply NIe; eauto.
  Qed.
End Psplit.

Example C20_nonvacuous :
  let k := [("default", 0); ("a", 1); ("b", 2); ("c", 1)]%string in let est := ["c"; "a"; "unknown"]%string in
  NoDup (keys_of k) /\ p_est_struct k est = [("default", 0); ("a", 1); ("c", 1)]%string /\ p_set_struct k est = [("default", 0); ("b", 2)]%string /\
  p_cat k est [10; 20] [1; 2] = [10; 1; 2; 20].
Proof.
  cbv zeta. split; [cbn; repeat constructor; cbn; intuition discriminate|]. repeat split; reflexivity.
Qed.

Section T.
  Context {E : HEnv}.
  Notation mhe := (@mhe E).
  Notation hcall := (@hcall E).
  Notation trace := (list (hcall * res (option (hX E)))).

  (** ** C19: with the default measurement source, every step of a set-up estimator returns normally and solves the
      problem for the moving window over the measurements since the last reset or setup, the new one last. *)
  Theorem C19_window (h : list hcall) (m : mhe) (tr : trace) (y : hY E) :
    hordinary tr -> hexec h mhe_init = (m, tr) -> hwas_setup tr -> huser_y tr = None ->
    exists m' x N q, mhe_step m (Good y) = (m', Ok x) /\ hs_nhor (hsettings_of tr) = Some N /\
      (* the parameters the problem was solved for are recorded *)
      d_optp (e_data m') = d_optp (e_data m) ++ [q] /\
      is_window N (map n_y (hlog tr) ++ [y]) (hq_y q).
  Proof.
    intros Ho He W HY. destruct (hinv2_reach h m tr Ho He) as [I J].
    assert (S : e_setup m = true) by (apply (w_setup _ _ I); exact W).
    destruct (mhe_step m (Good y)) as [m' r] eqn:ES. pose proof (step_succeeds m tr y m' r I J S ES) as OKr.
    destruct (mhe_step_cases _ _ _ _ ES) as [(y' & x & tf & pf & pr & ob & ox & yf & ys & ox' & lg & lx & st & dt & [= <-] & -> & K)|(e & -> & _)]; [|discriminate].
    destruct K. pose proof (w_y _ _ I) as Y. rewrite HY in Y. destruct Y as [Y|[t Y]]; [destruct (w_have _ _ I S) as (_ & _ & _ & _ & _ & Q); contradiction|].
    destruct (u_yd _ _ J t Y) as [_ NH].
    unfold measure in k_y. cbn [e_yf e_with_data e_cfg e_data e_it] in k_y. rewrite Y, NH in k_y. cbn [d_y add_dy] in k_y.
    destruct (y_default_window (length t) t (d_y (e_data m) ++ [y]) eq_refl) as (w & Q1 & Q2); [destruct (d_y (e_data m)); discriminate|].
    rewrite Q1 in k_y. cbn in k_y. injection k_y as <- <-.
    exists m', x, (length t), (mkHpar (h_x1 E (hc_scal (e_cfg m)) ox) (hi_pe (e_it m)) (pf (hi_t (e_it m))) (tf (hi_t (e_it m))) w).
    split; [reflexivity|]. split; [rewrite <- (w_set _ _ I); exact NH|]. split; [exact k_doptp|]. rewrite <- (u_y _ _ J). exact Q2.
  Qed.
  (** With the user's measurement function the problem is solved for what that function returns at the current time. *)
  Theorem C19_user_source (h : list hcall) (m : mhe) (tr : trace) (y : hY E) f :
    hordinary tr -> hexec h mhe_init = (m, tr) -> hwas_setup tr -> huser_y tr = Some f ->
    exists m' x q, mhe_step m (Good y) = (m', Ok x) /\ d_optp (e_data m') = d_optp (e_data m) ++ [q] /\ hq_y q = f (hclock tr).
  Proof.
    intros Ho He W HY. destruct (hinv2_reach h m tr Ho He) as [I J].
    assert (S : e_setup m = true) by (apply (w_setup _ _ I); exact W).
    destruct (mhe_step m (Good y)) as [m' r] eqn:ES. pose proof (step_succeeds m tr y m' r I J S ES) as OKr.
    destruct (mhe_step_cases _ _ _ _ ES) as [(y' & x & tf & pf & pr & ob & ox & yf & ys & ox' & lg & lx & st & dt & [= <-] & -> & K)|(e & -> & _)]; [|discriminate].
    destruct K. pose proof (w_y _ _ I) as Y. rewrite HY in Y.
    unfold measure in k_y. cbn [e_yf e_with_data e_cfg e_data e_it] in k_y. rewrite Y in k_y. injection k_y as <- <-.
    assert (CK : hclock tr = hi_t (e_it m)) by (unfold hclock; rewrite (w_log _ _ I); reflexivity).
    eexists _, _, _. split; [reflexivity|]. split; [exact k_doptp|]. cbn. rewrite CK. reflexivity.
  Qed.

  (** ** C21 *)
  (** Any history of calls whatsoever, then a step that returns normally. *)
  Theorem C21_step_protocol (h : list hcall) (m : mhe) (tr : trace) (y : hY E) (m' : mhe) (x : hX E) :
    hexec h mhe_init = (m, tr) -> mhe_step m (Good y) = (m', Ok x) ->
    exists pr ob ox q ox' lg lx st dt, let sc := hc_scal (e_cfg m) in
      e_prob m = Some pr /\ e_ob m = Some ob /\ e_ox m = Some ox /\
      (* arrival cost reference: the second state of the warm start, unscaled, and the current parameter estimate *)
      hq_xprev q = h_x1 E sc ox /\ hq_peprev q = hi_pe (e_it m) /\
      hq_pset q = hp_force tr (hclock tr) /\ hq_tvp q = htvp_force tr (hclock tr) /\
      h_S E pr ob ox (if e_run1 m then e_lam m else None) q = (ox', lg, lx, st) /\
      (* the result is the last state of the solution, unscaled; it and the rest of the solution become the current values *)
      x = h_xN E sc ox' /\ e_ox m' = Some ox' /\ e_lam m' = Some (lg, lx) /\
      hi_x (e_it m') = x /\ hi_pe (e_it m') = h_pe E sc ox' /\ hi_u (e_it m') = h_uN E sc ox' /\ hi_z (e_it m') = h_zN E sc ox' /\
      (* time advances by the sampling time *)
      hs_tstep (hsettings_of tr) = Some dt /\ hi_t (e_it m') = h_tadd E (hclock tr) dt /\
      (* one row per stored field *)
      d_y (e_data m') = d_y (e_data m) ++ [y] /\ d_x (e_data m') = d_x (e_data m) ++ [estimate tr] /\
      d_u (e_data m') = d_u (e_data m) ++ [h_uN E sc ox'] /\ d_z (e_data m') = d_z (e_data m) ++ [h_zN E sc ox'] /\
      d_p (e_data m') = d_p (e_data m) ++ [h_pcat E (hi_pe (e_it m)) (hp_force tr (hclock tr))] /\
      d_tvp (e_data m') = d_tvp (e_data m) ++ [h_tv_last E (htvp_force tr (hclock tr))] /\
      d_time (e_data m') = d_time (e_data m) ++ [hclock tr] /\ d_optp (e_data m') = d_optp (e_data m) ++ [q] /\
      length (d_aux (e_data m')) = length (d_aux (e_data m)) + 1 /\
      length (d_full (e_data m')) = length (d_full (e_data m)) + (if hs_full (hsettings_of tr) then 1 else 0) /\
      length (d_lam (e_data m')) = length (d_lam (e_data m)) + (if hs_lagr (hsettings_of tr) then 1 else 0) /\
      length (d_stats (e_data m')) = length (d_stats (e_data m)) + (if hs_stats (hsettings_of tr) then 1 else 0).
  Proof.
    intros He ES. pose proof (hinv_reach h m tr He) as I.
    destruct (mhe_step_cases _ _ _ _ ES) as [(y' & x' & tf & pf & pr & ob & ox & yf & ys & ox' & lg & lx & st & dt & [= <-] & [= <-] & K)|(e & Q & _)]; [|discriminate].
    destruct K.
    assert (CK : hclock tr = hi_t (e_it m)) by (unfold hclock; rewrite (w_log _ _ I); reflexivity).
    assert (CE : estimate tr = hi_x (e_it m)) by (unfold estimate; rewrite (w_log _ _ I); reflexivity).
    assert (TF : htvp_force tr = tf).
    { unfold htvp_force. pose proof (w_t _ _ I) as A. unfold hagree in A. destruct (htvp_of tr); [congruence|]. destruct A; congruence. }
    assert (PF : hp_force tr = pf).
    { unfold hp_force. pose proof (w_p _ _ I) as A. unfold hagree in A. destruct (hp_of tr); [congruence|]. destruct A; congruence. }
    exists pr, ob, ox, (mkHpar (h_x1 E (hc_scal (e_cfg m)) ox) (hi_pe (e_it m)) (pf (hi_t (e_it m))) (tf (hi_t (e_it m))) ys), ox', lg, lx, st, dt.
    cbv zeta. rewrite CK, CE, TF, PF, <- (w_set _ _ I), k_it. cbn. repeat (split; [auto; fail|]). auto.
  Qed.

  (** Between two steps with no setup and no set_initial_guess in between (anything else may happen), the arrival cost
      reference of the second is the second state of the first one's solution, unscaled.  [sol] is that
      solution. *)
  Definition keeps_guess (c : hcall) : Prop := match c with HSetup | HGuess | HStep _ | HScaling _ => False | _ => True end.
  Theorem C21_reference_is_previous_solution (h : list hcall) (m : mhe) (tr : trace) y m1 x1 between m2 tr2 y2 m3 x3 :
    hexec h mhe_init = (m, tr) -> mhe_step m (Good y) = (m1, Ok x1) ->
    Forall keeps_guess between -> hexec between m1 = (m2, tr2) -> mhe_step m2 (Good y2) = (m3, Ok x3) ->
    exists sol q, e_ox m1 = Some sol /\ x1 = h_xN E (hc_scal (e_cfg m)) sol /\
      d_optp (e_data m3) = d_optp (e_data m2) ++ [q] /\ hq_xprev q = h_x1 E (hc_scal (e_cfg m)) sol.
  Proof.
    intros He S1 F B S2.
    assert (K : e_ox m2 = e_ox m1 /\ hc_scal (e_cfg m2) = hc_scal (e_cfg m1)).
    { clear S1 S2. revert m1 tr2 B. induction F as [|c l Hc F IH]; intros m1 tr2 B; cbn [hexec] in B; [injection B as <- <-; auto|].
      destruct (do_hcall m1 c) as [ma o] eqn:D. destruct (hexec l ma) as [mb tb] eqn:B2. injection B as <- <-.
      destruct (IH ma tb B2) as [-> ->].
      destruct c; cbn in Hc; try contradiction; cbn [do_hcall] in D; unfold hret, mhe_param, mhe_objective, mhe_nl_cons, mhe_tvp, mhe_p, mhe_y in D;
        repeat match goal with
               | H : ?x = _ |- _ => match type of H with context [match ?y with _ => _ end] => destruct y eqn:? end
               end; try discriminate;
        repeat match goal with H : Ok _ = Ok _ |- _ => injection H as <- end; injection D as <- <-; auto; try (unfold mhe_bounds; cbv zeta; destruct (e_setup m1); auto; fail); try (unfold mhe_setting; auto; fail).
      }
    destruct K as [K1 K2].
    destruct (mhe_step_cases _ _ _ _ S1) as [(y' & x' & tf & pf & pr & ob & ox & yf & ys & ox' & lg & lx & st & dt & [= <-] & [= <-] & K)|(e & Q & _)]; [|discriminate].
    destruct (mhe_step_cases _ _ _ _ S2) as [(yb & xb & tfb & pfb & prb & obb & oxb & yfb & ysb & oxb' & lgb & lxb & stb & dtb & [= <-] & [= <-] & L)|(e & Q & _)]; [|discriminate].
    destruct K, L. exists ox'. eexists. split; [exact k_ox'|]. split; [exact k_x|]. split; [exact k_doptp0|]. cbn. rewrite K2, k_cfg. congruence.
  Qed.

  (** Ordinary histories: the whole record, and every step of a set-up estimator with a measurement of the right
      size returns normally. *)
  Theorem C21_ordinary_histories (h : list hcall) (m : mhe) (tr : trace) :
    hordinary tr -> hexec h mhe_init = (m, tr) ->
    d_y (e_data m) = map n_y (hlog tr) /\ d_time (e_data m) = map n_t (hlog tr) /\
    (length (d_x (e_data m)) = length (hlog tr) /\ length (d_u (e_data m)) = length (hlog tr) /\ length (d_z (e_data m)) = length (hlog tr) /\
     length (d_p (e_data m)) = length (hlog tr) /\ length (d_tvp (e_data m)) = length (hlog tr) /\ length (d_aux (e_data m)) = length (hlog tr) /\
     length (d_optp (e_data m)) = length (hlog tr) /\
     length (d_full (e_data m)) = (if hs_full (hsettings_of tr) then length (hlog tr) else 0) /\
     length (d_lam (e_data m)) = (if hs_lagr (hsettings_of tr) then length (hlog tr) else 0) /\
     length (d_stats (e_data m)) = (if hs_stats (hsettings_of tr) then length (hlog tr) else 0)) /\
    (hwas_setup tr -> forall y, exists m' x, mhe_step m (Good y) = (m', Ok x)) /\
    (forall pr ob, e_setup m = true -> e_prob m = Some pr -> e_ob m = Some ob -> hp_scal pr = hc_scal (e_cfg m) /\ ob = hc_bnd (e_cfg m)).
  Proof.
    intros Ho He. destruct (hinv2_reach h m tr Ho He) as [I J]. pose proof J as [U1 U2 U3 U4 U5 U6 U7 [A1 A2 A3 A4 A5 A6 A7 A8 A9] U9].
    rewrite <- (w_set _ _ I). repeat (split; [auto; fail|]). split; [|split].
    - rewrite U6, map_length. repeat split; auto.
    - intros W y. apply (w_setup _ _ I) in W. destruct (mhe_step m (Good y)) as [m' r] eqn:ES. pose proof (step_succeeds m tr y m' r I J W ES) as OKr.
      destruct r as [x|]; [eauto|discriminate].
    - intros pr ob S P O. destruct (U1 S) as (o & _ & P' & _). rewrite (U2 S) in O. assert (hp_scal pr = hc_scal (e_cfg m)) by (rewrite P in P'; injection P' as ->; reflexivity). assert (ob = hc_bnd (e_cfg m)) by (injection O as ->; reflexivity). auto.
  Qed.
  (** A call that is refused for its argument or because there is no setup leaves the estimator as it was. *)
  Theorem C21_refused_step_no_effect (m m' : mhe) (a : arg (hY E)) e :
    (a = Bad \/ e_setup m = false) -> mhe_step m a = (m', Err e) -> m' = m.
  Proof. unfold mhe_step. intros [->|Q] H; [destruct (e_setup m)|rewrite Q in H]; injection H as <- <-; reflexivity. Qed.

  (** ** C64 *)
  (** The recorded states are the estimates from before the steps: those returned one step earlier, or assigned. *)
  Theorem C64_recorded_states_lag_partial (h : list hcall) (m : mhe) (tr : trace) :
    hordinary tr -> hexec h mhe_init = (m, tr) -> d_x (e_data m) = map n_before (hlog tr).
  Proof. intros Ho He. destruct (hinv2_reach h m tr Ho He) as [_ J]. apply (u_x _ _ J). Qed.

  (** *** helpers for examples *)
  Definition hwas_setupb (tr : trace) : bool := existsb (fun e => match e with (HSetup, Ok _) => true | _ => false end) tr.
  Lemma hwas_setupb_ok tr : hwas_setupb tr = true -> hwas_setup tr.
  Proof. unfold hwas_setupb. rewrite existsb_exists. intros ([c o] & Hin & H). destruct c; try discriminate; destruct o as [v|]; try discriminate; exists v; auto. Qed.
  Lemma hall_ok (tr : trace) : forallb (fun e => is_ok (snd e)) tr = true -> forall c o, In (c, o) tr -> is_ok o = true.
  Proof. rewrite forallb_forall. intros H c o Hin. exact (H (c, o) Hin). Qed.
  (** Histories without a user measurement function that assign settings before setup only. *)
  Fixpoint hordinaryb (b : bool) (tr : trace) : bool :=
    match tr with
    | [] => true
    | (c, o) :: r => (match c with HSetting _ => negb b | HYfun _ => false | _ => true end) && hordinaryb (b || match c, o with HSetup, Ok _ => true | _, _ => false end) r
    end.
  Lemma hordinaryb_ok (tr : trace) : hordinaryb false tr = true -> hordinary tr /\ huser_y tr = None.
  Proof.
    assert (G : forall tr pre b, (hwas_setup pre -> b = true) -> hordinary pre -> huser_y pre = None -> hordinaryb b tr = true -> hordinary (pre ++ tr) /\ huser_y (pre ++ tr) = None).
    { clear tr. induction tr as [|[c o] tr IH]; intros pre b Hb Hp Hu H; [rewrite app_nil_r; auto|].
      cbn [hordinaryb] in H. apply andb_prop in H as [H1 H2].
      change ((c, o) :: tr) with ([(c, o)] ++ tr). rewrite app_assoc. eapply IH; [|apply hordinary_snoc; split; [exact Hp|]| |exact H2].
      - rewrite hwas_snoc. intros [W|(v & W)]; [rewrite (Hb W); reflexivity|injection W as -> ->; apply orb_true_r].
      - cbn [fst]. destruct c; cbn; try exact Logic.I; try discriminate H1; try (intros Q; congruence).
        split; [|intros Q; congruence]. intros W. rewrite (Hb W) in H1. discriminate H1.
      - rewrite huy_snoc. destruct c; auto; discriminate. }
    intros H. apply (G tr [] false); [|apply hordinary_nil|reflexivity|exact H]. intros (v & []).
  Qed.
End T.

(** ** A concrete estimator over the integers: the "solution" is (second state, last state) = (oldest, newest measurement),
    scaled; state scaling factor a number; no estimated parameters. *)
Lemma hpair_snd {A B} (p : A * B) b : snd p = b -> p = (fst p, b).
Proof. intros <-. apply surjective_pairing. Qed.
Module HEx.
  Local Open Scope Z_scope.
  Definition env : HEnv := mkHEnv Z Z unit unit unit unit unit unit Z Z Z
    unit unit Z (Z * Z) (Z * Z) unit unit unit
    0 0 Z.add 0 0 0 tt tt 0 1 (-100, 100) (fun b => Z.ltb (snd b) (fst b))
    (fun _ => tt) (fun _ _ => tt)
    (fun _ => (0, 0)) (fun _ x u z p s => (x / s, x / s))
    (fun pr ob ox l q => ((List.hd 0 (hq_y q) / hp_scal pr, List.last (hq_y q) 0 / hp_scal pr), tt, tt, tt))
    (fun _ _ _ => 0)
    (fun s o => fst o * s) (fun s o => snd o * s) (fun s o => snd o) (fun _ _ => tt) (fun _ _ => tt)
    (fun _ => tt) (fun _ => tt).
  Definition sets (n : nat) (s : @hset env) : @hset env := mkHset (Some (2 : hTm env)) (Some n) true (hs_full s) (hs_lagr s) (hs_stats s).
  Definition conf : list (@hcall env) := [HSetting (sets 3); HObjective (Good (tt : hObj env)); HScaling (fun _ => (2 : hSc env)); HX0 (4 : hX env); HSetup; HGuess].
  Definition step (y : Z) : @hcall env := HStep (Good (y : hY env)).
End HEx.

Example C19_nonvacuous :
  let h := HEx.conf ++ [HEx.step 6; HEx.step 8] in
  let m := fst (hexec h mhe_init) in let tr := snd (hexec h mhe_init) in
  hordinary tr /\ huser_y tr = None /\ hwas_setup tr /\
  map (fun q => hq_y q) (d_optp (e_data (fst (mhe_step m (Good (10%Z : hY HEx.env)))))) = [[6; 6; 6]; [6; 6; 8]; [6; 8; 10]]%Z /\
  map (fun q => hq_xprev q) (d_optp (e_data (fst (mhe_step m (Good (10%Z : hY HEx.env)))))) = [4; 6; 6]%Z /\
  d_x (e_data m) = [4; 6]%Z /\ d_time (e_data m) = [0; 2]%Z.
Proof.
  cbv zeta. destruct (hordinaryb_ok (snd (hexec (HEx.conf ++ [HEx.step 6; HEx.step 8]) mhe_init))) as [H1 H2]; [vm_compute; reflexivity|].
  split; [exact H1|]. split; [exact H2|]. split; [apply hwas_setupb_ok; vm_compute; reflexivity|]. repeat split; vm_compute; reflexivity.
Qed.

(** C64: the recorded states of that session are the estimates from before each step. *)
Example C64_nonvacuous :
  let h := HEx.conf ++ [HEx.step 6; HEx.step 8; HEx.step 10] in
  let m := fst (hexec h mhe_init) in let tr := snd (hexec h mhe_init) in
  hordinary tr /\ d_x (e_data m) = [4; 6; 8]%Z /\ map n_before (hlog tr) = [4; 6; 8]%Z.
Proof.
  cbv zeta. destruct (hordinaryb_ok (snd (hexec (HEx.conf ++ [HEx.step 6; HEx.step 8; HEx.step 10]) mhe_init))) as [H1 H2]; [vm_compute; reflexivity|].
  split; [exact H1|]. split; vm_compute; reflexivity.
Qed.

(** Changing settings.n_horizon after a setup and setting up again, both accepted: the window is not the one of the new
    horizon; once more measurements than the old horizon are there, steps raise. *)
Theorem C19_new_horizon_refuted :
  exists (h : list (@hcall HEx.env)) m tr y m' e,
    hexec h mhe_init = (m, tr) /\ (forall c o, In (c, o) tr -> is_ok o = true) /\ hwas_setup tr /\ huser_y tr = None /\ hs_nhor (hsettings_of tr) = Some 4 /\
    mhe_step m (Good y) = (m', Err e).
Proof.
  set (h := HEx.conf ++ [HSetting (HEx.sets 4); HSetup]).
  exists h, (fst (hexec h mhe_init)), (snd (hexec h mhe_init)), (1%Z : hY HEx.env), (fst (mhe_step (fst (hexec h mhe_init)) (Good (1%Z : hY HEx.env)))), ExcGeneric.
  split; [apply surjective_pairing|]. split; [apply hall_ok; vm_compute; reflexivity|]. split; [apply hwas_setupb_ok; vm_compute; reflexivity|].
  split; [vm_compute; reflexivity|]. split; [vm_compute; reflexivity|]. apply hpair_snd. vm_compute. reflexivity.
Qed.

(** A step that raises (the user's measurement function returns too few values at that time) has already recorded its
    measurement: the fields have different numbers of rows. *)
Theorem C21_raising_step_misaligns_refuted :
  exists (h : list (@hcall HEx.env)) m tr y m' e,
    hexec h mhe_init = (m, tr) /\ (forall c o, In (c, o) tr -> is_ok o = true) /\ hwas_setup tr /\
    mhe_step m (Good y) = (m', Err e) /\ length (d_y (e_data m')) = length (d_y (e_data m)) + 1 /\ d_x (e_data m') = d_x (e_data m) /\ hi_t (e_it m') = hi_t (e_it m).
Proof.
  set (yf := fun t : Z => if Z.eqb t 0 then [1; 2; 3]%Z else []).
  set (h := [HSetting (HEx.sets 3); HYfun (yf : hTm HEx.env -> list (hY HEx.env)); HObjective (Good (tt : hObj HEx.env)); HSetup; HEx.step 5]).
  exists h, (fst (hexec h mhe_init)), (snd (hexec h mhe_init)), (1%Z : hY HEx.env), (fst (mhe_step (fst (hexec h mhe_init)) (Good (1%Z : hY HEx.env)))), ExcGeneric.
  split; [apply surjective_pairing|]. split; [apply hall_ok; vm_compute; reflexivity|]. split; [apply hwas_setupb_ok; vm_compute; reflexivity|].
  split; [apply hpair_snd; vm_compute; reflexivity|].
  split; [vm_compute; reflexivity|]. split; [vm_compute; reflexivity|vm_compute; reflexivity].
Qed.

(** The row a step records for the state is not the estimate the step returned. *)
Theorem C64_recorded_state_refuted :
  exists (h : list (@hcall HEx.env)) m tr y m' x,
    hordinary tr /\ hexec h mhe_init = (m, tr) /\ (forall c o, In (c, o) tr -> is_ok o = true) /\ hwas_setup tr /\
    mhe_step m (Good y) = (m', Ok x) /\ d_x (e_data m') <> d_x (e_data m) ++ [x].
Proof.
  set (h := HEx.conf ++ [HEx.step 6]).
  exists h, (fst (hexec h mhe_init)), (snd (hexec h mhe_init)), (8%Z : hY HEx.env), (fst (mhe_step (fst (hexec h mhe_init)) (Good (8%Z : hY HEx.env)))), (8%Z : hX HEx.env).
  split; [apply hordinaryb_ok; vm_compute; reflexivity|]. split; [apply surjective_pairing|]. split; [apply hall_ok; vm_compute; reflexivity|]. split; [apply hwas_setupb_ok; vm_compute; reflexivity|].
  split; [apply hpair_snd; vm_compute; reflexivity|].
  vm_compute. discriminate.
Qed.

Example C21_nonvacuous :
  let m := fst (hexec HEx.conf mhe_init) in let tr := snd (hexec HEx.conf mhe_init) in
  let m1 := fst (mhe_step m (Good (6%Z : hY HEx.env))) in
  hordinary tr /\ hwas_setup tr /\ mhe_step m (Good (6%Z : hY HEx.env)) = (m1, Ok (6%Z : hX HEx.env)) /\
  Forall keeps_guess [HReset; HU0 (3%Z : hU HEx.env); HBounds (fun b => b)] /\ hi_t (e_it m1) = 2%Z /\
  snd (mhe_step (fst (hexec [HReset; HU0 (3%Z : hU HEx.env); HBounds (fun b => b)] m1)) (Good (8%Z : hY HEx.env))) = Ok (8%Z : hX HEx.env).
Proof.
  cbv zeta. split; [apply hordinaryb_ok; vm_compute; reflexivity|]. split; [apply hwas_setupb_ok; vm_compute; reflexivity|].
  split; [apply hpair_snd; vm_compute; reflexivity|].
  split; [repeat constructor|]. split; vm_compute; reflexivity.
Qed.

Print Assumptions C19_window.
Print Assumptions C19_user_source.
Print Assumptions C19_new_horizon_refuted.
Print Assumptions C20_parameters_from_one_source.
Print Assumptions C21_step_protocol.
Print Assumptions C21_reference_is_previous_solution.
Print Assumptions C21_ordinary_histories.
Print Assumptions C21_refused_step_no_effect.
Print Assumptions C21_raising_step_misaligns_refuted.
Print Assumptions C64_recorded_states_lag_partial.
Print Assumptions C64_recorded_state_refuted.
