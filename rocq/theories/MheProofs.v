(** * Proofs about the moving horizon estimator's life cycle. *)
From Verif Require Import Base MpcModel MheModel MheSpec.
Import List.

(** ** The default measurement window *)
Section Window.
  Context {Y : Type}.
  Implicit Types l ys : list Y.

  Lemma set_at_ok l i a : i < length l -> exists l', set_at l i a = Ok l' /\ length l' = length l /\
    forall j, nth_error l' j = if Nat.eqb j i then Some a else nth_error l j.
  Proof.
    intros H. unfold set_at. rewrite (proj2 (Nat.ltb_lt _ _) H). eexists. split; [reflexivity|]. split.
    - rewrite app_length. cbn [length]. rewrite firstn_length, skipn_length. lia.
    - intros j. destruct (Nat.eqb_spec j i) as [->|Hn].
      + rewrite nth_error_app2 by (rewrite firstn_length; lia). rewrite firstn_length, Nat.min_l by lia. rewrite Nat.sub_diag. reflexivity.
      + destruct (Nat.lt_ge_cases j i) as [Hl|Hg].
        * rewrite nth_error_app1 by (rewrite firstn_length; lia). rewrite <- (firstn_skipn i l) at 2. rewrite nth_error_app1; [reflexivity|rewrite firstn_length; lia].
        * rewrite nth_error_app2 by (rewrite firstn_length; lia). rewrite firstn_length, Nat.min_l by lia.
          replace (j - i) with (1 + (j - (1 + i))) by lia. cbn [plus nth_error].
          rewrite <- (firstn_skipn (1 + i) l) at 2. rewrite nth_error_app2; rewrite firstn_length; [f_equal; lia|lia].
  Qed.

  Lemma get_neg_ok ys k : 1 <= k <= length ys -> exists y, get_neg ys k = Ok y /\ nth_error ys (length ys - k) = Some y.
  Proof.
    intros H. unfold get_neg. destruct (Nat.eqb_spec k 0); [lia|].
    destruct (nth_error ys (length ys - k)) as [y|] eqn:Q.
    - rewrite (proj2 (Nat.leb_le _ _)) by lia. eauto.
    - apply nth_error_None in Q. lia.
  Qed.

  Lemma foldM_snoc {A B} (f : A -> B -> res A) (l : list B) x a :
    foldM f (l ++ [x]) a = match foldM f l a with Ok a' => f a' x | Err e => Err e end.
  Proof.
    revert a. induction l as [|b l IH]; intros a; cbn.
    - destruct (f a x); reflexivity.
    - destruct (f a b); [apply IH|reflexivity].
  Qed.

  Lemma loop1 ys templ n j : n <= length ys -> n <= length templ -> j <= n ->
    exists t, foldM (fun t j => let! y := get_neg ys (n - j) in set_neg t (n - j) y) (seq 0 j) templ = Ok t /\ length t = length templ /\
      forall i, nth_error t i = if (Nat.leb (length templ - n) i && Nat.ltb i (length templ - n + j))%bool then nth_error ys (length ys - n + (i - (length templ - n))) else nth_error templ i.
  Proof.
    intros H1 H2. induction j as [|j IH]; intros Hj.
    - exists templ. split; [reflexivity|]. split; [reflexivity|]. intros i.
      destruct (Nat.leb_spec (length templ - n) i); destruct (Nat.ltb_spec i (length templ - n + 0)); try reflexivity; lia.
    - destruct IH as (t & F & L & V); [lia|]. rewrite seq_S, foldM_snoc, F. cbn [plus].
      destruct (get_neg_ok ys (n - j)) as (y & G & Gy); [lia|]. rewrite G. cbn [bind].
      unfold set_neg. rewrite (proj2 (Nat.leb_le _ _)) by lia.
      destruct (set_at_ok t (length t - (n - j)) y) as (t' & S1 & S2 & S3); [lia|]. rewrite S1. exists t'. split; [reflexivity|]. split; [lia|].
      intros i. rewrite S3, V, L. destruct (Nat.eqb_spec i (length templ - (n - j))) as [->|Hn].
      + rewrite (proj2 (Nat.leb_le _ _)) by lia. rewrite (proj2 (Nat.ltb_lt _ _)) by lia. cbn. rewrite <- Gy. f_equal. lia.
      + destruct (Nat.leb_spec (length templ - n) i); destruct (Nat.ltb_spec i (length templ - n + j)); destruct (Nat.ltb_spec i (length templ - n + Datatypes.S j)); cbn; try reflexivity; lia.
  Qed.

  Lemma fill_snoc ks k (v : res Y) l y : v = Ok y -> (forall q, In q (ks ++ [k]) -> q < length l) ->
    exists l', set_at (fill ks v l) k y = Ok l' /\ fill (ks ++ [k]) v l = l' /\ length (fill ks v l) = length l.
  Proof.
    intros ->. revert l. induction ks as [|q ks IH]; intros l H.
    - cbn. destruct (set_at_ok l k y) as (l' & Q & _); [apply H; left; reflexivity|]. rewrite Q. eauto.
    - cbn. destruct (set_at_ok l q y) as (l' & Q & L & _); [apply H; left; reflexivity|]. rewrite Q.
      destruct (IH l') as (l2 & A & B & C); [intros r Hr; rewrite L; apply H; right; exact Hr|]. exists l2. repeat split; auto. congruence.
  Qed.
  Lemma loop2 l y n : n <= length l ->
    length (fill (seq 0 n) (Ok y) l) = length l /\
    forall i, nth_error (fill (seq 0 n) (Ok y) l) i = if Nat.ltb i n then Some y else nth_error l i.
  Proof.
    induction n as [|n IH]; intros H; [cbn; split; [reflexivity|intros i; destruct i; reflexivity]|].
    destruct IH as [L V]; [lia|]. rewrite seq_S. cbn [plus].
    destruct (fill_snoc (seq 0 n) n (Ok y) l y eq_refl) as (l' & A & B & C).
    { intros q Hq. apply in_app_iff in Hq as [Hq|[<-|[]]]; [apply in_seq in Hq; lia|lia]. }
    rewrite B. destruct (set_at_ok (fill (seq 0 n) (Ok y) l) n y) as (l2 & S1 & S2 & S3); [lia|].
    rewrite A in S1. injection S1 as ->. split; [lia|]. intros i. rewrite S3, V.
    destruct (Nat.eqb_spec i n) as [->|Hn]; [rewrite (proj2 (Nat.ltb_lt _ _)) by lia; reflexivity|].
    destruct (Nat.ltb_spec i n); destruct (Nat.ltb_spec i (Datatypes.S n)); try reflexivity; lia.
  Qed.

  Theorem y_default_window N templ ys : length templ = N -> ys <> [] -> exists w, y_default N templ ys = Ok w /\ is_window N ys w.
  Proof.
    intros HL Hne. unfold y_default. set (n := Nat.min (length ys) N).
    assert (Hn : n <= length ys /\ n <= N) by (unfold n; lia).
    destruct (loop1 ys templ n n) as (t & F & L & V); [lia|lia|lia|]. rewrite F. cbn [bind].
    eexists. split; [reflexivity|]. assert (1 <= length ys) by (destruct ys; [congruence|cbn; lia]).
    destruct (Nat.eq_dec n N) as [En|En].
    - rewrite En, Nat.sub_diag. cbn [seq fill]. split; [lia|]. intros k Hk. rewrite V, HL, En, Nat.sub_diag, (proj2 (Nat.ltb_lt _ _)) by lia. cbn. f_equal. lia.
    - assert (Hns : n = length ys) by (unfold n in *; lia).
      destruct (get_neg_ok ys n) as (y & G & Gy); [lia|]. rewrite G.
      destruct (loop2 t y (N - n)) as [L2 V2]; [lia|]. split; [lia|]. intros k Hk. rewrite V2, V, HL.
      destruct (Nat.ltb_spec k (N - n)).
      + rewrite <- Gy. f_equal. lia.
      + rewrite (proj2 (Nat.leb_le _ _)), (proj2 (Nat.ltb_lt _ _)) by lia. cbn. f_equal. lia.
  Qed.
  (** With an empty record the template keeps its length. *)
  Lemma y_default_nil N templ : length templ = N -> exists w, y_default N templ ([] : list Y) = Ok w /\ length w = N.
  Proof.
    intros HL. unfold y_default. cbn [length Nat.min seq foldM bind]. eexists. split; [reflexivity|].
    rewrite Nat.sub_0_r. destruct N as [|N]; cbn [seq fill]; [exact HL|]. exact HL.
  Qed.
  Lemma y_default_length N templ ys w : length templ = N -> y_default N templ ys = Ok w -> length w = N.
  Proof.
    intros HL H. destruct ys as [|y ys].
    - destruct (y_default_nil N templ HL) as (w' & Q & L). congruence.
    - destruct (y_default_window N templ (y :: ys) HL) as (w' & Q & L & _); [discriminate|]. congruence.
  Qed.
End Window.

Section P.
  Context {E : HEnv}.
  Notation mhe := (@mhe E).
  Notation hcall := (@hcall E).
  Notation trace := (list (hcall * res (option (hX E)))).
  Implicit Types m : mhe.

  Lemma hexec_app h1 h2 m : hexec (h1 ++ h2) m = let (m1, t1) := hexec h1 m in let (m2, t2) := hexec h2 m1 in (m2, t1 ++ t2).
  Proof.
    revert m. induction h1 as [|c h IH]; intros m; cbn [hexec app].
    - destruct (hexec h2 m); reflexivity.
    - destruct (do_hcall m c) as [m1 o]. rewrite IH. destruct (hexec h m1) as [m2 t2]. destruct (hexec h2 m2). reflexivity.
  Qed.
  Lemma hexec_snoc h c m : hexec (h ++ [c]) m =
    let (m1, tr) := hexec h m in let (m2, o) := do_hcall m1 c in (m2, tr ++ [(c, o)]).
  Proof. rewrite hexec_app. destruct (hexec h m) as [m1 tr]. cbn [hexec]. destruct (do_hcall m1 c) as [m2 o]. reflexivity. Qed.
  Lemma hexec_ind (Q : mhe -> trace -> Prop) m0 :
    Q m0 [] ->
    (forall m tr c m' o, Q m tr -> do_hcall m c = (m', o) -> Q m' (tr ++ [(c, o)])) ->
    forall h m tr, hexec h m0 = (m, tr) -> Q m tr.
  Proof.
    intros H0 Hs h. induction h as [|c h IH] using rev_ind; intros m tr He.
    - cbn in He. injection He as <- <-. exact H0.
    - rewrite hexec_snoc in He. destruct (hexec h m0) as [m1 t1] eqn:E1. destruct (do_hcall m1 c) as [m2 o] eqn:E2.
      injection He as <- <-. eapply Hs; eauto.
  Qed.

  (** ** Trace functions, one call at a time *)
  Lemma hset_snoc (tr : trace) e : hsettings_of (tr ++ [e]) = match e with (HParam f, Ok _) => f (hsettings_of tr) | (HSetting f, Ok _) => f (hsettings_of tr) | _ => hsettings_of tr end.
  Proof. unfold hsettings_of. rewrite fold_left_app. reflexivity. Qed.
  Lemma htvp_snoc (tr : trace) e : htvp_of (tr ++ [e]) = match e with (HTvp (Good f), Ok _) => Some f | _ => htvp_of tr end.
  Proof. unfold htvp_of. rewrite fold_left_app. reflexivity. Qed.
  Lemma hp_snoc (tr : trace) e : hp_of (tr ++ [e]) = match e with (HPfun (Good f), Ok _) => Some f | _ => hp_of tr end.
  Proof. unfold hp_of. rewrite fold_left_app. reflexivity. Qed.
  Lemma huy_snoc (tr : trace) e : huser_y (tr ++ [e]) = match e with (HYfun f, Ok _) => Some f | _ => huser_y tr end.
  Proof. unfold huser_y. rewrite fold_left_app. reflexivity. Qed.
  Lemma hwas_snoc (tr : trace) e : hwas_setup (tr ++ [e]) <-> hwas_setup tr \/ (exists v, e = (HSetup, Ok v)).
  Proof.
    unfold hwas_setup. setoid_rewrite in_app_iff. split.
    - intros (v & [H|[H|[]]]); eauto.
    - intros [(v & H)|(v & ->)]; exists v; [auto|right; left; reflexivity].
  Qed.
  Lemma hls_snoc (tr : trace) e s x t l : hlog_state tr = (s, x, t, l) ->
    hlog_state (tr ++ [e]) = match e with
      | (HParam f, Ok _) => (f s, x, t, l)
      | (HSetting f, Ok _) => (f s, x, t, l)
      | (HStep (Good y), Ok (Some x')) => (s, x', htick s t, l ++ [mkEntry y x x' t])
      | (HReset, Ok _) => (s, x, h_t_zero E, [])
      | (HSetup, Ok _) => (s, x, t, [])
      | (HX0 x', Ok _) => (s, x', t, l)
      | (HT0 t', Ok _) => (s, x, t', l)
      | _ => (s, x, t, l)
      end.
  Proof. intros H. unfold hlog_state in *. rewrite fold_left_app. cbn [fold_left]. rewrite H. reflexivity. Qed.

  Lemma hordinary_snoc (tr : trace) e : hordinary (tr ++ [e]) <-> hordinary tr /\ hallowed tr (fst e).
  Proof.
    unfold hordinary. split.
    - intros H. split.
      + intros b c o a ->. apply (H b c o (a ++ [e])). rewrite <- app_assoc. reflexivity.
      + destruct e as [c o]. apply (H tr c o []). reflexivity.
    - intros [H1 H2] b c o a Q. destruct a as [|x a] using rev_ind.
      + apply app_inj_tail in Q as [-> ->]. exact H2.
      + rewrite app_comm_cons, app_assoc in Q. apply app_inj_tail in Q as [-> _]. eapply H1; reflexivity.
  Qed.
  Lemma hordinary_nil : hordinary ([] : trace).
  Proof. intros b c o a Q. destruct b; discriminate. Qed.

  (** ** make_step *)
  Record hstepped (m m' : mhe) (y : hY E) (x : hX E) tf pf pr ob ox yf ys ox' lg lx st dt : Prop := mkHstepped {
    k_set : e_setup m = true;
    k_tf : hc_tvpf (e_cfg m) = Some tf; k_pf : hc_pf (e_cfg m) = Some pf; k_pr : e_prob m = Some pr; k_ob : e_ob m = Some ob; k_ox : e_ox m = Some ox;
    k_y : measure (e_with_data (add_dy (e_data m) y) m) = Ok (yf, ys);
    k_n : hs_nhor (hp_set pr) = Some (length ys);
    k_S : h_S E pr ob ox (if e_run1 m then e_lam m else None)
            (mkHpar (h_x1 E (hc_scal (e_cfg m)) ox) (hi_pe (e_it m)) (pf (hi_t (e_it m))) (tf (hi_t (e_it m))) ys) = (ox', lg, lx, st);
    k_x : x = h_xN E (hc_scal (e_cfg m)) ox';
    k_dt : hs_tstep (hc_set (e_cfg m)) = Some dt;
    k_it : e_it m' = mkHiter x (h_uN E (hc_scal (e_cfg m)) ox') (h_zN E (hc_scal (e_cfg m)) ox') (h_pe E (hc_scal (e_cfg m)) ox') (h_tadd E (hi_t (e_it m)) dt);
    k_cfg : e_cfg m' = e_cfg m; k_setup' : e_setup m' = true; k_yf : e_yf m' = yf; k_pr' : e_prob m' = e_prob m; k_ob' : e_ob m' = e_ob m;
    k_ox' : e_ox m' = Some ox'; k_lam' : e_lam m' = Some (lg, lx); k_run : e_run1 m' = true; k_f : e_fields m' = e_fields m;
    k_dy : d_y (e_data m') = d_y (e_data m) ++ [y]; k_dx : d_x (e_data m') = d_x (e_data m) ++ [hi_x (e_it m)];
    k_du : d_u (e_data m') = d_u (e_data m) ++ [h_uN E (hc_scal (e_cfg m)) ox'];
    k_dz : d_z (e_data m') = d_z (e_data m) ++ [h_zN E (hc_scal (e_cfg m)) ox'];
    k_dp : d_p (e_data m') = d_p (e_data m) ++ [h_pcat E (hi_pe (e_it m)) (pf (hi_t (e_it m)))];
    k_dtvp : d_tvp (e_data m') = d_tvp (e_data m) ++ [h_tv_last E (tf (hi_t (e_it m)))];
    k_dtime : d_time (e_data m') = d_time (e_data m) ++ [hi_t (e_it m)];
    k_daux : length (d_aux (e_data m')) = length (d_aux (e_data m)) + 1;
    k_doptp : d_optp (e_data m') = d_optp (e_data m) ++
      [mkHpar (h_x1 E (hc_scal (e_cfg m)) ox) (hi_pe (e_it m)) (pf (hi_t (e_it m))) (tf (hi_t (e_it m))) ys];
    k_dfull : length (d_full (e_data m')) = length (d_full (e_data m)) + (if hs_full (hc_set (e_cfg m)) then 1 else 0);
    k_dlam : length (d_lam (e_data m')) = length (d_lam (e_data m)) + (if hs_lagr (hc_set (e_cfg m)) then 1 else 0);
    k_dstats : length (d_stats (e_data m')) = length (d_stats (e_data m)) + (if hs_stats (hc_set (e_cfg m)) then 1 else 0) }.

  Definition ykind (a b : @ysource E) : Prop :=
    match a, b with YNone, YNone => True | YUser f, YUser g => f = g | YDefault _, YDefault _ => True | _, _ => False end.
  Lemma ykind_refl a : ykind a a.
  Proof. destruct a; cbn; auto. Qed.
  (** What a raising step leaves alone. *)
  Record hraised (m m' : mhe) : Prop := mkHraised {
    f_cfg : e_cfg m' = e_cfg m; f_it : e_it m' = e_it m; f_setup : e_setup m' = e_setup m; f_prob : e_prob m' = e_prob m; f_ob : e_ob m' = e_ob m;
    f_ox : e_ox m <> None -> e_ox m' <> None; f_yf : ykind (e_yf m) (e_yf m') }.
  Lemma hraised_refl m : hraised m m.
  Proof. constructor; auto using ykind_refl. Qed.

  Lemma measure_kind m yf ys : measure m = Ok (yf, ys) -> ykind (e_yf m) yf.
  Proof.
    unfold measure. destruct (e_yf m); [discriminate| |intros [= <- <-]; reflexivity].
    destruct (hs_nhor _); [|discriminate]. destruct (y_default _ _ _); cbn; [|discriminate]. intros [= <- <-]. exact Logic.I.
  Qed.

  (** The ways a step with a measurement of the right size can raise. *)
  Definition hfields_ok (m : mhe) : Prop :=
    let '(ff, fl, fs) := e_fields m in
    (hs_full (hc_set (e_cfg m)) = true -> ff = true) /\ (hs_lagr (hc_set (e_cfg m)) = true -> fl = true) /\ (hs_stats (hc_set (e_cfg m)) = true -> fs = true).

  Lemma mhe_step_cases m a m' r : mhe_step m a = (m', r) ->
    (exists y x tf pf pr ob ox yf ys ox' lg lx st dt, a = Good y /\ r = Ok x /\ hstepped m m' y x tf pf pr ob ox yf ys ox' lg lx st dt) \/
    (exists e, r = Err e /\ hraised m m' /\
       (m' = m \/ hc_tvpf (e_cfg m) = None \/ hc_pf (e_cfg m) = None \/ e_prob m = None \/ e_ob m = None \/ e_ox m = None \/
        (exists y e, a = Good y /\ measure (e_with_data (add_dy (e_data m) y) m) = Err e) \/
        (exists y yf ys pr, a = Good y /\ e_prob m = Some pr /\ measure (e_with_data (add_dy (e_data m) y) m) = Ok (yf, ys) /\ hs_nhor (hp_set pr) <> Some (length ys)) \/
        ~ hfields_ok m \/ hs_tstep (hc_set (e_cfg m)) = None)).
  Proof.
    unfold mhe_step. intros H.
    destruct (e_setup m) eqn:E0; [|injection H as <- <-; right; eexists; split; [reflexivity|]; split; [apply hraised_refl|auto]].
    destruct a as [y|]; [|injection H as <- <-; right; eexists; split; [reflexivity|]; split; [apply hraised_refl|auto]].
    cbv zeta in H. cbn [e_it e_cfg e_with_data e_prob e_ob e_ox] in H.
    destruct (hc_tvpf (e_cfg m)) as [tf|] eqn:E1; [|injection H as <- <-; right; eexists; split; [reflexivity|]; split; [constructor; cbn; auto using ykind_refl|tauto]].
    destruct (hc_pf (e_cfg m)) as [pf|] eqn:E2; [|injection H as <- <-; right; eexists; split; [reflexivity|]; split; [constructor; cbn; auto using ykind_refl|tauto]].
    destruct (e_prob m) as [pr|] eqn:E3; [|injection H as <- <-; right; eexists; split; [reflexivity|]; split; [constructor; cbn; auto using ykind_refl|tauto]].
    destruct (e_ob m) as [ob|] eqn:E4; [|injection H as <- <-; right; eexists; split; [reflexivity|]; split; [constructor; cbn; auto using ykind_refl|tauto]].
    destruct (e_ox m) as [ox|] eqn:E5; [|injection H as <- <-; right; eexists; split; [reflexivity|]; split; [constructor; cbn; auto using ykind_refl|tauto]].
    destruct (measure _) as [[yf ys]|e] eqn:E6;
      [|injection H as <- <-; right; eexists; split; [reflexivity|]; split; [constructor; cbn; auto using ykind_refl|do 6 right; left; eauto]].
    assert (YK : ykind (e_yf m) yf) by (apply measure_kind in E6; exact E6).
    destruct (match hs_nhor (hp_set pr) with Some n => Nat.eqb (length ys) n | None => false end) eqn:E7.
    2:{ injection H as <- <-; right; eexists; split; [reflexivity|]; split; [constructor; cbn; auto|].
        do 7 right. left. exists y, yf, ys, pr. repeat split; auto. intros Q. rewrite Q, Nat.eqb_refl in E7. discriminate. }
    assert (E8 : hs_nhor (hp_set pr) = Some (length ys)).
    { destruct (hs_nhor (hp_set pr)); [|discriminate]. apply Nat.eqb_eq in E7. congruence. }
    destruct (h_S _ _ _ _ _ _) as [[[ox' lg] lx] st] eqn:ES. cbn [e_with_yf e_with_data e_run1 e_lam e_solved e_fields e_data] in *.
    destruct (e_fields m) as [[ff fl] fs] eqn:EF.
    destruct (h_optional (hs_full _) ff _ _ _) as [d2 [u2|e2]] eqn:O2; unfold h_optional in O2;
      [|destruct (hs_full (hc_set (e_cfg m))) eqn:S2, ff; try discriminate; injection O2 as <- <-; injection H as <- <-;
        right; eexists; split; [reflexivity|]; split; [constructor; cbn; auto; discriminate|];
        do 8 right; left; unfold hfields_ok; rewrite EF; intros (Q & _); discriminate (Q S2)].
    destruct (h_optional (hs_lagr _) fl _ _ _) as [d3 [u3|e3]] eqn:O3; unfold h_optional in O3;
      [|destruct (hs_lagr (hc_set (e_cfg m))) eqn:S3, fl; try discriminate; injection O3 as <- <-; injection H as <- <-;
        right; eexists; split; [reflexivity|]; split; [constructor; cbn; auto; discriminate|];
        do 8 right; left; unfold hfields_ok; rewrite EF; intros (_ & Q & _); discriminate (Q S3)].
    destruct (h_optional (hs_stats _) fs _ _ _) as [d4 [u4|e4]] eqn:O4; unfold h_optional in O4;
      [|destruct (hs_stats (hc_set (e_cfg m))) eqn:S4, fs; try discriminate; injection O4 as <- <-; injection H as <- <-;
        right; eexists; split; [reflexivity|]; split; [constructor; cbn; auto; discriminate|];
        do 8 right; left; unfold hfields_ok; rewrite EF; intros (_ & _ & Q); discriminate (Q S4)].
    destruct (hs_tstep (hc_set (e_cfg m))) as [dt|] eqn:ET; injection H as <- <-;
      [|right; eexists; split; [reflexivity|]; split; [constructor; cbn; auto; discriminate|auto 12]].
    left. exists y, (h_xN E (hc_scal (e_cfg m)) ox'), tf, pf, pr, ob, ox, yf, ys, ox', lg, lx, st, dt. split; [reflexivity|]. split; [reflexivity|].
    destruct (hs_full (hc_set (e_cfg m))) eqn:S2; [destruct ff; [|discriminate]|]; injection O2 as <- <-;
    (destruct (hs_lagr (hc_set (e_cfg m))) eqn:S3; [destruct fl; [|discriminate]|]; injection O3 as <- <-;
    (destruct (hs_stats (hc_set (e_cfg m))) eqn:S4; [destruct fs; [|discriminate]|]; injection O4 as <- <-));
    constructor; cbn; rewrite ?S2, ?S3, ?S4, ?app_length; cbn; auto; try lia.
  Qed.

  (** ** Invariant of all histories *)
  Definition hagree {A} (user : option A) (dummy : A) (f : option A) : Prop :=
    match user with Some g => f = Some g | None => f = None \/ f = Some dummy end.
  Record hinv (m : mhe) (tr : trace) : Prop := mkHinv {
    w_set : hc_set (e_cfg m) = hsettings_of tr;
    w_log : fst (hlog_state tr) = (hc_set (e_cfg m), hi_x (e_it m), hi_t (e_it m));
    w_t : hagree (htvp_of tr) (h_tvp_dummy E) (hc_tvpf (e_cfg m));
    w_p : hagree (hp_of tr) (h_p_dummy E) (hc_pf (e_cfg m));
    w_y : match huser_y tr with Some f => e_yf m = YUser f | None => e_yf m = YNone \/ exists t, e_yf m = YDefault t end;
    w_setup : e_setup m = true <-> hwas_setup tr;
    w_have : e_setup m = true -> hc_tvpf (e_cfg m) <> None /\ hc_pf (e_cfg m) <> None /\ e_prob m <> None /\ e_ob m <> None /\ e_ox m <> None /\ e_yf m <> YNone }.

  Lemma hinv_init : hinv mhe_init [].
  Proof. constructor; cbn; auto; try discriminate. split; [discriminate|]. intros (v & []). Qed.
  Lemma hagree_dummy {A} (user : option A) d (f : option A) : hagree user d f -> hagree user d (Some (match f with Some g => g | None => d end)).
  Proof. unfold hagree. destruct user as [g|]; [intros ->; reflexivity|intros [->| ->]; auto]. Qed.

  Lemma ykind_user a b o : ykind a b -> (match o with Some f => a = YUser f | None => a = YNone \/ exists t, a = YDefault t end) ->
    match o with Some f => b = YUser f | None => b = YNone \/ exists t, b = YDefault t end.
  Proof.
    destruct o as [f|].
    - intros K ->. destruct b; cbn in K; try contradiction. congruence.
    - intros K [->|[t ->]]; destruct b; cbn in K; try contradiction; eauto.
  Qed.
  Lemma ykind_none a b : ykind a b -> a <> YNone -> b <> YNone.
  Proof. destruct a, b; cbn; congruence. Qed.

  Ltac snocs := rewrite ?hset_snoc, ?htvp_snoc, ?hp_snoc, ?huy_snoc.

  Lemma hinv_step m tr c m' o : hinv m tr -> do_hcall m c = (m', o) -> hinv m' (tr ++ [(c, o)]).
  Proof.
    intros [W1 W2 W3 W4 W5 W6 W7] H.
    destruct (hlog_state tr) as [[[s0 x0] t0] l0] eqn:SL. cbn in W2. injection W2 as -> -> ->.
    assert (NS : forall o', (forall v, (c, o') <> (HSetup, Ok v)) -> (e_setup m = true <-> hwas_setup (tr ++ [(c, o')]))).
    { intros o' Hn. rewrite hwas_snoc, W6. split; [auto|intros [?|[v Hv]]; [assumption|exfalso; eapply Hn; eauto]]. }
    destruct c; cbn [do_hcall] in H; unfold hret in H.
    - unfold mhe_param in H. destruct (e_setup m) eqn:E0; injection H as <- <-; constructor; snocs; cbn; auto;
        try (erewrite hls_snoc by eassumption; reflexivity); try (rewrite ?E0; apply NS; discriminate); try (intros; apply W7; congruence); congruence.
    - injection H as <- <-. constructor; snocs; cbn; auto; try (erewrite hls_snoc by eassumption; reflexivity); try (apply NS; discriminate); congruence.
    - unfold mhe_objective in H. destruct o0 as [ob|]; [destruct (e_setup m) eqn:E0|]; injection H as <- <-; constructor; snocs; cbn; auto;
        try (erewrite hls_snoc by eassumption; reflexivity); try (rewrite ?E0; apply NS; discriminate); try (intros; apply W7; congruence).
    - unfold mhe_nl_cons in H. destruct (e_setup m) eqn:E0; injection H as <- <-; constructor; snocs; cbn; auto;
        try (erewrite hls_snoc by eassumption; reflexivity); try (rewrite ?E0; apply NS; discriminate); try (intros; apply W7; congruence).
    - unfold mhe_scaling in H. destruct (e_setup m) eqn:E0; injection H as <- <-; constructor; snocs; cbn; auto;
        try (erewrite hls_snoc by eassumption; reflexivity); try (rewrite ?E0; apply NS; discriminate); try (intros; apply W7; congruence).
    - unfold mhe_bounds in H. cbv zeta in H. destruct (e_setup m) eqn:E0; injection H as <- <-; constructor; snocs; cbn; auto;
        try (erewrite hls_snoc by eassumption; reflexivity); try (rewrite ?E0; apply NS; discriminate); try (intros; apply W7; congruence).
      intros _. destruct (W7 eq_refl) as (? & ? & ? & ? & ? & ?). repeat split; auto; discriminate.
    - unfold mhe_tvp in H. destruct f as [f|]; injection H as <- <-; constructor; snocs; cbn; auto;
        try (erewrite hls_snoc by eassumption; reflexivity); try (apply NS; discriminate).
      intros Q. destruct (W7 Q) as (? & ? & ? & ? & ? & ?). repeat split; auto; discriminate.
    - unfold mhe_p in H. destruct f as [f|]; injection H as <- <-; constructor; snocs; cbn; auto;
        try (erewrite hls_snoc by eassumption; reflexivity); try (apply NS; discriminate).
      intros Q. destruct (W7 Q) as (? & ? & ? & ? & ? & ?). repeat split; auto; discriminate.
    - unfold mhe_y in H. destruct (hs_nhor _) as [n|]; [destruct (Nat.eqb _ _)|]; injection H as <- <-; constructor; snocs; cbn; auto;
        try (erewrite hls_snoc by eassumption; reflexivity); try (apply NS; discriminate).
      intros Q. destruct (W7 Q) as (? & ? & ? & ? & ? & ?). repeat split; auto; discriminate.
    - unfold mhe_setup in H. cbv zeta in H.
      assert (ERR : forall e, o = Err e -> m' = m -> hinv m' (tr ++ [(HSetup, o)])).
      { intros e -> ->. constructor; snocs; cbn; auto; try (erewrite hls_snoc by eassumption; reflexivity). apply NS. discriminate. }
      destruct (hs_nhor _) as [n|] eqn:Q1; [|injection H as <- <-; eapply ERR; reflexivity].
      destruct (hs_tstep _) as [dt|] eqn:Q2; [|injection H as <- <-; eapply ERR; reflexivity].
      destruct (hc_obj _) as [ob|] eqn:Q3; [|injection H as <- <-; eapply ERR; reflexivity].
      destruct ((match hc_tvpf _ with None => true | _ => false end) && _)%bool eqn:Q4; [injection H as <- <-; eapply ERR; reflexivity|].
      destruct ((match hc_pf _ with None => true | _ => false end) && _)%bool eqn:Q5; [injection H as <- <-; eapply ERR; reflexivity|].
      destruct (h_b_bad _ _) eqn:Q6; [injection H as <- <-; eapply ERR; reflexivity|].
      cbn [e_yf e_with_cfg mhe_fns e_fields e_run1 e_cfg e_it e_data e_lam] in H.
      destruct (e_fields m) as [[ff fl] fs].
      destruct (e_yf m) as [|tm|fy] eqn:Q7; [destruct (hs_meas _) eqn:Q8| |]; injection H as <- <-.
      2:{ constructor; snocs; cbn; auto; try (erewrite hls_snoc by eassumption; reflexivity); try (apply hagree_dummy; assumption).
          - destruct (huser_y tr); rewrite Q7; auto.
          - apply NS; discriminate.
          - intros Q. destruct (W7 Q) as (? & ? & ? & ? & ? & ?). repeat split; auto; discriminate. }
      all: constructor; snocs; cbn; auto; try (erewrite hls_snoc by eassumption; reflexivity); try (apply hagree_dummy; assumption);
           try (destruct (huser_y tr); [congruence|destruct W5 as [?|[? ?]]; [congruence|eauto]]);
           try (split; [intros _; apply hwas_snoc; eauto|reflexivity]); try (intros _; repeat split; discriminate).
      destruct (huser_y tr); [discriminate|]. right. eauto.
    - unfold mhe_guess in H. destruct (e_setup m) eqn:E0; [destruct (e_ox m) eqn:E1|]; injection H as <- <-; constructor; snocs; cbn; rewrite ?E0, ?E1; auto;
        try (erewrite hls_snoc by eassumption; reflexivity); try (apply NS; discriminate).
      intros _. destruct (W7 eq_refl) as (? & ? & ? & ? & ? & ?). repeat split; auto; discriminate.
    - destruct (mhe_step m y) as [m1 r] eqn:ES.
      destruct (mhe_step_cases _ _ _ _ ES) as [(y' & x & tf & pf & pr & ob & ox & yf & ys & ox' & lg & lx & st & dt & -> & -> & K)|(e & -> & R & _)]; injection H as <- <-.
      + destruct K. constructor; snocs; rewrite ?k_cfg0, ?k_it0; cbn; auto.
        * erewrite hls_snoc by eassumption. cbn. unfold htick. rewrite k_dt0. reflexivity.
        * apply ykind_user with (a := e_yf m); auto. apply measure_kind in k_y0. rewrite k_yf0. exact k_y0.
        * rewrite k_setup'0. transitivity (e_setup m = true); [rewrite k_set0; tauto|apply NS; discriminate].
        * intros _. destruct (W7 k_set0) as (? & ? & ? & ? & ? & ?). repeat split; try congruence. rewrite k_yf0. apply measure_kind in k_y0. eapply ykind_none; eauto.
      + destruct R. constructor; snocs; rewrite ?f_cfg0, ?f_it0, ?f_setup0; cbn; auto.
        * erewrite hls_snoc by eassumption. destruct y; reflexivity.
        * eapply ykind_user; eauto.
        * apply NS. discriminate.
        * intros Q. destruct (W7 Q) as (? & ? & ? & ? & ? & ?). repeat split; auto; try congruence. eapply ykind_none; eauto.
    - injection H as <- <-. constructor; snocs; cbn; auto; try (erewrite hls_snoc by eassumption; reflexivity). apply NS; discriminate.
    - injection H as <- <-. constructor; snocs; cbn; auto; try (erewrite hls_snoc by eassumption; reflexivity). apply NS; discriminate.
    - injection H as <- <-. constructor; snocs; cbn; auto; try (erewrite hls_snoc by eassumption; reflexivity). apply NS; discriminate.
    - injection H as <- <-. constructor; snocs; cbn; auto; try (erewrite hls_snoc by eassumption; reflexivity). apply NS; discriminate.
    - injection H as <- <-. constructor; snocs; cbn; auto; try (erewrite hls_snoc by eassumption; reflexivity). apply NS; discriminate.
    - injection H as <- <-. constructor; snocs; cbn; auto; try (erewrite hls_snoc by eassumption; reflexivity). apply NS; discriminate.
  Qed.
  Theorem hinv_reach h m tr : hexec h mhe_init = (m, tr) -> hinv m tr.
  Proof. intros H. apply (hexec_ind hinv mhe_init hinv_init) with (h := h); auto. intros; eapply hinv_step; eauto. Qed.

  (** ** Ordinary histories *)
  Record haligned (d : @hrows E) (s : @hset E) (n : nat) : Prop := mkHaligned {
    al_u : length (d_u d) = n; al_z : length (d_z d) = n; al_p : length (d_p d) = n; al_tvp : length (d_tvp d) = n; al_aux : length (d_aux d) = n;
    al_optp : length (d_optp d) = n; al_full : length (d_full d) = (if hs_full s then n else 0); al_lam : length (d_lam d) = (if hs_lagr s then n else 0);
    al_stats : length (d_stats d) = (if hs_stats s then n else 0) }.
  Record hinv2 (m : mhe) (tr : trace) : Prop := mkHinv2 {
    u_prob : e_setup m = true -> exists o, hc_obj (e_cfg m) = Some o /\ e_prob m = Some (mkHprob o (hc_nl (e_cfg m)) (hc_scal (e_cfg m)) (hc_set (e_cfg m))) /\
               hs_nhor (hc_set (e_cfg m)) <> None /\ hs_tstep (hc_set (e_cfg m)) <> None /\ hfields_ok m;
    u_ob : e_setup m = true -> e_ob m = Some (hc_bnd (e_cfg m));
    u_yd : forall t, e_yf m = YDefault t -> e_setup m = true /\ hs_nhor (hc_set (e_cfg m)) = Some (length t);
    u_yu : forall f, e_yf m = YUser f -> forall t, hs_nhor (hc_set (e_cfg m)) = Some (length (f t));
    u_y : d_y (e_data m) = map n_y (hlog tr); u_x : d_x (e_data m) = map n_before (hlog tr); u_t : d_time (e_data m) = map n_t (hlog tr);
    u_al : haligned (e_data m) (hc_set (e_cfg m)) (length (hlog tr));
    u_nil : e_setup m = false -> hlog tr = [] }.

  Lemma hlog_snoc' (tr : trace) e : hlog (tr ++ [e]) = match e with
      | (HStep (Good y), Ok (Some x')) => hlog tr ++ [mkEntry y (estimate tr) x' (hclock tr)]
      | (HReset, Ok _) => []
      | (HSetup, Ok _) => []
      | _ => hlog tr
      end.
  Proof.
    unfold hlog, estimate, hclock. destruct (hlog_state tr) as [[[s x] t] l] eqn:Q. rewrite (hls_snoc tr e s x t l Q).
    destruct e as [c o]; destruct c; destruct o as [[v|]|]; cbn; try reflexivity; destruct y; reflexivity.
  Qed.
  Lemma haligned_nil s : haligned no_hrows s 0.
  Proof. constructor; cbn; auto; match goal with |- context [if ?b then _ else _] => destruct b end; reflexivity. Qed.
  Lemma hinv2_init : hinv2 mhe_init [].
  Proof. constructor; cbn; auto; try discriminate. apply haligned_nil. Qed.

  (** A step with a measurement of the right size succeeds. *)
  Lemma step_succeeds m tr y m' r : hinv m tr -> hinv2 m tr -> e_setup m = true -> mhe_step m (Good y) = (m', r) -> is_ok r = true.
  Proof.
    intros I J S ES. destruct (w_have _ _ I S) as (H1 & H2 & H3 & H4 & H5 & H6).
    destruct (u_prob _ _ J S) as (o & _ & PR & NH & TS & FI).
    destruct (mhe_step_cases _ _ _ _ ES) as [(y' & x & tf & pf & pr & ob & ox & yf & ys & ox' & lg & lx & st & dt & _ & -> & _)|(e & -> & _ & D)]; [reflexivity|exfalso].
    destruct D as [->|[D|[D|[D|[D|[D|[D|[D|[D|D]]]]]]]]]; try contradiction.
    - unfold mhe_step in ES. rewrite S in ES. cbv zeta in ES. cbn [e_it e_cfg e_with_data e_prob e_ob e_ox] in ES.
      assert (L : length (d_y (e_data m)) <> length (d_y (e_data m) ++ [y])) by (rewrite app_length; cbn; lia).
      destruct (hc_tvpf (e_cfg m)) as [tf|]; [|congruence]. destruct (hc_pf (e_cfg m)) as [pf|]; [|congruence]. destruct (e_prob m) as [pr|]; [|congruence].
      destruct (e_ob m) as [ob|]; [|congruence]. destruct (e_ox m) as [ox|]; [|congruence].
      destruct (measure _) as [[yf ys]|e'].
      + destruct (match hs_nhor (hp_set pr) with Some n => Nat.eqb (length ys) n | None => false end).
        * destruct (h_S _ _ _ _ _ _) as [[[ox' lg] lx] st]. cbn [e_with_yf e_with_data e_run1 e_lam e_solved e_fields e_data] in ES.
          destruct (e_fields m) as [[ff fl] fs]. unfold h_optional in ES.
          destruct (hs_full _), ff; try (destruct (hs_lagr _), fl; try (destruct (hs_stats _), fs; try destruct (hs_tstep _)));
          (try discriminate); injection ES as ES _; apply (f_equal (fun m => length (d_y (e_data m)))) in ES; cbn in ES; rewrite app_length in ES; cbn in ES; lia.
        * injection ES as ES _. apply (f_equal (fun m => length (d_y (e_data m)))) in ES. cbn in ES. rewrite app_length in ES; cbn in ES; lia.
      + injection ES as ES _. apply (f_equal (fun m => length (d_y (e_data m)))) in ES. cbn in ES. rewrite app_length in ES; cbn in ES; lia.
    - destruct D as (y' & e' & _ & D). unfold measure in D. cbn [e_yf e_with_data e_cfg e_data e_it] in D.
      destruct (e_yf m) as [|t|f] eqn:Q; [congruence| |discriminate].
      destruct (u_yd _ _ J t Q) as [_ N]. rewrite N in D.
      destruct (y_default_window (length t) t (d_y (add_dy (e_data m) y')) eq_refl) as (w & Qw & _); [cbn; destruct (d_y (e_data m)); discriminate|].
      rewrite Qw in D. discriminate.
    - destruct D as (y' & yf & ys & pr & _ & P & D & N). rewrite PR in P. injection P as <-. cbn [hp_set] in N.
      unfold measure in D. cbn [e_yf e_with_data e_cfg e_data e_it] in D.
      destruct (e_yf m) as [|t|f] eqn:Q; [congruence| |].
      + destruct (u_yd _ _ J t Q) as [_ N']. rewrite N' in D. destruct (y_default (length t) t _) as [w|] eqn:Qw; cbn in D; [|discriminate]. injection D as <- <-.
        apply y_default_length in Qw; [|reflexivity]. congruence.
      + injection D as <- <-. apply N. apply (u_yu _ _ J f Q).
  Qed.

  Lemma hinv2_same m tr m' c o : hinv2 m tr -> hlog (tr ++ [(c, o)]) = hlog tr -> e_data m' = e_data m -> e_setup m' = e_setup m -> e_yf m' = e_yf m ->
    e_prob m' = e_prob m -> e_fields m' = e_fields m -> hc_set (e_cfg m') = hc_set (e_cfg m) ->
    (e_setup m = true -> hc_obj (e_cfg m') = hc_obj (e_cfg m) /\ hc_nl (e_cfg m') = hc_nl (e_cfg m) /\ hc_scal (e_cfg m') = hc_scal (e_cfg m)) ->
    (e_setup m = true -> e_ob m' = Some (hc_bnd (e_cfg m'))) -> hinv2 m' (tr ++ [(c, o)]).
  Proof.
    intros [U1 U2 U3 U4 U5 U6 U7 U8 U9] H1 H2 H3 H4 H5 H6 H7 H8 H9.
    constructor; rewrite ?H1, ?H2, ?H3, ?H4, ?H5, ?H6, ?H7; auto.
    intros S. destruct (H8 S) as (-> & -> & ->). unfold hfields_ok in *. rewrite H6, H7. auto.
  Qed.

  Lemma hinv2_step m tr c m' o : hinv m tr -> hinv2 m tr -> hallowed tr c -> do_hcall m c = (m', o) -> hinv2 m' (tr ++ [(c, o)]).
  Proof.
    intros I J HA H. pose proof J as [U1 U2 U3 U4 U5 U6 U7 U8 U9].
    assert (CKE : hclock tr = hi_t (e_it m) /\ estimate tr = hi_x (e_it m)) by (unfold hclock, estimate; rewrite (w_log _ _ I); split; reflexivity).
    assert (SAME : forall m1 o1, (m1, o1) = (m', o) -> (match c, o1 with HStep _, Ok _ => False | HReset, _ => False | HSetup, Ok _ => False | _, _ => True end) ->
                   e_data m1 = e_data m -> e_setup m1 = e_setup m -> e_yf m1 = e_yf m -> e_prob m1 = e_prob m -> e_fields m1 = e_fields m -> hc_set (e_cfg m1) = hc_set (e_cfg m) ->
                   (e_setup m = true -> hc_obj (e_cfg m1) = hc_obj (e_cfg m) /\ hc_nl (e_cfg m1) = hc_nl (e_cfg m) /\ hc_scal (e_cfg m1) = hc_scal (e_cfg m)) ->
                   (e_setup m = true -> e_ob m1 = Some (hc_bnd (e_cfg m1))) -> hinv2 m' (tr ++ [(c, o)])).
    { intros m1 o1 [= -> ->] Hc. intros. eapply hinv2_same; eauto. rewrite hlog_snoc'. destruct c; try reflexivity; destruct o; try contradiction; try reflexivity; destruct y; reflexivity. }
    assert (NSET : forall g, (huser_y tr <> None -> hs_nhor (g (hsettings_of tr)) = hs_nhor (hsettings_of tr)) -> e_setup m = false ->
              hlog (tr ++ [(c, Ok None)]) = hlog tr -> hinv2 (mhe_setting m g) (tr ++ [(c, Ok None)])).
    { intros g Hg E0 HL. constructor; cbn; rewrite ?HL, ?E0; auto; try discriminate.
      - intros t Q. destruct (U3 t Q). congruence.
      - intros f Q t. rewrite (w_set _ _ I), Hg, <- (w_set _ _ I); auto. pose proof (w_y _ _ I) as Y. intros QQ. rewrite QQ in Y. destruct Y as [?|[? ?]]; congruence.
      - assert (HN : hlog tr = []) by auto. rewrite HN in *. destruct U8 as [A1 A2 A3 A4 A5 A6 A7 A8 A9]. constructor; auto; cbn [length] in *;
          match goal with |- _ = (if ?b then _ else _) => destruct b end; match goal with H : length ?x = (if ?b then _ else _) |- length ?x = _ => destruct b; exact H end. }
    destruct c; cbn [do_hcall] in H; unfold hret in H.
    - unfold mhe_param in H. destruct (e_setup m) eqn:E0; [eapply SAME; try exact H; cbn; auto|].
      injection H as <- <-. apply NSET; auto. rewrite hlog_snoc'. reflexivity.
    - destruct HA as [HA1 HA2]. injection H as <- <-. apply NSET; auto; [|rewrite hlog_snoc'; reflexivity].
      destruct (e_setup m) eqn:E0; [|reflexivity]. exfalso. apply HA1, (w_setup _ _ I). exact E0.
    - unfold mhe_objective in H. destruct o0 as [ob|]; [destruct (e_setup m) eqn:E0|]; cbv zeta in H; (eapply SAME; [exact H|..]); cbn; auto; discriminate.
    - unfold mhe_nl_cons in H. destruct (e_setup m) eqn:E0; cbv zeta in H; (eapply SAME; [exact H|..]); cbn; auto; discriminate.
    - unfold mhe_scaling in H. destruct (e_setup m) eqn:E0; cbv zeta in H; (eapply SAME; [exact H|..]); cbn; auto; discriminate.
    - unfold mhe_bounds in H. cbv zeta in H. destruct (e_setup m) eqn:E0; (eapply SAME; [exact H|..]); cbn; auto; discriminate.
    - unfold mhe_tvp in H. destruct f as [f|]; (eapply SAME; [exact H|..]); cbn; auto.
    - unfold mhe_p in H. destruct f as [f|]; (eapply SAME; [exact H|..]); cbn; auto.
    - unfold mhe_y in H. destruct (hs_nhor _) as [n|] eqn:EN; [destruct (Nat.eqb _ _)|]; [|eapply SAME; [exact H|..]; cbn; auto..].
      injection H as <- <-. constructor; rewrite ?hlog_snoc'; [exact (u_prob _ _ J)|exact (u_ob _ _ J)|cbn; discriminate| |exact U5|exact U6|exact U7|exact U8|exact U9]. cbn [e_yf e_with_yf e_cfg].
      intros g [= <-] t. rewrite (w_set _ _ I). apply HA.
    - unfold mhe_setup in H. cbv zeta in H.
      destruct (hs_nhor _) as [n|] eqn:Q1; [|eapply SAME; [exact H|..]; cbn; auto].
      destruct (hs_tstep _) as [dt|] eqn:Q2; [|eapply SAME; [exact H|..]; cbn; auto].
      destruct (hc_obj _) as [ob|] eqn:Q3; [|eapply SAME; [exact H|..]; cbn; auto].
      destruct ((match hc_tvpf _ with None => true | _ => false end) && _)%bool eqn:Q4; [eapply SAME; [exact H|..]; cbn; auto|].
      destruct ((match hc_pf _ with None => true | _ => false end) && _)%bool eqn:Q5; [eapply SAME; [exact H|..]; cbn; auto|].
      destruct (h_b_bad _ _) eqn:Q6; [eapply SAME; [exact H|..]; cbn; auto|].
      cbn [e_yf e_with_cfg mhe_fns e_fields e_run1 e_cfg e_it e_data e_lam] in H.
      destruct (e_fields m) as [[ff fl] fs] eqn:QF.
      assert (FIN : forall y, (forall t, y = YDefault t -> length t = n) -> (forall f, y = YUser f -> forall t, Some n = Some (length (f t))) ->
        hinv2 (mkMhe true (e_run1 m) (e_cfg (mhe_fns (Some (match hc_tvpf (e_cfg m) with Some f => f | None => h_tvp_dummy E end)) (Some (match hc_pf (e_cfg m) with Some f => f | None => h_p_dummy E end)) m)) y (e_it m)
          (Some (mkHprob ob (hc_nl (e_cfg m)) (hc_scal (e_cfg m)) (hc_set (e_cfg m)))) (Some (hc_bnd (e_cfg m))) (Some (h_ox_zero E (mkHprob ob (hc_nl (e_cfg m)) (hc_scal (e_cfg m)) (hc_set (e_cfg m))))) (e_lam m)
          (ff || hs_full (hc_set (e_cfg m)), fl || hs_lagr (hc_set (e_cfg m)), fs || hs_stats (hc_set (e_cfg m)))%bool no_hrows) (tr ++ [(HSetup, Ok None)])).
      { intros y Y1 Y2. constructor; rewrite ?hlog_snoc'; cbn; auto; try discriminate.
        - intros _. exists ob. repeat split; auto; try congruence; unfold hfields_ok; cbn; intros ->; apply orb_true_r.
        - intros t Hy. split; [reflexivity|]. rewrite (Y1 t Hy). exact Q1.
        - rewrite Q1. auto.
        - apply haligned_nil. }
      destruct (e_yf m) as [|tm|fy] eqn:Q7; [destruct (hs_meas _) eqn:Q8| |].
      + injection H as <- <-. apply FIN; [|discriminate]. intros t [= <-].
        destruct (y_default n _ _) as [t|] eqn:QY; [|apply repeat_length]. eapply y_default_length; [|exact QY]. apply repeat_length.
      + eapply SAME; [exact H|..]; cbn; rewrite ?QF; auto.
      + injection H as <- <-. apply FIN; [|discriminate]. intros t [= <-]. destruct (U3 tm eq_refl). congruence.
      + injection H as <- <-. apply FIN; [discriminate|]. intros f [= <-] t. rewrite <- (U4 fy eq_refl t). congruence.
    - unfold mhe_guess in H. destruct (e_setup m) eqn:E0; [destruct (e_ox m) eqn:E1|]; cbv zeta in H; (eapply SAME; [exact H|..]); cbn; auto.
    - destruct (mhe_step m y) as [m1 r] eqn:ES.
      destruct y as [y|].
      + destruct (e_setup m) eqn:E0.
        * pose proof (step_succeeds m tr y m1 r I J E0 ES) as OKr.
          destruct (mhe_step_cases _ _ _ _ ES) as [(y' & x & tf & pf & pr & ob & ox & yf & ys & ox' & lg & lx & st & dt & [= <-] & -> & K)|(e & -> & _)]; [|discriminate].
          injection H as <- <-. destruct K. destruct CKE as [CK ES']. constructor; rewrite ?hlog_snoc', ?k_cfg0.
          -- intros _. destruct (U1 eq_refl) as (ob' & P1 & P2 & P3 & P4 & P5). exists ob'. rewrite k_pr'0. repeat split; auto. unfold hfields_ok in *. rewrite k_f0, k_cfg0. exact P5.
          -- rewrite k_ob'0. auto.
          -- rewrite k_yf0. intros t ->. split; [exact k_setup'0|].
             unfold measure in k_y0. cbn [e_yf e_with_data e_cfg e_data e_it] in k_y0. destruct (e_yf m) as [|t'|f'] eqn:Q; [discriminate| |discriminate].
             destruct (U3 t' eq_refl) as [_ NH]. rewrite NH in k_y0. destruct (y_default (length t') t' _) as [w|] eqn:QW; cbn in k_y0; [|discriminate]. injection k_y0 as -> _.
             apply y_default_length in QW; [|reflexivity]. congruence.
          -- rewrite k_yf0. intros f ->. apply measure_kind in k_y0. cbn in k_y0. destruct (e_yf m) eqn:Q; try contradiction. cbn in k_y0. subst f0. apply U4. reflexivity.
          -- rewrite k_dy0, map_app, U5. reflexivity.
          -- rewrite k_dx0, map_app, U6. cbn. rewrite ES'. reflexivity.
          -- rewrite k_dtime0, map_app, U7. cbn. rewrite CK. reflexivity.
          -- destruct U8 as [A1 A2 A3 A4 A5 A6 A7 A8 A9]. constructor; rewrite ?k_du0, ?k_dz0, ?k_dp0, ?k_dtvp0, ?k_daux0, ?k_doptp0, ?k_dfull0, ?k_dlam0, ?k_dstats0, ?app_length; cbn [length]; rewrite ?A7, ?A8, ?A9; try lia;
               match goal with |- context [if ?b then _ else _] => destruct b end; lia.
          -- rewrite k_setup'0. discriminate.
        * unfold mhe_step in ES. rewrite E0 in ES. injection ES as <- <-. eapply SAME; [exact H|..]; cbn; auto.
      + assert (Q : m1 = m /\ exists e, r = Err e) by (unfold mhe_step in ES; destruct (e_setup m); injection ES as <- <-; eauto). destruct Q as [-> [e ->]].
        eapply SAME; [exact H|..]; cbn; auto.
    - injection H as <- <-. constructor; rewrite ?hlog_snoc'; cbn; auto; try discriminate.
      apply haligned_nil.
    - eapply SAME; [exact H|..]; cbn; auto.
    - eapply SAME; [exact H|..]; cbn; auto.
    - eapply SAME; [exact H|..]; cbn; auto.
    - eapply SAME; [exact H|..]; cbn; auto.
    - eapply SAME; [exact H|..]; cbn; auto.
  Qed.
  Theorem hinv2_reach h m tr : hordinary tr -> hexec h mhe_init = (m, tr) -> hinv m tr /\ hinv2 m tr.
  Proof.
    intros Ho H.
    enough (G : hinv m tr /\ (hordinary tr -> hinv2 m tr)) by (split; [apply G|apply G, Ho]).
    apply (hexec_ind (fun m tr => hinv m tr /\ (hordinary tr -> hinv2 m tr)) mhe_init) with (h := h); auto.
    - split; [apply hinv_init|intros _; apply hinv2_init].
    - intros m0 t0 c m' o [A B] D. split; [eapply hinv_step; eauto|]. intros O. apply hordinary_snoc in O as [O1 O2].
      eapply hinv2_step; eauto.
  Qed.
End P.
