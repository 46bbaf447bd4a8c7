(** * Histories of the graphics object *)
From Coq Require Import ZArith Permutation.
From Verif Require Import Base StructModel StructProofs GfxModel GfxSpec GfxProofs.
Set Implicit Arguments.

Lemma nodup_app_l {A} (l m : list A) : NoDup (l ++ m) -> NoDup l.
Proof. induction l as [|x l IH]; simpl; intros H; [constructor|]. inversion H; subst. constructor; auto. rewrite in_app_iff in H2; tauto. Qed.
Lemma nodup_app_r {A} (l m : list A) : NoDup (l ++ m) -> NoDup m.
Proof. induction l as [|x l IH]; simpl; intros H; auto. inversion H; auto. Qed.

Lemma nodup_app_disj {A} (l m : list A) x : NoDup (l ++ m) -> In x l -> ~ In x m.
Proof. induction l as [|y l IH]; simpl; intros H []; inversion H; subst; auto. rewrite in_app_iff in H3; tauto. Qed.

Lemma vt v : valid_type v = plotted v.
Proof. reflexivity. Qed.
Lemma plotted_in v : In v plotted_kinds -> plotted v = true.
Proof. intros H. unfold plotted. apply existsb_exists. exists v. split; [exact H|apply String.eqb_refl]. Qed.

Section H.
  Variable T : Type.
  Variable tadd : T -> nat -> T -> T.
  Variable zero : T.
  Notation step := (step tadd zero).
  Notation run := (run tadd zero).

  (** Number of elements / scenarios of the entries. *)
  Definition r_sized (size : string -> string -> nat) (R : list (index * nat)) : Prop :=
    forall v n i, In [KS v; KS n; KI i] (map fst R) -> i < size v n.
  Definition p_sized (size nscen : string -> string -> nat) (P : list (index * nat)) : Prop :=
    forall v n i k, In [KS v; KS n; KI i; KI k] (map fst P) -> i < size v n /\ k < nscen v n.

  Lemma clear_length (ids : list nat) : forall cv : list (line T), (forall id, In id ids -> id < List.length cv) ->
    List.length (fold_left (fun cv m => match leaf_id m with Some i => set_data cv i ([], []) | None => cv end) (map VLeaf ids) cv) = List.length cv.
  Proof.
    induction ids as [|i ids IH]; intros cv H; simpl; auto.
    assert (Hi : i < List.length cv) by (apply H; left; auto).
    rewrite IH; unfold set_data; rewrite upd_length; auto. intros id Hid; apply H; right; auto.
  Qed.

  Lemma inv_rlt g vars R P : inv (T := T) g vars R P -> forall id, In id (map snd R) -> id < List.length (g_canvas g).
  Proof. intros H id Hid. apply (i_lt H). apply in_or_app; auto. Qed.
  Lemma inv_plt g vars R P : inv (T := T) g vars R P -> forall id, In id (map snd P) -> id < List.length (g_canvas g).
  Proof. intros H id Hid. apply (i_lt H). apply in_or_app; auto. Qed.

  Lemma plot_results_inv g vars R P d t : inv (T := T) g vars R P -> inv (fst (plot_results d t g)) vars R P.
  Proof.
    intros H. unfold plot_results. destruct (negb _); auto. rewrite plot_loop_gen, (i_rm H).
    destruct (gen_loop _ _ _ _) as [cv r] eqn:E. simpl. apply inv_canvas; auto.
    destruct (@gen_loop_shape T (res_line d t) (map snd R) (powerindex (g_res g)) (g_canvas g)) as [S|[id [H1 H2]]].
    - rewrite E in S; auto.
    - apply (inv_rlt H) in H1. lia.
  Qed.
  Lemma plot_predictions_inv g vars R P d t : inv (T := T) g vars R P -> inv (fst (plot_predictions tadd d t g)) vars R P.
  Proof.
    intros H. unfold plot_predictions. destruct (negb _); auto. destruct (negb _); auto. destruct (negb _); auto.
    destruct (pnth _ _) as [now|]; auto. rewrite pred_loop_gen, (i_pm H).
    destruct (gen_loop _ _ _ _) as [cv r] eqn:E. simpl. apply inv_canvas; auto.
    destruct (@gen_loop_shape T (pred_line tadd d t now) (map snd P) (powerindex (g_pred g)) (g_canvas g)) as [S|[id [H1 H2]]].
    - rewrite E in S; auto.
    - apply (inv_plt H) in H1. lia.
  Qed.

  Lemma combine_seq_in {X} (f : nat -> X) : forall m i b k, k < m -> In (f (i + k), b + k) (combine (map f (seq i m)) (seq b m)).
  Proof.
    induction m as [|m IH]; intros i b k Hk; [lia|]. simpl. destruct k as [|k].
    - left. f_equal; [f_equal|]; lia.
    - right. replace (i + S k) with (S i + k) by lia. replace (b + S k) with (S b + k) by lia. apply IH; lia.
  Qed.

  Lemma combine_fst_in {X Y} (l : list X) (m : list Y) x y : In (x, y) (combine l m) -> In x l.
  Proof. apply in_combine_l. Qed.

  (** One action: the entries only grow; an add_line of a new variable creates its lines. *)
  Lemma step_inv size nscen g vars R P a : inv g vars R P -> r_sized size R -> p_sized size nscen P ->
    act_fits size nscen a -> (forall x, In x (act_vars a) -> ~ In x vars) ->
    exists R' P', inv (step g a) (act_vars a ++ vars) (R ++ R') (P ++ P') /\ r_sized size (R ++ R') /\ p_sized size nscen (P ++ P')
      /\ match a with
         | AAdd d v n => forall cols, plotted v = true -> d_cols d v n = Some cols ->
             (forall i, i < List.length cols -> In ([KS v; KS n; KI i], List.length (g_canvas g) + i) R')
             /\ (snd (add_line zero d v n g) = Ok tt -> d_dtype_mpc d = true -> d_full d = true ->
                  forall i k scen, i < List.length cols -> d_pred d v n i (-1) = Some scen -> k < List.length scen ->
                    In [KS v; KS n; KI i; KI k] (map fst P'))
         | _ => True
         end.
  Proof.
    intros H HR HP Hfit Hnew. destruct a as [d v n| |d t|d t].
    - cbn [GfxSpec.step]. cbn [act_vars] in *. unfold add_line. rewrite vt.
      destruct (plotted v) eqn:Ev; cbn [negb].
      2:{ exists [], []. rewrite !app_nil_r. split; [exact H|split; [auto|split; [auto|intros; discriminate]]]. }
      destruct (d_cols d v n) as [cols|] eqn:Ec.
      2:{ exists [], []. rewrite !app_nil_r. split; [exact H|split; [auto|split; [auto|intros; discriminate]]]. }
      assert (Hno : ~ In (v, n) vars) by (apply Hnew; left; auto).
      assert (H0 : inv g ((v, n) :: vars) R P) by (apply inv_vars with (vars := vars); auto; intros x Hx; right; auto).
      cbn [app].
      pose proof (@inv_add_res T g vars R P d v n cols H Hno) as H1.
      assert (Hsz : List.length cols = size v n) by (apply (proj1 Hfit) in Ec; auto).
      unfold plot in *. set (ids := seq (List.length (g_canvas g)) (List.length cols)) in *.
      set (g1 := mkG (set_item (g_res g) [KS v; KS n] (ids_val ids)) (g_pred g) (g_canvas g ++ map (fun c => (d_time d, c)) cols)) in *.
      set (R' := combine (map (fun i => [KS v; KS n; KI i]) (seq 0 (List.length cols))) ids) in *.
      assert (HR' : r_sized size (R ++ R')).
      { intros v' n' i Hin. rewrite map_app, in_app_iff in Hin. destruct Hin as [Hin|Hin]; [apply HR; auto|].
        apply in_map_iff in Hin as [[p id] [Ep Hin]]. simpl in Ep; subst p. apply combine_fst_in in Hin.
        apply in_map_iff in Hin as [j [Ej Hj]]. injection Ej as <- <- <-. apply in_seq in Hj. lia. }
      assert (HRin : forall i, i < List.length cols -> In ([KS v; KS n; KI i], List.length (g_canvas g) + i) R').
      { intros i Hi. apply (combine_seq_in (fun i => [KS v; KS n; KI i]) 0 (List.length (g_canvas g)) Hi). }
      destruct (d_dtype_mpc d && d_full d)%bool eqn:Em.
      + destruct (d_pred d v n 0 (-1)) as [s0|] eqn:E0.
        * destruct (@inv_add_pred T zero d v n (seq 0 (List.length cols)) g1 ((v, n) :: vars) (R ++ R') P H1) as (P' & I1 & I2 & I3).
          { left; auto. } { apply seq_NoDup. }
          { intros i k _ Hin. destruct (i_pv H _ Hin) as (v' & n' & i' & k' & E & Hv'). injection E as -> -> -> ->. contradiction. }
          exists R', P'. split; [exact I1|split; [exact HR'|split]].
          -- (* sizes of the prediction entries *)
             intros v' n' i k Hin. rewrite map_app, in_app_iff in Hin. destruct Hin as [Hin|Hin]; [apply HP; auto|].
             assert (G : forall is g2 P2 R2, inv g2 ((v, n) :: vars) R2 P2 ->
                (forall j, In j is -> j < size v n) -> NoDup is -> (forall j k, In j is -> ~ In [KS v; KS n; KI j; KI k] (map fst P2)) ->
                forall P3 g3, g3 = fst (add_pred zero d v n is g2) -> powerindex (g_pred g3) = map fst (P2 ++ P3) ->
                  In [KS v'; KS n'; KI i; KI k] (map fst P3) -> i < size v' n' /\ k < nscen v' n').
             { clear - Hfit. induction is as [|j is IH]; intros g2 P2 R2 Hi Hj Hnd Hf P3 g3 Eg Ep Hin; subst g3; cbn [add_pred plot] in Ep.
               - cbn [fst] in Ep. rewrite (i_pi Hi), map_app in Ep. assert (map fst P3 = []) as E.
                 { apply (app_inv_head (map fst P2)). now rewrite app_nil_r. } rewrite E in Hin. destruct Hin.
               - destruct (d_pred d v n j (-1)) as [scen|] eqn:Ed.
                 2:{ cbn [fst] in Ep. rewrite (i_pi Hi), map_app in Ep. assert (map fst P3 = []) as E.
                     { apply (app_inv_head (map fst P2)). now rewrite app_nil_r. } rewrite E in Hin. destruct Hin. }
                 inversion Hnd as [|? ? Hjn Hnd']; subst.
                 destruct (@inv_add_pred T zero d v n [j] g2 ((v, n) :: vars) R2 P2 Hi) as (Q & J1 & J2 & J3).
                 { left; auto. } { repeat constructor; auto. } { intros j' k' [<-|[]]; apply Hf; left; auto. }
                 cbn [add_pred plot] in J1. rewrite Ed in J1. cbn [fst] in J1.
                 destruct (@set_ids_fresh (g_pred g2) [KS v; KS n; KI j] (seq (List.length (g_canvas g2)) (List.length scen))) as [S1 S2].
                 { rewrite (i_pm Hi), (i_pi Hi), !map_length; auto. }
                 { rewrite (i_pi Hi). intros X. destruct (i_pv Hi _ X) as (? & ? & ? & ? & E & _). discriminate. }
                 { intros m. rewrite (i_pi Hi). apply Hf; left; auto. }
                 assert (EQ : map fst Q = map (fun m => [KS v; KS n; KI j; KI m]) (seq 0 (List.length scen))).
                 { pose proof (i_pi J1) as Z. cbn [g_pred] in Z. rewrite S2, (i_pi Hi), map_app in Z.
                   apply app_inv_head in Z. rewrite seq_length in Z. symmetry. exact Z. }
                 destruct (@inv_add_pred T zero d v n is _ ((v, n) :: vars) R2 (P2 ++ Q) J1) as (Q' & K1 & K2 & K3).
                 { left; auto. } { auto. }
                 { intros j' k' Hj'. rewrite map_app, in_app_iff, EQ. intros [X|X]; [revert X; apply Hf; right; auto|].
                   apply in_map_iff in X as [m [E _]]. injection E as -> ->. contradiction. }
                 assert (EP : map fst P3 = map fst (Q ++ Q')).
                 { pose proof (i_pi K1) as Z. rewrite Z, <- app_assoc, !map_app in Ep. apply app_inv_head in Ep. rewrite map_app. congruence. }
                 rewrite EP, map_app, in_app_iff in Hin. destruct Hin as [Hin|Hin].
                 + rewrite EQ in Hin. apply in_map_iff in Hin as [m [E Hm]]. injection E as <- <- <- <-. apply in_seq in Hm.
                   rewrite (proj2 Hfit v n j scen Ed) in Hm. split; [apply Hj; left; auto|lia].
                 + eapply (IH _ (P2 ++ Q) R2 J1) with (P3 := Q'); [|exact Hnd'| |reflexivity|exact (i_pi K1)|exact Hin].
                   * intros j' Hj'; apply Hj; right; auto.
                   * intros j' k' Hj'. rewrite map_app, in_app_iff, EQ. intros [X|X]; [revert X; apply Hf; right; auto|].
                     apply in_map_iff in X as [m [E _]]. injection E as -> ->. contradiction. }
             eapply (G (seq 0 (List.length cols)) g1 P (R ++ R') H1) with (P3 := P'); [|apply seq_NoDup| |reflexivity|exact (i_pi I1)|exact Hin].
             ++ intros j Hj. apply in_seq in Hj. lia.
             ++ intros j k' _ X. destruct (i_pv H _ X) as (? & ? & ? & ? & E & Hv'). injection E as -> -> -> ->. contradiction.
          -- intros c _ [= <-]. split; [exact HRin|]. intros Hok _ _ i k scen Hi Hd Hk. eapply I3; eauto. apply in_seq; lia.
        * exists R', []. rewrite !app_nil_r. split; [exact H1|split; [exact HR'|split; [exact HP|]]].
          intros c _ [= <-]. split; [exact HRin|]. simpl. discriminate.
      + exists R', []. rewrite !app_nil_r. split; [exact H1|split; [exact HR'|split; [exact HP|]]].
        intros c _ [= <-]. split; [exact HRin|]. intros _ E1 E2. rewrite E1, E2 in Em. discriminate.
    - exists [], []. rewrite !app_nil_r. split; [|auto]. cbn [GfxSpec.step act_vars app]. unfold clear_all. apply inv_canvas; auto.
      rewrite (i_rm H). apply clear_length. apply (inv_rlt H).
    - exists [], []. rewrite !app_nil_r. split; [|auto]. apply plot_results_inv; auto.
    - exists [], []. rewrite !app_nil_r. split; [|auto]. apply plot_predictions_inv; auto.
  Qed.

  Lemma run_app h1 h2 : run (h1 ++ h2) = fold_left step h2 (run h1).
  Proof. unfold GfxSpec.run. apply fold_left_app. Qed.

  Lemma added_app (h1 h2 : list (act T)) : added (h1 ++ h2) = added h1 ++ added h2.
  Proof. unfold added. apply flat_map_app. Qed.

  Lemma fold_inv size nscen : forall h g vars R P, inv g vars R P -> r_sized size R -> p_sized size nscen P ->
    (forall a, In a h -> act_fits size nscen a) -> NoDup (added h) -> (forall x, In x (added h) -> ~ In x vars) ->
    exists vars' R' P', inv (fold_left step h g) vars' (R ++ R') (P ++ P') /\ r_sized size (R ++ R') /\ p_sized size nscen (P ++ P')
      /\ (forall x, In x vars' <-> In x vars \/ In x (added h)).
  Proof.
    induction h as [|a h IH]; intros g vars R P H HR HP Hf Hnd Hn.
    - exists vars, [], []. rewrite !app_nil_r. simpl. split; [auto|split; [auto|split; [auto|tauto]]].
    - change (added (a :: h)) with (act_vars a ++ added h) in *.
      destruct (@step_inv size nscen g vars R P a H HR HP) as (R1 & P1 & S1 & S2 & S3 & _).
      { apply Hf; left; auto. } { intros x Hx; apply Hn, in_or_app; auto. }
      assert (Hnd' : NoDup (added h)) by (apply nodup_app_r in Hnd; auto).
      destruct (IH (step g a) (act_vars a ++ vars) (R ++ R1) (P ++ P1) S1 S2 S3) as (vars' & R' & P' & I1 & I2 & I3 & I4).
      + intros b Hb; apply Hf; right; auto.
      + exact Hnd'.
      + intros x Hx. rewrite in_app_iff. intros [X|X]; [|revert X; apply Hn, in_or_app; auto].
        exact (@nodup_app_disj _ _ _ x Hnd X Hx).
      + exists vars', (R1 ++ R'), (P1 ++ P'). rewrite !app_assoc. split; [auto|split; [auto|split; [auto|]]].
        intros x. rewrite I4, !in_app_iff. tauto.
  Qed.

  Lemma run_inv size nscen h : (forall a, In a h -> act_fits size nscen a) -> NoDup (added h) ->
    exists vars R P, inv (run h) vars R P /\ r_sized size R /\ p_sized size nscen P /\ (forall x, In x vars <-> In x (added h)).
  Proof.
    intros Hf Hn. destruct (@fold_inv size nscen h (gfx_init T) [] [] [] (inv_init T)) as (vars & R & P & I1 & I2 & I3 & I4); auto.
    - intros v n i [].
    - intros v n i k [].
    - exists vars, R, P. split; [exact I1|split; [exact I2|split; [exact I3|]]]. intros x. rewrite I4. simpl. tauto.
  Qed.

  (** The whole history, with the lines of one add_line. *)
  Lemma run_with size nscen h1 d0 v n h2 : let h := h1 ++ AAdd d0 v n :: h2 in
    forall cols, plotted v = true -> d_cols d0 v n = Some cols ->
    (forall a, In a h -> act_fits size nscen a) -> NoDup (added h) ->
    exists vars R P, inv (run h) vars R P /\ r_sized size R /\ p_sized size nscen P /\ (forall x, In x vars <-> In x (added h))
      /\
          (forall i, i < List.length cols -> In ([KS v; KS n; KI i], List.length (g_canvas (run h1)) + i) R)
          /\ (snd (add_line zero d0 v n (run h1)) = Ok tt -> d_dtype_mpc d0 = true -> d_full d0 = true ->
              forall i k scen, i < List.length cols -> d_pred d0 v n i (-1) = Some scen -> k < List.length scen ->
                In [KS v; KS n; KI i; KI k] (map fst P)).
  Proof.
    intros h cols Ev Ec Hf Hn. unfold h in *. rewrite added_app in Hn.
    assert (EA : added (AAdd d0 v n :: h2) = (v, n) :: added h2) by (cbn [added flat_map act_vars]; rewrite Ev, Ec; reflexivity).
    rewrite EA in Hn.
    assert (Hn1 : NoDup (added h1)) by (apply nodup_app_l in Hn; auto).
    destruct (@run_inv size nscen h1) as (vars1 & R1 & P1 & A1 & A2 & A3 & A4); auto.
    { intros a Ha; apply Hf, in_or_app; auto. }
    assert (Hv : ~ In (v, n) (added h1) /\ ~ In (v, n) (added h2) /\ (forall x, In x (added h2) -> ~ In x (added h1)) /\ NoDup (added h2)).
    { pose proof (NoDup_remove_1 _ _ _ Hn) as N1. pose proof (NoDup_remove_2 _ _ _ Hn) as N2. rewrite in_app_iff in N2.
      split; [tauto|split; [tauto|split]].
      - intros x Hx Hx'. clear - N1 Hx Hx'. revert N1 Hx'. induction (added h1) as [|y l IH]; simpl; [tauto|].
        intros N [->|H]; inversion N; subst; auto. apply H1, in_or_app; auto.
      - apply nodup_app_r in N1; auto. }
    destruct Hv as (V1 & V2 & V3 & V4).
    destruct (@step_inv size nscen (run h1) vars1 R1 P1 (AAdd d0 v n) A1 A2 A3) as (R2 & P2 & B1 & B2 & B3 & B4).
    { apply Hf, in_or_app; right; left; auto. }
    { cbn [act_vars]; rewrite Ev, Ec. intros x [<-|[]] Hx. apply A4 in Hx; auto. }
    destruct (@fold_inv size nscen h2 _ _ _ _ B1 B2 B3) as (vars & R3 & P3 & C1 & C2 & C3 & C4).
    { intros a Ha; apply Hf, in_or_app; right; right; auto. }
    { exact V4. }
    { intros x Hx. cbn [act_vars]. rewrite Ev, Ec. intros [<-|Hx']; [auto|]. apply A4 in Hx'. revert Hx'; apply V3; auto. }
    exists vars, ((R1 ++ R2) ++ R3), ((P1 ++ P2) ++ P3). split.
    { rewrite run_app. exact C1. }
    split; [auto|split; [auto|split]].
    - intros x. rewrite C4, added_app. rewrite EA; cbn [act_vars]; rewrite Ev, Ec, !in_app_iff.
      simpl. rewrite A4. tauto.
    - destruct (B4 cols Ev Ec) as [D1 D2]. split.
      + intros i Hi. apply in_or_app; left. apply in_or_app; right. auto.
      + intros X1 X2 X3 i k scen Y1 Y2 Y3. rewrite !map_app, !in_app_iff. left; right. eapply D2; eauto.
  Qed.
End H.
