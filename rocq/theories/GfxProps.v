(** * Theorems about the graphics: C53 (plots) and C54 (export of animations). *)
From Coq Require Import ZArith Lia.
From Verif Require Import Base StructModel StructProofs GfxModel GfxSpec GfxProofs GfxProofs2.
Set Implicit Arguments.
Local Open Scope string_scope.

Section T.
  Variable T : Type.
  Variable tadd : T -> nat -> T -> T.
  Variable zero : T.
  Notation run := (run tadd zero).

  Lemma slice_rows {A} (l : list A) t : (Z.abs t <= Z.of_nat (List.length l))%Z ->
    (if Z.eqb t (-1) then l else pslice l (t + 1)) = rows_upto (List.length l) t l.
  Proof.
    intros H. unfold rows_upto, pslice. destruct (Z.eqb_spec t (-1)) as [->|Hn].
    - cbn [Z.ltb Z.compare]. rewrite firstn_all2; auto. lia.
    - destruct (Z.ltb_spec (t + 1) 0), (Z.ltb_spec t 0); try lia; f_equal; lia.
  Qed.

  Lemma in_split_entry {X} (R : list (index * X)) p id : In (p, id) R -> In (p, id) (combine (map fst R) (map snd R)).
  Proof. induction R as [|[q j] R IH]; simpl; intros []; auto. Qed.

  (** What a plotted line must show: the rows up to python index t of the time vector and of column i. *)
  Definition expected (d : gdata T) (t : Z) (v n : string) (i : nat) (x y : list T) : Prop :=
    exists cols c, d_cols d v n = Some cols /\ nth_error cols i = Some c
      /\ x = rows_upto (List.length (d_time d)) t (d_time d) /\ y = rows_upto (List.length (d_time d)) t c.

  (** ** C53, results.  Let lines for (v, n) be added at some point of an arbitrary history of adding lines,
      clearing, plotting results and plotting predictions (with data that may differ from call to call), no
      variable being added twice.  Then plotting results up to any admissible t_ind succeeds and every line
      drawn for (v, n) - the i-th one is the i-th line created by that add_line - shows exactly the recorded
      rows up to t_ind of element i against the recorded times. *)
  Theorem C53_results_partial : forall size nscen h1 d0 v n cols h2 d t,
    let h := (h1 ++ AAdd d0 v n :: h2)%list in
    In v plotted_kinds -> d_cols d0 v n = Some cols ->
    NoDup (added h) -> (forall a, In a h -> act_fits size nscen a) -> consistent h size d ->
    (Z.abs t <= Z.of_nat (List.length (d_time d)))%Z ->
    exists g', plot_results d t (run h) = (g', Ok tt)
      /\ forall i, i < List.length cols -> exists x y, expected d t v n i x y /\ shows g' (List.length (g_canvas (run h1)) + i) x y.
  Proof.
    intros size nscen h1 d0 v n cols h2 d t h Hv Hc Hnd Hfit Hcon Ht. apply plotted_in in Hv.
    destruct (@run_with T tadd zero size nscen h1 d0 v n h2 cols Hv Hc Hfit Hnd) as (vars & R & P & I & HR & HP & HV & L1 & _).
    fold h in I, HV. unfold plot_results.
    assert (negb (Z.abs t <=? Z.of_nat (List.length (d_time d)))%Z = false) as -> by (apply negb_false_iff, Z.leb_le; auto).
    rewrite plot_loop_gen, (i_rm I), (i_ri I).
    destruct (@gen_loop_ok T (res_line d t) (map snd R) (map fst R) (g_canvas (run h))) as [G1 G2].
    - now rewrite !map_length.
    - apply nodup_app_l with (m := map snd P). apply I.
    - apply (inv_rlt I).
    - intros p Hp. destruct (i_rv I _ Hp) as (v' & n' & i & -> & Hin). apply HV in Hin.
      destruct (Hcon _ _ Hin) as (cs & Ec & El & _). pose proof (HR _ _ _ Hp) as Hi.
      unfold res_line, column. rewrite Ec. destruct (nth_error cs i) eqn:E; [discriminate|].
      apply nth_error_None in E. lia.
    - destruct (gen_loop (res_line d t) (map VLeaf (map snd R)) (map fst R) (g_canvas (run h))) as [cv r] eqn:Eg.
      cbn [fst snd] in G1, G2. subst r. eexists; split; [reflexivity|]. intros i Hi.
      specialize (L1 i Hi). specialize (G2 _ _ (in_split_entry _ _ _ L1)).
      assert (Hp : In [KS v; KS n; KI i] (map fst R)) by (apply in_map_iff; exists ([KS v; KS n; KI i], List.length (g_canvas (run h1)) + i); auto).
      destruct (i_rv I _ Hp) as (v' & n' & i' & E & Hin). injection E as <- <- <-. apply HV in Hin.
      destruct (Hcon _ _ Hin) as (cs & Ec & El & Elen). pose proof (HR _ _ _ Hp) as Hi'.
      unfold res_line, column in G2. rewrite Ec in G2. destruct (nth_error cs i) as [c|] eqn:En; [|apply nth_error_None in En; lia].
      assert (Hcl : List.length c = List.length (d_time d)) by (apply Elen; eapply nth_error_In; eauto).
      pose proof (slice_rows (d_time d) t Ht) as S1. rewrite <- Hcl in Ht. pose proof (slice_rows c t Ht) as S2. rewrite Hcl in S2.
      exists (rows_upto (List.length (d_time d)) t (d_time d)), (rows_upto (List.length (d_time d)) t c). split.
      + exists cs, c; auto.
      + unfold shows. cbn [g_canvas]. rewrite G2. destruct (Z.eqb t (-1)); rewrite <- S1, <- S2; reflexivity.
  Qed.

  (** Directly after add_line the new lines show the whole record, and no existing line has changed. *)
  Theorem C53_added : forall size nscen h d v n cols,
    In v plotted_kinds -> d_cols d v n = Some cols ->
    NoDup (added (h ++ [AAdd d v n])%list) -> (forall a, In a h -> act_fits size nscen a) ->
    let g := run h in let g' := fst (add_line zero d v n g) in
    (forall i c, nth_error cols i = Some c -> shows g' (List.length (g_canvas g) + i) (d_time d) c)
    /\ (forall id, id < List.length (g_canvas g) -> nth_error (g_canvas g') id = nth_error (g_canvas g) id).
  Proof.
    intros size nscen h d v n cols Hv Hc Hnd Hfit g. apply plotted_in in Hv.
    assert (Hnd1 : NoDup (added h) /\ ~ In (v, n) (added h)).
    { rewrite added_app in Hnd. cbn [added flat_map act_vars] in Hnd. rewrite Hv, Hc in Hnd. split; [eapply nodup_app_l; eauto|].
      apply NoDup_remove_2 in Hnd. now rewrite app_nil_r in Hnd. }
    destruct (@run_inv T tadd zero size nscen h Hfit (proj1 Hnd1)) as (vars & R & P & I & HR & HP & HV).
    assert (Hno : ~ In (v, n) vars) by (rewrite HV; tauto).
    unfold add_line. rewrite vt, Hv, Hc. cbn [negb]. fold g in I.
    pose proof (@inv_add_res T g vars R P d v n cols I Hno) as H1. unfold plot in *.
    set (g1 := mkG (set_item (g_res g) [KS v; KS n] (ids_val (seq (List.length (g_canvas g)) (List.length cols)))) (g_pred g) (g_canvas g ++ map (fun c => (d_time d, c)) cols)%list) in *.
    assert (B : (forall i c, nth_error cols i = Some c -> shows g1 (List.length (g_canvas g) + i) (d_time d) c)
       /\ (forall id, id < List.length (g_canvas g) -> nth_error (g_canvas g1) id = nth_error (g_canvas g) id)).
    { split.
      - intros i c Hi. unfold shows, g1. cbn [g_canvas]. rewrite nth_error_app2 by lia.
        replace (List.length (g_canvas g) + i - List.length (g_canvas g)) with i by lia. now rewrite nth_error_map, Hi.
      - intros id Hid. unfold g1. cbn [g_canvas]. apply nth_error_app1; auto. }
    destruct (d_dtype_mpc d && d_full d)%bool; [|exact B].
    destruct (d_pred d v n 0 (-1)) as [s0|]; [|exact B].
    destruct (@inv_add_pred T zero d v n (seq 0 (List.length cols)) g1 ((v, n) :: vars) _ P H1) as (P' & I1 & I2 & _).
    { left; auto. } { apply seq_NoDup. }
    { intros i k _ Hin. destruct (i_pv I _ Hin) as (v' & n' & i' & k' & E & Hv'). injection E as -> -> -> ->. contradiction. }
    destruct B as [B1 B2]. split.
    - intros i c Hi. unfold shows. rewrite I2; [apply B1; auto|]. unfold g1; cbn [g_canvas]. rewrite app_length, map_length.
      assert (nth_error cols i <> None) as X by congruence. apply nth_error_Some in X. lia.
    - intros id Hid. rewrite I2; [auto|]. unfold g1; cbn [g_canvas]. rewrite app_length. lia.
  Qed.

  (** The line stored as pred_lines[v, n, i, k]. *)
  Definition pred_line_of (g : gfx T) (v n : string) (i k id : nat) : Prop :=
    exists j, nth_error (powerindex (g_pred g)) j = Some [KS v; KS n; KI i; KI k] /\ nth_error (master (g_pred g)) j = Some (VLeaf id).

  Definition pred_ok (h : list (act T)) (size nscen : string -> string -> nat) (d : gdata T) (t : Z) : Prop :=
    forall v n i, In (v, n) (added h) -> i < size v n ->
      exists scen, d_pred d v n i t = Some scen /\ nscen v n <= List.length scen.

  (** ** C53, predictions.  Under the same conditions, for data of an MPC that stores full solutions and an
      index of a recorded row, plot_predictions succeeds and every prediction line shows the prediction of its
      element and scenario made at row t_ind, against the times t_now + j * t_step; every element and
      scenario of a variable added with such data has its own line. *)
  Theorem C53_predictions_partial : forall size nscen h d t now,
    NoDup (added h) -> (forall a, In a h -> act_fits size nscen a) -> pred_ok h size nscen d t ->
    d_dtype_mpc d = true -> d_full d = true ->
    (- Z.of_nat (List.length (d_time d)) <= t < Z.of_nat (List.length (d_time d)))%Z ->
    nth_error (d_time d) (Z.to_nat (if (t <? 0)%Z then Z.of_nat (List.length (d_time d)) + t else t)) = Some now ->
    (exists g', plot_predictions tadd d t (run h) = (g', Ok tt)
       /\ forall v n i k id, pred_line_of (run h) v n i k id ->
            exists scen y, d_pred d v n i t = Some scen /\ nth_error scen k = Some y
              /\ shows g' id (map (fun j => tadd now j (d_tstep d)) (seq 0 (List.length y))) y)
    /\ (forall h1 d0 v n h2 cols, h = (h1 ++ AAdd d0 v n :: h2)%list -> In v plotted_kinds -> d_cols d0 v n = Some cols ->
         snd (add_line zero d0 v n (run h1)) = Ok tt -> d_dtype_mpc d0 = true -> d_full d0 = true ->
         forall i k scen, i < List.length cols -> d_pred d0 v n i (-1) = Some scen -> k < List.length scen ->
           exists id, pred_line_of (run h) v n i k id)
    /\ (forall v n i k v' n' i' k' id, pred_line_of (run h) v n i k id -> pred_line_of (run h) v' n' i' k' id ->
         v = v' /\ n = n' /\ i = i' /\ k = k').
  Proof.
    intros size nscen h d t now Hnd Hfit Hok Hm Hf Ht Hnow. split; [|split].
    - destruct (@run_inv T tadd zero size nscen h Hfit Hnd) as (vars & R & P & I & HR & HP & HV).
      unfold plot_predictions. rewrite Hm, Hf. cbn [negb].
      assert (negb (Z.abs t <=? Z.of_nat (List.length (d_time d)))%Z = false) as -> by (apply negb_false_iff, Z.leb_le; lia).
      assert (pnth (d_time d) t = Some now) as ->.
      { unfold pnth. set (k := if (t <? 0)%Z then _ else _) in *. assert (0 <= k)%Z by (unfold k; destruct (Z.ltb_spec t 0); lia).
        destruct (Z.ltb_spec k 0); [lia|exact Hnow]. }
      rewrite pred_loop_gen, (i_pm I), (i_pi I).
      assert (HF : forall p, In p (map fst P) -> exists v n i k scen y, p = [KS v; KS n; KI i; KI k] /\ d_pred d v n i t = Some scen /\ nth_error scen k = Some y).
      { intros p Hp. destruct (i_pv I _ Hp) as (v & n & i & k & -> & Hin). apply HV in Hin. destruct (HP _ _ _ _ Hp) as [Hi Hk].
        destruct (Hok _ _ _ Hin Hi) as (scen & Es & El). destruct (nth_error scen k) as [y|] eqn:Ey.
        - exists v, n, i, k, scen, y; auto.
        - apply nth_error_None in Ey. lia. }
      destruct (@gen_loop_ok T (pred_line tadd d t now) (map snd P) (map fst P) (g_canvas (run h))) as [G1 G2].
      + now rewrite !map_length.
      + apply nodup_app_r with (l := map snd R). apply I.
      + apply (inv_plt I).
      + intros p Hp. destruct (HF p Hp) as (v & n & i & k & scen & y & -> & E1 & E2). unfold pred_line, pred_column. rewrite E1, E2. discriminate.
      + destruct (gen_loop (pred_line tadd d t now) (map VLeaf (map snd P)) (map fst P) (g_canvas (run h))) as [cv r] eqn:Eg.
        cbn [fst snd] in G1, G2. subst r. eexists; split; [reflexivity|].
        intros v n i k id (j & J1 & J2). rewrite (i_pi I), nth_error_map in J1. rewrite (i_pm I), !nth_error_map in J2.
        destruct (nth_error P j) as [[p id']|] eqn:Ej; [|discriminate]. cbn in J1, J2. injection J1 as ->. injection J2 as ->.
        apply nth_error_In in Ej. specialize (G2 _ _ (in_split_entry _ _ _ Ej)).
        destruct (HF [KS v; KS n; KI i; KI k]) as (v' & n' & i' & k' & scen & y & E & E1 & E2).
        { apply in_map_iff; exists ([KS v; KS n; KI i; KI k], id); auto. }
        injection E as <- <- <- <-. exists scen, y. split; [auto|split; [auto|]].
        unfold shows; cbn [g_canvas]. rewrite G2. unfold pred_line, pred_column. rewrite E1, E2. reflexivity.
    - intros h1 d0 v n h2 cols -> Hv Hc Hsucc Hm0 Hf0 i k scen Hi Hs Hk. apply plotted_in in Hv.
      destruct (@run_with T tadd zero size nscen h1 d0 v n h2 cols Hv Hc Hfit Hnd) as (vars & R & P & I & HR & HP & HV & _ & L2).
      specialize (L2 Hsucc Hm0 Hf0 i k scen Hi Hs Hk). apply in_map_iff in L2 as [[p id] [E Hin]]. simpl in E; subst p.
      apply In_nth_error in Hin as [j Hj]. exists id, j. rewrite (i_pi I), (i_pm I), !nth_error_map, Hj. auto.
    - intros v n i k v' n' i' k' id (j & J1 & J2) (j' & J1' & J2').
      destruct (@run_inv T tadd zero size nscen h Hfit Hnd) as (vars & R & P & I & HR & HP & HV).
      rewrite (i_pi I), nth_error_map in J1, J1'. rewrite (i_pm I), !nth_error_map in J2, J2'.
      assert (Hn : NoDup (map snd P)) by (apply nodup_app_r with (l := map snd R); apply I).
      assert (j = j').
      { destruct (nth_error P j) as [[p a]|] eqn:Ea; [|discriminate]. destruct (nth_error P j') as [[q b]|] eqn:Eb; [|discriminate].
        cbn in J2, J2'. injection J2 as ->. injection J2' as ->.
        apply (proj1 (NoDup_nth_error (map snd P)) Hn).
        - apply nth_error_Some. rewrite nth_error_map, Ea. discriminate.
        - rewrite !nth_error_map, Ea, Eb. reflexivity. }
      subst j'. rewrite J1 in J1'. injection J1' as <- <- <- <-. auto.
  Qed.

  (** ** C53, one frame of an animation.  Under the conditions of the two theorems above a frame for row t
      succeeds, and then every result line of a variable shows the recorded rows up to t and every prediction
      line shows the prediction made at t: drawing the predictions leaves the result lines alone. *)
  Theorem C53_frame_partial : forall size nscen h1 d0 v n cols h2 d t now,
    let h := (h1 ++ AAdd d0 v n :: h2)%list in
    In v plotted_kinds -> d_cols d0 v n = Some cols ->
    NoDup (added h) -> (forall a, In a h -> act_fits size nscen a) -> consistent h size d -> pred_ok h size nscen d t ->
    d_dtype_mpc d = true -> d_full d = true ->
    (- Z.of_nat (List.length (d_time d)) <= t < Z.of_nat (List.length (d_time d)))%Z ->
    nth_error (d_time d) (Z.to_nat (if (t <? 0)%Z then Z.of_nat (List.length (d_time d)) + t else t)) = Some now ->
    exists g', frame tadd d t (run h) = (g', Ok tt)
      /\ (forall i, i < List.length cols -> exists x y, expected d t v n i x y /\ shows g' (List.length (g_canvas (run h1)) + i) x y)
      /\ (forall w m i k id, pred_line_of (run h) w m i k id ->
            exists scen y, d_pred d w m i t = Some scen /\ nth_error scen k = Some y
              /\ shows g' id (map (fun j => tadd now j (d_tstep d)) (seq 0 (List.length y))) y).
  Proof.
    intros size nscen h1 d0 v n cols h2 d t now h Hv Hc Hnd Hfit Hcon Hok Hm Hf Ht Hnow.
    destruct (@C53_results_partial size nscen h1 d0 v n cols h2 d t Hv Hc Hnd Hfit Hcon) as (g1 & E1 & H1); [lia|].
    fold h in E1, H1.
    assert (Eg : g1 = run (h ++ [APlot d t])%list) by (rewrite run_app; cbn [fold_left GfxSpec.step]; rewrite E1; reflexivity).
    assert (Ea : added (h ++ [APlot d t])%list = added h) by (rewrite added_app; cbn; apply app_nil_r).
    assert (Hfit2 : forall a, In a (h ++ [APlot d t])%list -> act_fits size nscen a).
    { intros a Ha. apply in_app_or in Ha as [Ha|[<-|[]]]; [auto|exact I]. }
    destruct (@C53_predictions_partial size nscen (h ++ [APlot d t])%list d t now) as [(g2 & E2 & H2) _]; auto.
    { now rewrite Ea. } { unfold pred_ok. rewrite Ea. exact Hok. }
    rewrite <- Eg in E2, H2.
    exists g2. split; [unfold frame; rewrite E1; exact E2|]. split.
    - intros i Hi. destruct (H1 i Hi) as (x & y & Hxy & Hs). exists x, y. split; auto.
      pose proof Hv as Hv'. apply plotted_in in Hv'.
      destruct (@run_with T tadd zero size nscen h1 d0 v n (h2 ++ [APlot d t])%list cols Hv' Hc) as (vars & R & P & I & _ & _ & _ & L1 & _).
      { intros a Ha. apply Hfit2. unfold h. rewrite <- app_assoc. exact Ha. }
      { replace (h1 ++ AAdd d0 v n :: h2 ++ [APlot d t])%list with (h ++ [APlot d t])%list by (unfold h; rewrite <- app_assoc; reflexivity).
        rewrite Ea; auto. }
      replace (h1 ++ AAdd d0 v n :: h2 ++ [APlot d t])%list with (h ++ [APlot d t])%list in I by (unfold h; rewrite <- app_assoc; reflexivity).
      rewrite <- Eg in I. specialize (L1 i Hi).
      unfold plot_predictions in E2. destruct (negb (d_dtype_mpc d)); [discriminate|]. destruct (negb (d_full d)); [discriminate|].
      destruct (negb (Z.abs t <=? _)%Z); [discriminate|]. destruct (pnth (d_time d) t) as [now'|]; [|discriminate].
      rewrite pred_loop_gen, (i_pm I), (i_pi I) in E2.
      destruct (gen_loop (pred_line tadd d t now') (map VLeaf (map snd P)) (map fst P) (g_canvas g1)) as [cv r] eqn:Eg2.
      injection E2 as <- Er. unfold shows in *. cbn [g_canvas].
      rewrite <- Hs. change cv with (fst (cv, r)). rewrite <- Eg2. apply gen_loop_keep.
      + apply (inv_plt I).
      + apply nodup_app_disj with (1 := i_nd I). apply in_map_iff. eexists; split; [|exact L1]. reflexivity.
    - intros w m i k id Hl. apply H2. unfold pred_line_of in *. destruct Hl as (j & J1 & J2).
      assert (Ep : g_pred g1 = g_pred (run h)).
      { unfold plot_results in E1. destruct (negb _) in E1; [now injection E1 as <-|]. destruct (plot_loop _ _ _ _ _) in E1.
        now injection E1 as <- _. }
      exists j. rewrite Ep. auto.
  Qed.

  (** ** C53, refuted in general.
      (1) If the same variable is added a second time (documented use: one line per axis), the first line is
      forgotten: whatever is plotted later, it keeps showing the data of the moment it was added. *)
  Theorem C53_twice_refuted : forall (d : gdata T) v n c, In v plotted_kinds -> d_cols d v n = Some [c] -> d_dtype_mpc d = false ->
    forall plots, (forall a, In a plots -> match a with APlot _ _ => True | _ => False end) ->
    shows (run (AAdd d v n :: AAdd d v n :: plots)) 0 (d_time d) c.
  Proof.
    intros d v n c Hv Hc Hm plots Hp. apply plotted_in in Hv.
    assert (E : exists g, run [AAdd d v n; AAdd d v n] = g /\ master (g_res g) = [VLeaf 1] /\ powerindex (g_res g) = [[KS v; KS n; KI 0]]
              /\ g_canvas g = [(d_time d, c); (d_time d, c)]).
    { eexists; split; [reflexivity|]. unfold GfxSpec.run. cbn [fold_left GfxSpec.step]. unfold add_line. rewrite !vt, Hv, Hc, Hm. cbn [negb andb fst plot].
      cbn [gfx_init g_res g_pred g_canvas List.length seq map app].
      cbn. unfold mem_index, existsb, index_eqb, key_eqb. cbn. rewrite ?String.eqb_refl. cbn. rewrite ?String.eqb_refl. cbn. auto. }
    destruct E as (g & E & M & PI & CV).
    change (AAdd d v n :: AAdd d v n :: plots) with ([AAdd d v n; AAdd d v n] ++ plots)%list. rewrite run_app, E. clear E.
    assert (G : forall plots g, (forall a, In a plots -> match a with APlot _ _ => True | _ => False end) ->
       master (g_res g) = [VLeaf 1] -> powerindex (g_res g) = [[KS v; KS n; KI 0]] -> (exists l1, g_canvas g = [(d_time d, c); l1]) ->
       shows (fold_left (GfxSpec.step tadd zero) plots g) 0 (d_time d) c).
    { clear. induction plots as [|a plots IH]; intros g Hp M PI [l1 CV].
      - unfold shows. simpl. rewrite CV. reflexivity.
      - cbn [fold_left]. pose proof (Hp a (or_introl eq_refl)) as Ha. destruct a as [| |d' t|]; try tauto.
        apply IH; [intros b Hb; apply Hp; right; auto| | |]; cbn [GfxSpec.step]; unfold plot_results;
          (destruct (negb _); [eauto|]); destruct (plot_loop _ _ _ _ _) as [cv r] eqn:Ep; cbn [fst g_res g_canvas]; auto.
        rewrite M, PI, CV in Ep. cbn [plot_loop leaf_id] in Ep. destruct (column d' [KS v; KS n; KI 0]); cbn in Ep; injection Ep as <- <-; eauto. }
    apply G; auto. rewrite CV. eauto.
  Qed.

  (** (2) plot_results() with default arguments before anything was recorded raises;
      (3) plot_predictions accepts t_ind = number of rows and then fails with an IndexError;
      (4) plot_predictions, hence every frame of animate, fails for data of a simulator or estimator;
      (5) add_line of a parameter with MPC data raises after the result line has been drawn. *)
  Theorem C53_errors_refuted : forall (g : gfx T) (d : gdata T),
    (d_time d = [] -> plot_results d (-1) g = (g, Err ExcAssertion))
    /\ (d_dtype_mpc d = true -> d_full d = true -> plot_predictions tadd d (Z.of_nat (List.length (d_time d))) g = (g, Err ExcIndex))
    /\ (d_dtype_mpc d = false -> forall t, exists g' e, frame tadd d t g = (g', Err e))
    /\ (forall n cols, d_dtype_mpc d = true -> d_full d = true -> d_cols d "_p" n = Some cols -> cols <> [] -> (forall i t, d_pred d "_p" n i t = None) ->
         exists g', add_line zero d "_p" n g = (g', Err ExcValue) /\ List.length (g_canvas g) < List.length (g_canvas g')).
  Proof.
    intros g d. split; [|split; [|split]].
    - intros E. unfold plot_results. rewrite E. reflexivity.
    - intros Hm Hf. unfold plot_predictions. rewrite Hm, Hf. cbn [negb].
      rewrite (proj2 (negb_false_iff _)) by (apply Z.leb_le; lia).
      unfold pnth. destruct (Z.ltb_spec (Z.of_nat (List.length (d_time d))) 0); [lia|].
      destruct (Z.ltb_spec (Z.of_nat (List.length (d_time d))) 0); [lia|].
      rewrite Nat2Z.id. rewrite (proj2 (nth_error_None _ _)); auto.
    - intros Hm t. unfold frame. destruct (plot_results d t g) as [g1 [[]|e]]; [|eauto].
      unfold plot_predictions. rewrite Hm. cbn. eauto.
    - intros n cols Hm Hf Hc Hne Hp. unfold add_line. cbn [valid_type existsb String.eqb Ascii.eqb Bool.eqb orb negb].
      rewrite Hc, Hm, Hf. cbn [andb plot]. rewrite Hp. eexists; split; [reflexivity|]. cbn [g_canvas]. rewrite app_length, map_length.
      destruct cols; [congruence|]. simpl. lia.
  Qed.
End T.
Print Assumptions C53_results_partial.
Print Assumptions C53_added.
Print Assumptions C53_predictions_partial.
Print Assumptions C53_frame_partial.
Print Assumptions C53_twice_refuted.
Print Assumptions C53_errors_refuted.

(** The hypotheses are met: MPC data of two recorded steps, a state with two elements and an input added
    one after the other, predictions plotted in between. *)
Definition ex_cols (v n : string) : option (list (list nat)) :=
  if String.eqb v "_x" then Some [[10; 11]; [20; 21]] else if String.eqb v "_u" then Some [[5; 6]] else None.
Definition ex_pred (v n : string) (i : nat) (t : Z) : option (list (list nat)) :=
  if String.eqb v "_p" then None else Some [[i; 7; 8]].
Definition ex_d : gdata nat := mkD [100; 101] ex_cols true true 1 ex_pred.
Definition ex_size (v n : string) : nat := if String.eqb v "_x" then 2 else if String.eqb v "_u" then 1 else 0.
Definition ex_h : list (act nat) := [AAdd ex_d "_x" "a"; APred ex_d 0; AClear _; AAdd ex_d "_u" "b"].
Example C53_nonvacuous : NoDup (added ex_h) /\ (forall a, In a ex_h -> act_fits ex_size (fun _ _ => 1) a)
  /\ consistent ex_h ex_size ex_d /\ pred_ok ex_h ex_size (fun _ _ => 1) ex_d (-1)
  /\ g_canvas (fst (plot_predictions (fun a k s => a + k * s) ex_d 1 (fst (plot_results ex_d 0 (run (fun a k s => a + k * s) 0 ex_h)))))
     = [([100], [10]); ([100], [20]); ([101; 102; 103], [0; 7; 8]); ([101; 102; 103], [1; 7; 8]); ([100], [5]); ([101; 102; 103], [0; 7; 8])].
Proof.
  split; [|split; [|split; [|split]]].
  - repeat constructor; simpl; intuition discriminate.
  - assert (F : fits ex_size (fun _ _ => 1) ex_d).
    { split.
      - intros v n cols. cbn. unfold ex_cols, ex_size. destruct (String.eqb v "_x"); [intros [= <-]; auto|]. destruct (String.eqb v "_u"); intros [= <-]; auto.
      - intros v n i scen. cbn. unfold ex_pred. destruct (String.eqb v "_p"); intros [= <-]; auto. }
    intros a [<-|[<-|[<-|[<-|[]]]]]; simpl; auto.
  - intros v n [H|[H|[]]]; injection H as <- <-; eexists; (split; [reflexivity|split; [reflexivity|]]); simpl; intuition subst; auto.
  - intros v n i [H|[H|[]]] Hi; injection H as <- <-; eexists; (split; [reflexivity|]); auto.
  - reflexivity.
Qed.
