(** * Proofs about the graphics model *)
From Coq Require Import ZArith Permutation.
From Verif Require Import Base StructModel StructProofs GfxModel GfxSpec.
Set Implicit Arguments.

Section L.
  Variable A : Type.
  Lemma upd_length (l : list A) j x : j < List.length l -> List.length (upd l j x) = List.length l.
  Proof. intros H. unfold upd. rewrite app_length, firstn_length. cbn [List.length]. rewrite skipn_length. lia. Qed.
  Lemma upd_nth (l : list A) j x k : j < List.length l -> nth_error (upd l j x) k = if Nat.eqb k j then Some x else nth_error l k.
  Proof.
    intros H. unfold upd. destruct (Nat.eqb_spec k j) as [->|Hk].
    - rewrite nth_error_app2; rewrite firstn_length; [|lia]. rewrite Nat.min_l, Nat.sub_diag by lia. reflexivity.
    - destruct (Nat.lt_ge_cases k j).
      + rewrite nth_error_app1 by (rewrite firstn_length; lia).
        clear - H0. revert k j H0. induction l; intros [|k] [|j] H; simpl; auto; try lia. apply IHl; lia.
      + rewrite nth_error_app2 by (rewrite firstn_length; lia). rewrite firstn_length, Nat.min_l by lia.
        destruct (k - j) eqn:E; [lia|]. cbn [nth_error].
        assert (G : forall m (l' : list A) p, nth_error (skipn m l') p = nth_error l' (m + p)).
        { clear. induction m; intros [|y l'] p; cbn [skipn nth_error Nat.add]; auto. destruct p; auto. }
        rewrite G. f_equal. lia.
  Qed.
End L.

Section G.
  Variable T : Type.
  Notation line := (line T).

  (** Both plotting loops are instances of this one. *)
  Fixpoint gen_loop (f : index -> option line) (ms : list (val nat)) (pis : list index) (cv : list line) : list line * res unit :=
    match ms, pis with
    | m :: ms', ind :: pis' =>
        match f ind, leaf_id m with
        | Some l, Some id => gen_loop f ms' pis' (set_data cv id l)
        | _, _ => (cv, Err ExcGeneric)
        end
    | _, _ => (cv, Ok tt)
    end.

  Lemma gen_loop_shape f : forall ms pis cv, List.length (fst (gen_loop f (map VLeaf ms) pis cv)) = List.length cv \/ exists id, In id ms /\ List.length cv <= id.
  Proof.
    induction ms as [|m ms IH]; intros pis cv; simpl; [auto|]. destruct pis as [|p pis]; [auto|].
    destruct (f p) as [l|]; [|auto]. destruct (Nat.lt_ge_cases m (List.length cv)) as [H|H]; [|right; exists m; auto].
    destruct (IH pis (set_data cv m l)) as [E|[id [H1 H2]]].
    - left. rewrite E. apply upd_length; auto.
    - right. exists id; split; auto. unfold set_data in H2. rewrite upd_length in H2; auto.
  Qed.

  Lemma gen_loop_keep f : forall ms pis cv, (forall id, In id ms -> id < List.length cv) -> forall k, ~ In k ms ->
    nth_error (fst (gen_loop f (map VLeaf ms) pis cv)) k = nth_error cv k.
  Proof.
    induction ms as [|m ms IH]; intros pis cv Hlt k Hk; simpl; [auto|]. destruct pis as [|p pis]; [auto|].
    destruct (f p) as [l|]; [|auto]. assert (Hm : m < List.length cv) by (apply Hlt; left; auto).
    rewrite IH.
    - unfold set_data. rewrite upd_nth by auto. destruct (Nat.eqb_spec k m); auto. subst; exfalso; apply Hk; left; auto.
    - intros id Hid. unfold set_data. rewrite upd_length by auto. apply Hlt; right; auto.
    - intros H; apply Hk; right; auto.
  Qed.

  Lemma gen_loop_ok f : forall ms pis cv, List.length ms = List.length pis -> NoDup ms -> (forall id, In id ms -> id < List.length cv) ->
    (forall p, In p pis -> f p <> None) ->
    snd (gen_loop f (map VLeaf ms) pis cv) = Ok tt
    /\ forall p id, In (p, id) (combine pis ms) -> nth_error (fst (gen_loop f (map VLeaf ms) pis cv)) id = f p.
  Proof.
    induction ms as [|m ms IH]; intros pis cv Hlen Hnd Hlt Hf; destruct pis as [|p pis]; try discriminate Hlen; simpl; [split; auto; intros ? ? []|].
    destruct (f p) as [l|] eqn:E; [|exfalso; apply (Hf p); auto; left; auto].
    inversion Hnd as [|? ? Hm Hnd']; subst. assert (Hmlt : m < List.length cv) by (apply Hlt; left; auto).
    assert (Hlt' : forall id, In id ms -> id < List.length (set_data cv m l)).
    { intros id Hid. unfold set_data. rewrite upd_length by auto. apply Hlt; right; auto. }
    destruct (IH pis (set_data cv m l)) as [I1 I2]; auto; [intros q Hq; apply Hf; right; auto|].
    split; auto. intros q id [H|H]; [|apply I2; auto]. injection H as <- <-.
    rewrite gen_loop_keep by auto. unfold set_data. rewrite upd_nth, Nat.eqb_refl by auto. congruence.
  Qed.

  Definition res_line (d : gdata T) (t : Z) (ind : index) : option line :=
    match column d ind with
    | Some c => Some (if Z.eqb t (-1) then (d_time d, c) else (pslice (d_time d) (t + 1), pslice c (t + 1)))
    | None => None
    end.
  Lemma plot_loop_gen d t : forall ms pis cv, plot_loop d t ms pis cv = gen_loop (res_line d t) ms pis cv.
  Proof.
    induction ms as [|m ms IH]; intros pis cv; simpl; auto. destruct pis as [|p pis]; auto. unfold res_line at 1.
    destruct (column d p); auto. destruct (leaf_id m); auto.
  Qed.

  (** ** Structures that hold lines *)
  Lemma set_list_fresh ind : forall ids i (s : structure nat), List.length (master s) = List.length (powerindex s) ->
    (forall j, i <= j -> ~ In (ind ++ [KI j]) (powerindex s)) ->
    let s' := set_list ind i (map VLeaf ids) s in
    master s' = master s ++ map VLeaf ids /\ powerindex s' = powerindex s ++ map (fun j => ind ++ [KI j]) (seq i (List.length ids)).
  Proof.
    induction ids as [|x ids IH]; intros i s Hl Hf; simpl; [now rewrite !app_nil_r|].
    assert (E : set_item s (ind ++ [KI i]) (VLeaf x) = append_leaf s (ind ++ [KI i]) (VLeaf x)).
    { rewrite set_item_eq. assert (mem_index (ind ++ [KI i]) (powerindex s) = false) as ->; auto. apply mem_index_nin, Hf; auto. }
    cbn [set_item] in E. 
    destruct (IH (S i) (append_leaf s (ind ++ [KI i]) (VLeaf x))) as [I1 I2].
    - simpl. rewrite !app_length; simpl; lia.
    - simpl. intros j Hj H. apply in_app_or in H as [H|[H|[]]]; [revert H; apply Hf; lia|].
      apply app_inj_tail in H as [_ H]. injection H as ->. lia.
    - rewrite E, I1, I2. simpl. now rewrite <- !app_assoc.
  Qed.

  Lemma set_ids_fresh (s : structure nat) ind ids : List.length (master s) = List.length (powerindex s) ->
    ~ In ind (powerindex s) -> (forall j, ~ In (ind ++ [KI j]) (powerindex s)) ->
    let s' := set_item s ind (ids_val ids) in
    master s' = master s ++ map VLeaf ids /\ powerindex s' = powerindex s ++ map (fun j => ind ++ [KI j]) (seq 0 (List.length ids)).
  Proof.
    intros Hl Hi Hf. unfold ids_val. rewrite set_item_eq. apply mem_index_nin in Hi as ->. apply set_list_fresh; auto.
  Qed.

  (** ** The invariant *)
  Record inv (g : gfx T) (vars : list (string * string)) (R P : list (index * nat)) : Prop := mkInv {
    i_rm : master (g_res g) = map VLeaf (map snd R);
    i_ri : powerindex (g_res g) = map fst R;
    i_pm : master (g_pred g) = map VLeaf (map snd P);
    i_pi : powerindex (g_pred g) = map fst P;
    i_nd : NoDup (map snd R ++ map snd P);
    i_lt : forall id, In id (map snd R ++ map snd P) -> id < List.length (g_canvas g);
    i_rv : forall p, In p (map fst R) -> exists v n i, p = [KS v; KS n; KI i] /\ In (v, n) vars;
    i_pv : forall p, In p (map fst P) -> exists v n i k, p = [KS v; KS n; KI i; KI k] /\ In (v, n) vars }.

  Lemma inv_init : inv (gfx_init T) [] [] [].
  Proof. constructor; simpl; auto; try constructor; tauto. Qed.

  Lemma inv_canvas g vars R P cv : inv g vars R P -> List.length cv = List.length (g_canvas g) ->
    inv (mkG (g_res g) (g_pred g) cv) vars R P.
  Proof. intros [] H; constructor; auto. simpl. rewrite H; auto. Qed.

  Lemma inv_vars g vars vars' R P : inv g vars R P -> incl vars vars' -> inv g vars' R P.
  Proof.
    intros [] H; constructor; auto.
    - intros p Hp. destruct (i_rv0 p Hp) as (v & n & i & E & Hv). exists v, n, i; auto.
    - intros p Hp. destruct (i_pv0 p Hp) as (v & n & i & k & E & Hv). exists v, n, i, k; auto.
  Qed.

  Lemma nodup_app_new (l : list nat) m b : NoDup l -> (forall x, In x l -> x < b) -> NoDup (l ++ seq b m).
  Proof.
    intros H Hb. induction H as [|x l Hx H IH]; simpl; [apply seq_NoDup|]. constructor.
    - rewrite in_app_iff, in_seq. intros [H'|H']; [auto|]. specialize (Hb x (or_introl eq_refl)). lia.
    - apply IH. intros y Hy; apply Hb; right; auto.
  Qed.

  Lemma combine_map_pair {X Y} (f : nat -> X) (ids : list Y) : forall i, map snd (combine (map f (seq i (List.length ids))) ids) = ids
    /\ map fst (combine (map f (seq i (List.length ids))) ids) = map f (seq i (List.length ids)).
  Proof. induction ids as [|x ids IH]; intros i; simpl; auto. destruct (IH (S i)) as [-> ->]. auto. Qed.

  (** Adding result lines for a new variable. *)
  Lemma inv_add_res g vars R P d v n cols : inv g vars R P -> ~ In (v, n) vars ->
    let '(canvas, ids) := plot (g_canvas g) (d_time d) cols in
    inv (mkG (set_item (g_res g) [KS v; KS n] (ids_val ids)) (g_pred g) canvas) ((v, n) :: vars)
        (R ++ combine (map (fun i => [KS v; KS n; KI i]) (seq 0 (List.length cols))) ids) P.
  Proof.
    intros H Hv. unfold plot.
    set (ids := seq (List.length (g_canvas g)) (List.length cols)).
    assert (Lids : List.length ids = List.length cols) by apply seq_length.
    destruct (@set_ids_fresh (g_res g) [KS v; KS n] ids) as [E1 E2].
    { rewrite (i_rm H), (i_ri H), !map_length; auto. }
    { rewrite (i_ri H). intros Hin. destruct (i_rv H _ Hin) as (v' & n' & i & E & _). discriminate. }
    { intros j. rewrite (i_ri H). intros Hin. destruct (i_rv H _ Hin) as (v' & n' & i & E & Hv'). injection E as -> -> ->. contradiction. }
    destruct (@combine_map_pair index nat (fun i => [KS v; KS n; KI i]) ids 0) as [C1 C2]. rewrite Lids in C1, C2.
    match type of C1 with map snd ?c = _ => set (R1 := c) in C1, C2; change (combine _ _) with R1 end. clearbody R1.
    constructor; cbn [g_res g_pred g_canvas]; rewrite ?map_app, ?C1, ?C2.
    - rewrite E1, (i_rm H). reflexivity.
    - rewrite E2, (i_ri H), Lids. reflexivity.
    - apply H.
    - apply H.
    - apply Permutation_NoDup with (l := (map snd R ++ map snd P) ++ ids).
      + rewrite <- !app_assoc. apply Permutation_app_head, Permutation_app_comm.
      + apply nodup_app_new; [apply H|]. apply (i_lt H).
    - intros id Hid. rewrite app_length, map_length. rewrite !in_app_iff in Hid.
      assert (X : In id (map snd R ++ map snd P) \/ In id ids) by (rewrite in_app_iff; tauto).
      destruct X as [X|X]; [apply (i_lt H) in X; lia|]. apply in_seq in X; lia.
    - intros p Hp. apply in_app_or in Hp as [Hp|Hp].
      + destruct (i_rv H _ Hp) as (v' & n' & i & E & Hv'). exists v', n', i; split; [auto|right; auto].
      + apply in_map_iff in Hp as [i [<- _]]. exists v, n, i; split; [auto|left; auto].
    - intros p Hp. destruct (i_pv H _ Hp) as (v' & n' & i & k & E & Hv'). exists v', n', i, k; split; [auto|right; auto].
  Qed.

  (** Adding prediction lines of the elements [is] of a variable that has none for these elements. *)
  Lemma inv_add_pred zero d v n : forall is g vars R P, inv g vars R P -> In (v, n) vars -> NoDup is ->
    (forall i k, In i is -> ~ In [KS v; KS n; KI i; KI k] (map fst P)) ->
    let g' := fst (add_pred zero d v n is g) in
    exists P', inv g' vars R (P ++ P') /\ (forall id, id < List.length (g_canvas g) -> nth_error (g_canvas g') id = nth_error (g_canvas g) id)
      /\ (snd (add_pred zero d v n is g) = Ok tt -> forall i scen k, In i is -> d_pred d v n i (-1) = Some scen -> k < List.length scen ->
            In [KS v; KS n; KI i; KI k] (map fst P')).
  Proof.
    induction is as [|i is IH]; intros g vars R P H Hv Hnd Hf; cbn [add_pred plot].
    - exists []. rewrite app_nil_r. split; [auto|split; [auto|intros _ i scen k []]].
    - destruct (d_pred d v n i (-1)) as [scen|] eqn:Ed.
      2:{ exists []. rewrite app_nil_r. split; [auto|split; [auto|discriminate]]. }
      set (x := match scen with [] => [] | c :: _ => repeat zero (List.length c) end).
      set (ids := seq (List.length (g_canvas g)) (List.length scen)).
      assert (Lids : List.length ids = List.length scen) by apply seq_length.
      set (g1 := mkG (g_res g) (set_item (g_pred g) [KS v; KS n; KI i] (ids_val ids)) (g_canvas g ++ map (fun c => (x, c)) scen)).
      destruct (@set_ids_fresh (g_pred g) [KS v; KS n; KI i] ids) as [E1 E2].
      { rewrite (i_pm H), (i_pi H), !map_length; auto. }
      { rewrite (i_pi H). intros Hin. destruct (i_pv H _ Hin) as (v' & n' & i' & k & E & _). discriminate. }
      { intros j. rewrite (i_pi H). apply Hf. left; auto. }
      destruct (@combine_map_pair index nat (fun k => [KS v; KS n; KI i; KI k]) ids 0) as [C1 C2]. rewrite Lids in C1, C2.
      match type of C1 with map snd ?c = _ => set (P1 := c) in C1, C2 end. clearbody P1.
      assert (H1 : inv g1 vars R (P ++ P1)).
      { unfold g1. constructor; cbn [g_res g_pred g_canvas]; rewrite ?map_app, ?C1, ?C2.
        - apply H.
        - apply H.
        - rewrite E1, (i_pm H). reflexivity.
        - rewrite E2, (i_pi H), Lids. reflexivity.
        - rewrite app_assoc. apply nodup_app_new; [apply H|]. apply (i_lt H).
        - intros id Hid. rewrite app_length, map_length. rewrite !in_app_iff in Hid.
          assert (X : In id (map snd R ++ map snd P) \/ In id ids) by (rewrite in_app_iff; tauto).
          destruct X as [X|X]; [apply (i_lt H) in X; lia|]. apply in_seq in X; lia.
        - apply H.
        - intros p Hp. apply in_app_or in Hp as [Hp|Hp]; [apply (i_pv H); auto|].
          apply in_map_iff in Hp as [k [<- _]]. exists v, n, i, k; auto. }
      inversion Hnd as [|? ? Hi Hnd']; subst.
      destruct (IH g1 vars R (P ++ P1) H1 Hv Hnd') as (P' & I1 & I2 & I3).
      { intros j k Hj. rewrite map_app, in_app_iff, C2. intros [X|X]; [revert X; apply Hf; right; auto|].
        apply in_map_iff in X as [k' [E _]]. injection E as -> ->. contradiction. }
      fold x ids g1. exists (P1 ++ P'). rewrite app_assoc. split; auto. split.
      + intros id Hid. rewrite I2 by (simpl; rewrite app_length; lia). simpl. apply nth_error_app1; auto.
      + intros Hok j scen' k [<-|Hj] Hd Hk.
        * rewrite Ed in Hd. injection Hd as <-. rewrite map_app, in_app_iff, C2. left. apply in_map_iff. exists k; split; auto. apply in_seq; lia.
        * rewrite map_app, in_app_iff. right. eapply I3; eauto.
  Qed.
End G.

Section Pr.
  Variable T : Type.
  Notation line := (line T).
  Variable tadd : T -> nat -> T -> T.
  Definition pred_line (d : gdata T) (t : Z) (now : T) (ind : index) : option line :=
    match pred_column d t ind with
    | Some y => Some (map (fun k => tadd now k (d_tstep d)) (seq 0 (List.length y)), y)
    | None => None
    end.
  Lemma pred_loop_gen d t now : forall ms pis cv, pred_loop tadd d t now ms pis cv = gen_loop (pred_line d t now) ms pis cv.
  Proof.
    induction ms as [|m ms IH]; intros pis cv; simpl; auto. destruct pis as [|p pis]; auto. unfold pred_line at 1.
    destruct (pred_column d t p); auto. destruct (leaf_id m); auto.
  Qed.
End Pr.
