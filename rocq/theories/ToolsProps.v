(** * Theorems C56 (Timer) and C57 (per-object settings). *)
From Verif Require Import Base ToolsModel.
From Coq Require Import QArith Qround Qabs Lqa.
Import List.

(** ** C56 *)

(** Specification: read the history left to right; every toc directly preceded by a tic contributes
    the difference of the two clock readings (if a tic is followed by another tic, the later one counts;
    a toc not preceded by a tic since the last toc contributes nothing). *)
Fixpoint durations (h : list tcall) : list Q :=
  match h with
  | Tic s :: ((Toc e :: _) as r) => (e - s)%Q :: durations r
  | _ :: r => durations r
  | [] => []
  end.
Definition reading (c : tcall) : Q := match c with Tic q => q | Toc q => q end.

Section T.
  Variable f : Q.
  Lemma durations_snoc h c : durations (h ++ [c]) =
    (durations h ++ match c, last (map Some h) None with Toc e, Some (Tic s) => [(e - s)%Q] | _, _ => [] end)%list.
  Proof.
    induction h as [|a h IH]; [destruct c; reflexivity|].
    destruct h as [|b h].
    - destruct a, c; reflexivity.
    - change (last (map Some (a :: b :: h)) None) with (last (map Some (b :: h)) None).
      change ((a :: b :: h) ++ [c])%list with (a :: b :: h ++ [c])%list.
      change ((b :: h) ++ [c])%list with (b :: h ++ [c])%list in IH.
      destruct a as [s|s]; [destruct b as [e|e]|].
      + change (durations (Tic s :: Tic e :: h ++ [c])) with (durations (Tic e :: h ++ [c])).
        change (durations (Tic s :: Tic e :: h)) with (durations (Tic e :: h)). exact IH.
      + change (durations (Tic s :: Toc e :: h ++ [c])) with ((e - s)%Q :: durations (Toc e :: h ++ [c])).
        change (durations (Tic s :: Toc e :: h)) with ((e - s)%Q :: durations (Toc e :: h)).
        rewrite IH. reflexivity.
      + change (durations (Toc s :: b :: h ++ [c])) with (durations (b :: h ++ [c])).
        change (durations (Toc s :: b :: h)) with (durations (b :: h)). exact IH.
  Qed.

  Lemma truthy_nz q : ~ (q == 0)%Q -> truthy (Some q) = true.
  Proof. intros H. simpl. destruct (Qeq_bool q 0) eqn:E; [apply Qeq_bool_eq in E; contradiction|reflexivity]. Qed.

  Lemma timer_inv h : Forall (fun c => ~ (reading c == 0)%Q) h ->
    let t := fold_left tcall_run h (mkTimer None [] f) in
    t_list t = durations h /\
    t_start t = match last (map Some h) None with Some (Tic s) => Some s | _ => None end /\ t_factor t = f.
  Proof.
    induction h as [|c h IH] using rev_ind; intros F; [repeat split|].
    apply Forall_app in F. destruct F as [Fh Fc]. specialize (IH Fh). cbv zeta in IH |- *.
    rewrite fold_left_app. cbn [fold_left].
    set (t := fold_left tcall_run h (mkTimer None [] f)) in *. destruct IH as (L & S & Fc').
    rewrite durations_snoc, map_app. change (map Some [c]) with [Some c]. rewrite last_last.
    destruct c as [q|q]; cbn [tcall_run].
    - cbn. rewrite app_nil_r. auto.
    - unfold toc. rewrite S.
      destruct (last (map Some h) None) as [[s|s]|] eqn:E.
      + rewrite truthy_nz.
        * cbn. rewrite L. auto.
        * assert (In (Some (Tic s)) (map Some h)).
          { destruct (exists_last (l:=map Some h)) as (l' & a & EE).
            - intros X. rewrite X in E. discriminate.
            - rewrite EE in E |- *. rewrite last_last in E. rewrite E. apply in_or_app. right. left. reflexivity. }
          apply in_map_iff in H. destruct H as (c & Ec & Hc). injection Ec as ->.
          rewrite Forall_forall in Fh. apply (Fh _ Hc).
      + cbn. rewrite app_nil_r. auto.
      + cbn. rewrite app_nil_r. auto.
  Qed.
End T.

(** C56: for every unit, every history of tic/toc calls (with exceptions caught by the caller) and every
    clock that never reads exactly 0, the recorded list is the list of toc-minus-latest-tic
    differences in order; a further toc raises exactly if the last call was not a tic. *)
Theorem C56_durations : forall unit t0 h, timer_init unit = Ok t0 ->
  Forall (fun c => ~ (reading c == 0)%Q) h ->
  let t := fold_left tcall_run h t0 in
  t_list t = durations h /\
  (forall now, (exists t', toc now t = Ok t') <-> exists h' s, h = (h' ++ [Tic s])%list).
Proof.
  intros unit t0 h I F. unfold timer_init in I. destruct (unit_factor unit) as [f|] eqn:U; [|discriminate].
  cbn in I. inversion I; subst t0. destruct (timer_inv f h F) as (L & S & _). cbv zeta. split; [exact L|].
  intros now. unfold toc. rewrite S.
  destruct h as [|c h] using rev_ind.
  - cbn. split; [intros [? X]; discriminate|]. intros (h' & s & X). destruct h'; discriminate.
  - rewrite map_app. change (map Some [c]) with [Some c]. rewrite last_last. apply Forall_app in F. destruct F as [_ F]. inversion F as [|? ? Hc _]; subst.
    destruct c as [q|q].
    + rewrite (truthy_nz q Hc). split; intros; [eauto|eexists; reflexivity].
    + cbn. split; [intros [? X]; discriminate|]. intros (h' & s & X). apply app_inj_tail in X. destruct X; discriminate.
Qed.

(** A clock that reads exactly 0 at tic: the measurement is lost. *)
Theorem C56_zero_clock_refuted : exists h t0, timer_init "ms" = Ok t0 /\
  t_list (fold_left tcall_run h t0) <> durations h.
Proof. exists [Tic 0; Toc 5], (mkTimer None [] (1000 # 1)). split; [reflexivity|discriminate]. Qed.

(** C56, second part: the reported statistics.  info succeeds iff something was recorded; then
    min <= every rounded duration <= max, both are attained, and the mean times the number of
    durations is their sum. *)
Lemma zmin_le l : forall a, (zmin_list a l <= a)%Z /\ (forall x, In x l -> (zmin_list a l <= x)%Z) /\ (zmin_list a l = a \/ In (zmin_list a l) l).
Proof.
  unfold zmin_list. induction l as [|b l IH]; intros a; cbn [fold_left].
  - split; [lia|]. split; [intros ? []|auto].
  - destruct (IH (Z.min a b)) as (H1 & H2 & H3). split; [lia|]. split.
    + intros x [<-|Hx]; [lia|auto].
    + destruct H3 as [->|H3]; [|right; right; exact H3].
      destruct (Z.min_spec a b) as [[_ ->]|[_ ->]]; [left; reflexivity|right; left; reflexivity].
Qed.
Lemma zmax_ge l : forall a, (a <= zmax_list a l)%Z /\ (forall x, In x l -> (x <= zmax_list a l)%Z) /\ (zmax_list a l = a \/ In (zmax_list a l) l).
Proof.
  unfold zmax_list. induction l as [|b l IH]; intros a; cbn [fold_left].
  - split; [lia|]. split; [intros ? []|auto].
  - destruct (IH (Z.max a b)) as (H1 & H2 & H3). split; [lia|]. split.
    + intros x [<-|Hx]; [lia|auto].
    + destruct H3 as [->|H3]; [|right; right; exact H3].
      destruct (Z.max_spec a b) as [[_ ->]|[_ ->]]; [right; left; reflexivity|left; reflexivity].
Qed.

(** the rounding is to the nearest integer, at most half a unit away *)
Lemma round_half_even_near q : (Qabs.Qabs (inject_Z (round_half_even q) - q) <= 1 # 2)%Q.
Proof.
  unfold round_half_even. set (f := Qfloor q).
  assert (L : (inject_Z f <= q)%Q) by apply Qfloor_le.
  assert (U : (q < inject_Z (f + 1))%Q) by apply Qlt_floor.
  rewrite inject_Z_plus in U. change (inject_Z 1) with 1%Q in U.
  apply Qabs.Qabs_Qle_condition.
  destruct (Qle_bool (1 # 2) (q - inject_Z f)) eqn:E.
  - apply Qle_bool_iff in E.
    destruct (Qeq_bool (q - inject_Z f) (1 # 2)) eqn:E2.
    + apply Qeq_bool_eq in E2. destruct (Z.even f).
      * split; lra.
      * rewrite inject_Z_plus. change (inject_Z 1) with 1%Q. split; lra.
    + rewrite inject_Z_plus. change (inject_Z 1) with 1%Q. split; lra.
  - assert (E' : ~ (1 # 2 <= q - inject_Z f)%Q) by (intros X; apply Qle_bool_iff in X; congruence).
    apply Qnot_le_lt in E'. split; lra.
Qed.

Lemma statistics_factor : forall t,
  (t_list t = [] -> timer_info t = Err ExcValue) /\
  (t_list t <> [] -> exists mean mn mx r, timer_info t = Ok (mean, mn, mx) /\
     Forall2 (fun d k => (Qabs.Qabs (inject_Z k - d * t_factor t) <= 1 # 2)%Q) (t_list t) r /\
     In mn r /\ In mx r /\ (forall k, In k r -> (mn <= k <= mx)%Z) /\
     (mean * inject_Z (Z.of_nat (List.length (t_list t))) == inject_Z (fold_right Z.add 0%Z r))%Q).
Proof.
  intros t. unfold timer_info. split; [intros ->; reflexivity|]. intros N.
  destruct (t_list t) as [|d l] eqn:E; [contradiction|].
  set (g := fun d => round_half_even (d * t_factor t)).
  exists (inject_Z (zsum (g d :: map g l)) / inject_Z (Z.of_nat (List.length (g d :: map g l))))%Q.
  exists (zmin_list (g d) (map g l)), (zmax_list (g d) (map g l)), (g d :: map g l). split; [reflexivity|].
  destruct (zmin_le (map g l) (g d)) as (m1 & m2 & m3).
  destruct (zmax_ge (map g l) (g d)) as (x1 & x2 & x3).
  split.
  { change (g d :: map g l) with (map g (d :: l)). generalize (d :: l). intros ll.
    induction ll; constructor; [apply round_half_even_near|assumption]. }
  split; [destruct m3 as [m3|m3]; [left; symmetry; exact m3|right; exact m3]|].
  split; [destruct x3 as [x3|x3]; [left; symmetry; exact x3|right; exact x3]|].
  split; [intros k [<-|Hk]; [lia|specialize (m2 k Hk); specialize (x2 k Hk); lia]|].
  cbn [List.length]. rewrite map_length. change (zsum (g d :: map g l)) with (fold_right Z.add 0%Z (g d :: map g l)).
  rewrite Qmult_comm. apply Qmult_div_r. intros X.
  assert (inject_Z (Z.of_nat (S (List.length l))) == inject_Z 0)%Q as X' by exact X.
  apply (proj1 (inject_Z_injective _ _)) in X'. revert X'. clear. lia.
Qed.

(** The documented units and their lengths in seconds. *)
Definition seconds : list (string * Q) := [("ms", 1 # 1000); ("s", 1 # 1); ("min", 60 # 1); ("h", 3600 # 1)]%string.

(** The constructor accepts exactly these units.  After every history, info raises if nothing was
    recorded; otherwise the statistics are those of the recorded durations expressed in the unit and
    rounded to the nearest integer [r]. *)
Theorem C56_statistics :
  (forall unit, (exists t0, timer_init unit = Ok t0) <-> In unit (map fst seconds)) /\
  forall unit len t0 h, In (unit, len) seconds -> timer_init unit = Ok t0 ->
  Forall (fun c => ~ (reading c == 0)%Q) h ->
  let t := fold_left tcall_run h t0 in
  (durations h = [] -> timer_info t = Err ExcValue) /\
  (durations h <> [] -> exists mean mn mx r, timer_info t = Ok (mean, mn, mx) /\
     Forall2 (fun d k => (Qabs.Qabs (inject_Z k - d / len) <= 1 # 2)%Q) (durations h) r /\
     In mn r /\ In mx r /\ (forall k, In k r -> (mn <= k <= mx)%Z) /\
     (mean * inject_Z (Z.of_nat (List.length (durations h))) == inject_Z (fold_right Z.add 0%Z r))%Q).
Proof.
  split.
  - intros unit. unfold timer_init, unit_factor. simpl. split.
    + intros [t0 H].
      destruct (String.eqb_spec unit "ms"); [auto|]. destruct (String.eqb_spec unit "s"); [auto|].
      destruct (String.eqb_spec unit "min"); [auto|]. destruct (String.eqb_spec unit "h"); [auto 6|]. discriminate.
    + intros [<-|[<-|[<-|[<-|[]]]]]; simpl; eexists; reflexivity.
  - intros unit len t0 h Hu I F t.
    assert (X : exists f, t0 = mkTimer None [] f /\ (f == / len)%Q).
    { unfold timer_init in I. simpl in Hu.
      destruct Hu as [Hu|[Hu|[Hu|[Hu|[]]]]]; injection Hu as <- <-; simpl in I; injection I as <-; eexists; split; reflexivity. }
    destruct X as (f & -> & Hf). destruct (timer_inv f h F) as (L & _ & TF). fold t in L, TF.
    destruct (statistics_factor t) as [S1 S2]. rewrite L in S1, S2. split; [exact S1|]. intros N.
    destruct (S2 N) as (mean & mn & mx & r & A & B & C). exists mean, mn, mx, r. split; [exact A|]. split; [|exact C].
    clear - B TF Hf. induction B as [|d k ds ks H _ IH]; constructor; [|exact IH].
    unfold Qdiv. rewrite <- Hf, <- TF. exact H.
Qed.

Example C56_nonvacuous : exists t0, timer_init "min" = Ok t0 /\
  Forall (fun c => ~ (reading c == 0)%Q) [Toc 1; Tic 2; Tic 3; Toc 5; Toc 6; Tic 7; Toc 9] /\
  t_list (fold_left tcall_run [Toc 1; Tic 2; Tic 3; Toc 5; Toc 6; Tic 7; Toc 9] t0) = [2; 2].
Proof. eexists. split; [reflexivity|]. split; [repeat constructor; intros X; discriminate|reflexivity]. Qed.
Print Assumptions C56_durations.
Print Assumptions C56_zero_clock_refuted.
Print Assumptions C56_statistics.

(** ** C57: indexed properties *)

(** A key or value written by the user without keeping a property in a variable, and whose key
    expressions read no property. *)
Definition const_key (e : pexpr) : Prop := exists v, e = EC v.
Definition direct (e : pexpr) : Prop := match e with EC _ => True | EProp _ _ k => const_key k | EVar _ _ => False end.

(** What the user means: [obj.prop[key]] is the value of that property of that object. *)
Fixpoint meant (h : heap) (e : pexpr) : Z :=
  match e with EC v => v | EProp o p k => h o p (meant h k) | EVar _ _ => 0 end.

Lemma eval_direct s e : direct e -> exists s', eval s e = Ok (s', meant (py_heap s) e) /\ py_heap s' = py_heap s.
Proof.
  destruct e as [v|o p k|h k]; cbn; intros D.
  - eauto.
  - destruct D as [v ->]. cbn. rewrite String.eqb_refl. eauto.
  - contradiction.
Qed.

(** C57 (bounds, scaling, terminal bounds, optimal-solution access): from any state of the shared
    descriptors, [obj.prop[key] = value] with direct expressions changes exactly that entry of exactly
    that object to the value meant, and reads nothing from other objects than those named. *)
Theorem C57_indexed_properties_partial : forall s o p k val, const_key k -> direct val ->
  exists s', exec s (SSet o p k val) = Ok s' /\
    forall o' p' k', py_heap s' o' p' k' =
      if (Nat.eqb o o' && String.eqb p p' && Z.eqb (meant (py_heap s) k) k')%bool then meant (py_heap s) val else py_heap s o' p' k'.
Proof.
  intros s o p k val [kv ->] D. destruct (eval_direct s val D) as (s' & E & H).
  cbn. rewrite E. cbn. rewrite String.eqb_refl. eexists. split; [reflexivity|].
  intros. cbn. unfold heap_set. rewrite H. reflexivity.
Qed.

(** Keeping a property in a variable: [b = mpc1.bounds; mpc2.bounds[0]; b[0] = 7] changes mpc2. *)
Theorem C57_kept_property_refuted : exists s c1 c2 c3 s1 s2 s3,
  c1 = SBind "b" 1%nat "bounds" /\ c2 = SSet 2%nat "bounds" (EC 0) (EC 5) /\ c3 = SVarSet "b" (EC 0) (EC 7) /\
  exec s c1 = Ok s1 /\ exec s1 c2 = Ok s2 /\ exec s2 c3 = Ok s3 /\
  py_heap s3 2%nat "bounds"%string 0%Z = 7%Z /\ py_heap s3 1%nat "bounds"%string 0%Z = py_heap s 1%nat "bounds"%string 0%Z.
Proof.
  exists (mkPy (fun _ _ _ => 0%Z) (fun _ => 0%nat) (fun _ => None)).
  do 6 eexists. repeat split; reflexivity.
Qed.

(** A key computed from another object's property: [mpc1.bounds[mpc2.bounds[0]] = 7] changes mpc2. *)
Theorem C57_nested_key_refuted : exists s s',
  exec s (SSet 1%nat "bounds" (EProp 2%nat "bounds" (EC 0)) (EC 7)) = Ok s' /\
  py_heap s' 2%nat "bounds"%string 0%Z = 7%Z /\ py_heap s' 1%nat "bounds"%string 0%Z = 0%Z.
Proof. exists (mkPy (fun _ _ _ => 0%Z) (fun _ => 0%nat) (fun _ => None)). eexists. repeat split; reflexivity. Qed.

(** ** C57: settings *)
Local Open Scope nat_scope.

Lemma nth_set_nth {A} n (a : A) l m : nth_error (set_nth n a l) m =
  if Nat.eqb n m then (match nth_error l m with Some _ => Some a | None => None end) else nth_error l m.
Proof.
  revert n m. induction l as [|b l IH]; intros [|n] [|m]; cbn; try reflexivity.
  - destruct (Nat.eqb n m); reflexivity.
  - apply IH.
Qed.
Lemma set_nth_length {A} n (a : A) l : List.length (set_nth n a l) = List.length l.
Proof. revert n. induction l; intros [|n]; cbn; auto. Qed.
Lemma nth_set_nth_d {A} n (a d : A) l m : nth m (set_nth n a l) d =
  if Nat.eqb n m && Nat.ltb m (List.length l) then a else nth m l d.
Proof.
  revert n m. induction l as [|b l IH]; intros [|n] [|m]; cbn; try reflexivity.
  - destruct (Nat.eqb n m); reflexivity.
  - rewrite IH. reflexivity.
Qed.

(** the object a call is about *)
Definition about (c : scall) : option nat :=
  match c with SetScalar o _ _ => Some o | DictItem o _ _ => Some o | DictAssign o _ => Some o | _ => None end.

Definition winv (w : sworld) : Prop :=
  sw_dicts w <> [] /\
  (forall o so, nth_error (sw_objs w) o = Some so -> so_dict so < List.length (sw_dicts w)) /\
  (forall o o' so so', nth_error (sw_objs w) o = Some so -> nth_error (sw_objs w) o' = Some so' ->
     so_dict so = so_dict so' -> so_dict so <> 0 -> o = o').

Lemma winv_add w (so : sobj) d : winv w -> so_dict so = List.length (sw_dicts w) ->
  winv (mkSW (sw_dicts w ++ [d]) (sw_objs w ++ [so])).
Proof.
  intros (N & B & D) E. repeat split; cbn.
  - destruct (sw_dicts w); discriminate.
  - intros o so' H. rewrite app_length. cbn. destruct (Nat.lt_ge_cases o (List.length (sw_objs w))) as [L|L].
    + rewrite nth_error_app1 in H by exact L. specialize (B _ _ H). lia.
    + rewrite nth_error_app2 in H by exact L. destruct (o - List.length (sw_objs w)) as [|[|]]; cbn in H; [|discriminate|discriminate].
      inversion H; subst. lia.
  - intros o o' so1 so2 H1 H2 Ed Nz.
    destruct (Nat.lt_ge_cases o (List.length (sw_objs w))) as [L|L]; destruct (Nat.lt_ge_cases o' (List.length (sw_objs w))) as [L'|L'];
      [rewrite nth_error_app1 in H1, H2 by assumption; eauto|
       rewrite nth_error_app1 in H1 by assumption; rewrite nth_error_app2 in H2 by assumption|
       rewrite nth_error_app2 in H1 by assumption; rewrite nth_error_app1 in H2 by assumption|
       rewrite nth_error_app2 in H1, H2 by assumption].
    + destruct (o' - List.length (sw_objs w)) as [|[|]]; cbn in H2; try discriminate. inversion H2; subst so2. specialize (B _ _ H1). lia.
    + destruct (o - List.length (sw_objs w)) as [|[|]]; cbn in H1; try discriminate. inversion H1; subst so1. specialize (B _ _ H2). lia.
    + destruct (o - List.length (sw_objs w)) as [|[|]] eqn:O1; cbn in H1; try discriminate.
      destruct (o' - List.length (sw_objs w)) as [|[|]] eqn:O2; cbn in H2; try discriminate. lia.
Qed.

Lemma winv_run w c : winv w -> winv (sw_run w c).
Proof.
  intros W. destruct c as [| |o k v|o k v|o d]; cbn [sw_run].
  - apply winv_add; [exact W|reflexivity].
  - destruct W as (N & B & D). repeat split; cbn; [exact N| |].
    + intros o so H. destruct (Nat.lt_ge_cases o (List.length (sw_objs w))) as [L|L].
      * rewrite nth_error_app1 in H by exact L. eauto.
      * rewrite nth_error_app2 in H by exact L. destruct (o - List.length (sw_objs w)) as [|[|]]; cbn in H; try discriminate.
        inversion H; subst; cbn. destruct (sw_dicts w); [contradiction|cbn; lia].
    + intros o o' so1 so2 H1 H2 Ed Nz.
      assert (G : forall o so, nth_error (sw_objs w ++ [mkSObj [] 0]) o = Some so -> so_dict so <> 0 -> nth_error (sw_objs w) o = Some so).
      { intros p sp H Hn. destruct (Nat.lt_ge_cases p (List.length (sw_objs w))) as [L|L].
        - rewrite nth_error_app1 in H by exact L. exact H.
        - rewrite nth_error_app2 in H by exact L. destruct (p - List.length (sw_objs w)) as [|[|]]; cbn in H; try discriminate.
          inversion H; subst. cbn in Hn. lia. }
      apply (D o o' so1 so2); [apply G; assumption|apply G; [assumption|congruence]|assumption|assumption].
  - destruct (nth_error (sw_objs w) o) as [so|] eqn:E; [|exact W].
    destruct W as (N & B & D).
    assert (G : forall p sp, nth_error (set_nth o (mkSObj ((k, v) :: so_scalars so) (so_dict so)) (sw_objs w)) p = Some sp ->
              exists sp', nth_error (sw_objs w) p = Some sp' /\ so_dict sp' = so_dict sp).
    { intros p sp H. rewrite nth_set_nth in H. destruct (Nat.eqb_spec o p) as [->|].
      - rewrite E in H. inversion H; subst. eauto.
      - eauto. }
    repeat split; cbn; [exact N| |].
    + intros p sp H. destruct (G _ _ H) as (sp' & H' & <-). eauto.
    + intros p p' sp sp' H H' Ed Nz. destruct (G _ _ H) as (s1 & I1 & J1). destruct (G _ _ H') as (s2 & I2 & J2).
      apply (D p p' s1 s2); congruence.
  - destruct (nth_error (sw_objs w) o) as [so|] eqn:E; [|exact W].
    destruct W as (N & B & D). repeat split; cbn.
    + intros X. apply N. assert (L := set_nth_length (so_dict so) ((k, v) :: nth (so_dict so) (sw_dicts w) []) (sw_dicts w)).
      rewrite X in L. destruct (sw_dicts w); [reflexivity|discriminate].
    + intros p sp H. rewrite set_nth_length. eauto.
    + exact D.
  - destruct (nth_error (sw_objs w) o) as [so|] eqn:E; [|exact W].
    destruct W as (N & B & D). repeat split; cbn.
    + destruct (sw_dicts w); discriminate.
    + intros p sp H. rewrite app_length; cbn. rewrite nth_set_nth in H. destruct (Nat.eqb_spec o p) as [->|].
      * rewrite E in H. inversion H; subst. cbn. lia.
      * specialize (B _ _ H). lia.
    + intros p p' sp sp' H H' Ed Nz. rewrite nth_set_nth in H, H'.
      destruct (Nat.eqb_spec o p) as [Ep|]; destruct (Nat.eqb_spec o p') as [Ep'|].
      * congruence.
      * rewrite <- Ep, E in H. inversion H; subst sp. cbn in Ed. specialize (B _ _ H'). lia.
      * rewrite <- Ep', E in H'. inversion H'; subst sp'. cbn in Ed. specialize (B _ _ H). lia.
      * eauto.
Qed.

Lemma winv_reach h : winv (fold_left sw_run h sw_init).
Proof.
  assert (W0 : winv sw_init).
  { repeat split; cbn; [discriminate| |]; intros [|]; discriminate. }
  revert W0. generalize sw_init. induction h as [|c h IH]; intros w W; [exact W|]. cbn. apply IH. apply winv_run. exact W.
Qed.

Lemma read_scalar_frame w c o k : about c <> Some o -> o < List.length (sw_objs w) -> read_scalar (sw_run w c) o k = read_scalar w o k.
Proof.
  intros A L. unfold read_scalar. destruct c as [| |p k' v|p k' v|p d]; cbn [sw_run].
  - cbn. rewrite nth_error_app1 by exact L. reflexivity.
  - cbn. rewrite nth_error_app1 by exact L. reflexivity.
  - destruct (nth_error (sw_objs w) p) eqn:E; [|reflexivity]. cbn. rewrite nth_set_nth.
    destruct (Nat.eqb_spec p o) as [->|]; [exfalso; apply A; reflexivity|reflexivity].
  - destruct (nth_error (sw_objs w) p) eqn:E; reflexivity.
  - destruct (nth_error (sw_objs w) p) eqn:E; [|reflexivity]. cbn. rewrite nth_set_nth.
    destruct (Nat.eqb_spec p o) as [->|]; [exfalso; apply A; reflexivity|reflexivity].
Qed.

(** C57 (settings): after any history of creating objects and changing settings, a further call about
    another object changes no scalar setting of object [o]; and no item of [o]'s options dictionary
    either, unless [o] is a continuous simulator still using the default dictionary. *)
Theorem C57_settings_partial : forall h c o k,
  let w := fold_left sw_run h sw_init in
  about c <> Some o -> o < List.length (sw_objs w) ->
  read_scalar (sw_run w c) o k = read_scalar w o k /\
  ((forall so, nth_error (sw_objs w) o = Some so -> so_dict so <> 0) ->
     read_item (sw_run w c) o k = read_item w o k).
Proof.
  intros h c o k w A L. split; [apply read_scalar_frame; assumption|]. intros Nz.
  assert (W := winv_reach h). fold w in W. destruct W as (N & B & D).
  destruct (nth_error (sw_objs w) o) as [so|] eqn:Eo; [|apply nth_error_None in Eo; lia].
  specialize (Nz so eq_refl). assert (Bo := B _ _ Eo).
  unfold read_item. destruct c as [| |p k' v|p k' v|p d]; cbn [sw_run].
  - cbn. rewrite nth_error_app1 by exact L. rewrite Eo. cbn. rewrite app_nth1 by exact Bo. reflexivity.
  - cbn. rewrite nth_error_app1 by exact L. rewrite Eo. reflexivity.
  - destruct (nth_error (sw_objs w) p) as [sp|] eqn:E; [|rewrite Eo; reflexivity]. cbn. rewrite nth_set_nth, Eo.
    destruct (Nat.eqb_spec p o) as [->|]; [exfalso; apply A; reflexivity|reflexivity].
  - destruct (nth_error (sw_objs w) p) as [sp|] eqn:E; [|rewrite Eo; reflexivity]. cbn. rewrite Eo. cbn.
    rewrite nth_set_nth_d. destruct (Nat.eqb_spec (so_dict sp) (so_dict so)) as [Ed|].
    + exfalso. apply A. cbn. f_equal. symmetry. apply (D o p so sp); auto.
    + reflexivity.
  - destruct (nth_error (sw_objs w) p) as [sp|] eqn:E; [|rewrite Eo; reflexivity]. cbn. rewrite nth_set_nth, Eo.
    destruct (Nat.eqb_spec p o) as [->|]; [exfalso; apply A; reflexivity|].
    cbn. rewrite app_nth1 by exact Bo. reflexivity.
Qed.

(** objects for which the hypothesis above holds: every MPC / MHE object *)
Theorem C57_optimizers_have_own_options : forall h1 h2 so,
  let w := fold_left sw_run (h1 ++ NewOptimizer :: h2) sw_init in
  nth_error (sw_objs w) (List.length (sw_objs (fold_left sw_run h1 sw_init))) = Some so -> so_dict so <> 0.
Proof.
  intros h1 h2 so w. unfold w. rewrite fold_left_app. cbn [fold_left]. clear w.
  set (w1 := fold_left sw_run h1 sw_init). assert (W1 := winv_reach h1). fold w1 in W1.
  set (n := List.length (sw_objs w1)).
  assert (G : forall h w, winv w -> (forall s, nth_error (sw_objs w) n = Some s -> so_dict s <> 0) -> n < List.length (sw_objs w) ->
     forall s, nth_error (sw_objs (fold_left sw_run h w)) n = Some s -> so_dict s <> 0).
  { induction h as [|c h IH]; intros w W Hs L; [exact Hs|]. cbn [fold_left]. apply IH.
    - apply winv_run; exact W.
    - destruct c as [| |p k' v|p k' v|p d]; cbn [sw_run].
      + cbn. rewrite nth_error_app1 by exact L. exact Hs.
      + cbn. rewrite nth_error_app1 by exact L. exact Hs.
      + destruct (nth_error (sw_objs w) p) eqn:E; [|exact Hs]. cbn. intros s0. rewrite nth_set_nth.
        destruct (Nat.eqb_spec p n) as [->|]; [|apply Hs]. rewrite E. intros X; inversion X; subst; cbn. apply Hs. exact E.
      + destruct (nth_error (sw_objs w) p) eqn:E; exact Hs.
      + destruct (nth_error (sw_objs w) p) eqn:E; [|exact Hs]. cbn. intros s0. rewrite nth_set_nth.
        destruct (Nat.eqb_spec p n) as [->|]; [|apply Hs]. rewrite E. intros X; inversion X; subst; cbn.
        destruct W as (N & _ & _). destruct (sw_dicts w); [contradiction|cbn; lia].
    - destruct c as [| |p k' v|p k' v|p d]; cbn [sw_run].
      + cbn. rewrite app_length. lia.
      + cbn. rewrite app_length. lia.
      + destruct (nth_error (sw_objs w) p); [cbn; rewrite set_nth_length|]; exact L.
      + destruct (nth_error (sw_objs w) p); exact L.
      + destruct (nth_error (sw_objs w) p); [cbn; rewrite set_nth_length|]; exact L. }
  apply G.
  - apply winv_run. exact W1.
  - cbn. intros s. rewrite nth_error_app2 by (unfold n; lia). rewrite Nat.sub_diag. cbn. intros X; inversion X; subst; cbn.
    destruct W1 as (N & _ & _). destruct (sw_dicts w1); [contradiction|cbn; lia].
  - cbn. rewrite app_length. unfold n. cbn. lia.
Qed.

(** Two continuous simulators: adding an integrator option to one adds it to the other. *)
Theorem C57_integrator_options_refuted : exists h c o k, about c <> Some o /\
  let w := fold_left sw_run h sw_init in o < List.length (sw_objs w) /\
  read_item (sw_run w c) o k <> read_item w o k.
Proof.
  exists [NewContSimulator; NewContSimulator], (DictItem 0 "verbose" 1), 1, "verbose"%string.
  split; [discriminate|]. split; [cbn; lia|discriminate].
Qed.

Example C57_nonvacuous :
  let w := fold_left sw_run [NewOptimizer; NewContSimulator; NewOptimizer; DictItem 0 "ipopt.print_level" 0; SetScalar 1 "t_step" 3] sw_init in
  about (DictItem 2 "ipopt.print_level" 5) <> Some 0 /\ 0 < List.length (sw_objs w) /\
  read_item (sw_run w (DictItem 2 "ipopt.print_level" 5)) 0 "ipopt.print_level" = Some (Some 0%Z) /\
  read_scalar w 1 "t_step" = Some (Some 3%Z).
Proof. repeat split; [discriminate|cbn; lia]. Qed.
Print Assumptions C57_indexed_properties_partial.
Print Assumptions C57_kept_property_refuted.
Print Assumptions C57_nested_key_refuted.
Print Assumptions C57_settings_partial.
Print Assumptions C57_optimizers_have_own_options.
Print Assumptions C57_integrator_options_refuted.
