(** * Properties of SamplingPlanner.export (C94). *)
From Verif Require Import Base DataModel DataProofs SaveProofs SamplingModel SamplingSpec SamplingProofs SamplerProofs ExportModel ExportSpec ExportProofs.
From Coq Require Import Ascii.
Import List.
Local Open Scope string_scope.

(** C94: every name has a stem, and only one. *)
Theorem C94_stem_of_every_name name : exists stem, names_plan name stem /\ forall stem', names_plan name stem' -> stem' = stem.
Proof.
  destruct (names_plan_total name) as [stem H]. exists stem. split; [exact H|]. intros stem' H'.
  rewrite <- (splitext_names _ _ H), <- (splitext_names _ _ H'). reflexivity.
Qed.
Print Assumptions C94_stem_of_every_name.

Section E.
  Context {P : Type}.
  Implicit Types fs : list (string * content P).

  (** C94: without overwrite, no file that exists is ever touched, wherever the export is interrupted. *)
  Theorem C94_export_never_destroys fs dir name stem p st :
    names_plan name stem -> ~ contains_pkl (dir ++ stem) ->
    In st (export_states fs dir false name p) ->
    forall file, amem file fs = true -> alookup file st = alookup file fs.
  Proof.
    intros HN HP HI file HF. apply splitext_names in HN. unfold export_states in HI.
    destruct (export_name_spec fs dir false name stem HN) as [(i & _ & E & _ & H)|(_ & E & _)]; rewrite E in HI.
    - destruct (H eq_refl) as [HA _]. unfold save_pickle_states in HI. cbv zeta in HI. rewrite (target_numbered _ i HP) in HI.
      assert (N : file <> numbered (dir ++ stem) i) by (intros ->; congruence).
      destruct HI as [<-|[<-|[<-|[]]]]; [reflexivity| |]; apply aset_frame; exact N.
    - destruct HI as [<-|[]]. reflexivity.
  Qed.

  (** C94: after an export the plan can be loaded from <stem>.pkl (always with overwrite), or from the first of
      <stem>1.pkl, ..., <stem>9999.pkl that is free; no other file has changed. *)
  Theorem C94_export_stores_plan fs dir overwrite name stem p :
    names_plan name stem -> ~ contains_pkl (dir ++ stem) ->
    (overwrite = true \/ exists i, i < 10000 /\ amem (numbered (dir ++ stem) i) fs = false) ->
    exists i, i < 10000 /\ load_pickle (export fs dir overwrite name p) (numbered (dir ++ stem) i) = Ok p
      /\ (overwrite = true -> i = 0)
      /\ (overwrite = false -> amem (numbered (dir ++ stem) i) fs = false /\ forall j, j < i -> amem (numbered (dir ++ stem) j) fs = true)
      /\ forall file, file <> numbered (dir ++ stem) i -> alookup file (export fs dir overwrite name p) = alookup file fs.
  Proof.
    intros HN HP HF. apply splitext_names in HN. unfold export, export_states.
    destruct (export_name_spec fs dir overwrite name stem HN) as [(i & Hi & E & H1 & H2)|(-> & E & H)]; rewrite E.
    - exists i. split; [exact Hi|]. unfold save_pickle_states. cbv zeta. rewrite (target_numbered _ i HP). cbn [last].
      split; [unfold load_pickle; rewrite alookup_aset, String.eqb_refl; reflexivity|].
      split; [exact H1|]. split; [exact H2|]. intros file Hf. apply aset_frame. exact Hf.
    - exfalso. destruct HF as [HF|(i & Hi & HF)]; [discriminate|]. rewrite (H i Hi) in HF. discriminate.
  Qed.

  (** C94: exporting any number of plans (at most 10000) one after the other under one name into a directory that has no such file keeps
      all of them. *)
  Theorem C94_exports_accumulate fs dir name stem (plans : list P) :
    names_plan name stem -> ~ contains_pkl (dir ++ stem) -> (forall i, amem (numbered (dir ++ stem) i) fs = false) ->
    List.length plans <= 10000 ->
    let fs' := fold_left (fun d p => export d dir false name p) plans fs in
    (forall k p, nth_error plans k = Some p -> load_pickle fs' (numbered (dir ++ stem) k) = Ok p)
    /\ forall file, amem file fs = true -> alookup file fs' = alookup file fs.
  Proof.
    intros HN HP HE.
    assert (NX : forall file, amem file fs = true -> forall i, file <> numbered (dir ++ stem) i) by (intros file Hf i ->; rewrite HE in Hf; discriminate).
    assert (G : List.length plans <= 10000 -> let fs' := fold_left (fun d p => export d dir false name p) plans fs in
      (forall k, amem (numbered (dir ++ stem) k) fs' = true <-> k < List.length plans) /\
      (forall k p, nth_error plans k = Some p -> load_pickle fs' (numbered (dir ++ stem) k) = Ok p) /\
      (forall file, amem file fs = true -> alookup file fs' = alookup file fs)).
    { induction plans as [|p plans IH] using rev_ind; intros HL; cbv zeta.
      - simpl. split; [|split; [intros [|k] p H; discriminate|reflexivity]]. intros k. rewrite HE. split; [discriminate|lia].
      - rewrite app_length in *. cbn [List.length] in *. assert (HL' : List.length plans <= 10000) by lia. destruct (IH HL') as (I1 & I2 & I3). clear IH.
        rewrite fold_left_app. cbn [fold_left]. set (d := fold_left _ plans fs) in *.
        destruct (C94_export_stores_plan d dir false name stem p HN HP) as (i & Hi & L & _ & H2 & H3).
        { right. exists (List.length plans). split; [lia|]. destruct (amem _ d) eqn:X; [|reflexivity]. apply I1 in X. lia. }
        destruct (H2 eq_refl) as [HA HB].
        assert (Ei : i = List.length plans).
        { destruct (Nat.lt_trichotomy i (List.length plans)) as [X|[X|X]]; [|exact X|].
          - apply I1 in X. congruence.
          - apply HB in X. apply I1 in X. lia. }
        subst i. split; [|split].
        + intros k. destruct (Nat.eq_dec k (List.length plans)) as [->|Hk].
          * split; [lia|]. intros _. unfold load_pickle in L. unfold amem. destruct (alookup _ (export _ _ _ _ _)); [reflexivity|discriminate].
          * unfold amem. rewrite H3 by (intros E; apply Hk; exact (numbered_inj _ _ _ E)). fold (amem (numbered (dir ++ stem) k) d). rewrite I1. lia.
        + intros k q Hq. destruct (Nat.eq_dec k (List.length plans)) as [->|Hk].
          * rewrite nth_error_app2, Nat.sub_diag in Hq by lia. injection Hq as <-. exact L.
          * assert (k < List.length (plans ++ [p])%list) by (apply nth_error_Some; congruence). rewrite app_length in *. cbn [List.length] in *.
            rewrite nth_error_app1 in Hq by lia. unfold load_pickle. rewrite H3 by (intros E; apply Hk; exact (numbered_inj _ _ _ E)). exact (I2 k q Hq).
        + intros file Hf. rewrite H3 by (apply NX; exact Hf). apply I3. exact Hf. }
    intros HL. destruct (G HL) as (_ & A & B). split; [exact A|exact B].
  Qed.
End E.
Print Assumptions C94_export_never_destroys.
Print Assumptions C94_export_stores_plan.
Print Assumptions C94_exports_accumulate.

(** C94 (false): "every export stores the plan": if all 10000 names exist, nothing is written and
    nothing is reported. *)
Theorem C94_all_names_taken_refuted : exists (fs : list (string * content nat)) dir name,
  ~ contains_pkl (dir ++ name) /\ forall p, export fs dir false name p = fs /\ forall i, load_pickle (export fs dir false name p) (numbered (dir ++ name) i) <> Ok 1.
Proof.
  exists (map (fun i => (numbered "./plan" i, Whole 0)) (seq 0 10000)), "./", "plan".
  assert (NP : names_plan "plan" "plan").
  { apply (without_extension "" "" "plan"); [auto| | |]; intros; try (intros (u & v & E)); try (destruct H as (u & v & E));
      repeat (destruct u as [|? u]; simpl in E; try discriminate). }
  assert (NK : ~ contains_pkl ("./" ++ "plan")).
  { intros (u & v & E). repeat (destruct u as [|? u]; simpl in E; try discriminate). }
  split; [exact NK|]. intros p.
  assert (TK : forall j, j < 10000 -> amem (numbered "./plan" j) (map (fun i => (numbered "./plan" i, Whole 0)) (seq 0 10000)) = true).
  { generalize 10000. intros n j Hj. apply amem_in. rewrite map_map. simpl. apply in_map, in_seq. lia. }
  assert (NW : forall n (i : nat), alookup (numbered "./plan" i) (map (fun i => (numbered "./plan" i, Whole 0)) (seq 0 n)) <> Some (Whole 1)).
  { intros n i. generalize (seq 0 n). intros l. induction l as [|a l IH]; simpl; [discriminate|]. destruct (String.eqb _ _); [discriminate|exact IH]. }
  revert TK. specialize (NW 10000). revert NW.
  set (fs := map (fun i => (numbered "./plan" i, Whole 0)) (seq 0 10000)). clearbody fs. intros NW TK.
  assert (EX : export fs "./" false "plan" p = fs).
  { unfold export, export_states.
    destruct (export_name_spec fs "./" false "plan" "plan" (splitext_names _ _ NP)) as [(i & Hi & E & _ & H)|(_ & E & _)]; rewrite E; [|reflexivity].
    exfalso. destruct (H eq_refl) as [X _]. change ("./" ++ "plan") with "./plan" in X. rewrite (TK i Hi) in X. discriminate. }
  split; [exact EX|]. intros i. rewrite EX. unfold load_pickle. change ("./" ++ "plan") with "./plan". specialize (NW i).
  destruct (alookup _ fs) as [[|r]|]; try discriminate. congruence.
Qed.
Print Assumptions C94_all_names_taken_refuted.

(** C94 (false) without the condition on '.pkl': an existing plan is overwritten although overwrite is off
    (export('plan.pkl.bak') or a directory whose name contains '.pkl'). *)
Theorem C94_pkl_in_name_refuted :
  let fs := [("./plan.pkl", Whole 7)] in
  export fs "./" false "plan.pkl.bak" 8 = [("./plan.pkl", Whole 8)]
  /\ alookup "./old/plan.pkl" (export [("./old/plan.pkl", Whole 7)] "./old.pkl/" false "plan" 8) = Some (Whole 8).
Proof. vm_compute. split; reflexivity. Qed.
Print Assumptions C94_pkl_in_name_refuted.

(** C94 (false): "plans exported under different names are stored in different files": everything after the last dot
    is taken for an extension. *)
Theorem C94_different_names_refuted :
  export (export [] "./" true "gain_0.5" 5) "./" true "gain_0.7" 7 = [("./gain_0.pkl", Whole 7)].
Proof. vm_compute. reflexivity. Qed.
Print Assumptions C94_different_names_refuted.

(** Non-vacuity: three plans exported under the name "plan.pkl" into a directory that holds another file. *)
Example C94_nonvacuous :
  names_plan "plan.pkl" "plan" /\ ~ contains_pkl ("./runs.v2/" ++ "plan")
  /\ (forall i, amem (numbered ("./runs.v2/" ++ "plan") i) [("./runs.v2/data.pkl", Whole 3)] = false)
  /\ fold_left (fun d p => export d "./runs.v2/" false "plan.pkl" p) [10; 11; 12] [("./runs.v2/data.pkl", Whole 3)]
      = [("./runs.v2/data.pkl", Whole 3); ("./runs.v2/plan.pkl", Whole 10); ("./runs.v2/plan1.pkl", Whole 11); ("./runs.v2/plan2.pkl", Whole 12)].
Proof.
  split; [|split; [|split]].
  - apply (with_extension "" "plan" "pkl"); [auto|exists "p"%char; split; [discriminate|exists "", "lan"; reflexivity]| | |];
      intros (u & v & E); repeat (destruct u as [|? u]; simpl in E; try discriminate).
  - intros (u & v & E). repeat (destruct u as [|? u]; simpl in E; try discriminate).
  - intros [|i]; reflexivity.
  - vm_compute. reflexivity.
Qed.
Print Assumptions C94_nonvacuous.
