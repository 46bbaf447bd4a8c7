(** * Theorems about the export of animations: C54. *)
From Verif Require Import Base StructModel DataModel DataSpec DataProofs SaveProofs GfxModel.
Set Implicit Arguments.
Local Open Scope string_scope.

Section T.
  Variable D : Type.
  Implicit Types (fs : files D) (content : list (string * D)).

  (** ** C54, what holds: for every state of the directory the export ends, writes exactly one file - named
      after the request, possibly with a number in front - and leaves every other file as it was; without
      overwrite it leaves in particular every '.pkl' file and every animation alone beside which a
      '.pkl' file of the same name exists. *)
  Theorem C54_export_partial : forall fs path name overwrite format content,
    contains "gif" format = true \/ contains "mp4" format = true ->
    exists fs' nm ext, animate_save fs path name overwrite format false content = Ok (fs', path ++ nm ++ "." ++ ext)
      /\ (ext = "gif" \/ ext = "mp4") /\ contains ext format = true
      /\ (nm = name \/ exists i, nm = fmt03d i ++ "_" ++ name)
      /\ (overwrite = true -> nm = name)
      /\ alookup (path ++ nm ++ "." ++ ext) fs' = Some content
      /\ (forall g, g <> path ++ nm ++ "." ++ ext -> alookup g fs' = alookup g fs)
      /\ (overwrite = false -> forall x c, alookup (path ++ x ++ ".pkl") fs = Some c ->
            forall g, g = path ++ x ++ "." ++ ext -> alookup g fs' = alookup g fs).
  Proof.
    intros fs path name overwrite format content Hf. unfold animate_save.
    assert (X : exists ext, extension false format = Ok ext /\ (ext = "gif" \/ ext = "mp4") /\ contains ext format = true).
    { unfold extension. destruct (contains "mp4" format) eqn:E; [exists "mp4"; auto|].
      destruct (contains "gif" format) eqn:E2; [exists "gif"; auto|]. destruct Hf; discriminate. }
    destruct X as (ext & -> & He1 & He2). cbn [bind].
    destruct (find_name_fresh fs path name) as (nm & E1 & E2 & E3).
    set (nm' := if overwrite then name else nm).
    assert ((if overwrite then Ok name else find_name fs path name (S (List.length fs)) name 1) = Ok nm') as -> by (unfold nm'; destruct overwrite; auto).
    cbn [bind]. exists (aset (path ++ nm' ++ "." ++ ext) content fs), nm', ext. split; [reflexivity|].
    split; [auto|split; [auto|split; [|split; [|split; [|split]]]]].
    - unfold nm'; destruct overwrite; auto.
    - unfold nm'; intros ->; auto.
    - rewrite alookup_aset, String.eqb_refl; auto.
    - intros g Hg. apply aset_frame; auto.
    - intros -> x c Hx g ->. unfold nm'. apply aset_frame. intros E. apply append_inj_l in E.
      assert (x = nm). { eapply append_inj_r; exact E. } subst x.
      unfold amem in E2. rewrite Hx in E2. discriminate.
  Qed.

  (** Any other format raises before anything is written. *)
  Theorem C54_format : forall fs path name overwrite format content,
    contains "gif" format = false -> contains "mp4" format = false -> animate_save fs path name overwrite format false content = Err ExcGeneric.
  Proof. intros * H1 H2. unfold animate_save, extension. rewrite H1, H2. reflexivity. Qed.

  (** ** C54, refuted: without overwrite an existing animation of that name is replaced whenever there is no
      result file 'name.pkl'. *)
  Theorem C54_overwrite_refuted : forall fs path name old content,
    alookup (path ++ name ++ ".gif") fs = Some old -> alookup (path ++ name ++ ".pkl") fs = None -> old <> content ->
    exists fs', animate_save fs path name false "gif" false content = Ok (fs', path ++ name ++ ".gif")
      /\ alookup (path ++ name ++ ".gif") fs' <> alookup (path ++ name ++ ".gif") fs.
  Proof.
    intros fs path name old content H1 H2 Hne. unfold animate_save. cbn [extension contains]. simpl (extension _ _). cbn [bind].
    cbn [find_name]. unfold amem. rewrite H2. cbn [bind]. eexists; split; [reflexivity|].
    change ("." ++ "gif") with ".gif". rewrite alookup_aset, String.eqb_refl, H1. congruence.
  Qed.

  (** With a user-supplied writer the file has no extension (its name ends with a dot). *)
  Theorem C54_writer_refuted : forall fs path name format content,
    exists fs', animate_save fs path name true format true content = Ok (fs', path ++ name ++ ".").
  Proof. intros. eexists. unfold animate_save. cbn [extension bind]. reflexivity. Qed.
End T.
Print Assumptions C54_export_partial.
Print Assumptions C54_format.
Print Assumptions C54_overwrite_refuted.
Print Assumptions C54_writer_refuted.

Example C54_nonvacuous :
  let fs := [("./a.pkl", [("x", 1)]); ("./a.gif", [("x", 2)])] in
  animate_save fs "./" "a" false "gif" false [("x", 3)] = Ok (fs ++ [("./001_a.gif", [("x", 3)])], "./001_a.gif")%list
  /\ exists fs', animate_save [("./a.gif", [("x", 2)])] "./" "a" false "gif" false [("x", 3)] = Ok (fs', "./a.gif").
Proof. split; [reflexivity|]. eexists; reflexivity. Qed.
