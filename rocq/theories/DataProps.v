(** * Theorems C24, C25, C26: recorded histories, queries, saved results. *)
From Verif Require Import Base DataModel DataSpec DataProofs SaveProofs.
Local Open Scope string_scope.

Section Hist.
  Context {T ix : Type}.
  Variable ix_eqb : list ix -> list ix -> bool.
  Hypothesis ix_eqb_eq : forall a b, ix_eqb a b = true <-> a = b.
  Variable f_of : string -> list ix -> res (list nat).

  Lemma recorded_width f : forall h fields acc dim0,
    alookup f fields = Some dim0 -> Forall (fun r : list T => List.length r = dim0) acc ->
    exists dim, alookup f (fields_after fields h) = Some dim
      /\ Forall (fun r => List.length r = dim) (recorded (ix:=ix) fields acc h f).
  Proof.
    induction h as [|o h IH]; intros fields acc dim0 Hl Hacc; [simpl; eauto|].
    change (fields_after fields (o :: h)) with (fields_after (fields_after fields [o]) h).
    change (recorded fields acc (o :: h) f) with
      (recorded (fields_after fields [o]) (recorded fields acc [o] f) h f).
    destruct o as [kvs| |extra|fd ind].
    - apply (IH _ _ dim0); [exact Hl|]. simpl. apply Forall_app. split; [exact Hacc|]. clear - Hl.
      induction kvs as [|[k v] kvs IHk]; simpl; [constructor|]. destruct (valid_kv fields (k, v)) eqn:E; simpl; [|constructor].
      unfold rows_of in *. simpl. destruct (String.eqb_spec f k) as [->|Hk]; [|exact IHk]. simpl. constructor; [|exact IHk].
      unfold valid_kv in E. simpl in E. rewrite Hl in E. apply Nat.eqb_eq. exact E.
    - apply (IH _ _ dim0); [exact Hl|constructor].
    - assert (X : exists d, alookup f (fields_after fields [DAddFields (T:=T) (ix:=ix) extra]) = Some d).
      { assert (Y : amem f (fields_after fields [DAddFields (T:=T) (ix:=ix) extra]) = true).
        { apply fields_mono. unfold amem. rewrite Hl. reflexivity. }
        unfold amem in Y. destruct (alookup f (fields_after fields [DAddFields (T:=T) (ix:=ix) extra])) as [d|]; [exists d; reflexivity|discriminate]. }
      destruct X as [d Hd]. apply (IH _ _ d); [exact Hd|constructor].
    - apply (IH _ _ dim0); [exact Hl|exact Hacc].
  Qed.

  Lemma columns_map (dflt : T) rows pos w : Forall (fun r => List.length r = w) rows -> Forall (fun i => i < w) pos ->
    columns rows pos = Ok (map (fun r => map (fun i => nth i r dflt) pos) rows).
  Proof.
    intros Hr Hp. unfold columns. induction Hr as [|r rows Hw _ IH]; simpl; [reflexivity|].
    assert (X : mapM (fun i => match nth_error r i with Some x => Ok x | None => Err ExcIndex end) pos = Ok (map (fun i => nth i r dflt) pos)).
    { clear IH. induction Hp as [|i pos Hi _ IHp]; simpl; [reflexivity|].
      rewrite (nth_error_nth' r dflt) by lia. simpl. rewrite IHp. reflexivity. }
    rewrite X. simpl. rewrite IH. reflexivity.
  Qed.

  (** C24.  After any history of calls on a fresh data object with the given fields, what is stored for
      each original field is the sequence of accepted values since the last reset, in order, each of
      the field's dimension; and the next update reports exactly whether all its keywords are valid. *)
  Theorem C24_stored_is_recorded : forall (fields : list (string * nat)) (h : list (dop T ix)) f dim0,
    alookup f fields = Some dim0 ->
    let d := drun ix_eqb f_of (init_storage (mkData fields [] [])) h in
    stored d f = recorded fields [] h f
    /\ (exists dim, alookup f (dfields d) = Some dim /\ Forall (fun r => List.length r = dim) (stored d f))
    /\ forall kvs, snd (update d kvs) = verdict (dfields d) kvs.
  Proof.
    intros fields h f dim0 Hf d.
    assert (Hi : dinv f_of (init_storage (mkData (T:=T) (ix:=ix) fields [] []))) by (apply dinv_init_storage; constructor).
    destruct (drun_spec ix_eqb ix_eqb_eq f_of h _ Hi) as (A & B & C). fold d in A, B, C.
    assert (Hm : amem f fields = true) by (unfold amem; rewrite Hf; reflexivity).
    assert (S0 : stored (init_storage (mkData (T:=T) (ix:=ix) fields [] [])) f = []).
    { unfold stored, init_storage. cbn [darrays dfields]. rewrite alookup_fold_reset, Hm. reflexivity. }
    specialize (C f Hm). rewrite S0 in C. split; [exact C|]. split.
    - destruct (recorded_width f h fields [] dim0 Hf (Forall_nil _)) as (dim & X & Y). exists dim.
      rewrite B, C. split; assumption.
    - intros kvs. destruct (update_spec f_of kvs d A) as (_ & _ & _ & _ & E). exact E.
  Qed.

  (** An update of other fields leaves a field alone; an unknown field is reported as AssertionError;
      a wrong size as ValueError; and nothing is recorded for the offending keyword. *)
  Theorem C24_update_frame : forall (fields : list (string * nat)) (h : list (dop T ix)) kvs,
    let d := drun ix_eqb f_of (init_storage (mkData fields [] [])) h in
    let d' := fst (update d kvs) in
    (forall f, ~ In f (map fst kvs) -> stored d' f = stored d f)
    /\ (forall k v, alookup k (dfields d) = None -> update d [(k, v)] = (d, Err ExcAssertion))
    /\ (forall k v dim, alookup k (dfields d) = Some dim -> List.length v <> dim -> update d [(k, v)] = (d, Err ExcValue))
    /\ (snd (update d kvs) = Ok tt -> forall f, stored d' f = (stored d f ++ rows_of f kvs)%list).
  Proof.
    intros fields h kvs d d'.
    assert (Hi : dinv f_of (init_storage (mkData (T:=T) (ix:=ix) fields [] []))) by (apply dinv_init_storage; constructor).
    destruct (drun_spec ix_eqb ix_eqb_eq f_of h _ Hi) as (A & _ & _). fold d in A.
    destruct (update_spec f_of kvs d A) as (_ & _ & _ & E & V). fold d' in E.
    split; [|split; [|split]].
    - intros f Hf. rewrite E. assert (X : rows_of f (accepted (dfields d) kvs) = []).
      { clear - Hf. induction kvs as [|[k v] kvs IH]; simpl in *; [reflexivity|].
        destruct (valid_kv (dfields d) (k, v)); [|reflexivity]. unfold rows_of in *; simpl.
        destruct (String.eqb_spec f k) as [->|Hk]; [tauto|]. apply IH. tauto. }
      rewrite X, app_nil_r. reflexivity.
    - intros k v Hk. simpl. rewrite (step_update_one f_of) by exact A. rewrite Hk. reflexivity.
    - intros k v dim Hk Hl. simpl. rewrite (step_update_one f_of) by exact A. rewrite Hk.
      destruct (Nat.eqb_spec (List.length v) dim); [contradiction|reflexivity].
    - rewrite V. intros Hv f. rewrite E. f_equal. f_equal. clear - Hv.
      induction kvs as [|kv kvs IH]; simpl in *; [reflexivity|].
      destruct (valid_kv (dfields d) kv); [|destruct (alookup (fst kv) (dfields d)); discriminate]. f_equal. auto.
  Qed.

  (** C25.  After any history (queries, updates, resets in any order), a query returns the requested
      columns of what is recorded; and asking does not change anything that is stored. *)
  Theorem C25_query_columns : forall (dflt : T) (fields : list (string * nat)) (h : list (dop T ix)) f dim ind pos,
    let d := drun ix_eqb f_of (init_storage (mkData fields [] [])) h in
    amem f fields = true -> alookup f (dfields d) = Some dim ->
    f_of f ind = Ok pos -> Forall (fun i => i < dim) pos -> ind <> [] ->
    snd (getitem ix_eqb f_of d f ind) = Ok (map (fun row => map (fun i => nth i row dflt) pos) (recorded fields [] h f))
    /\ snd (getitem ix_eqb f_of d f []) = Ok (recorded fields [] h f)
    /\ (forall g j, darrays (fst (getitem ix_eqb f_of d g j)) = darrays d /\ dfields (fst (getitem ix_eqb f_of d g j)) = dfields d).
  Proof.
    intros dflt fields h f dim ind pos d Hm Hd Hpos Hlt Hne.
    unfold amem in Hm. destruct (alookup f fields) as [dim0|] eqn:Hf; [|discriminate].
    destruct (C24_stored_is_recorded fields h f dim0 Hf) as (S & (dim' & D1 & D2) & _). fold d in S, D1, D2.
    rewrite Hd in D1. inversion D1; subst dim'.
    assert (Hi : dinv f_of (init_storage (mkData (T:=T) (ix:=ix) fields [] []))) by (apply dinv_init_storage; constructor).
    destruct (drun_spec ix_eqb ix_eqb_eq f_of h _ Hi) as (A & _ & _). fold d in A.
    split; [|split].
    - destruct (getitem_spec ix_eqb ix_eqb_eq f_of d f ind A) as (_ & _ & _ & G). rewrite G. unfold amem. rewrite Hd.
      destruct ind as [|i ind]; [congruence|]. rewrite Hpos. simpl. rewrite <- S. eapply columns_map; eassumption.
    - destruct (getitem_spec ix_eqb ix_eqb_eq f_of d f [] A) as (_ & _ & _ & G). rewrite G. unfold amem. rewrite Hd, S. reflexivity.
    - intros g j. destruct (getitem_spec ix_eqb ix_eqb_eq f_of d g j A) as (_ & B & C & _). auto.
  Qed.

  (** An unknown field is reported. *)
  Theorem C25_unknown_field : forall (fields : list (string * nat)) (h : list (dop T ix)) f ind,
    let d := drun ix_eqb f_of (init_storage (mkData fields [] [])) h in
    alookup f (dfields d) = None -> getitem ix_eqb f_of d f ind = (d, Err ExcAssertion).
  Proof. intros fields h f ind d H. unfold getitem. rewrite H. reflexivity. Qed.

  (** *** predictions *)
  Variable zero : T.
  Variable pos_of : string -> list ix -> res (list nat).

  Lemma mrun_inv sf h : forall m,
    Forall (fun e => pos_of (fst (fst e)) (snd (fst e)) = Ok (snd e)) (mqueries m) ->
    let m' := mrun zero ix_eqb f_of pos_of sf m h in
    Forall (fun e => pos_of (fst (fst e)) (snd (fst e)) = Ok (snd e)) (mqueries m')
    /\ mdat m' = drun ix_eqb f_of (mdat m) (data_calls h).
  Proof.
    induction h as [|o h IH]; intros m Hm; [simpl; auto|].
    change (mrun zero ix_eqb f_of pos_of sf m (o :: h)) with (mrun zero ix_eqb f_of pos_of sf (mstep zero ix_eqb f_of pos_of sf m o) h).
    assert (X : Forall (fun e => pos_of (fst (fst e)) (snd (fst e)) = Ok (snd e)) (mqueries (mstep zero ix_eqb f_of pos_of sf m o))
                /\ mdat (mstep zero ix_eqb f_of pos_of sf m o) = drun ix_eqb f_of (mdat m) (data_calls [o])).
    { destruct o as [o|head rest t]; simpl; [split; [exact Hm|reflexivity]|].
      unfold prediction. destruct (negb sf); [simpl; auto|]. destruct (pred_field head); [|simpl; auto].
      destruct (cache_find ix_eqb head rest (mqueries m)); [simpl; auto|].
      destruct (pos_of head rest) eqn:E; simpl; [|auto]. split; [|reflexivity]. apply Forall_app. split; [exact Hm|].
      constructor; [exact E|constructor]. }
    destruct X as [X1 X2]. destruct (IH _ X1) as [Y1 Y2]. split; [exact Y1|]. rewrite Y2, X2. unfold drun, data_calls. simpl flat_map.
    rewrite app_nil_r, fold_left_app. reflexivity.
  Qed.

  (** C25 (predictions).  After any history, a prediction query of a state, input, algebraic variable,
      parameter trajectory or auxiliary expression returns its positions in the requested stored
      solution: the most recent one for t = -1 and the k-th one for t = k.  The positions depend on the
      query alone, never on earlier queries. *)
  Theorem C25_prediction_of_recorded : forall (fields : list (string * nat)) (h : list (mop T ix)) head rest pos field dim,
    let m := mrun zero ix_eqb f_of pos_of true (mkMData (init_storage (mkData fields [] [])) []) h in
    let sols := recorded fields [] (data_calls h) field in
    In (head, field) trajectory_field -> pos_of head rest = Ok pos ->
    amem field fields = true -> amem "_opt_x_num" fields = true ->
    recorded fields [] (data_calls h) "_opt_x_num" <> [] ->
    alookup field (dfields (mdat m)) = Some dim -> Forall (fun i => i < dim) pos ->
    (forall s before, sols = (before ++ [s])%list ->
       snd (prediction zero ix_eqb pos_of true m head rest (-1)) = Ok (map (fun i => nth i s zero) pos))
    /\ (forall k s, nth_error sols k = Some s ->
       snd (prediction zero ix_eqb pos_of true m head rest (Z.of_nat k)) = Ok (map (fun i => nth i s zero) pos)).
  Proof.
    intros fields h head rest pos field dim m sols Hin Hpos Hmem Hmemx Hne Hd Hlt.
    assert (Hfield : pred_field head = Some field).
    { simpl in Hin. repeat (destruct Hin as [Hin|Hin]; [injection Hin as <- <-; reflexivity|]). destruct Hin. }
    destruct (mrun_inv true h (mkMData (init_storage (mkData (T:=T) (ix:=ix) fields [] [])) []) (Forall_nil _)) as [I1 I2].
    fold m in I1, I2. simpl mdat in I2.
    unfold amem in Hmem, Hmemx. destruct (alookup field fields) as [d0|] eqn:Ef; [|discriminate].
    destruct (alookup "_opt_x_num" fields) as [dx|] eqn:Ex; [|discriminate].
    destruct (C24_stored_is_recorded fields (data_calls h) field d0 Ef) as (S1 & (d1 & W1 & W2) & _).
    destruct (C24_stored_is_recorded fields (data_calls h) "_opt_x_num" dx Ex) as (Sx & _ & _).
    rewrite <- I2 in S1, W1, W2, Sx. rewrite Hd in W1. inversion W1; subst d1.
    assert (R : rows_or_zero zero (mdat m) field = sols).
    { unfold rows_or_zero. unfold stored in Sx. destruct (alookup "_opt_x_num" (darrays (mdat m))) as [[|r rs]|]; try congruence.
      unfold stored in S1. exact S1. }
    rewrite S1 in W2. fold sols in W2, S1.
    assert (P : forall t, snd (prediction zero ix_eqb pos_of true m head rest t) = let! row := py_row sols t in pick row pos).
    { intros t. unfold prediction. simpl. rewrite Hfield, R.
      destruct (cache_find ix_eqb head rest (mqueries m)) as [p|] eqn:Ec.
      - pose proof (cache_find_ok ix_eqb ix_eqb_eq pos_of _ _ _ _ I1 Ec) as X. rewrite Hpos in X. inversion X; subst p. reflexivity.
      - rewrite Hpos. reflexivity. }
    assert (K : forall s, List.length s = dim -> pick s pos = Ok (map (fun i => nth i s zero) pos)).
    { intros s Hs. unfold pick. clear - Hlt Hs. induction Hlt as [|i p Hi _ IH]; simpl; [reflexivity|].
      rewrite (nth_error_nth' s zero) by lia. simpl. rewrite IH. reflexivity. }
    split.
    - intros s before Hs. rewrite P. unfold py_row. rewrite Hs. rewrite app_length. simpl List.length.
      replace (-1 <? 0)%Z with true by reflexivity.
      replace (Z.of_nat (List.length before + 1) + -1)%Z with (Z.of_nat (List.length before)) by lia.
      replace ((Z.of_nat (List.length before) <? 0) || (Z.of_nat (List.length before + 1) <=? Z.of_nat (List.length before)))%Z with false
        by (symmetry; apply orb_false_iff; split; [apply Z.ltb_ge|apply Z.leb_gt]; lia).
      rewrite Nat2Z.id, nth_error_app2, Nat.sub_diag by lia. simpl. apply K.
      rewrite Hs in W2. apply Forall_app in W2. destruct W2 as [_ W2]. inversion W2; assumption.
    - intros k s Hk. rewrite P. unfold py_row. assert (k < List.length sols) by (apply nth_error_Some; congruence).
      replace (Z.of_nat k <? 0)%Z with false by (symmetry; apply Z.ltb_ge; lia). cbv zeta.
      replace ((Z.of_nat k <? 0) || (Z.of_nat (List.length sols) <=? Z.of_nat k))%Z with false
        by (symmetry; apply orb_false_iff; split; [apply Z.ltb_ge|apply Z.leb_gt]; lia).
      rewrite Nat2Z.id, Hk. simpl. apply K. rewrite Forall_forall in W2. apply W2. eapply nth_error_In; eassumption.
  Qed.
End Hist.
Print Assumptions C24_stored_is_recorded.
Print Assumptions C24_update_frame.
Print Assumptions C25_query_columns.
Print Assumptions C25_unknown_field.
Print Assumptions C25_prediction_of_recorded.

(** Concrete run: two fields, a rejected update, a reset, a cached query. *)
Definition ex_ixeqb (a b : list nat) : bool := if list_eq_dec Nat.eq_dec a b then true else false.
Definition ex_f (f : string) (i : list nat) : res (list nat) := Ok i.
Definition ex_h : list (dop nat nat) :=
  [ DUpdate [("_x", [1; 2])]; DQuery "_x" [1]; DReset; DUpdate [("_x", [3; 4]); ("_u", [7])];
    DUpdate [("_x", [5; 6]); ("_u", [8; 9]); ("_x", [0; 0])]; DQuery "_x" [1] ].
Example C24_nonvacuous :
  alookup "_x" [("_x", 2); ("_u", 1)] = Some 2
  /\ recorded [("_x", 2); ("_u", 1)] [] ex_h "_x" = [[3; 4]; [5; 6]]
  /\ stored (drun ex_ixeqb ex_f (init_storage (mkData [("_x", 2); ("_u", 1)] [] [])) ex_h) "_x" = [[3; 4]; [5; 6]]
  /\ stored (drun ex_ixeqb ex_f (init_storage (mkData [("_x", 2); ("_u", 1)] [] [])) ex_h) "_u" = [[7]].
Proof. vm_compute. auto. Qed.
Example C25_nonvacuous :
  let d := drun ex_ixeqb ex_f (init_storage (mkData [("_x", 2); ("_u", 1)] [] [])) ex_h in
  (forall a b, ex_ixeqb a b = true <-> a = b)
  /\ dcache d = [("_x", [1], [1])]
  /\ snd (getitem ex_ixeqb ex_f d "_x" [1]) = Ok [[4]; [6]]
  /\ Forall (fun i => i < 2) [1].
Proof.
  split; [|vm_compute; repeat split; constructor; [lia|constructor]].
  intros a b. unfold ex_ixeqb. destruct (list_eq_dec Nat.eq_dec a b); split; intros; congruence.
Qed.
Example C25_prediction_nonvacuous :
  let fs := [("_opt_x_num", 3); ("opt_p_num", 1); ("_opt_aux_num", 1)] in
  let h := [ MPredict "_x" [2] (-1); MData (DUpdate [("_opt_x_num", [1; 2; 3])]); MPredict "_x" [2] (-1);
             MData (DUpdate [("_opt_x_num", [4; 5; 6])]) ] in
  let m := mrun 0 ex_ixeqb ex_f ex_f true (mkMData (init_storage (mkData fs [] [])) []) h in
  mqueries m = [("_x", [2], [2])]
  /\ snd (prediction 0 ex_ixeqb ex_f true m "_x" [2] (-1)) = Ok [6]
  /\ snd (prediction 0 ex_ixeqb ex_f true m "_x" [2] 0) = Ok [3]
  /\ recorded fs [] (data_calls h) "_opt_x_num" <> [].
Proof. vm_compute. repeat split. discriminate. Qed.

(** ** C26 *)
Section SaveThm.
  Context {D : Type}.
  Definition of_mpc (o : savable D) := match o with SMPC d => Some d | _ => None end.
  Definition of_sim (o : savable D) := match o with SSim d => Some d | _ => None end.
  Definition of_est (o : savable D) := match o with SEst d => Some d | _ => None end.

  (** Saving without overwrite, for every state of the file system: always ends with a name that was
      not in use; every existing file keeps its content; reading the new file gives the data of the last
      saved object of each kind; the file is named after the request. *)
  Theorem C26_save_never_destroys : forall (l : list (savable D)) name path fs,
    ~ In SOther l ->
    exists fs' file, save_results l name path false fs = Ok (fs', file)
      /\ alookup file fs = None
      /\ (forall g, g <> file -> alookup g fs' = alookup g fs)
      /\ (forall g c, alookup g fs = Some c -> alookup g fs' = Some c)
      /\ (file = path ++ name ++ ".pkl" \/ exists i, file = path ++ (fmt03d i ++ "_" ++ name) ++ ".pkl")
      /\ exists r, load_results file fs' = Ok r
           /\ alookup "mpc" r = last_of of_mpc l
           /\ alookup "simulator" r = last_of of_sim l
           /\ alookup "estimator" r = last_of of_est l.
  Proof.
    intros l name path fs Hl. pose proof (collect_spec l []) as C. unfold save_results.
    destruct (collect l []) as [r|e]; [|destruct C; contradiction]. destruct C as (_ & C1 & C2 & C3).
    destruct (find_name_fresh fs path name) as (ext & E1 & E2 & E3). cbn [bind]. rewrite E1. cbn [bind].
    exists (aset (path ++ ext ++ ".pkl") r fs), (path ++ ext ++ ".pkl"). split; [reflexivity|].
    assert (N : alookup (path ++ ext ++ ".pkl") fs = None).
    { unfold amem in E2. destruct (alookup (path ++ ext ++ ".pkl") fs); [discriminate|reflexivity]. }
    split; [exact N|]. split; [intros g Hg; apply aset_frame; exact Hg|]. split.
    { intros g c Hg. rewrite aset_frame; [exact Hg|]. intros ->. congruence. }
    split.
    { destruct E3 as [->|[i ->]]; [left; reflexivity|right; exists i; reflexivity]. }
    exists r. unfold load_results. rewrite alookup_aset, String.eqb_refl. split; [reflexivity|].
    unfold of_mpc, of_sim, of_est. rewrite C1, C2, C3. clear. simpl. repeat split; match goal with |- context[last_of ?f l] => destruct (last_of f l) end; reflexivity.
  Qed.

  (** With overwrite=True only the named file changes; an unsupported object is reported and nothing is written. *)
  Theorem C26_overwrite_and_rejection : forall (l : list (savable D)) name path fs,
    (~ In SOther l -> exists fs', save_results l name path true fs = Ok (fs', path ++ name ++ ".pkl")
        /\ (forall g, g <> path ++ name ++ ".pkl" -> alookup g fs' = alookup g fs)
        /\ exists r, load_results (path ++ name ++ ".pkl") fs' = Ok r
             /\ alookup "mpc" r = last_of of_mpc l /\ alookup "simulator" r = last_of of_sim l /\ alookup "estimator" r = last_of of_est l)
    /\ (In SOther l -> forall ow, save_results l name path ow fs = Err ExcGeneric).
  Proof.
    intros l name path fs. pose proof (collect_spec l []) as C. unfold save_results. split.
    - intros Hl. destruct (collect l []) as [r|e]; [|destruct C; contradiction]. destruct C as (_ & C1 & C2 & C3).
      cbn [bind]. eexists. split; [reflexivity|]. split; [intros g Hg; apply aset_frame; exact Hg|].
      exists r. unfold load_results. rewrite alookup_aset, String.eqb_refl. split; [reflexivity|].
      unfold of_mpc, of_sim, of_est. rewrite C1, C2, C3. clear. simpl. repeat split; match goal with |- context[last_of ?f l] => destruct (last_of f l) end; reflexivity.
    - intros Hl ow. destruct (collect l []) as [r|e]; [destruct C; contradiction|]. destruct C as [-> _]. reflexivity.
  Qed.
End SaveThm.
Print Assumptions C26_save_never_destroys.
Print Assumptions C26_overwrite_and_rejection.

Example C26_nonvacuous :
  let fs := [("./r/a.pkl", [("mpc", 1)]); ("./r/001_a.pkl", [("mpc", 2)])] in
  save_results [SMPC 5; SSim 6; SMPC 7] "a" "./r/" false fs
  = Ok (fs ++ [("./r/002_a.pkl", [("mpc", 7); ("simulator", 6)])], "./r/002_a.pkl")%list.
Proof. reflexivity. Qed.
