(** * Properties of sample functions (C93). *)
From Verif Require Import Base DataModel DataProofs SaveProofs SamplingModel SamplingSpec SamplingProofs CallModel CallSpec CallProofs.
Import List.

(** C93: set_sample_function accepts exactly the functions and builtins with a readable signature
    all of whose positional parameters are keys of the first case, and stores them unchanged. *)
Theorem C93_accepted_iff {V} (c : case V) plan f s :
  (let! vars := sampler_vars (c :: plan) in set_sample_function vars f) = Ok s
  <-> (f = PyDef s \/ f = PyBuiltin (Some s))
      /\ forall n d, In (n, d) (sg_posonly s ++ sg_args s) -> In n (map fst c).
Proof.
  simpl. unfold set_sample_function, check_args, argspec_args.
  assert (E : forall t, forallb (fun a => existsb (String.eqb a) (map fst c)) (map fst (sg_posonly t ++ sg_args t)) = true
                        <-> forall n d, In (n, d) (sg_posonly t ++ sg_args t) -> In n (map fst c)).
  { intros t. rewrite forallb_forall. split.
    - intros H n d Hn. apply existsb_eqb, H, in_map_iff. exists (n, d). auto.
    - intros H x Hx. apply in_map_iff in Hx. destruct Hx as [[n d] [<- Hn]]. apply existsb_eqb. exact (H n d Hn). }
  destruct f as [t|[t|]|t]; try (split; [discriminate|intros [[X|X] _]; discriminate]).
  - destruct (forallb _ _) eqn:F.
    + split; [intros X; inversion X; subst; split; [auto|apply E; exact F]|]. intros [[X|X] _]; inversion X; reflexivity.
    + split; [discriminate|]. intros [[X|X] H]; inversion X; subst. apply E in H. congruence.
  - destruct (forallb _ _) eqn:F.
    + split; [intros X; inversion X; subst; split; [auto|apply E; exact F]|]. intros [[X|X] _]; inversion X; reflexivity.
    + split; [discriminate|]. intros [[X|X] H]; inversion X; subst. apply E in H. congruence.
Qed.
Print Assumptions C93_accepted_iff.

(** C93: the call made for a case is possible exactly if the function can be called with the case's
    variables other than "id"; otherwise it raises TypeError. *)
Theorem C93_call_iff {V} (s : pysig) (c : case V) : NoDup (map fst c) ->
  let keys := filter (fun k => negb (String.eqb k "id")) (map fst c) in
  (callable_with s keys -> exists r, py_call s (adel "id" c) = Ok r)
  /\ (~ callable_with s keys -> py_call s (adel "id" c) = Err ExcType).
Proof.
  intros ND keys.
  assert (K : forall n, In n (map fst (adel "id" c)) <-> In n keys).
  { intros n. rewrite (adel_keys "id" c n ND). unfold keys. rewrite filter_In.
    destruct (String.eqb_spec n "id"); simpl; split; [tauto|intros [_ X]; discriminate|tauto|tauto]. }
  assert (C : callable_with s (map fst (adel "id" c)) <-> callable_with s keys).
  { unfold callable_with. split; intros (A & B & D); (split; [exact A|]; split; [intros n Hn; apply K, B; exact Hn|destruct D as [D|D]; [left; exact D|right; intros k Hk; apply D, K; exact Hk]]). }
  rewrite <- C, <- py_call_iff. split; [auto|].
  intros H. destruct (py_call s (adel "id" c)) as [r|e] eqn:E; [exfalso; apply H; eauto|]. rewrite (py_call_err _ _ _ E). reflexivity.
Qed.
Print Assumptions C93_call_iff.

(** C93: take any plan made by declaring the variables and then adding cases in any way.  A function
    that takes variables of the plan only (apart from keyword-only parameters with defaults), and takes all
    of them, is accepted, and for every case it is called with the values of that case. *)
Theorem C93_planned_calls {V W} (w : W) (vs : list (string * option (W -> V * W))) (h : list (pop V W)) (s : pysig) :
  only_cases h -> ~ In "id"%string (map fst vs) -> well_formed_sig s ->
  let plan := pl_plan (prun w (map (fun v => PVar (fst v) (snd v)) vs ++ h)) in
  plan <> [] ->
  callable_with s (map fst vs) ->
  (forall n d, In (n, d) (sg_posonly s ++ sg_args s) -> In n (map fst vs)) ->
  (let! vars := sampler_vars plan in set_sample_function vars (PyDef s)) = Ok s
  /\ forall c, In c plan -> exists env extra, py_call s (adel "id" c) = Ok (env, extra)
       /\ (forall n, keyword_param s n -> In n (map fst vs) -> exists v, alookup n c = Some (SUser v) /\ alookup n env = Some (Given (SUser v)))
       /\ (forall n, keyword_param s n -> ~ In n (map fst vs) -> alookup n env = Some Default)
       /\ (forall n v, alookup n extra = Some v <-> In n (map fst vs) /\ ~ keyword_param s n /\ alookup n c = Some v).
Proof.
  intros OC ID WF plan NE CW SUB.
  assert (PK : forall c, In c plan -> case_keys (map fst vs) c) by (intros c Hc; exact (plan_keys w vs h c OC Hc)).
  split.
  - destruct plan as [|c0 plan0] eqn:EP; [congruence|]. apply C93_accepted_iff. split; [auto|].
    intros n d Hn. destruct (PK c0 (or_introl eq_refl)) as (_ & K & _). apply K. right. exact (SUB n d Hn).
  - intros c Hc. destruct (PK c Hc) as (ND & K & AS).
    assert (K' : forall n, In n (map fst (adel "id" c)) <-> In n (map fst vs)).
    { intros n. rewrite (adel_keys "id" c n ND), K. split; [intros [A [B|B]]; [congruence|exact B]|]. intros H. split; [intros ->; contradiction|auto]. }
    assert (CW' : callable_with s (map fst (adel "id" c))).
    { destruct CW as (A & B & D). split; [exact A|]. split; [intros n Hn; apply K', B, Hn|]. destruct D as [D|D]; [left; exact D|right; intros k Hk; apply D, K', Hk]. }
    destruct (proj2 (py_call_iff s (adel "id" c)) CW') as [[env extra] E]. exists env, extra. split; [exact E|].
    assert (E0 := E). unfold py_call in E.
    destruct (negb (forallb snd (sg_posonly s))) eqn:F; [discriminate|].
    destruct (negb (sg_varkw s) && _); [discriminate|].
    destruct (mapM (bind_param (adel "id" c)) (sg_args s ++ sg_kwonly s)) as [b|e] eqn:B; [|discriminate].
    simpl in E. injection E as E1 E2.
    apply bind_param_vals in B.
    assert (NDE : NoDup (map fst env)).
    { rewrite <- E1, B, map_app, !map_map. simpl. unfold well_formed_sig in WF. rewrite map_app in WF. exact WF. }
    assert (LK : forall n d, In (n, d) (sg_args s ++ sg_kwonly s) ->
                 alookup n env = Some (match alookup n (adel "id" c) with Some a => Given a | None => Default end)).
    { intros n d Hn. apply alookup_nodup; [exact NDE|]. rewrite <- E1, B. apply in_app_iff. right. apply in_map_iff. exists (n, d). auto. }
    assert (VAL : forall n, In n (map fst vs) -> n <> "id"%string) by (intros n Hn ->; contradiction).
    split; [|split].
    + intros n [d Hd] Hn. destruct (AS n Hn (VAL n Hn)) as [v Hv]. exists v. split; [exact Hv|].
      rewrite (LK n d Hd), adel_lookup, Hv by (apply VAL; exact Hn). reflexivity.
    + intros n [d Hd] Hn. rewrite (LK n d Hd). destruct (alookup n (adel "id" c)) eqn:X; [|reflexivity].
      exfalso. apply Hn, K', amem_in. unfold amem. rewrite X. reflexivity.
    + clear E1 B LK NDE E0. intros n v.
      assert (G : forall l : case V, alookup n (filter (fun kv => negb (existsb (String.eqb (fst kv)) (named s))) l)
                          = if existsb (String.eqb n) (named s) then None else alookup n l).
      { induction l as [|[m a] l IH]; simpl; [destruct (existsb _ _); reflexivity|].
        destruct (existsb (String.eqb m) (named s)) eqn:X; simpl.
        - rewrite IH. destruct (String.eqb_spec n m) as [->|]; [rewrite X; reflexivity|reflexivity].
        - rewrite IH. destruct (String.eqb_spec n m) as [->|]; [rewrite X; reflexivity|reflexivity]. }
      rewrite <- E2, G. destruct (existsb (String.eqb n) (named s)) eqn:X.
      * split; [discriminate|]. intros (_ & N & _). exfalso. apply N, named_in, existsb_eqb, X.
      * assert (N : ~ keyword_param s n) by (intros Y; apply named_in, existsb_eqb in Y; congruence).
        destruct (string_dec n "id") as [->|Hid].
        -- split; [|intros (Y & _); contradiction]. intros Y. exfalso. apply ID, K', amem_in. unfold amem. rewrite Y. reflexivity.
        -- rewrite (adel_lookup "id" c n Hid). split; [|tauto]. intros Y. split; [|auto].
           assert (Z : In n (map fst c)) by (apply amem_in; unfold amem; rewrite Y; reflexivity). apply K in Z. destruct Z; [contradiction|assumption].
Qed.
Print Assumptions C93_planned_calls.

(** C93: a case for which the function cannot be called makes sample_idx raise TypeError (if the result
    is to be computed at all), and no file is touched. *)
Theorem C93_impossible_call_raises {V R} (sm : sampler V R) s body fs i c id name :
  sm_fun sm = Some (sample_function s body) -> nth_error (sm_plan sm) i = Some c -> NoDup (map fst c) ->
  alookup "id" c = Some (SId id) -> save_name sm id = Ok name -> (amem (sm_dir sm ++ name) fs = false \/ sm_overwrite sm = true) ->
  ~ callable_with s (filter (fun k => negb (String.eqb k "id")) (map fst c)) ->
  sample_idx sm fs (Z.of_nat i) = (fs, Err ExcType).
Proof.
  intros HF HN ND HI HS HX NC. destruct (C93_call_iff s c ND) as [_ X]. specialize (X NC).
  assert (HB : begin_sample sm fs (Z.of_nat i) = TCall i name).
  { unfold begin_sample. rewrite HF. assert (L : i < List.length (sm_plan sm)) by (apply nth_error_Some; congruence).
    replace ((Z.of_nat i >=? 0) && (Z.of_nat i <=? Z.of_nat (List.length (sm_plan sm))))%Z with true
      by (symmetry; apply andb_true_intro; split; [apply Z.geb_le; lia|apply Z.leb_le; lia]).
    rewrite Nat2Z.id, HN, HI, HS. destruct HX as [-> | ->]; [reflexivity|rewrite orb_true_r; reflexivity]. }
  unfold sample_idx, srun, start. cbn [repeat fold_left map].
  assert (S1 : sstep sm (mkSys fs [mkProc [Z.of_nat i] TIdle] []) 0 = mkSys fs [mkProc [] (TCall i name)] []).
  { unfold sstep. cbn [nth_error sprocs pstep pt pq sfs scalls update_nth app]. rewrite HB. reflexivity. }
  assert (S2 : sstep sm (mkSys fs [mkProc [] (TCall i name)] []) 0 = mkSys fs [mkProc [] (TFail ExcType)] [i]).
  { unfold sstep. cbn [nth_error sprocs pstep pt pq sfs scalls update_nth app]. rewrite HF, HN. unfold sample_function. rewrite X. reflexivity. }
  assert (S3 : forall l, sstep sm (mkSys fs [mkProc [] (TFail ExcType)] l) 0 = mkSys fs [mkProc [] (TFail ExcType)] l).
  { intros l. unfold sstep. cbn [nth_error sprocs pstep pt pq sfs scalls update_nth]. rewrite app_nil_r. reflexivity. }
  rewrite S1, S2, !S3. reflexivity.
Qed.
Print Assumptions C93_impossible_call_raises.

(** C93 (false): "an accepted function can be called for every case".  Nothing checks that all variables
    are taken, that "id" is not a parameter, that keyword-only parameters exist in the plan, that the first case is
    representative, or that no parameter is positional-only. *)
Definition kase (ks : list string) : case nat := map (fun k => (k, SUser 1)) ks ++ [("id", SId "000")]%string.
Theorem C93_accepted_callable_refuted :
  forall f, In f [mkSig [] [("alpha", false)] [] false; mkSig [] [("alpha", false); ("beta", false); ("id", false)] [] false;
                  mkSig [] [("alpha", false); ("beta", false)] [("gamma", false)] false; mkSig [("alpha", false)] [("beta", false)] [] false]%string ->
  let c := kase ["alpha"; "beta"]%string in
  (let! vars := sampler_vars [c] in set_sample_function vars (PyDef f)) = Ok f /\ py_call f (adel "id" c) = Err ExcType.
Proof. intros f [<-|[<-|[<-|[<-|[]]]]]; vm_compute; split; reflexivity. Qed.
Print Assumptions C93_accepted_callable_refuted.

(** ... and a function accepted for the first case may be impossible for a later one (a variable that was
    declared after the first case). *)
Theorem C93_first_case_only_refuted : exists (h : list (pop nat unit)) f c,
  let plan := pl_plan (prun tt h) in
  (let! vars := sampler_vars plan in set_sample_function vars (PyDef f)) = Ok f
  /\ (forall c0, nth_error plan 0 = Some c0 -> exists r, py_call f (adel "id" c0) = Ok r)
  /\ nth_error plan 1 = Some c /\ py_call f (adel "id" c) = Err ExcType.
Proof.
  exists [PVar "alpha" None; PAdd [("alpha", 1)]; PVar "beta" None; PAdd [("alpha", 1); ("beta", 2)]]%string, (mkSig [] [("alpha", false)] [] false)%string.
  eexists. cbv zeta. split; [vm_compute; reflexivity|]. split; [|split; [vm_compute; reflexivity|vm_compute; reflexivity]].
  intros c0 H. vm_compute in H. inversion H; subst. eexists. vm_compute. reflexivity.
Qed.
Print Assumptions C93_first_case_only_refuted.

(** C93 (false): "a function that can be called for every case is accepted": an additional parameter
    with a default value is rejected, although the call would be possible. *)
Theorem C93_working_rejected_refuted : exists f,
  let c := kase ["alpha"]%string in
  (exists r, py_call f (adel "id" c) = Ok r) /\ (let! vars := sampler_vars [c] in set_sample_function vars (PyDef f)) = Err ExcAssertion.
Proof. exists (mkSig [] [("alpha", false); ("gain", true)] [] false)%string. cbv zeta. split; [eexists|]; vm_compute; reflexivity. Qed.
Print Assumptions C93_working_rejected_refuted.

(** Non-vacuity: two variables, one with a generator; cases added by hand and generated; a function with
    both variables and a keyword-only parameter with a default. *)
Example C93_nonvacuous :
  let vs := [("alpha", None); ("beta", Some (fun w : nat => (w, S w)))]%string in
  let h := [PAdd [("alpha", 7)]; PProduct [("alpha", Some [1; 2])]]%string in
  let s := (mkSig [] [("beta", false); ("alpha", false)] [("gain", true)] false)%string in
  only_cases h /\ ~ In "id"%string (map fst vs) /\ well_formed_sig s /\ callable_with s (map fst vs)
  /\ (forall n d, In (n, d) (sg_posonly s ++ sg_args s) -> In n (map fst vs))
  /\ List.length (pl_plan (prun 5 (map (fun v => PVar (fst v) (snd v)) vs ++ h))) = 3.
Proof.
  cbv zeta. split; [|split; [|split; [|split; [|split]]]].
  - intros o [<-|[<-|[]]]; exact I.
  - simpl. intros [X|[X|[]]]; discriminate.
  - unfold well_formed_sig. simpl. repeat constructor; simpl; intuition discriminate.
  - split; [intros n d []|]. split.
    + intros n H. unfold required in H. simpl in H. simpl. intuition congruence.
    + right. intros k H. unfold keyword_param. simpl in *. destruct H as [<-|[<-|[]]]; eauto.
  - intros n d H. simpl in *. intuition congruence.
  - reflexivity.
Qed.
Print Assumptions C93_nonvacuous.
