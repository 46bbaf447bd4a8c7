(** * Theorems C34, C35: the data handler. *)
From Verif Require Import Base DataModel DataProofs SaveProofs SamplingModel SamplingSpec SamplingProofs.
Import List.
From Coq Require Import Sorted.

Section H.
  Context {V R O : Type}.
  Variable of_mat : R -> R.
  Notation handler := (handler V R O).

  Lemma alookup_map_case (c : case V) k : alookup k (map (fun kv => (fst kv, @RCase V R O (snd kv))) c) = option_map RCase (alookup k c).
  Proof. induction c as [|[k' v] c IH]; simpl; [reflexivity|]. destruct (String.eqb k k'); [reflexivity|exact IH]. Qed.

  Lemma fold_post_lookup pp c r : forall out k, NoDup (map fst pp) ->
    alookup k (fold_left (@post_one V R O c r) pp out) =
      match alookup k pp, r with
      | Some _, None => Some RNone
      | Some (PP1 f), Some x => Some (RPost (f x))
      | Some (PP2 f), Some x => Some (RPost (f c x))
      | Some PPn, Some _ => alookup k out
      | None, _ => alookup k out
      end.
  Proof.
    induction pp as [|[n g] pp IH]; intros out k ND; simpl; [reflexivity|].
    inversion ND as [|? ? Hn ND']; subst. rewrite IH by exact ND'.
    assert (N : alookup n pp = None).
    { destruct (alookup n pp) eqn:E; [|reflexivity]. exfalso. apply Hn. apply amem_in. unfold amem. rewrite E. reflexivity. }
    destruct (String.eqb_spec k n) as [->|Hk].
    - rewrite N. unfold post_one. simpl. destruct r as [x|].
      + destruct g; try (rewrite alookup_aset, String.eqb_refl; reflexivity). reflexivity.
      + rewrite alookup_aset, String.eqb_refl. destruct g; reflexivity.
    - assert (X : alookup k (post_one c r out (n, g)) = alookup k out).
      { unfold post_one. simpl. destruct r as [x|]; [destruct g|]; try (rewrite alookup_aset; destruct (String.eqb_spec k n); [contradiction|reflexivity]). reflexivity. }
      rewrite X. reflexivity.
  Qed.

  Lemma post_process_ok (h : handler) c r : NoDup (map fst (dh_pp h)) -> row_ok (dh_pp h) c r (post_process h c r).
  Proof.
    intros ND k. unfold post_process. destruct (dh_pp h) as [|p pp] eqn:E.
    - rewrite alookup_aset. destruct (String.eqb k "res"); [reflexivity|]. apply alookup_map_case.
    - rewrite (fold_post_lookup _ _ _ _ k ND), alookup_map_case. reflexivity.
  Qed.

  (** same handler apart from the cache *)
  Definition same_cfg (h h' : handler) : Prop :=
    dh_plan h' = dh_plan h /\ dh_dir h' = dh_dir h /\ dh_name h' = dh_name h /\ dh_fmt h' = dh_fmt h /\ dh_pp h' = dh_pp h.
  Lemma same_refl h : same_cfg h h.
  Proof. unfold same_cfg; auto. Qed.
  Lemma same_trans h1 h2 h3 : same_cfg h1 h2 -> same_cfg h2 h3 -> same_cfg h1 h3.
  Proof. unfold same_cfg. intuition congruence. Qed.
  Lemma stored_load (h : handler) fs id r : stored of_mat h fs id r -> dh_load of_mat h fs id = Ok r.
  Proof.
    assert (L : forall ext, String.append (dh_dir h) (String.append (String.append (dh_name h) (String.append "_" id)) ext) = result_file h id ext).
    { intros ext. unfold result_file. f_equal. induction (dh_name h) as [|a s IH]; [reflexivity|]. simpl in *. f_equal. exact IH. }
    unfold dh_load, load_name. intros [r' F A|r' F A|F A|F A]; rewrite F; cbn [bind]; rewrite L, A; reflexivity.
  Qed.
  Lemma same_load h h' fs id : same_cfg h h' -> dh_load of_mat h' fs id = dh_load of_mat h fs id.
  Proof. intros (_ & E1 & E2 & E3 & _). unfold dh_load, load_name. rewrite E1, E2, E3. reflexivity. Qed.
  Lemma same_post h h' c r : same_cfg h h' -> post_process h' c r = post_process h c r.
  Proof. intros (_ & _ & _ & _ & E). unfold post_process. rewrite E. reflexivity. Qed.

  (** all cache entries come from one of the contexts *)
  Definition from_ctx (ctx : list (handler * list (string * content R))) (c : list (string * option R)) : Prop :=
    Forall (fun e => exists h fs, In (h, fs) ctx /\ dh_load of_mat h fs (fst e) = Ok (snd e)) c.

  Lemma alookup_in {A} k (a : A) l : alookup k l = Some a -> In (k, a) l.
  Proof. induction l as [|[k' b] l IH]; simpl; [discriminate|]. destruct (String.eqb_spec k k') as [->|]; [intros H; inversion H; auto|auto]. Qed.

  Lemma lazy_cfg ctx h fs c h' r : from_ctx ctx (dh_cache h) -> In (h, fs) ctx \/ (exists h0, same_cfg h0 h /\ In (h0, fs) ctx) ->
    lazy_loading of_mat h fs c = Ok (h', r) -> same_cfg h h' /\ from_ctx ctx (dh_cache h').
  Proof.
    intros Hc Hctx. unfold lazy_loading. destruct (alookup "id" c) as [[v|id]|]; try discriminate.
    destruct (alookup id (dh_cache h)) as [r0|].
    - intros E; inversion E; subst. split; [apply same_refl|exact Hc].
    - destruct (dh_load of_mat h fs id) as [r0|e] eqn:El; simpl; [|discriminate]. intros E; inversion E; subst. split.
      + unfold same_cfg; auto.
      + simpl. apply Forall_app. split; [exact Hc|]. constructor; [|constructor]. simpl.
        destruct Hctx as [X|(h0 & S & X)]; [exists h, fs; auto|]. exists h0, fs. split; [exact X|]. rewrite <- (same_load h0 h fs id S). exact El.
  Qed.

  Lemma get_rows_cfg ctx fs cs : forall h, from_ctx ctx (dh_cache h) -> (exists h0, same_cfg h0 h /\ In (h0, fs) ctx) ->
    same_cfg h (fst (get_rows of_mat h fs cs)) /\ from_ctx ctx (dh_cache (fst (get_rows of_mat h fs cs))).
  Proof.
    induction cs as [|c cs IH]; intros h Hc Hx; simpl; [split; [apply same_refl|exact Hc]|].
    destruct (lazy_loading of_mat h fs c) as [[h' r]|e] eqn:El; [|simpl; split; [apply same_refl|exact Hc]].
    destruct (lazy_cfg ctx h fs c h' r Hc (or_intror Hx) El) as [S1 C1].
    destruct (IH h' C1) as [S2 C2]. { destruct Hx as (h0 & S0 & X). exists h0. split; [eapply same_trans; eassumption|exact X]. }
    destruct (get_rows of_mat h' fs cs) as [h'' [rows|e]]; simpl in *; (split; [eapply same_trans; eassumption|exact C2]).
  Qed.

  Lemma filter_rows_cfg ctx fs fin fout cs : forall h, from_ctx ctx (dh_cache h) -> (exists h0, same_cfg h0 h /\ In (h0, fs) ctx) ->
    same_cfg h (fst (filter_rows of_mat h fs fin fout cs)) /\ from_ctx ctx (dh_cache (fst (filter_rows of_mat h fs fin fout cs))).
  Proof.
    induction cs as [|c cs IH]; intros h Hc Hx; simpl; [split; [apply same_refl|exact Hc]|].
    destruct (call_filter fin c) as [[|]|e]; [|apply IH; assumption|simpl; split; [apply same_refl|exact Hc]].
    destruct (lazy_loading of_mat h fs c) as [[h' r]|e] eqn:El; [|simpl; split; [apply same_refl|exact Hc]].
    destruct (lazy_cfg ctx h fs c h' r Hc (or_intror Hx) El) as [S1 C1].
    destruct (call_filter fout (post_process h c r)) as [keep|e]; [|simpl; split; [exact S1|exact C1]].
    destruct (IH h' C1) as [S2 C2]. { destruct Hx as (h0 & S0 & X). exists h0. split; [eapply same_trans; eassumption|exact X]. }
    destruct (filter_rows of_mat h' fs fin fout cs) as [h'' [rows|e]]; simpl in *; (split; [eapply same_trans; eassumption|exact C2]).
  Qed.

  Lemma from_ctx_mono ctx ctx' c : incl ctx ctx' -> from_ctx ctx c -> from_ctx ctx' c.
  Proof. intros H. apply Forall_impl. intros e (h & fs & X & Y). exists h, fs. auto. Qed.

  Lemma aset_keys {A} k (a : A) l : NoDup (map fst l) -> NoDup (map fst (aset k a l)).
  Proof.
    induction l as [|[k' b] l IH]; simpl; intros ND; [constructor; [intros []|constructor]|].
    inversion ND as [|? ? Hk ND']; subst. destruct (String.eqb_spec k k') as [->|Hne]; simpl; [exact ND|].
    constructor; [|auto]. intros Hin. apply Hk. assert (X : amem k' (aset k a l) = true) by (apply amem_in; exact Hin).
    unfold amem in X. rewrite alookup_aset in X. destruct (String.eqb_spec k' k); [congruence|].
    apply amem_in. unfold amem. exact X.
  Qed.

  Lemma hcall_inv ctx h fs o : NoDup (map fst (dh_pp h)) -> from_ctx ctx (dh_cache h) -> In (h, fs) ctx ->
    NoDup (map fst (dh_pp (hcall of_mat h fs o))) /\ from_ctx ctx (dh_cache (hcall of_mat h fs o)) /\ dh_plan (hcall of_mat h fs o) = dh_plan h.
  Proof.
    intros ND Hc Hin. destruct o as [ind|fin fout|n f|d n fm]; simpl.
    - unfold dh_getitem. destruct (select (dh_plan h) ind) as [cs|e]; [|simpl; auto].
      destruct (get_rows_cfg ctx fs cs h Hc (ex_intro _ h (conj (same_refl h) Hin))) as [(E0 & _ & _ & _ & E) C]. rewrite E. auto.
    - unfold dh_filter. destruct (filter_rows_cfg ctx fs fin fout (dh_plan h) h Hc (ex_intro _ h (conj (same_refl h) Hin))) as [(E0 & _ & _ & _ & E) C].
      rewrite E. auto.
    - split; [apply aset_keys; exact ND|auto].
    - auto.
  Qed.

  Lemma hrun_inv hist : forall h ctx, NoDup (map fst (dh_pp h)) -> from_ctx ctx (dh_cache h) ->
    NoDup (map fst (dh_pp (hrun of_mat h hist))) /\ from_ctx (ctx ++ contexts of_mat h hist) (dh_cache (hrun of_mat h hist))
    /\ dh_plan (hrun of_mat h hist) = dh_plan h.
  Proof.
    induction hist as [|[fs o] hist IH]; intros h ctx ND Hc; simpl; [rewrite app_nil_r; auto|].
    destruct (hcall_inv (ctx ++ [(h, fs)]) h fs o ND) as (A & B & C).
    - eapply from_ctx_mono; [|exact Hc]. apply incl_appl, incl_refl.
    - apply in_app_iff. right. left. reflexivity.
    - destruct (IH _ (ctx ++ [(h, fs)]) A B) as (A' & B' & C'). split; [exact A'|]. split; [|congruence].
      rewrite <- app_assoc in B'. exact B'.
  Qed.

  (** what the lazily loaded result is, when every context agrees with the present disk *)
  Lemma lazy_now ctx (h : handler) fs c id r : from_ctx ctx (dh_cache h) ->
    (forall hj fj, In (hj, fj) ctx -> dh_load of_mat hj fj id = dh_load of_mat h fs id) ->
    alookup "id" c = Some (SId id) -> dh_load of_mat h fs id = Ok r ->
    exists h', lazy_loading of_mat h fs c = Ok (h', r).
  Proof.
    intros Hc Hag Hid Hr. unfold lazy_loading. rewrite Hid. destruct (alookup id (dh_cache h)) as [r0|] eqn:E.
    - apply alookup_in in E. unfold from_ctx in Hc. rewrite Forall_forall in Hc. destruct (Hc _ E) as (hj & fj & X & Y). simpl in Y.
      rewrite (Hag _ _ X), Hr in Y. inversion Y; subst. eauto.
    - rewrite Hr. simpl. eauto.
  Qed.

  Lemma get_rows_now ctx fs (disk : case V -> option R) cs : forall h : handler,
    from_ctx ctx (dh_cache h) -> (exists h0, same_cfg h0 h /\ In (h0, fs) ctx) ->
    (forall c, In c cs -> exists id, alookup "id" c = Some (SId id) /\ dh_load of_mat h fs id = Ok (disk c)
        /\ forall hj fj, In (hj, fj) ctx -> dh_load of_mat hj fj id = dh_load of_mat h fs id) ->
    snd (get_rows of_mat h fs cs) = Ok (map (fun c => post_process h c (disk c)) cs).
  Proof.
    induction cs as [|c cs IH]; intros h Hc Hx H; simpl; [reflexivity|].
    destruct (H c (or_introl eq_refl)) as (id & Hid & Hl & Hag). destruct (lazy_now ctx h fs c id _ Hc Hag Hid Hl) as [h' El].
    rewrite El. destruct (lazy_cfg ctx h fs c h' _ Hc (or_intror Hx) El) as [S1 C1].
    assert (X := IH h' C1). destruct (get_rows of_mat h' fs cs) as [h'' r]. simpl in X. rewrite X.
    - simpl. do 2 f_equal. apply map_ext. intros c'. apply same_post. exact S1.
    - destruct Hx as (h0 & S0 & X0). exists h0. split; [eapply same_trans; eassumption|exact X0].
    - intros c' Hc'. destruct (H c' (or_intror Hc')) as (id' & A & B & D). exists id'. rewrite (same_load h h' fs id' S1). auto.
  Qed.

  (** ** C34 *)
  (** The handler was created, and any calls were made while the disk was in any states; now it is
      indexed while the disk is [fs].  If the result of every selected case is the same on disk now as
      it was at the earlier calls (with the directory settings of that time), the rows returned are, in order, the selected cases with
      all their values and the post-processed results, None where there is no file.
      _partial: without that condition a stale result is returned, see the refutation. *)
  Theorem C34_current_results_partial : forall plan dir name fmt hist fs ind cs (disk : case V -> option R),
    let h := hrun of_mat (@new_handler V R O plan dir name fmt) hist in
    select plan ind = Ok cs ->
    (forall c, In c cs -> exists id, alookup "id" c = Some (SId id) /\ stored of_mat h fs id (disk c)
        /\ forall hj fj, In (hj, fj) (contexts of_mat (new_handler plan dir name fmt) hist) -> stored of_mat hj fj id (disk c)) ->
    exists rows, snd (dh_getitem of_mat h fs ind) = Ok rows /\ Forall2 (fun c row => row_ok (dh_pp h) c (disk c) row) cs rows.
  Proof.
    intros plan dir name fmt hist fs ind cs disk h Hsel H.
    destruct (hrun_inv hist (new_handler plan dir name fmt) [] (NoDup_nil _) (Forall_nil _)) as (ND & C & P). fold h in ND, C, P.
    simpl app in C. simpl dh_plan in P. unfold dh_getitem. rewrite P, Hsel.
    set (ctx := contexts of_mat (new_handler plan dir name fmt) hist ++ [(h, fs)]).
    assert (C' : from_ctx ctx (dh_cache h)) by (eapply from_ctx_mono; [|exact C]; apply incl_appl, incl_refl).
    exists (map (fun c => post_process h c (disk c)) cs). split.
    - apply (get_rows_now ctx); [exact C'| |].
      + exists h. split; [apply same_refl|]. apply in_app_iff. right; left; reflexivity.
      + intros c Hc. destruct (H c Hc) as (id & A & B & D). exists id. split; [exact A|]. split; [apply stored_load, B|].
        intros hj fj Hin. apply in_app_iff in Hin. destruct Hin as [Hin|[E|[]]]; [rewrite (stored_load _ _ _ _ (D _ _ Hin)), (stored_load _ _ _ _ B); reflexivity|inversion E; reflexivity].
    - clear - ND. induction cs as [|c cs IH]; simpl; constructor; [|exact IH]. apply post_process_ok. exact ND.
  Qed.

  (** Index semantics: an int selects one case (negative: from the end; out of range: IndexError), [:]
      the whole plan, [a:b] with 0 <= a <= b <= n the cases a..b-1. *)
  Lemma mapM_py_nth {A} (l : list A) a k : a + k <= length l ->
    mapM (py_nth l) (map (fun j => (Z.of_nat a + Z.of_nat j * 1)%Z) (seq 0 k)) = Ok (firstn k (skipn a l)).
  Proof.
    assert (K : forall k' b, a + b + k' <= length l ->
      mapM (py_nth l) (map (fun j => (Z.of_nat a + Z.of_nat j * 1)%Z) (seq b k')) = Ok (firstn k' (skipn (a + b) l))).
    { induction k' as [|k' IH]; intros b L; simpl; [reflexivity|].
      assert (N : nth_error l (a + b) <> None) by (apply nth_error_Some; lia). destruct (nth_error l (a + b)) as [x|] eqn:E; [|congruence].
      assert (P : py_nth l (Z.of_nat a + Z.of_nat b * 1) = Ok x).
      { unfold py_nth. replace (Z.of_nat a + Z.of_nat b * 1 <? 0)%Z with false by (symmetry; apply Z.ltb_ge; lia). cbv zeta.
        replace ((Z.of_nat a + Z.of_nat b * 1 <? 0)%Z || (Z.of_nat (length l) <=? Z.of_nat a + Z.of_nat b * 1)%Z) with false.
        2:{ symmetry. apply orb_false_iff. split; [apply Z.ltb_ge|apply Z.leb_gt]; lia. }
        replace (Z.to_nat (Z.of_nat a + Z.of_nat b * 1)) with (a + b) by lia. rewrite E. reflexivity. }
      rewrite P. simpl. rewrite (IH (S b)) by lia. simpl.
      replace (skipn (a + b) l) with (x :: skipn (a + S b) l); [reflexivity|].
      replace (a + S b) with (S (a + b)) by lia. clear - E. revert E. generalize (a + b). intros n. revert l.
      induction n as [|n IHn]; intros [|y l] E; simpl in *; try discriminate; [inversion E; reflexivity|]. apply IHn. exact E. }
    intros L. rewrite (K k 0) by lia. rewrite Nat.add_0_r. reflexivity.
  Qed.

  Theorem C34_index_semantics : forall (plan : list (case V)),
    (forall i, 0 <= i < length plan -> select plan (IInt (Z.of_nat i)) = match nth_error plan i with Some c => Ok [c] | None => Err ExcIndex end)
    /\ (forall i, 1 <= i <= length plan -> select plan (IInt (- Z.of_nat i)) = match nth_error plan (length plan - i) with Some c => Ok [c] | None => Err ExcIndex end)
    /\ (forall i, (i < - Z.of_nat (length plan) \/ Z.of_nat (length plan) <= i)%Z -> select plan (IInt i) = Err ExcIndex)
    /\ select plan (ISlice None None None) = Ok plan
    /\ (forall a b, a <= b <= length plan -> select plan (ISlice (Some (Z.of_nat a)) (Some (Z.of_nat b)) None) = Ok (firstn (b - a) (skipn a plan))).
  Proof.
    intros plan.
    assert (SL : forall a b, a <= b <= length plan ->
      mapM (py_nth plan) (map (fun k => (Z.of_nat a + Z.of_nat k * 1)%Z) (seq 0 (Z.to_nat (if (Z.of_nat a <? Z.of_nat b)%Z then ((Z.of_nat b - Z.of_nat a - 1) / 1 + 1)%Z else 0%Z))))
      = Ok (firstn (b - a) (skipn a plan))).
    { intros a b L. rewrite Z.div_1_r.
      replace (Z.to_nat (if (Z.of_nat a <? Z.of_nat b)%Z then (Z.of_nat b - Z.of_nat a - 1 + 1)%Z else 0%Z)) with (b - a).
      - apply mapM_py_nth. lia.
      - destruct (Z.ltb_spec (Z.of_nat a) (Z.of_nat b)); lia. }
    split; [|split; [|split; [|split]]].
    - intros i Hi. simpl. unfold py_nth. replace (Z.of_nat i <? 0)%Z with false by (symmetry; apply Z.ltb_ge; lia). cbv zeta.
      replace ((Z.of_nat i <? 0)%Z || (Z.of_nat (length plan) <=? Z.of_nat i)%Z) with false
        by (symmetry; apply orb_false_iff; split; [apply Z.ltb_ge|apply Z.leb_gt]; lia).
      rewrite Nat2Z.id. destruct (nth_error plan i); reflexivity.
    - intros i Hi. simpl. unfold py_nth. replace (- Z.of_nat i <? 0)%Z with true by (symmetry; apply Z.ltb_lt; lia). cbv zeta.
      replace ((Z.of_nat (length plan) + - Z.of_nat i <? 0)%Z || (Z.of_nat (length plan) <=? Z.of_nat (length plan) + - Z.of_nat i)%Z) with false
        by (symmetry; apply orb_false_iff; split; [apply Z.ltb_ge|apply Z.leb_gt]; lia).
      replace (Z.to_nat (Z.of_nat (length plan) + - Z.of_nat i)) with (length plan - i) by lia. destruct (nth_error plan _); reflexivity.
    - intros i Hi. simpl. unfold py_nth.
      assert (X : (((if (i <? 0)%Z then Z.of_nat (length plan) + i else i) <? 0)%Z || (Z.of_nat (length plan) <=? (if (i <? 0)%Z then Z.of_nat (length plan) + i else i))%Z) = true).
      { apply orb_true_iff. destruct (Z.ltb_spec i 0); [left; apply Z.ltb_lt; lia|right; apply Z.leb_le; lia]. }
      cbv zeta. rewrite X. reflexivity.
    - unfold select, slice_positions. cbn [Z.eqb bind]. change (1 <? 0)%Z with false. cbv iota.
      pose proof (SL 0 (length plan) ltac:(lia)) as X. simpl (Z.of_nat 0) in X.
      etransitivity; [exact X|]. rewrite Nat.sub_0_r. simpl. rewrite firstn_all. reflexivity.
    - intros a b L. unfold select, slice_positions, adjust. cbn [Z.eqb bind]. change (1 <? 0)%Z with false. cbv iota.
      replace (Z.of_nat a <? 0)%Z with false by (symmetry; apply Z.ltb_ge; lia).
      replace (Z.of_nat b <? 0)%Z with false by (symmetry; apply Z.ltb_ge; lia).
      replace (if (Z.of_nat (length plan) <=? Z.of_nat a)%Z then Z.of_nat (length plan) else Z.of_nat a) with (Z.of_nat a)
        by (destruct (Z.leb_spec (Z.of_nat (length plan)) (Z.of_nat a)); lia).
      replace (if (Z.of_nat (length plan) <=? Z.of_nat b)%Z then Z.of_nat (length plan) else Z.of_nat b) with (Z.of_nat b)
        by (destruct (Z.leb_spec (Z.of_nat (length plan)) (Z.of_nat b)); lia).
      apply SL. exact L.
  Qed.

  (** Slices with any start, stop and step: a step of 0 is refused with ValueError; otherwise nothing
      is raised, and the cases are those at the positions of the slice, in the direction of the step. *)
  Lemma adjust_limit n st v : (0 <= n)%Z -> (st <> 0)%Z -> adjust n st v = limit n st (from_end n v).
  Proof.
    intros Hn Hs. unfold adjust, limit, from_end.
    destruct (Z.ltb_spec v 0), (Z.ltb_spec st 0), (Z.ltb_spec 0 st); try lia; cbv zeta;
      repeat match goal with |- context [Z.ltb ?a ?b] => destruct (Z.ltb_spec a b) | |- context [Z.leb ?a ?b] => destruct (Z.leb_spec a b) end; lia.
  Qed.

  Lemma mapM_py_nth_in {A} (l : list A) ps : (forall p, In p ps -> (0 <= p < Z.of_nat (length l))%Z) ->
    exists cs, mapM (py_nth l) ps = Ok cs /\ Forall2 (fun p c => nth_error l (Z.to_nat p) = Some c) ps cs.
  Proof.
    induction ps as [|p ps IH]; intros H; simpl; [exists []; split; [reflexivity|constructor]|].
    destruct IH as (cs & -> & F); [intros q Hq; apply H; right; exact Hq|].
    pose proof (H p (or_introl eq_refl)) as Hp. unfold py_nth.
    replace (p <? 0)%Z with false by (symmetry; apply Z.ltb_ge; lia). cbv zeta.
    replace ((p <? 0)%Z || (Z.of_nat (length l) <=? p)%Z) with false
      by (symmetry; apply orb_false_iff; split; [apply Z.ltb_ge|apply Z.leb_gt]; lia).
    assert (N : nth_error l (Z.to_nat p) <> None) by (apply nth_error_Some; lia).
    destruct (nth_error l (Z.to_nat p)) as [x|] eqn:E; [|congruence]. simpl. exists (x :: cs). split; [reflexivity|]. constructor; assumption.
  Qed.

  Theorem C34_slices : forall (plan : list (case V)) start stop step,
    let n := Z.of_nat (length plan) in
    let st := match step with Some s => s | None => 1%Z end in
    (st = 0%Z -> select plan (ISlice start stop step) = Err ExcValue)
    /\ (st <> 0%Z -> exists ps cs, select plan (ISlice start stop step) = Ok cs
          /\ Forall2 (fun p c => nth_error plan (Z.to_nat p) = Some c) ps cs
          /\ (forall p, In p ps <-> in_slice n start stop st p)
          /\ StronglySorted (fun p q => 0 < (q - p) * st)%Z ps
          /\ (forall p, In p ps -> 0 <= p < n)%Z).
  Proof.
    intros plan start stop step n st.
    assert (Hn : (0 <= n)%Z) by (unfold n; lia). split.
    - intros H. unfold select, slice_positions. fold st. rewrite H. reflexivity.
    - intros Hst.
      set (a := slice_start n st start). set (b := slice_stop n st stop).
      set (len := if (st <? 0)%Z then (if (b <? a)%Z then ((a - b - 1) / (- st) + 1)%Z else 0%Z)
               else (if (a <? b)%Z then ((b - a - 1) / st + 1)%Z else 0%Z)).
      set (ps := map (fun k => (a + Z.of_nat k * st)%Z) (seq 0 (Z.to_nat len))).
      assert (Sel : select plan (ISlice start stop step) = mapM (py_nth plan) ps).
      { unfold select, slice_positions. fold n st. replace (st =? 0)%Z with false by (symmetry; apply Z.eqb_neq; exact Hst).
        simpl bind. unfold ps, len, a, b, slice_start, slice_stop.
        assert (E1 : forall v, adjust n st v = limit n st (from_end n v)) by (intros v; apply adjust_limit; assumption).
        assert (E2 : (st <? 0)%Z = negb (0 <? st)%Z) by (destruct (Z.ltb_spec st 0), (Z.ltb_spec 0 st); simpl; lia || reflexivity).
        rewrite E2. destruct start as [va|], stop as [vb|]; rewrite ?E1; destruct (0 <? st)%Z; reflexivity. }
      assert (Ra : (-1 <= a <= n)%Z /\ ((st < 0)%Z -> (a < n)%Z) /\ ((0 < st)%Z -> (0 <= a)%Z)).
      { unfold a, slice_start, limit, from_end. destruct start as [va|]; destruct (Z.ltb_spec 0 st); try (destruct (Z.ltb_spec va 0)); lia. }
      assert (Rb : (-1 <= b <= n)%Z).
      { unfold b, slice_stop, limit, from_end. destruct stop as [vb|]; destruct (Z.ltb_spec 0 st); try (destruct (Z.ltb_spec vb 0)); lia. }
      assert (Mem : forall p, In p ps <-> in_slice n start stop st p).
      { intros p. unfold in_slice, ps. fold a b. rewrite in_map_iff. split.
        - intros (k & <- & Hk). apply in_seq in Hk. split; [exists (Z.of_nat k); split; [lia|reflexivity]|].
          assert (Hk' : (Z.of_nat k < len)%Z) by lia. clearbody a b. unfold len in Hk'.
          destruct (Z.ltb_spec 0 st), (Z.ltb_spec st 0); try lia.
          + destruct (Z.ltb_spec a b); [|lia].
            assert (X : (st * ((b - a - 1) / st) <= b - a - 1)%Z) by (apply Z.mul_div_le; lia). nia.
          + destruct (Z.ltb_spec b a); [|lia].
            assert (X : ((- st) * ((a - b - 1) / (- st)) <= a - b - 1)%Z) by (apply Z.mul_div_le; lia). nia.
        - intros ((k & Hk & ->) & Hb). exists (Z.to_nat k). split; [rewrite Z2Nat.id by exact Hk; reflexivity|]. apply in_seq.
          assert (X : (k < len)%Z); [|lia]. clearbody a b. unfold len.
          destruct (Z.ltb_spec 0 st), (Z.ltb_spec st 0); try lia.
          + destruct (Z.ltb_spec a b); [|nia]. apply Z.lt_succ_r. apply Z.div_le_lower_bound; nia.
          + destruct (Z.ltb_spec b a); [|nia]. apply Z.lt_succ_r. apply Z.div_le_lower_bound; nia. }
      assert (Rng : forall p, In p ps -> (0 <= p < n)%Z).
      { intros p Hp. apply Mem in Hp. destruct Hp as ((k & Hk & ->) & Hb). fold a b in Hb |- *. clearbody a b. clear Sel Mem ps len.
        destruct Ra as (R1 & R2 & R3). destruct (Z.ltb_spec 0 st); nia. }
      destruct (mapM_py_nth_in plan ps Rng) as (cs & E & F).
      exists ps, cs. rewrite Sel. split; [exact E|]. split; [exact F|]. split; [exact Mem|]. split; [|exact Rng].
      unfold ps. clear - Hst. generalize 0 as j. induction (Z.to_nat len) as [|m IH]; intros j; simpl; constructor; [apply IH|].
      apply Forall_forall. intros q Hq. apply in_map_iff in Hq. destruct Hq as (i & <- & Hi). apply in_seq in Hi. nia.
  Qed.

  (** ** C35 *)
  Lemma evaluates_spec {A} (f : option (filt A)) row : evaluates f row -> exists b, call_filter f row = Ok b /\ (b = true <-> holds f row).
  Proof.
    destruct f as [f|]; simpl; [|intros _; exists true; tauto].
    intros (args & Ha).
    assert (M : mapM (fun n => match alookup n row with Some a => Ok a | None => Err ExcKey end) (f_names f) = Ok args).
    { induction Ha as [|n a ns args E _ IH]; simpl; [reflexivity|]. rewrite E. simpl. rewrite IH. reflexivity. }
    rewrite M. simpl. exists (eq_true (f_fun f args)). split; [reflexivity|]. split.
    - intros Hb. exists args. split; [exact Ha|]. destruct (f_fun f args) as [[]|]; simpl in Hb; congruence.
    - intros (args' & Ha' & Hf'). assert (args' = args).
      { clear - Ha Ha'. revert args' Ha'. induction Ha as [|n a ns args E _ IH]; intros args' Ha'; inversion Ha'; subst; [reflexivity|]. f_equal; [congruence|auto]. }
      subst. rewrite Hf'. reflexivity.
  Qed.

  Lemma filter_rows_now ctx fs fin fout (disk : case V -> option R) cs : forall h : handler,
    from_ctx ctx (dh_cache h) -> (exists h0, same_cfg h0 h /\ In (h0, fs) ctx) ->
    (forall c, In c cs -> evaluates fin c /\ evaluates fout (post_process h c (disk c))) ->
    (forall c, In c cs -> exists id, alookup "id" c = Some (SId id) /\ dh_load of_mat h fs id = Ok (disk c)
        /\ forall hj fj, In (hj, fj) ctx -> dh_load of_mat hj fj id = dh_load of_mat h fs id) ->
    exists sel, snd (filter_rows of_mat h fs fin fout cs) = Ok (map (fun c => post_process h c (disk c)) (filter sel cs))
      /\ forall c, In c cs -> (sel c = true <-> holds fin c /\ holds fout (post_process h c (disk c))).
  Proof.
    intros h Hc Hx He Hd.
    set (sel := fun c => match call_filter fin c, call_filter fout (post_process h c (disk c)) with Ok true, Ok true => true | _, _ => false end).
    exists sel. split.
    2:{ intros c Hin. destruct (He c Hin) as [E1 E2]. unfold sel.
        destruct (evaluates_spec _ _ E1) as (b1 & -> & B1), (evaluates_spec _ _ E2) as (b2 & -> & B2).
        rewrite <- B1, <- B2. destruct b1, b2; intuition discriminate. }
    assert (Hsel : forall c, sel c = match call_filter fin c, call_filter fout (post_process h c (disk c)) with Ok true, Ok true => true | _, _ => false end) by reflexivity.
    clearbody sel. revert h Hc Hx He Hd Hsel. induction cs as [|c cs IH]; intros h Hc Hx He Hd Hsel; simpl; [reflexivity|].
    destruct (He c (or_introl eq_refl)) as [E1 E2]. destruct (evaluates_spec _ _ E1) as (b1 & F1 & _), (evaluates_spec _ _ E2) as (b2 & F2 & _).
    rewrite F1. rewrite Hsel, F1, F2. destruct b1.
    2:{ apply IH; auto. - intros c' Hc'. apply He. right; exact Hc'. - intros c' Hc'. apply Hd. right; exact Hc'. }
    destruct (Hd c (or_introl eq_refl)) as (id & Hid & Hl & Hag). destruct (lazy_now ctx h fs c id _ Hc Hag Hid Hl) as [h' El].
    rewrite El, F2. destruct (lazy_cfg ctx h fs c h' _ Hc (or_intror Hx) El) as [S1 C1].
    assert (X : snd (filter_rows of_mat h' fs fin fout cs) = Ok (map (fun c => post_process h' c (disk c)) (filter sel cs))).
    { apply IH.
      - exact C1.
      - destruct Hx as (h0 & S0 & X0). exists h0. split; [eapply same_trans; eassumption|exact X0].
      - intros c' Hc'. rewrite (same_post h h' c' _ S1). apply He. right; exact Hc'.
      - intros c' Hc'. destruct (Hd c' (or_intror Hc')) as (id' & A & B & D). exists id'. rewrite (same_load h h' fs id' S1). auto.
      - intros c'. rewrite (same_post h h' c' _ S1). apply Hsel. }
    destruct (filter_rows of_mat h' fs fin fout cs) as [h'' r]. simpl in X. rewrite X. simpl.
    assert (Y : map (fun c => post_process h' c (disk c)) (filter sel cs) = map (fun c => post_process h c (disk c)) (filter sel cs))
      by (apply map_ext; intros c'; apply same_post; exact S1).
    rewrite Y. destruct b2; reflexivity.
  Qed.

  (** C35.  In the situation of C34, with filters that can be evaluated on every case (they name only values that
      exist; what they return is arbitrary, only True selects): filter returns exactly the rows of the cases for which both filters hold, in plan order. *)
  Theorem C35_filter_exact : forall plan dir name fmt hist fs fin fout (disk : case V -> option R),
    let h := hrun of_mat (@new_handler V R O plan dir name fmt) hist in
    (forall c, In c plan -> exists id, alookup "id" c = Some (SId id) /\ stored of_mat h fs id (disk c)
        /\ forall hj fj, In (hj, fj) (contexts of_mat (new_handler plan dir name fmt) hist) -> stored of_mat hj fj id (disk c)) ->
    (forall c row, In c plan -> row_ok (dh_pp h) c (disk c) row -> evaluates fin c /\ evaluates fout row) ->
    exists sel rows, snd (dh_filter of_mat h fs fin fout) = Ok rows
      /\ Forall2 (fun c row => row_ok (dh_pp h) c (disk c) row /\ holds fin c /\ holds fout row) (filter sel plan) rows
      /\ (forall c, In c plan -> sel c = false -> forall row, row_ok (dh_pp h) c (disk c) row -> ~ (holds fin c /\ holds fout row)).
  Proof.
    intros plan dir name fmt hist fs fin fout disk h H He.
    destruct (hrun_inv hist (new_handler plan dir name fmt) [] (NoDup_nil _) (Forall_nil _)) as (ND & C & P). fold h in ND, C, P.
    simpl app in C. simpl dh_plan in P. unfold dh_filter. rewrite P.
    set (ctx := contexts of_mat (new_handler plan dir name fmt) hist ++ [(h, fs)]).
    assert (C' : from_ctx ctx (dh_cache h)) by (eapply from_ctx_mono; [|exact C]; apply incl_appl, incl_refl).
    destruct (filter_rows_now ctx fs fin fout disk plan h C') as (sel & S1 & S2).
    - exists h. split; [apply same_refl|]. apply in_app_iff. right; left; reflexivity.
    - intros c Hc. apply He; [exact Hc|]. apply post_process_ok. exact ND.
    - intros c Hc. destruct (H c Hc) as (id & A & B & D). exists id. split; [exact A|]. split; [apply stored_load, B|].
      intros hj fj Hin. apply in_app_iff in Hin. destruct Hin as [Hin|[E|[]]]; [rewrite (stored_load _ _ _ _ (D _ _ Hin)), (stored_load _ _ _ _ B); reflexivity|inversion E; reflexivity].
    - exists sel. eexists. split; [exact S1|]. split.
      + assert (K : forall l : list (case V), (forall c, In c l -> In c plan /\ sel c = true) ->
          Forall2 (fun c row => row_ok (dh_pp h) c (disk c) row /\ holds fin c /\ holds fout row) l (map (fun c => post_process h c (disk c)) l)).
        { induction l as [|c l IH]; intros K; simpl; constructor.
          - destruct (K c (or_introl eq_refl)) as [Hin Hs]. apply (S2 c Hin) in Hs. split; [apply post_process_ok; exact ND|exact Hs].
          - apply IH. intros c' Hc'. apply K. right; exact Hc'. }
        apply K. intros c. apply filter_In.
      + intros c Hc Hs row Hrow [H1 H2]. assert (X : sel c = true); [|congruence]. apply (S2 c Hc). split; [exact H1|].
        destruct fout as [fo|]; [|exact Logic.I]. simpl in *. destruct H2 as (args & Ha & Hf). exists args. split; [|exact Hf].
        pose proof (post_process_ok h c (disk c) ND) as Hpp.
        clear - Ha Hrow Hpp. induction Ha as [|n a ns args E _ IH]; constructor; [|exact IH].
        rewrite (Hpp n), <- (Hrow n). exact E.
  Qed.
End H.
Print Assumptions C34_current_results_partial.
Print Assumptions C34_index_semantics.
Print Assumptions C34_slices.
(** plan[-2::-2] of five cases: the cases 3 and 1. *)
Example C34_slices_nonvacuous :
  select [10; 11; 12; 13; 14] (ISlice (Some (-2)%Z) None (Some (-2)%Z)) = Ok [13; 11]
  /\ in_slice 5 (Some (-2)%Z) None (-2) 1.
Proof. split; [reflexivity|]. split; [exists 1%Z; split; [lia|reflexivity]|reflexivity]. Qed.
Print Assumptions C35_filter_exact.

(** Refutation of the full C34: a case is queried before it is sampled; afterwards the result exists,
    but the handler still returns None.  Likewise after changing the directory. *)
Definition ex_hplan : list (case nat) := [[("a"%string, SUser 3); ("id"%string, SId "000")]].
Definition ex_disk : list (string * content nat) := [("./sample_000.pkl"%string, Whole 9); ("d2/sample_000.pkl"%string, Whole 5)].
Theorem C34_stale_results_refuted :
  let h0 := @new_handler nat nat nat ex_hplan "./" "sample" FPickle in
  let h1 := hrun (fun r => r) h0 [([], HGet (ISlice None None None))] in
  dh_load (fun r => r) h1 ex_disk "000" = Ok (Some 9)
  /\ (exists row, snd (dh_getitem (fun r => r) h1 ex_disk (IInt 0)) = Ok [row] /\ alookup "res" row = Some (RRaw None))
  /\ let h2 := hrun (fun r => r) h0 [(ex_disk, HGet (IInt 0)); (ex_disk, HParam "d2/" "sample" FPickle)] in
     dh_load (fun r => r) h2 ex_disk "000" = Ok (Some 5)
     /\ exists row, snd (dh_getitem (fun r => r) h2 ex_disk (IInt 0)) = Ok [row] /\ alookup "res" row = Some (RRaw (Some 9)).
Proof.
  vm_compute. split; [reflexivity|]. split; [eexists; split; reflexivity|]. split; [reflexivity|]. eexists; split; reflexivity.
Qed.
Print Assumptions C34_stale_results_refuted.

(** Concrete cases meeting the hypotheses. *)
Example C34_nonvacuous :
  let h := hrun (fun r => r) (@new_handler nat nat nat ex_hplan "./" "sample" FPickle)
             [(ex_disk, HPost "sq" (PP1 (fun r => r * r))); (ex_disk, HPost "sum" (PP2 (fun c r => r + List.length c)))] in
  snd (dh_getitem (fun r => r) h ex_disk (IInt (-1)))
    = Ok [[("a"%string, RCase (SUser 3)); ("id"%string, RCase (SId "000")); ("sq"%string, RPost 81); ("sum"%string, RPost 11)]]
  /\ forall hj fj, In (hj, fj) (contexts (fun r => r) (@new_handler nat nat nat ex_hplan "./" "sample" FPickle)
             [(ex_disk, HPost "sq" (PP1 (fun r => r * r))); (ex_disk, HPost "sum" (PP2 (fun c r => r + List.length c)))]) ->
       stored (fun r => r) hj fj "000" (Some 9).
Proof. split; [vm_compute; reflexivity|]. intros hj fj [E|[E|[]]]; inversion E; subst; apply stored_pkl; reflexivity. Qed.
Example C35_nonvacuous :
  let plan := [[("a", SUser 3); ("id", SId "0")]; [("a", SUser 4); ("id", SId "1")]; [("a", SUser 5); ("id", SId "2")]]%string in
  let h := hrun (fun r => r) (@new_handler nat nat nat plan "" "s" FPickle) [] in
  snd (dh_filter (fun r => r) h [("s_1.pkl"%string, Whole 7)] (Some (mkFilt ["a"%string] (fun l => match l with [SUser v] => PyBool (Nat.ltb 3 v) | _ => PyBool false end)))
        (Some (mkFilt ["res"%string] (fun l => match l with [RRaw (Some _)] => PyBool true | _ => PyBool false end))))
  = Ok [[("a", RCase (SUser 4)); ("id", RCase (SId "1")); ("res", RRaw (Some 7))]]%string.
Proof. reflexivity. Qed.
