(** * C27, C28: properties of Structure (theorems only). *)
From Verif Require Import Base StructModel StructSpec StructProofs.

(** C27 (content and order): after any history of assignments of plain values, the entries are the
    assigned indices in order of first assignment, each holding the value last assigned to it. *)
Theorem C27_insertion_ordered_map {V} (h : list (index * V)) :
  let hv := map (fun iv => (fst iv, VLeaf (snd iv))) h in
  let s := run hv in
  powerindex s = first_occurrences (map fst h)
  /\ map Some (master s) = map (last_assigned hv) (powerindex s)
  /\ sindex s = seq 0 (List.length (powerindex s)).
Proof.
  intros hv s.
  assert (Hl : Forall (fun iv => is_leaf (snd iv)) hv).
  { apply Forall_forall. intros iv Hin. apply in_map_iff in Hin. destruct Hin as (x & <- & _). exists (snd x). reflexivity. }
  destruct (wf_run hv) as (A & B & C & _). fold s in A, B, C.
  assert (E : entries s = fold_left (fun m iv => put m (fst iv) (snd iv)) hv []).
  { unfold s, run. rewrite entries_fold; [reflexivity|apply wf_init|exact Hl]. }
  split; [|split].
  - rewrite <- (map_fst_combine (powerindex s) (master s)) by lia. fold (entries s). rewrite E, fold_put_fst.
    unfold hv. rewrite map_map. reflexivity.
  - assert (L : forall i v, In (i, v) (entries s) -> last_assigned hv i = Some v).
    { intros i v Hin. assert (Hlk : lookup (entries s) i = Some v).
      { apply lookup_in_nodup; [unfold entries; rewrite map_fst_combine by lia; exact B|exact Hin]. }
      rewrite E, fold_put_lookup in Hlk. destruct (last_assigned hv i); [exact Hlk|discriminate]. }
    revert L. unfold entries. generalize (powerindex s) (master s) A. clear. intros ps ms. revert ps.
    induction ms as [|m ms IH]; intros [|p ps] H L; simpl in *; try discriminate; [reflexivity|].
    f_equal; [symmetry; apply L; left; reflexivity|]. apply IH; [lia|]. intros i v Hin. apply L. right. exact Hin.
  - exact C.
Qed.
Print Assumptions C27_insertion_ordered_map.

(** C27 (reading a full index), proved where no assigned index is a proper prefix of the index
    read: the value last assigned is returned (in a one-element list) if no longer index was assigned. *)
Theorem C27_read_full_index_partial {V} (h : list (index * V)) (i : index) (v : V) :
  let hv := map (fun iv => (fst iv, VLeaf (snd iv))) h in
  last_assigned hv i = Some (VLeaf v) ->
  (forall j, In j (map fst h) -> ~ proper_prefix j i /\ ~ proper_prefix i j) ->
  get_item (run hv) (map QKey i) = Ok (Flat [(VLeaf v, i)]).
Proof.
  intros hv Hlast Hpf. destruct (C27_insertion_ordered_map h) as (E1 & E2 & _). fold hv in E1, E2.
  destruct (wf_run hv) as (A & B & _).
  assert (Hdom : forall j, In j (powerindex (run hv)) -> In j (map fst h)).
  { intros j. rewrite E1. unfold first_occurrences.
    assert (G : forall l acc, In j (fold_left (fun acc i => if existsb (index_eqb i) acc then acc else acc ++ [i]) l acc) -> In j acc \/ In j l).
    { induction l as [|x l IH]; intros acc Hin; simpl in *; [auto|]. apply IH in Hin. destruct Hin as [Hin|Hin]; [|auto].
      destruct (existsb (index_eqb x) acc); [auto|]. apply in_app_iff in Hin. destruct Hin as [Hin|[Hin|[]]]; auto. }
    intros Hin. apply G in Hin. destruct Hin as [[]|Hin]. exact Hin. }
  assert (Hin : In (VLeaf v, i) (combine (master (run hv)) (powerindex (run hv)))).
  { assert (Hi : In i (powerindex (run hv))).
    { rewrite E1. unfold first_occurrences.
      assert (Hh : In i (map fst h)).
      { clear - Hlast. unfold hv in Hlast. induction h as [|[j w] h IH]; simpl in *; [discriminate|].
        destruct (last_assigned (map (fun iv => (fst iv, VLeaf (snd iv))) h) i) eqn:E; [right; apply IH; exact Hlast|].
        destruct (index_eqb i j) eqn:Ej; [apply index_eqb_eq in Ej; auto|discriminate]. }
      assert (G : forall l acc, In i acc \/ In i l -> In i (fold_left (fun acc i => if existsb (index_eqb i) acc then acc else acc ++ [i]) l acc)).
      { induction l as [|x l IH]; intros acc Hx; simpl in *; [destruct Hx as [Hx|[]]; exact Hx|]. apply IH.
        destruct Hx as [Hx|[->|Hx]]; [left|left|right; exact Hx].
        - destruct (existsb (index_eqb x) acc); [exact Hx|apply in_app_iff; auto].
        - destruct (existsb (index_eqb i) acc) eqn:Ex; [|apply in_app_iff; right; left; reflexivity].
          apply existsb_exists in Ex. destruct Ex as (y & Hy & Ey). apply index_eqb_eq in Ey. subst. exact Hy. }
      apply G. right. exact Hh. }
    clear - Hi Hlast E2 A. revert E2 A Hi. generalize (powerindex (run hv)) (master (run hv)). intros ps.
    induction ps as [|p ps IH]; intros [|m ms] E2 A Hi; simpl in *; try discriminate; [destruct Hi|].
    injection E2 as Em E2. destruct Hi as [->|Hi]; [left; congruence|right; apply IH; [exact E2|lia|exact Hi]]. }
  unfold get_item. rewrite select_keys.
  pose proof (kloop_from i [] (combine (master (run hv)) (powerindex (run hv)))) as K. rewrite sel_prefix_nil in K.
  rewrite K; [|exists i; reflexivity|].
  2:{ intros a q Hq. apply in_combine_r in Hq. apply Hpf. apply Hdom. exact Hq. }
  simpl. do 2 f_equal.
  assert (Hpre : forall q, In q (powerindex (run hv)) -> prefixb i q = true -> q = i).
  { intros q Hq Hp. apply prefixb_spec in Hp. destruct Hp as [[|k r] Eq]; [rewrite app_nil_r in Eq; exact Eq|].
    exfalso. apply (Hpf q (Hdom q Hq)). exists (k :: r). split; [discriminate|exact Eq]. }
  clear - A B Hin Hpre. unfold sel_prefix. revert A B Hin Hpre. generalize (powerindex (run hv)) (master (run hv)).
  intros ps. induction ps as [|p ps IH]; intros [|m ms] A B Hin Hpre; simpl in *; try discriminate; [destruct Hin|].
  inversion B as [|? ? B1 B2]; subst. destruct Hin as [E|Hin].
  - inversion E; subst. rewrite (proj2 (prefixb_spec i i)) by (exists []; rewrite app_nil_r; reflexivity). f_equal.
    assert (G : forall e, In e (combine ms ps) -> prefixb i (snd e) = false).
    { intros [a q] He. simpl. destruct (prefixb i q) eqn:Ep; [|reflexivity]. exfalso. apply in_combine_r in He.
      rewrite (Hpre q (or_intror He) Ep) in He. exact (B1 He). }
    revert G. generalize (combine ms ps). intros l G. induction l as [|e l IHl]; simpl; [reflexivity|].
    rewrite (G e (or_introl eq_refl)). apply IHl. intros e' He'. apply G. right. exact He'.
  - destruct (prefixb i p) eqn:Ep.
    + exfalso. rewrite (Hpre p (or_introl eq_refl) Ep) in B1. apply B1. apply in_combine_r in Hin. exact Hin.
    + apply IH; [lia|exact B2|exact Hin|]. intros q Hq. apply Hpre. right. exact Hq.
Qed.
Print Assumptions C27_read_full_index_partial.

Example C27_nonvacuous :
  let h := [([KS "_x"; KS "a"], 1); ([KS "_u"; KS "b"], 2); ([KS "_x"; KS "a"], 3)] in
  last_assigned (map (fun iv => (fst iv, VLeaf (snd iv))) h) [KS "_x"; KS "a"] = Some (VLeaf 3)
  /\ (forall j, In j (map fst h) -> ~ proper_prefix j [KS "_x"; KS "a"] /\ ~ proper_prefix [KS "_x"; KS "a"] j).
Proof.
  split; [reflexivity|]. assert (G : forall a b : index, List.length a = 2 -> List.length b = 2 -> ~ proper_prefix a b).
  { intros a b Ha Hb (r & Hr & ->). rewrite app_length in Hb. destruct r; [congruence|simpl in Hb; lia]. }
  intros j Hj. assert (List.length j = 2) by (destruct Hj as [<-|[<-|[<-|[]]]]; reflexivity). split; apply G; auto.
Qed.

(** C27 refuted in general: after s['a'] = 1; s['a','b'] = 2, reading s['a','b'] raises IndexError. *)
Theorem C27_read_full_index_refuted :
  let h := [([KS "a"], 1); ([KS "a"; KS "b"], 2)] in
  let hv := map (fun iv => (fst iv, VLeaf (snd iv))) h in
  last_assigned hv [KS "a"; KS "b"] = Some (VLeaf 2)
  /\ get_item (run hv) (map QKey [KS "a"; KS "b"]) = Err ExcIndex.
Proof. split; reflexivity. Qed.
Print Assumptions C27_read_full_index_refuted.

(** C27 (nested values): assigning a nested list/dict where nothing is stored at or below the index
    is the same as assigning each of its leaves at the extended index, in order. *)
Theorem C27_nested_values {V} (h : list (index * val V)) ind v : wf_val v ->
  (forall p, In p (powerindex (run h)) -> ~ is_prefix ind p) ->
  run (h ++ [(ind, v)]) = run (h ++ leaves ind v).
Proof.
  intros Hwf H. unfold run. rewrite !fold_left_app. simpl. apply set_nested; assumption.
Qed.
Print Assumptions C27_nested_values.
Example C27_nested_nonvacuous :
  wf_val (VDict [(KS "x", VList [VLeaf 1; VLeaf 2]); (KS "y", VLeaf 3)])
  /\ leaves [KS "a"] (VDict [(KS "x", VList [VLeaf 1; VLeaf 2]); (KS "y", VLeaf 3)])
     = [([KS "a"; KS "x"; KI 0], VLeaf 1); ([KS "a"; KS "x"; KI 1], VLeaf 2); ([KS "a"; KS "y"], VLeaf 3)].
Proof.
  split; [|reflexivity]. constructor.
  - simpl. constructor; [simpl; intros [E|[]]; discriminate | constructor; [intros []|constructor]].
  - repeat constructor.
Qed.

(** C28: a partial index without slices.  For the structure reached by any history (nested values
    included): the values of all entries whose index starts with the query, in entry order, unless
    some entry's index is a proper prefix of the query, in which case IndexError is raised. *)
Theorem C28_partial_index_partial {V} (h : list (index * val V)) (ks : list key) :
  let s := run h in
  ((forall p, In p (powerindex s) -> ~ proper_prefix p ks) ->
     get_item s (map QKey ks) = Ok (Flat (filter (fun e => prefixb ks (snd e)) (combine (master s) (powerindex s)))))
  /\ ((exists p, In p (powerindex s) /\ proper_prefix p ks) -> get_item s (map QKey ks) = Err ExcIndex).
Proof.
  intros s. destruct (wf_run h) as (A & _). fold s in A. unfold get_item. rewrite select_keys.
  pose proof (kloop_from ks [] (combine (master s) (powerindex s))) as K. rewrite sel_prefix_nil in K. split.
  - intros H. rewrite K; [reflexivity|exists ks; reflexivity|]. intros a q Hin. apply in_combine_r in Hin. apply H. exact Hin.
  - intros (p & Hp & r & Hr & E).
    assert (Hin : exists a, In (a, p) (combine (master s) (powerindex s))).
    { clear - A Hp. revert A Hp. generalize (powerindex s) (master s). intros ps. induction ps as [|q ps IH]; intros [|m ms] A Hp; simpl in *; try discriminate; [destruct Hp|].
      destruct Hp as [->|Hp]; [exists m; left; reflexivity|]. destruct (IH ms) as [a Ha]; [lia|exact Hp|]. exists a. right. exact Ha. }
    destruct Hin as [a Ha]. pose proof (kloop_err ks [] (combine (master s) (powerindex s)) a p Ha) as Ke.
    rewrite sel_prefix_nil in Ke. simpl in Ke. rewrite Ke; [reflexivity|exists p; reflexivity|]. exists r. split; [exact Hr|exact E].
Qed.
Print Assumptions C28_partial_index_partial.

(** C28: queries with slices, for structures all of whose indices are at least as long as the query. *)
Theorem C28_slices_partial {V} (h : list (index * val V)) (q : list qel) :
  let s := run h in
  powerindex s <> [] -> (forall p, In p (powerindex s) -> List.length q <= List.length p) ->
  exists r, get_item s q = Ok r /\ selects (features s) (combine (master s) (powerindex s)) q r
    /\ forall j f, nth_error (features s) j = Some f -> forall k, In k f <-> exists p, In p (powerindex s) /\ nth_error p j = Some k.
Proof.
  intros s Hne Hlen. destruct (wf_run h) as (A & B & _ & _ & F1 & F2). fold s in A, B, F1, F2.
  destruct (select_spec (features s) (List.length q) q [] (combine (master s) (powerindex s))) as (r & R1 & R2).
  - apply nslices_length.
  - intros a i Hin. apply in_combine_r in Hin. apply Hlen. exact Hin.
  - intros j Hj Hn. destruct (powerindex s) as [|p ps] eqn:Ep; [congruence|].
    specialize (F2 j Hn p (or_introl eq_refl)). apply nth_error_None in F2. specialize (Hlen p (or_introl eq_refl)). lia.
  - exists [], q. split; [reflexivity|]. exists []. reflexivity.
  - rewrite sel_prefix_nil in R1. exists r. split; [exact R1|]. split; [exact R2|].
    intros j f Hf. apply (F1 j f Hf).
Qed.
Print Assumptions C28_slices_partial.
Example C28_nonvacuous :
  let h := [([KS "_x"; KS "a"], VList [VLeaf 1; VLeaf 2]); ([KS "_x"; KS "b"; KI 0], VLeaf 3)] in
  powerindex (run h) = [[KS "_x"; KS "a"; KI 0]; [KS "_x"; KS "a"; KI 1]; [KS "_x"; KS "b"; KI 0]]
  /\ get_item (run h) [QKey (KS "_x"); QSlice (fun l => l); QKey (KI 0)]
     = Ok (Nest [Flat [(VLeaf 1, [KS "_x"; KS "a"; KI 0])]; Flat [(VLeaf 3, [KS "_x"; KS "b"; KI 0])]]).
Proof. split; reflexivity. Qed.

(** C28 refuted: entries of another index length make a partial index fail: with s['_x','b'] = 1 and
    s['_x','b','c',0] = 2 stored, reading s['_x','b','c'] raises IndexError although an entry matches. *)
Theorem C28_partial_index_refuted :
  let s := run [([KS "_x"; KS "b"], VLeaf 1); ([KS "_x"; KS "b"; KS "c"; KI 0], VLeaf 2)] in
  get_item s (map QKey [KS "_x"; KS "b"; KS "c"]) = Err ExcIndex
  /\ exists p, In p (powerindex s) /\ is_prefix [KS "_x"; KS "b"; KS "c"] p.
Proof.
  split; [reflexivity|]. exists [KS "_x"; KS "b"; KS "c"; KI 0]. split; [right; left; reflexivity|].
  exists [KI 0]. reflexivity.
Qed.
Print Assumptions C28_partial_index_refuted.

(** ** get_index *)
Section Par.
  Context {A B : Type}.
  Variable R : A -> B -> index -> Prop.
  Notation erel := (fun e e' => snd e = snd e' /\ R (fst e) (fst e') (snd e)).

  Lemma filter_level_rel j k : forall (it : list (A * index)) (it' : list (B * index)), Forall2 erel it it' ->
    res_rel (Forall2 erel) (filter_level j k it) (filter_level j k it').
  Proof.
    induction 1 as [|[a i] [b i'] it it' [E H] HF IH]; simpl in *; [constructor|]. subst i'.
    destruct (List.length i <? j); [exact IH|]. destruct (nth_error i j); [|reflexivity].
    destruct (filter_level j k it), (filter_level j k it'); simpl in *; try tauto.
    destruct (key_eqb _ k); [constructor; auto|exact IH].
  Qed.

  Lemma mapM_rel {X Y Z} (P : Y -> Z -> Prop) (f : X -> res Y) (g : X -> res Z) (l : list X) :
    (forall x, res_rel P (f x) (g x)) -> res_rel (Forall2 P) (mapM f l) (mapM g l).
  Proof.
    intros H. induction l as [|x l IH]; simpl; [constructor|]. specialize (H x).
    destruct (f x), (g x); simpl in *; try tauto. destruct (mapM f l), (mapM g l); simpl in *; try tauto. constructor; auto.
  Qed.

  Lemma select_rel feats : forall fuel q (it : list (A * index)) (it' : list (B * index)), Forall2 erel it it' ->
    res_rel (sel_rel R) (select feats fuel q it) (select feats fuel q it').
  Proof.
    induction fuel as [|fuel IH]; intros q it it' H; rewrite !select_eq.
    - enough (G : forall rest j it it', Forall2 erel it it' -> res_rel (sel_rel R) (sloop feats 0 q j rest it) (sloop feats 0 q j rest it')) by (apply G; exact H).
      clear. induction rest as [|[k|sl] rest IHr]; intros j it it' H; simpl; [constructor; exact H| |reflexivity].
      pose proof (filter_level_rel j k _ _ H) as F. destruct (filter_level j k it), (filter_level j k it'); simpl in *; try tauto. apply IHr; exact F.
    - enough (G : forall rest j it it', Forall2 erel it it' -> res_rel (sel_rel R) (sloop feats (S fuel) q j rest it) (sloop feats (S fuel) q j rest it')) by (apply G; exact H).
      clear it it' H. induction rest as [|[k|sl] rest IHr]; intros j it it' H; simpl; [constructor; exact H| |].
      + pose proof (filter_level_rel j k _ _ H) as F. destruct (filter_level j k it), (filter_level j k it'); simpl in *; try tauto. apply IHr; exact F.
      + destruct (nth_error feats j) as [fj|]; [|reflexivity].
        pose proof (mapM_rel (sel_rel R) (fun k => select feats fuel (upd q j (QKey k)) it) (fun k => select feats fuel (upd q j (QKey k)) it') (sl fj)) as M.
        specialize (M (fun k => IH (upd q j (QKey k)) it it' H)).
        destruct (mapM _ (sl fj)), (mapM _ (sl fj)); simpl in *; try tauto. constructor; exact M.
  Qed.
End Par.

(** C28 (get_index): for every history and every query, with slices or without, get_index raises exactly when
    reading raises, and otherwise returns, in the same arrangement, the positions in the list of all
    entries of the values that reading returns. *)
Theorem C28_positions {V} (h : list (index * val V)) (q : list qel) :
  let s := run h in
  res_rel (sel_rel (fun pos v ind => nth_error (master s) pos = Some v /\ nth_error (powerindex s) pos = Some ind))
          (get_index s q) (get_item s q).
Proof.
  intros s. destruct (wf_run h) as (A & _ & C & _). fold s in A, C. unfold get_index, get_item. apply select_rel. rewrite C.
  assert (G : forall (ms : list (val V)) ps k mm pp, List.length ms = List.length ps ->
    (forall i, nth_error mm (k + i) = nth_error ms i) -> (forall i, nth_error pp (k + i) = nth_error ps i) ->
    Forall2 (fun (e : nat * index) (e' : val V * index) => snd e = snd e' /\ nth_error mm (fst e) = Some (fst e') /\ nth_error pp (fst e) = Some (snd e))
      (combine (seq k (List.length ps)) ps) (combine ms ps)).
  { clear. induction ms as [|m ms IH]; intros [|p ps] k mm pp L Hm Hp; simpl in *; try discriminate; constructor.
    - simpl. pose proof (Hm 0) as H0. pose proof (Hp 0) as H1. rewrite Nat.add_0_r in H0, H1. auto.
    - apply (IH ps (S k)); [lia| |]; intros i; replace (S k + i) with (k + S i) by lia; [apply Hm|apply Hp]. }
  apply (G (master s) (powerindex s) 0); auto.
Qed.
Print Assumptions C28_positions.
