(** * Lemmas on Structure. *)
From Verif Require Import Base StructModel StructSpec.

Lemma key_eqb_eq a b : key_eqb a b = true <-> a = b.
Proof.
  destruct a as [x|x], b as [y|y]; simpl; try (split; discriminate).
  - rewrite String.eqb_eq. split; congruence.
  - rewrite Nat.eqb_eq. split; congruence.
Qed.
Lemma key_eqb_refl a : key_eqb a a = true. Proof. apply key_eqb_eq; reflexivity. Qed.

Lemma index_eqb_eq a b : index_eqb a b = true <-> a = b.
Proof.
  revert b; induction a as [|x a IH]; intros [|y b]; simpl; try (split; congruence).
  rewrite andb_true_iff, key_eqb_eq, IH. split; [intros [-> ->]; reflexivity | intros E; inversion E; auto].
Qed.
Lemma index_eqb_refl a : index_eqb a a = true. Proof. apply index_eqb_eq; reflexivity. Qed.
Lemma index_eqb_neq a b : index_eqb a b = false <-> a <> b.
Proof. rewrite <- index_eqb_eq. destruct (index_eqb a b); split; congruence. Qed.

Lemma mem_index_in i l : mem_index i l = true <-> In i l.
Proof.
  unfold mem_index. rewrite existsb_exists. split.
  - intros (x & Hx & E). apply index_eqb_eq in E. subst. exact Hx.
  - intros H. exists i. split; [exact H|apply index_eqb_refl].
Qed.
Lemma mem_index_nin i l : mem_index i l = false <-> ~ In i l.
Proof. rewrite <- mem_index_in. destruct (mem_index i l); split; congruence. Qed.
Lemma mem_key_in k l : mem_key k l = true <-> In k l.
Proof.
  unfold mem_key. rewrite existsb_exists. split.
  - intros (x & Hx & E). apply key_eqb_eq in E. subst. exact Hx.
  - intros H. exists k. split; [exact H|apply key_eqb_refl].
Qed.

Lemma prefixb_spec p q : prefixb p q = true <-> is_prefix p q.
Proof.
  revert q; induction p as [|x p IH]; intros q; simpl.
  - split; [intros _; exists q; reflexivity | reflexivity].
  - destruct q as [|y q].
    + split; [discriminate | intros [r E]; discriminate].
    + rewrite andb_true_iff, key_eqb_eq, IH. split.
      * intros [-> [r ->]]. exists r. reflexivity.
      * intros [r E]. inversion E; subst. split; [reflexivity | exists r; reflexivity].
Qed.

(** ** Invariant *)
Definition wf {V} (s : structure V) : Prop :=
  List.length (master s) = List.length (powerindex s)
  /\ NoDup (powerindex s)
  /\ sindex s = seq 0 (List.length (powerindex s))
  /\ scount s = List.length (powerindex s)
  /\ (forall j f, nth_error (features s) j = Some f ->
        NoDup f /\ forall k, In k f <-> exists p, In p (powerindex s) /\ nth_error p j = Some k)
  /\ (forall j, nth_error (features s) j = None -> forall p, In p (powerindex s) -> nth_error p j = None).

Lemma replace_first_length {V} i (v : val V) ps ms : List.length (replace_first i v ps ms) = List.length ms.
Proof.
  revert ms; induction ps as [|p ps IH]; intros [|m ms]; simpl; auto.
  destruct (index_eqb i p); simpl; auto.
Qed.

Lemma nodup_snoc {A} (l : list A) x : NoDup l -> ~ In x l -> NoDup (l ++ [x]).
Proof.
  intros H Hn. induction H as [|y l Hy Hl IH]; simpl.
  - constructor; [intros []|constructor].
  - constructor.
    + rewrite in_app_iff. intros [H|[H|[]]]; [tauto|]. subst. apply Hn. left; reflexivity.
    + apply IH. intros H. apply Hn. right; exact H.
Qed.

Lemma add_features_spec fs ind (P : list index) :
  (forall j f, nth_error fs j = Some f -> NoDup f /\ forall k, In k f <-> exists p, In p P /\ nth_error p j = Some k) ->
  (forall j, nth_error fs j = None -> forall p, In p P -> nth_error p j = None) ->
  (forall j f, nth_error (add_features fs ind) j = Some f ->
     NoDup f /\ forall k, In k f <-> (exists p, In p P /\ nth_error p j = Some k) \/ nth_error ind j = Some k)
  /\ (forall j, nth_error (add_features fs ind) j = None -> (forall p, In p P -> nth_error p j = None) /\ nth_error ind j = None).
Proof.
  revert fs P; induction ind as [|k ind IH]; intros fs P H1 H2; simpl.
  - split.
    + intros j f Hf. destruct (H1 j f Hf) as [A B]. split; [exact A|]. intros k. rewrite B.
      split; [auto|]. intros [H|H]; [exact H|]. destruct j; discriminate.
    + intros j Hj. split; [exact (H2 j Hj) | destruct j; reflexivity].
  - destruct fs as [|f fs].
    + assert (HP : forall p, In p P -> p = []).
      { intros p Hp. specialize (H2 0 eq_refl p Hp). destruct p; [reflexivity|discriminate]. }
      specialize (IH [] []). destruct IH as [I1 I2].
      { intros [|j] f Hf; discriminate. }
      { intros j _ p []. }
      split.
      * intros [|j] f; simpl.
        -- intros E; inversion E; subst. split; [constructor; [intros []|constructor]|].
           intros k'. simpl. split.
           ++ intros [->|[]]. right. reflexivity.
           ++ intros [(p & Hp & E')|E']; [apply HP in Hp; subst; discriminate | inversion E'; auto].
        -- intros Hf. destruct (I1 j f Hf) as [A B]. split; [exact A|]. intros k'. rewrite B. split.
           ++ intros [(p & [] & _)|E]; right; exact E.
           ++ intros [(p & Hp & E')|E']; [apply HP in Hp; subst; discriminate | right; exact E'].
      * intros [|j]; simpl; [discriminate|]. intros Hj. destruct (I2 j Hj) as [_ B]. split; [|exact B].
        intros p Hp. apply HP in Hp. subst. reflexivity.
    + specialize (IH fs (map (@tl key) P)).
      destruct IH as [I1 I2].
      { intros j g Hg. destruct (H1 (S j) g Hg) as [A B]. split; [exact A|]. intros k'. rewrite B. split.
        - intros (p & Hp & E). exists (tl p). split; [apply in_map; exact Hp | destruct p; [discriminate|exact E]].
        - intros (p & Hp & E). apply in_map_iff in Hp. destruct Hp as (p' & <- & Hp'). exists p'. split; [exact Hp'|].
          destruct p' as [|]; [destruct j; discriminate|exact E]. }
      { intros j Hj p Hp. apply in_map_iff in Hp. destruct Hp as (p' & <- & Hp').
        specialize (H2 (S j) Hj p' Hp'). destruct p' as [|]; [destruct j; reflexivity | exact H2]. }
      split.
      * intros [|j] g; simpl.
        -- intros E; inversion E; subst; clear E. destruct (H1 0 f eq_refl) as [A B].
           destruct (mem_key k f) eqn:Em.
           ++ split; [exact A|]. intros k'. rewrite B. split; [auto|]. intros [H|H]; [exact H|].
              inversion H; subst. apply B. apply mem_key_in. exact Em.
           ++ split.
              ** apply nodup_snoc; [exact A|]. rewrite <- mem_key_in. congruence.
              ** intros k'. rewrite in_app_iff, B. simpl. split.
                 --- intros [H|[->|[]]]; [left; exact H | right; reflexivity].
                 --- intros [H|H]; [left; exact H | right; left; congruence].
        -- intros Hg. destruct (I1 j g Hg) as [A B]. split; [exact A|]. intros k'. rewrite B. split.
           ++ intros [(p & Hp & E)|E]; [|right; exact E]. left. apply in_map_iff in Hp.
              destruct Hp as (p' & <- & Hp'). exists p'. split; [exact Hp'|].
              destruct p' as [|]; [destruct j; discriminate|exact E].
           ++ intros [(p & Hp & E)|E]; [|right; exact E]. left. exists (tl p).
              split; [apply in_map; exact Hp | destruct p; [discriminate|exact E]].
      * intros [|j]; simpl; [discriminate|]. intros Hj. destruct (I2 j Hj) as [A B]. split; [|exact B].
        intros p Hp. specialize (A (tl p) (in_map _ _ _ Hp)). destruct p; [reflexivity|exact A].
Qed.

Lemma wf_init {V} : wf (@struct_init V).
Proof.
  unfold wf, struct_init; simpl. split; [reflexivity|]. split; [constructor|]. split; [reflexivity|].
  split; [reflexivity|]. split.
  - intros [|j] f Hf; discriminate.
  - intros j _ p [].
Qed.

Lemma wf_append {V} (s : structure V) i v : wf s -> ~ In i (powerindex s) -> wf (append_leaf s i v).
Proof.
  intros (A & B & C & D & E & G) Hn. unfold append_leaf, wf; simpl.
  rewrite !app_length, A; simpl. split; [reflexivity|]. split; [apply nodup_snoc; assumption|].
  split; [rewrite C, D, Nat.add_1_r, seq_S; reflexivity|]. split; [lia|].
  destruct (add_features_spec (features s) i (powerindex s) E G) as [I1 I2]. split.
  - intros j f Hf. destruct (I1 j f Hf) as [N M]. split; [exact N|]. intros k. rewrite M. split.
    + intros [(p & Hp & Ep)|Ei].
      * exists p. rewrite in_app_iff. auto.
      * exists i. rewrite in_app_iff. simpl. auto.
    + intros (p & Hp & Ep). rewrite in_app_iff in Hp. simpl in Hp. destruct Hp as [Hp|[<-|[]]]; [left; exists p; auto | right; exact Ep].
  - intros j Hj p Hp. destruct (I2 j Hj) as [M N]. rewrite in_app_iff in Hp. destruct Hp as [Hp|[<-|[]]]; auto.
Qed.

Lemma wf_replace {V} (s : structure V) i v : wf s ->
  wf (mkStruct (replace_first i v (powerindex s) (master s)) (powerindex s) (features s) (sindex s) (scount s)).
Proof.
  intros (A & B & C & D & E & G). unfold wf; simpl. rewrite replace_first_length.
  do 4 (split; [assumption|]). split; assumption.
Qed.

(** induction on nested values *)
Fixpoint val_ind' {V} (P : val V -> Prop) (Hl : forall v, P (VLeaf v))
    (HL : forall vs, Forall P vs -> P (VList vs))
    (HD : forall kvs, Forall (fun kv => P (snd kv)) kvs -> P (VDict kvs)) (v : val V) : P v :=
  match v with
  | VLeaf x => Hl x
  | VList vs => HL vs ((fix go vs : Forall P vs := match vs with [] => Forall_nil _ | w :: ws => Forall_cons _ (val_ind' P Hl HL HD w) (go ws) end) vs)
  | VDict kvs => HD kvs ((fix go kvs : Forall (fun kv => P (snd kv)) kvs := match kvs with [] => Forall_nil _ | w :: ws => Forall_cons _ (val_ind' P Hl HL HD (snd w)) (go ws) end) kvs)
  end.

Definition set_list {V} (ind : index) := fix go (i : nat) (vs : list (val V)) (s : structure V) : structure V :=
  match vs with [] => s | w :: ws => go (S i) ws (set_item s (ind ++ [KI i]) w) end.
Definition set_dict {V} (ind : index) := fix go (kvs : list (key * val V)) (s : structure V) : structure V :=
  match kvs with [] => s | (k, w) :: ws => go ws (set_item s (ind ++ [k]) w) end.

Lemma set_item_eq {V} (s : structure V) ind v :
  set_item s ind v =
  if mem_index ind (powerindex s)
  then mkStruct (replace_first ind v (powerindex s) (master s)) (powerindex s) (features s) (sindex s) (scount s)
  else match v with
       | VLeaf _ => append_leaf s ind v
       | VList vs => set_list ind 0 vs s
       | VDict kvs => set_dict ind kvs s
       end.
Proof. destruct v; reflexivity. Qed.

Lemma wf_set {V} (v : val V) : forall s ind, wf s -> wf (set_item s ind v).
Proof.
  induction v as [x|vs IH|kvs IH] using val_ind'; intros s ind Hs; rewrite set_item_eq;
    destruct (mem_index ind (powerindex s)) eqn:Em; try (apply wf_replace; exact Hs).
  - apply wf_append; [exact Hs|]. apply mem_index_nin. exact Em.
  - clear Em. revert s Hs. generalize 0. induction IH as [|w ws Hw Hws IHl]; intros i s Hs; simpl; [exact Hs|].
    apply IHl. apply Hw. exact Hs.
  - clear Em. revert s Hs. induction IH as [|[k w] ws Hw Hws IHl]; intros s Hs; simpl; [exact Hs|].
    apply IHl. apply Hw. exact Hs.
Qed.

(** ** Abstraction to the ordered map *)
Definition entries {V} (s : structure V) : list (index * val V) := combine (powerindex s) (master s).

Definition put {V} (m : list (index * val V)) (i : index) (v : val V) : list (index * val V) :=
  if existsb (fun e => index_eqb i (fst e)) m
  then map (fun e => if index_eqb i (fst e) then (fst e, v) else e) m
  else m ++ [(i, v)].

Lemma map_fst_combine {A B} (l : list A) (m : list B) : List.length l = List.length m -> map fst (combine l m) = l.
Proof. revert m; induction l as [|x l IH]; intros [|y m] H; simpl in *; try discriminate; [reflexivity|]. f_equal. apply IH. lia. Qed.

Lemma combine_app {A B} (l l' : list A) (m m' : list B) : List.length l = List.length m ->
  combine (l ++ l') (m ++ m') = combine l m ++ combine l' m'.
Proof. revert m; induction l as [|x l IH]; intros [|y m] H; simpl in *; try discriminate; [reflexivity|]. f_equal. apply IH. lia. Qed.

Lemma mem_entries {V} (s : structure V) i : List.length (master s) = List.length (powerindex s) ->
  existsb (fun e => index_eqb i (fst e)) (entries s) = mem_index i (powerindex s).
Proof.
  intros H. unfold entries, mem_index. rewrite <- (map_fst_combine (powerindex s) (master s)) at 2 by lia.
  generalize (combine (powerindex s) (master s)). intros l. induction l as [|e l IH]; simpl; [reflexivity|]. rewrite IH. reflexivity.
Qed.

Lemma replace_entries {V} i (v : val V) ps ms : List.length ms = List.length ps -> NoDup ps ->
  combine ps (replace_first i v ps ms) = map (fun e => if index_eqb i (fst e) then (fst e, v) else e) (combine ps ms).
Proof.
  intros H Hn. revert ms H. induction Hn as [|p ps Hp Hn IH]; intros [|m ms] H; simpl in *; try discriminate; [reflexivity|].
  destruct (index_eqb i p) eqn:E; simpl.
  - f_equal. apply index_eqb_eq in E; subst i.
    assert (G : forall ms : list (val V), map (fun e => if index_eqb p (fst e) then (fst e, v) else e) (combine ps ms) = combine ps ms).
    { clear - Hp. induction ps as [|q ps IH]; intros ms; [reflexivity|]. destruct ms as [|m ms]; simpl; [reflexivity|].
      destruct (index_eqb p q) eqn:E; [apply index_eqb_eq in E; subst; simpl in Hp; tauto|].
      f_equal. apply IH. simpl in Hp. tauto. }
    symmetry. apply G.
  - f_equal. apply IH. lia.
Qed.

Lemma set_elementary {V} (s : structure V) i v : wf s ->
  (mem_index i (powerindex s) = true \/ exists x, v = VLeaf x) ->
  entries (set_item s i v) = put (entries s) i v.
Proof.
  intros (A & B & _) Hv. rewrite set_item_eq. unfold put. rewrite mem_entries by exact A.
  destruct (mem_index i (powerindex s)) eqn:Em.
  - unfold entries; simpl. apply replace_entries; assumption.
  - destruct Hv as [Hv|[x ->]]; [discriminate|]. unfold entries; simpl. rewrite combine_app by lia. reflexivity.
Qed.

Lemma put_fst {V} (m : list (index * val V)) i v :
  map fst (put m i v) = if existsb (index_eqb i) (map fst m) then map fst m else map fst m ++ [i].
Proof.
  unfold put. assert (E : existsb (index_eqb i) (map fst m) = existsb (fun e => index_eqb i (fst e)) m).
  { induction m as [|e m IH]; simpl; [reflexivity|]. rewrite IH. reflexivity. }
  rewrite E. destruct (existsb (fun e => index_eqb i (fst e)) m).
  - rewrite map_map. apply map_ext. intros e. destruct (index_eqb i (fst e)); reflexivity.
  - rewrite map_app. reflexivity.
Qed.

Lemma lookup_put {V} (m : list (index * val V)) i v j :
  lookup (put m i v) j = if index_eqb j i then Some v else lookup m j.
Proof.
  unfold put, lookup. destruct (existsb (fun e => index_eqb i (fst e)) m) eqn:E.
  - induction m as [|[p w] m IH]; simpl in *; [discriminate|].
    destruct (index_eqb i p) eqn:Ep; simpl.
    + apply index_eqb_eq in Ep; subst p. destruct (index_eqb j i) eqn:Ej; [reflexivity|].
      clear IH E. induction m as [|[p w'] m IH]; simpl; [reflexivity|].
      destruct (index_eqb i p) eqn:Ep; simpl.
      * apply index_eqb_eq in Ep; subst p. rewrite Ej. exact IH.
      * destruct (index_eqb j p); [reflexivity|exact IH].
    + destruct (index_eqb j p) eqn:Ejp; simpl.
      * apply index_eqb_eq in Ejp; subst p. destruct (index_eqb j i) eqn:Eji; [|reflexivity].
        apply index_eqb_eq in Eji; subst j. rewrite index_eqb_refl in Ep. discriminate.
      * apply IH. exact E.
  - induction m as [|[p w] m IH]; simpl in *.
    + destruct (index_eqb j i); reflexivity.
    + apply orb_false_iff in E. destruct E as [E1 E2]. destruct (index_eqb j p) eqn:Ejp.
      * apply index_eqb_eq in Ejp; subst p. destruct (index_eqb j i) eqn:Eji; [|reflexivity].
        apply index_eqb_eq in Eji; subst j. rewrite index_eqb_refl in E1. discriminate.
      * apply IH. exact E2.
Qed.

Lemma lookup_in_nodup {V} (m : list (index * val V)) i v : NoDup (map fst m) -> (lookup m i = Some v <-> In (i, v) m).
Proof.
  unfold lookup. induction m as [|[p w] m IH]; simpl; intros Hn.
  - split; [discriminate|tauto].
  - inversion Hn as [|? ? Hp Hm]; subst. destruct (index_eqb i p) eqn:E; simpl.
    + apply index_eqb_eq in E; subst p. split; [intros H; inversion H; auto|].
      intros [H|H]; [inversion H; reflexivity|]. exfalso. apply Hp. apply in_map_iff. exists (i, v). auto.
    + rewrite IH by exact Hm. split; [auto|]. intros [H|H]; [|exact H]. inversion H; subst. rewrite index_eqb_refl in E. discriminate.
Qed.

(** ** Histories of elementary assignments *)
Definition run {V} (h : list (index * val V)) : structure V :=
  fold_left (fun s iv => set_item s (fst iv) (snd iv)) h struct_init.
Definition is_leaf {V} (v : val V) : Prop := exists x, v = VLeaf x.

Lemma wf_fold {V} (h : list (index * val V)) s : wf s -> wf (fold_left (fun s iv => set_item s (fst iv) (snd iv)) h s).
Proof. revert s; induction h as [|[i v] h IH]; intros s Hs; simpl; [exact Hs|]. apply IH. apply wf_set. exact Hs. Qed.
Lemma wf_run {V} (h : list (index * val V)) : wf (run h).
Proof. apply wf_fold. apply wf_init. Qed.

Lemma entries_fold {V} (h : list (index * val V)) s : wf s -> Forall (fun iv => is_leaf (snd iv)) h ->
  entries (fold_left (fun s iv => set_item s (fst iv) (snd iv)) h s)
  = fold_left (fun m iv => put m (fst iv) (snd iv)) h (entries s).
Proof.
  revert s; induction h as [|[i v] h IH]; intros s Hs Hl; simpl; [reflexivity|].
  inversion Hl as [|? ? Hx Hh]; subst. rewrite IH; [|apply wf_set; exact Hs|exact Hh].
  rewrite set_elementary; [reflexivity|exact Hs|right; exact Hx].
Qed.

Lemma fold_put_fst {V} (h : list (index * val V)) m :
  map fst (fold_left (fun m iv => put m (fst iv) (snd iv)) h m)
  = fold_left (fun acc i => if existsb (index_eqb i) acc then acc else acc ++ [i]) (map fst h) (map fst m).
Proof.
  revert m; induction h as [|[i v] h IH]; intros m; simpl; [reflexivity|]. rewrite IH, put_fst. reflexivity.
Qed.

Lemma fold_put_lookup {V} (h : list (index * val V)) m i :
  lookup (fold_left (fun m iv => put m (fst iv) (snd iv)) h m) i
  = match last_assigned h i with Some v => Some v | None => lookup m i end.
Proof.
  revert m; induction h as [|[p v] h IH]; intros m; simpl; [reflexivity|]. rewrite IH.
  destruct (last_assigned h i); [reflexivity|]. rewrite lookup_put. destruct (index_eqb i p); reflexivity.
Qed.

(** ** Selection *)
Lemma filter_level_ok {A} j k (it : list (A * index)) : (forall a p, In (a, p) it -> List.length p <> j) ->
  filter_level j k it = Ok (filter (fun e => match nth_error (snd e) j with Some k' => key_eqb k' k | None => false end) it).
Proof.
  induction it as [|[a p] it IH]; intros H; simpl; [reflexivity|].
  assert (Hp : List.length p <> j) by (apply (H a); left; reflexivity).
  assert (H' : forall a0 p0, In (a0, p0) it -> List.length p0 <> j) by (intros a0 p0 Hin; apply (H a0); right; exact Hin).
  destruct (Nat.ltb_spec (List.length p) j) as [L|L].
  - rewrite IH by exact H'. destruct (nth_error p j) eqn:E; [|reflexivity].
    assert (j < List.length p) by (apply nth_error_Some; congruence). lia.
  - destruct (nth_error p j) as [k'|] eqn:E.
    + rewrite IH by exact H'. reflexivity.
    + apply nth_error_None in E. lia.
Qed.

Lemma filter_level_err {A} j k (it : list (A * index)) a p : In (a, p) it -> List.length p = j ->
  filter_level j k it = Err ExcIndex.
Proof.
  induction it as [|[b q] it IH]; intros Hin Hp; [destruct Hin|]. simpl.
  destruct (Nat.ltb_spec (List.length q) j) as [L|L].
  - destruct Hin as [E|Hin]; [inversion E; subst; lia|]. apply IH; assumption.
  - destruct (nth_error q j) as [k'|] eqn:E; [|reflexivity].
    destruct Hin as [E'|Hin].
    + inversion E'; subst. assert (List.length p < List.length p) by (apply nth_error_Some; congruence). lia.
    + rewrite (IH Hin Hp). reflexivity.
Qed.

(** the loop of [select] without the slice case in front *)
Fixpoint kloop {A} (j : nat) (ks : list key) (it : list (A * index)) : res (list (A * index)) :=
  match ks with
  | [] => Ok it
  | k :: ks' => let! it' := filter_level j k it in kloop (S j) ks' it'
  end.

Definition sloop {A} (feats : list (list key)) (fuel : nat) (q : list qel) :=
  fix loop (j : nat) (rest : list qel) (it : list (A * index)) {struct rest} : res (sel A) :=
     match rest with
     | [] => Ok (Flat it)
     | QKey k :: rest' => let! it' := filter_level j k it in loop (S j) rest' it'
     | QSlice sl :: _ =>
         match fuel with
         | O => Err ExcOutOfFuel
         | S fuel' =>
             match nth_error feats j with
             | None => Err ExcIndex
             | Some fj =>
                 let! rs := mapM (fun k => select feats fuel' (upd q j (QKey k)) it) (sl fj) in
                 Ok (Nest rs)
             end
         end
     end.

Lemma select_eq {A} feats fuel q (it : list (A * index)) : select feats fuel q it = sloop feats fuel q 0 q it.
Proof. destruct fuel; reflexivity. Qed.

Lemma sloop_keys {A} feats fuel q ks rest : forall j (it : list (A * index)),
  sloop feats fuel q j (map QKey ks ++ rest) it
  = (let! it' := kloop j ks it in sloop feats fuel q (j + List.length ks) rest it').
Proof.
  induction ks as [|k ks IH]; intros j it; simpl.
  - rewrite Nat.add_0_r. reflexivity.
  - destruct (filter_level j k it) as [it'|e]; simpl; [|reflexivity].
    rewrite IH, Nat.add_succ_comm. reflexivity.
Qed.

Lemma select_keys {A} feats fuel ks (it : list (A * index)) :
  select feats fuel (map QKey ks) it = (let! r := kloop 0 ks it in Ok (Flat r)).
Proof.
  rewrite select_eq. generalize (map QKey ks) at 1. intros q.
  rewrite <- (app_nil_r (map QKey ks)). rewrite sloop_keys. destruct (kloop 0 ks it); reflexivity.
Qed.

Lemma prefixb_app p k q : prefixb (p ++ [k]) q = prefixb p q && match nth_error q (List.length p) with Some k' => key_eqb k' k | None => false end.
Proof.
  revert q; induction p as [|x p IH]; intros [|y q]; simpl; try reflexivity.
  - rewrite andb_true_r. destruct (key_eqb k y) eqn:E.
    + apply key_eqb_eq in E; subst. symmetry. apply key_eqb_refl.
    + destruct (key_eqb y k) eqn:E'; [|reflexivity]. apply key_eqb_eq in E'; subst. rewrite key_eqb_refl in E; discriminate.
  - rewrite IH, andb_assoc. reflexivity.
Qed.

Definition sel_prefix {A} (p : index) (it : list (A * index)) := filter (fun e => prefixb p (snd e)) it.

Lemma filter_filter {A} (f g : A -> bool) l : filter g (filter f l) = filter (fun x => f x && g x) l.
Proof. induction l as [|x l IH]; simpl; [reflexivity|]. destruct (f x); simpl; [destruct (g x); simpl; rewrite IH; reflexivity | exact IH]. Qed.

(** Invariant of the loop: the candidates are those matching the prefix visited so far. *)
Lemma kloop_spec {A} ks p (it : list (A * index)) :
  (forall a q, In (a, q) it -> ~ (exists r, r <> [] /\ is_prefix p q /\ p ++ ks = q ++ r)) ->
  kloop (List.length p) ks (sel_prefix p it) = Ok (sel_prefix (p ++ ks) it).
Proof.
  revert p; induction ks as [|k ks IH]; intros p H; simpl.
  - rewrite app_nil_r. reflexivity.
  - rewrite filter_level_ok.
    + simpl. unfold sel_prefix at 1. rewrite filter_filter.
      rewrite (filter_ext _ (fun e => prefixb (p ++ [k]) (snd e))) by (intros e; symmetry; apply prefixb_app).
      fold (sel_prefix (p ++ [k]) it).
      replace (S (List.length p)) with (List.length (p ++ [k])) by (rewrite app_length; simpl; lia).
      rewrite IH.
      * rewrite <- app_assoc. reflexivity.
      * intros a q Hin (r & Hr & Hp & Eq). apply (H a q Hin). exists r. split; [exact Hr|]. split.
        -- destruct Hp as [t ->]. exists (k :: t). rewrite <- app_assoc. reflexivity.
        -- rewrite <- app_assoc in Eq. exact Eq.
    + intros a q Hin Hlen. unfold sel_prefix in Hin. apply filter_In in Hin. destruct Hin as [Hin Hp]. simpl in Hp.
      apply prefixb_spec in Hp. apply (H a q Hin). destruct Hp as [t Et]. rewrite Et, app_length in Hlen.
      destruct t; [|simpl in Hlen; lia]. rewrite app_nil_r in Et. subst q. exists (k :: ks). split; [discriminate|].
      split; [exists []; rewrite app_nil_r; reflexivity | reflexivity].
Qed.

Lemma sel_prefix_nil {A} (it : list (A * index)) : sel_prefix [] it = it.
Proof. unfold sel_prefix. induction it; simpl; [reflexivity|]. f_equal. assumption. Qed.

Lemma kloop_err {A} ks p (it : list (A * index)) a q : In (a, q) it -> is_prefix p q ->
  (exists r, r <> [] /\ p ++ ks = q ++ r) ->
  kloop (List.length p) ks (sel_prefix p it) = Err ExcIndex.
Proof.
  revert p; induction ks as [|k ks IH]; intros p Hin Hp (r & Hr & E).
  - destruct Hp as [t ->]. apply (f_equal (@List.length key)) in E. rewrite !app_length in E. simpl in E. destruct r; [congruence|simpl in E; lia].
  - destruct Hp as [t ->]. simpl. destruct t as [|k0 t].
    + rewrite app_nil_r in *. rewrite (filter_level_err (List.length p) k _ a p); [reflexivity| |reflexivity].
      unfold sel_prefix. apply filter_In. split; [exact Hin|]. simpl. apply prefixb_spec. exists []. rewrite app_nil_r. reflexivity.
    + rewrite <- app_assoc in E. apply app_inv_head in E. simpl in E. inversion E; subst k0; clear E.
      destruct (filter_level (List.length p) k (sel_prefix p it)) as [it'|e] eqn:F; simpl.
      * assert (Hsh : forall a0 p0, In (a0, p0) (sel_prefix p it) -> List.length p0 <> List.length p).
        { intros a0 p0 Hi Hl. rewrite (filter_level_err (List.length p) k _ a0 p0 Hi Hl) in F. discriminate. }
        rewrite filter_level_ok in F by exact Hsh. inversion F; subst it'; clear F.
        unfold sel_prefix at 1. rewrite filter_filter.
        rewrite (filter_ext _ (fun e => prefixb (p ++ [k]) (snd e))) by (intros e; symmetry; apply prefixb_app).
        replace (S (List.length p)) with (List.length (p ++ [k])) by (rewrite app_length; simpl; lia).
        fold (sel_prefix (p ++ [k]) it). rewrite <- H1.
        apply IH; [exact Hin | exists t; rewrite <- app_assoc; reflexivity |].
        exists r. split; [exact Hr|]. rewrite <- !app_assoc. simpl. rewrite H1. reflexivity.
      * assert (Ee : e = ExcIndex).
        { clear - F. revert F. generalize (sel_prefix p it). intros l. induction l as [|[b q] l IHl]; simpl; [discriminate|].
          destruct (List.length q <? List.length p); [exact IHl|]. destruct (nth_error q (List.length p)); [|intros H; inversion H; reflexivity].
          destruct (filter_level (List.length p) k l); simpl; [discriminate|]. intros H. apply IHl. exact H. }
        rewrite Ee. reflexivity.
Qed.

Lemma kloop_from {A} ks p (it : list (A * index)) : is_prefix p ks ->
  (forall a q, In (a, q) it -> ~ proper_prefix q ks) ->
  kloop 0 ks (sel_prefix p it) = Ok (sel_prefix ks it).
Proof.
  intros [t ->] H. 
  assert (E : sel_prefix (p ++ t) it = sel_prefix (p ++ t) (sel_prefix p it)).
  { unfold sel_prefix. rewrite filter_filter. apply filter_ext. intros e.
    destruct (prefixb (p ++ t) (snd e)) eqn:E; [|rewrite andb_false_r; reflexivity].
    apply prefixb_spec in E. destruct E as [r E]. symmetry. rewrite andb_true_r. apply prefixb_spec.
    exists (t ++ r). rewrite E, app_assoc. reflexivity. }
  rewrite E.
  pose proof (kloop_spec (p ++ t) [] (sel_prefix p it)) as K. rewrite sel_prefix_nil in K. simpl in K. apply K.
  intros a q Hin (r & Hr & _ & Eq). unfold sel_prefix in Hin. apply filter_In in Hin. destruct Hin as [Hin _].
  apply (H a q Hin). exists r. auto.
Qed.

Fixpoint nslices (q : list qel) : nat :=
  match q with [] => 0 | QKey _ :: q' => nslices q' | QSlice _ :: q' => S (nslices q') end.

Lemma nslices_app q q' : nslices (q ++ q') = nslices q + nslices q'.
Proof. induction q as [|[k|sl] q IH]; simpl; auto. Qed.
Lemma nslices_keys ks : nslices (map QKey ks) = 0.
Proof. induction ks; simpl; auto. Qed.
Lemma nslices_length q : nslices q <= List.length q.
Proof. induction q as [|[k|sl] q IH]; simpl; lia. Qed.

Lemma key_split q : exists ks rest, q = map QKey ks ++ rest /\ (rest = [] \/ exists sl q', rest = QSlice sl :: q').
Proof.
  induction q as [|[k|sl] q (ks & rest & E & H)].
  - exists [], []. auto.
  - exists (k :: ks), rest. rewrite E. auto.
  - exists [], (QSlice sl :: q). split; [reflexivity|]. right. eauto.
Qed.

Lemma upd_keys ks sl q x : upd (map QKey ks ++ QSlice sl :: q) (List.length ks) x = map QKey ks ++ x :: q.
Proof.
  unfold upd. induction ks as [|k ks IH]; simpl; [reflexivity|]. f_equal. exact IH.
Qed.

Lemma select_spec {A} feats fuel : forall q p (it : list (A * index)),
  nslices q <= fuel ->
  (forall a i, In (a, i) it -> List.length q <= List.length i) ->
  (forall j, j < List.length q -> nth_error feats j <> None) ->
  (exists ks rest, q = map QKey ks ++ rest /\ is_prefix p ks) ->
  exists r, select feats fuel q (sel_prefix p it) = Ok r /\ selects feats it q r.
Proof.
  induction fuel as [|fuel IH]; intros q p it Hn Hlen Hf (ks0 & rest0 & E0 & Hp0);
    destruct (key_split q) as (ks & rest & E & Hrest).
  - destruct Hrest as [->|(sl & q' & ->)].
    2:{ rewrite E, nslices_app in Hn. simpl in Hn. lia. }
    rewrite app_nil_r in E.
    assert (Hp : is_prefix p ks).
    { destruct Hp0 as [t ->]. rewrite E in E0. clear - E0. revert ks E0; induction p as [|x p IHp]; intros ks E0.
      - exists ks. reflexivity.
      - destruct ks as [|y ks]; simpl in E0; [discriminate|]. injection E0 as E1 E2. subst. destruct (IHp ks E2) as [r ->]. exists r. reflexivity. }
    rewrite E. rewrite select_keys, kloop_from; [|exact Hp|].
    + simpl. eexists. split; [reflexivity|]. apply Sel_flat.
    + intros a i Hin (r & Hr & Er). specialize (Hlen a i Hin). rewrite E, map_length, Er, app_length in Hlen. destruct r; [congruence|simpl in Hlen; lia].
  - assert (Hp : rest = [] -> is_prefix p ks).
    { intros ->. rewrite app_nil_r in E. destruct Hp0 as [t ->]. rewrite E in E0. clear - E0. revert ks E0; induction p as [|x p IHp]; intros ks E0.
      - exists ks. reflexivity.
      - destruct ks as [|y ks]; simpl in E0; [discriminate|]. injection E0 as E1 E2. subst. destruct (IHp ks E2) as [r ->]. exists r. reflexivity. }
    destruct Hrest as [->|(sl & q' & ->)].
    + rewrite app_nil_r in E. specialize (Hp eq_refl).
      rewrite E. rewrite select_keys, kloop_from; [|exact Hp|].
      * simpl. eexists. split; [reflexivity|]. apply Sel_flat.
      * intros a i Hin (r & Hr & Er). specialize (Hlen a i Hin). rewrite E, map_length, Er, app_length in Hlen. destruct r; [congruence|simpl in Hlen; lia].
    + clear Hp. assert (Hp : is_prefix p ks).
      { destruct Hp0 as [t ->]. rewrite E in E0. clear - E0. revert ks E0; induction p as [|x p IHp]; intros ks E0.
        - exists ks. reflexivity.
        - destruct ks as [|y ks]; simpl in E0; [discriminate|]. injection E0 as E1 E2. subst. destruct (IHp ks E2) as [r ->]. exists r. reflexivity. }
      assert (Es : select feats (S fuel) q (sel_prefix p it)
                   = sloop feats (S fuel) q 0 (map QKey ks ++ QSlice sl :: q') (sel_prefix p it))
        by (rewrite select_eq, <- E; reflexivity).
      rewrite Es. clear Es. rewrite sloop_keys, kloop_from; [|exact Hp|].
      2:{ intros a i Hin (r & Hr & Er). specialize (Hlen a i Hin). rewrite E, app_length, map_length, Er, app_length in Hlen. destruct r; [congruence|simpl in Hlen; lia]. }
      simpl bind. cbn [sloop]. try rewrite Nat.add_0_l.
      destruct (nth_error feats (List.length ks)) as [fj|] eqn:Ef.
      2:{ exfalso. apply (Hf (List.length ks)); [|exact Ef]. rewrite E, app_length, map_length. simpl. lia. }
      assert (Hlq : forall k, List.length (map QKey ks ++ QKey k :: q') = List.length q) by (intros k; rewrite E, !app_length; reflexivity).
      assert (G : exists rs, mapM (fun k => select feats fuel (upd q (List.length ks) (QKey k)) (sel_prefix ks it)) (sl fj) = Ok rs
        /\ Forall2 (fun k r => selects feats it (map QKey ks ++ QKey k :: q') r) (sl fj) rs).
      { generalize (sl fj). intros l. induction l as [|k l (rs & E1 & E2)].
        - exists []. split; [reflexivity|constructor].
        - destruct (IH (map QKey ks ++ QKey k :: q') ks it) as (r & R1 & R2).
          + rewrite E, nslices_app in Hn. rewrite nslices_app. simpl in *. lia.
          + rewrite Hlq. exact Hlen.
          + rewrite Hlq. exact Hf.
          + exists ks, (QKey k :: q'). split; [reflexivity|]. exists []. rewrite app_nil_r. reflexivity.
          + exists (r :: rs). split; [|constructor; assumption]. simpl. replace (upd q (List.length ks) (QKey k)) with (map QKey ks ++ QKey k :: q') by (rewrite E, upd_keys; reflexivity). rewrite R1, E1. reflexivity. }
      destruct G as (rs & G1 & G2). rewrite G1. simpl. exists (Nest rs). split; [reflexivity|].
      rewrite E. eapply Sel_nest; eassumption.
Qed.

(** ** Nested values *)
Lemma leaves_below {V} (v : val V) : forall ind p w, In (p, w) (leaves ind v) -> is_prefix ind p.
Proof.
  induction v as [x|vs IH|kvs IH] using val_ind'; intros ind p w; simpl.
  - intros [E|[]]. inversion E; subst. exists []. rewrite app_nil_r. reflexivity.
  - generalize 0. induction IH as [|u us Hu Hus IHl]; intros i Hin; [destruct Hin|].
    apply in_app_iff in Hin. destruct Hin as [Hin|Hin]; [|apply (IHl (S i) Hin)].
    destruct (Hu _ _ _ Hin) as [r ->]. exists (KI i :: r). rewrite <- app_assoc. reflexivity.
  - induction IH as [|[k u] us Hu Hus IHl]; intros Hin; [destruct Hin|].
    apply in_app_iff in Hin. destruct Hin as [Hin|Hin]; [|apply (IHl Hin)].
    destruct (Hu _ _ _ Hin) as [r ->]. exists (k :: r). rewrite <- app_assoc. reflexivity.
Qed.

Lemma leaves_leaf {V} (v : val V) : forall ind, Forall (fun iv => is_leaf (snd iv)) (leaves ind v).
Proof.
  induction v as [x|vs IH|kvs IH] using val_ind'; intros ind; simpl.
  - constructor; [exists x; reflexivity|constructor].
  - generalize 0. induction IH as [|u us Hu Hus IHl]; intros i; [constructor|]. apply Forall_app. split; [apply Hu|apply IHl].
  - induction IH as [|[k u] us Hu Hus IHl]; [constructor|]. apply Forall_app. split; [apply Hu|apply IHl].
Qed.

Definition fold_set {V} (h : list (index * val V)) (s : structure V) :=
  fold_left (fun s iv => set_item s (fst iv) (snd iv)) h s.

Lemma powerindex_fold_leaf {V} (h : list (index * val V)) s p : Forall (fun iv => is_leaf (snd iv)) h ->
  In p (powerindex (fold_set h s)) -> In p (powerindex s) \/ In p (map fst h).
Proof.
  revert s; induction h as [|[i v] h IH]; intros s Hl Hin; simpl in *; [left; exact Hin|].
  inversion Hl as [|? ? [x Hx] Hh]; subst. simpl in Hx. subst v.
  destruct (IH _ Hh Hin) as [H|H]; [|right; right; exact H].
  revert H. cbn [set_item]. destruct (mem_index i (powerindex s)); simpl; intros H; [left; exact H|].
  apply in_app_iff in H. destruct H as [H|[H|[]]]; [left; exact H|right; left; exact H].
Qed.

Lemma is_prefix_comparable (a b c : index) : is_prefix a c -> is_prefix b c -> is_prefix a b \/ is_prefix b a.
Proof.
  intros [r ->] [t E]. revert b E; induction a as [|x a IH]; intros b E.
  - left. exists b. reflexivity.
  - destruct b as [|y b]; [right; exists (x :: a); reflexivity|]. simpl in E. inversion E; subst.
    destruct (IH b H1) as [[u ->]|[u ->]]; [left|right]; exists u; reflexivity.
Qed.

Lemma prefix_snoc_neq (ind : index) (k k' : key) p : k <> k' -> is_prefix (ind ++ [k]) p -> ~ is_prefix (ind ++ [k']) p.
Proof.
  intros Hk [r ->] [t E]. rewrite <- !app_assoc in E. apply app_inv_head in E. simpl in E. inversion E. congruence.
Qed.

(** Assigning a nested value where nothing is stored at or below the index is assigning its leaves
    one after another. *)
Lemma set_nested {V} (v : val V) : wf_val v -> forall s ind,
  (forall p, In p (powerindex s) -> ~ is_prefix ind p) ->
  set_item s ind v = fold_set (leaves ind v) s.
Proof.
  induction v as [x|vs IH|kvs IH] using val_ind'; intros Hwf s ind H.
  - reflexivity.
  - rewrite set_item_eq. destruct (mem_index ind (powerindex s)) eqn:Em.
    { exfalso. apply mem_index_in in Em. apply (H ind Em). exists []. rewrite app_nil_r. reflexivity. }
    clear Em. simpl. inversion Hwf as [|vs' Hvs|]; subst. clear Hwf.
    assert (H' : forall j p, 0 <= j -> In p (powerindex s) -> ~ is_prefix (ind ++ [KI j]) p).
    { intros j p _ Hp [r E]. apply (H p Hp). exists (KI j :: r). rewrite E, <- app_assoc. reflexivity. }
    clear H. revert s H'. generalize 0. induction IH as [|u us Hu Hus IHl]; intros i s H'; [reflexivity|].
    inversion Hvs as [|? ? W1 W2]; subst. simpl. unfold fold_set. rewrite fold_left_app. fold (fold_set (leaves (ind ++ [KI i]) u) s).
    rewrite <- Hu; [|exact W1|intros p Hp; apply (H' i p); [lia|exact Hp]].
    apply IHl; [exact W2|]. intros j p Hj Hp. rewrite Hu in Hp; [|exact W1|intros q Hq; apply (H' i q); [lia|exact Hq]].
    apply powerindex_fold_leaf in Hp; [|apply leaves_leaf]. destruct Hp as [Hp|Hp]; [apply (H' j p); [lia|exact Hp]|].
    apply in_map_iff in Hp. destruct Hp as ([p' w] & E & Hin). simpl in E; subst p'. apply leaves_below in Hin.
    apply (prefix_snoc_neq ind (KI i)); [|exact Hin]. intros E. inversion E. lia.
  - rewrite set_item_eq. destruct (mem_index ind (powerindex s)) eqn:Em.
    { exfalso. apply mem_index_in in Em. apply (H ind Em). exists []. rewrite app_nil_r. reflexivity. }
    clear Em. simpl. inversion Hwf as [| |kvs' Hnd Hvs]; subst. clear Hwf.
    assert (H' : forall k p, In k (map fst kvs) -> In p (powerindex s) -> ~ is_prefix (ind ++ [k]) p).
    { intros k p _ Hp [r E]. apply (H p Hp). exists (k :: r). rewrite E, <- app_assoc. reflexivity. }
    clear H. revert s H'. induction IH as [|[k u] us Hu Hus IHl]; intros s H'; [reflexivity|].
    inversion Hvs as [|? ? W1 W2]; subst. simpl in Hnd. inversion Hnd as [|? ? N1 N2]; subst. simpl in Hu, W1.
    simpl. unfold fold_set. rewrite fold_left_app. fold (fold_set (leaves (ind ++ [k]) u) s).
    rewrite <- Hu; [|exact W1|intros p Hp; apply (H' k p); [left; reflexivity|exact Hp]].
    apply IHl; [exact N2|exact W2|]. intros k' p Hk Hp. rewrite Hu in Hp; [|exact W1|intros q Hq; apply (H' k q); [left; reflexivity|exact Hq]].
    apply powerindex_fold_leaf in Hp; [|apply leaves_leaf]. destruct Hp as [Hp|Hp]; [apply (H' k' p); [right; exact Hk|exact Hp]|].
    apply in_map_iff in Hp. destruct Hp as ([p' w] & E & Hin). simpl in E; subst p'. apply leaves_below in Hin.
    apply (prefix_snoc_neq ind k); [|exact Hin]. intros ->. exact (N1 Hk).
Qed.
