(** * Lemmas on save_results: the naming loop terminates at a fresh name. *)
From Verif Require Import Base DataModel DataSpec DataProofs.
From Coq Require Import DecimalString DecimalNat Ascii.

Lemma decimal_of_uint n : option_map Nat.of_uint (NilEmpty.uint_of_string (decimal n)) = Some n.
Proof. unfold decimal. rewrite NilEmpty.usu. simpl. rewrite Unsigned.of_to. reflexivity. Qed.

Lemma zeros_uint k s : option_map Nat.of_uint (NilEmpty.uint_of_string (zeros k ++ s)%string) = option_map Nat.of_uint (NilEmpty.uint_of_string s).
Proof.
  induction k as [|k IH]; [reflexivity|]. simpl. rewrite <- IH.
  destruct (NilEmpty.uint_of_string (zeros k ++ s)); reflexivity.
Qed.

Lemma fmt03d_inj a b : fmt03d a = fmt03d b -> a = b.
Proof.
  intros H. assert (Ha : option_map Nat.of_uint (NilEmpty.uint_of_string (fmt03d a)) = Some a) by (unfold fmt03d; rewrite zeros_uint; apply decimal_of_uint).
  rewrite H in Ha. unfold fmt03d in Ha. rewrite zeros_uint, decimal_of_uint in Ha. congruence.
Qed.

Lemma append_inj_l a b c : (a ++ b = a ++ c)%string -> b = c.
Proof. induction a as [|x a IH]; simpl; [auto|]. intros H; inversion H; auto. Qed.
Lemma append_length a b : String.length (a ++ b) = String.length a + String.length b.
Proof. induction a; simpl; auto. Qed.
Lemma append_inj_r a b c : (a ++ c = b ++ c)%string -> a = b.
Proof.
  revert b; induction a as [|x a IH]; intros [|y b] H; simpl in H.
  - reflexivity.
  - apply (f_equal String.length) in H. simpl in H. rewrite append_length in H. lia.
  - apply (f_equal String.length) in H. simpl in H. rewrite append_length in H. lia.
  - inversion H. f_equal. auto.
Qed.
Lemma append_assoc a b c : ((a ++ b) ++ c = a ++ (b ++ c))%string.
Proof. induction a; simpl; congruence. Qed.

Definition cand (path name : string) (i : nat) : string := (path ++ (fmt03d i ++ "_" ++ name) ++ ".pkl")%string.
Lemma cand_inj path name a b : cand path name a = cand path name b -> a = b.
Proof.
  unfold cand. intros H. apply append_inj_l, append_inj_r, append_inj_r in H. apply fmt03d_inj. exact H.
Qed.

Lemma amem_in {A} k (l : list (string * A)) : amem k l = true <-> In k (map fst l).
Proof.
  unfold amem. induction l as [|[k' a] l IH]; simpl; [split; [discriminate|tauto]|].
  destruct (String.eqb_spec k k') as [->|H]; [split; auto|]. rewrite IH. split; [auto|]. intros [E|E]; [congruence|exact E].
Qed.

Lemma find_name_ok {D} (fs : list (string * list (string * D))) path name : forall fuel ext ind taken,
  NoDup taken -> incl taken (map fst fs) ->
  (forall t, In t taken -> t = (path ++ name ++ ".pkl")%string \/ exists i, i < ind /\ t = cand path name i) ->
  (amem (path ++ ext ++ ".pkl")%string fs = true -> ~ In (path ++ ext ++ ".pkl")%string taken) ->
  (ext = name \/ exists i, i < ind /\ ext = (fmt03d i ++ "_" ++ name)%string) ->
  List.length fs < fuel + List.length taken ->
  (forall i, ind <= i -> cand path name i <> (path ++ name ++ ".pkl")%string) ->
  exists ext', find_name fs path name fuel ext ind = Ok ext' /\ amem (path ++ ext' ++ ".pkl")%string fs = false
    /\ (ext' = name \/ exists i, ext' = (fmt03d i ++ "_" ++ name)%string).
Proof.
  induction fuel as [|fuel IH]; intros ext ind taken Hnd Hincl Ht Hnew Hext Hlen Hneq; simpl.
  - exfalso. apply NoDup_incl_length in Hincl; [|exact Hnd]. rewrite map_length in Hincl. lia.
  - destruct (amem (path ++ ext ++ ".pkl") fs) eqn:E.
    2:{ exists ext. split; [reflexivity|]. split; [exact E|]. destruct Hext as [H|(i & _ & H)]; eauto. }
    apply (IH _ _ ((path ++ ext ++ ".pkl")%string :: taken)).
    + constructor; [apply Hnew; reflexivity|exact Hnd].
    + intros t [<-|Hin]; [apply amem_in; exact E|apply Hincl; exact Hin].
    + intros t [<-|Hin].
      * destruct Hext as [->|(i & Hi & ->)]; [left; reflexivity|right; exists i; split; [lia|reflexivity]].
      * destruct (Ht t Hin) as [H|(i & Hi & H)]; [left; exact H|right; exists i; split; [lia|exact H]].
    + intros _ [Hin|Hin].
      * destruct Hext as [->|(i & Hi & ->)].
        -- apply (Hneq ind (le_n _)). unfold cand. symmetry. exact Hin.
        -- change (cand path name i = cand path name ind) in Hin. apply cand_inj in Hin. lia.
      * destruct (Ht _ Hin) as [H|(i & Hi & H)].
        -- apply (Hneq ind (le_n _)). exact H.
        -- change (cand path name ind = cand path name i) in H. apply cand_inj in H. lia.
    + right. exists ind. split; [lia|reflexivity].
    + simpl. lia.
    + intros i Hi. apply Hneq. lia.
Qed.

Lemma cand_neq path name i : cand path name i <> (path ++ name ++ ".pkl")%string.
Proof.
  unfold cand. intros H. apply append_inj_l, append_inj_r in H. apply (f_equal String.length) in H.
  rewrite !append_length in H. simpl in H. lia.
Qed.

Lemma find_name_fresh {D} (fs : list (string * list (string * D))) path name :
  exists ext, find_name fs path name (S (List.length fs)) name 1 = Ok ext
    /\ amem (path ++ ext ++ ".pkl")%string fs = false
    /\ (ext = name \/ exists i, ext = (fmt03d i ++ "_" ++ name)%string).
Proof.
  apply (find_name_ok fs path name (S (List.length fs)) name 1 []).
  - constructor.
  - intros t [].
  - intros t [].
  - intros _ [].
  - left; reflexivity.
  - simpl. lia.
  - intros i _. apply cand_neq.
Qed.

Lemma aset_frame {A} k (a : A) l k' : k' <> k -> alookup k' (aset k a l) = alookup k' l.
Proof. intros H. rewrite alookup_aset. destruct (String.eqb_spec k' k); [contradiction|reflexivity]. Qed.

(** the results dictionary *)
Lemma collect_spec {D} (l : list (savable D)) : forall acc,
  match collect l acc with
  | Ok r => ~ In SOther l
      /\ alookup "mpc" r = match last_of (fun o => match o with SMPC d => Some d | _ => None end) l with Some d => Some d | None => alookup "mpc" acc end
      /\ alookup "simulator" r = match last_of (fun o => match o with SSim d => Some d | _ => None end) l with Some d => Some d | None => alookup "simulator" acc end
      /\ alookup "estimator" r = match last_of (fun o => match o with SEst d => Some d | _ => None end) l with Some d => Some d | None => alookup "estimator" acc end
  | Err e => e = ExcGeneric /\ In SOther l
  end.
Proof.
  induction l as [|o l IH]; intros acc; simpl.
  - split; [tauto|]. auto.
  - destruct o as [d|d|d|].
    + specialize (IH (aset "mpc" d acc)). destruct (collect l (aset "mpc" d acc)).
      * destruct IH as (A & B & C & E). split; [intros [H|H]; [discriminate|tauto]|]. rewrite B, C, E, !alookup_aset. simpl.
        clear; repeat split; repeat match goal with |- context[last_of ?f l] => destruct (last_of f l) end; reflexivity.
      * destruct IH; auto.
    + specialize (IH (aset "simulator" d acc)). destruct (collect l (aset "simulator" d acc)).
      * destruct IH as (A & B & C & E). split; [intros [H|H]; [discriminate|tauto]|]. rewrite B, C, E, !alookup_aset. simpl.
        clear; repeat split; repeat match goal with |- context[last_of ?f l] => destruct (last_of f l) end; reflexivity.
      * destruct IH; auto.
    + specialize (IH (aset "estimator" d acc)). destruct (collect l (aset "estimator" d acc)).
      * destruct IH as (A & B & C & E). split; [intros [H|H]; [discriminate|tauto]|]. rewrite B, C, E, !alookup_aset. simpl.
        clear; repeat split; repeat match goal with |- context[last_of ?f l] => destruct (last_of f l) end; reflexivity.
      * destruct IH; auto.
    + auto.
Qed.
