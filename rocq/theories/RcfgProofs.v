(** * Proofs for C107. *)
From Coq Require Import Reals Lra Lia.
From Verif Require Import Base NlpModel NlpSpec RcfgModel RcfgSpec.
Local Open Scope R_scope.

Lemma place_lt l key s0 s n : place_of l key s0 = Some (s, n) -> (s0 <= s)%nat.
Proof.
  revert s0. induction l as [|[k m] l IH]; cbn; intros s0 H; [discriminate|].
  destruct (String.eqb k key); [injection H as <- <-; lia|]. apply IH in H. lia.
Qed.
(** Positions of different names do not overlap. *)
Lemma place_disjoint l a b s0 s n t m : distinct_names l -> a <> b -> place_of l a s0 = Some (s, n) -> place_of l b s0 = Some (t, m) ->
  (s + n <= t \/ t + m <= s)%nat.
Proof.
  intros Hd Hab. revert s0. induction l as [|[k q] l IH]; cbn; intros s0 H1 H2; [discriminate|].
  destruct (String.eqb_spec k a) as [Ea|Ea], (String.eqb_spec k b) as [Eb|Eb].
  - congruence.
  - injection H1 as <- <-. apply place_lt in H2. left. lia.
  - injection H2 as <- <-. apply place_lt in H1. right. lia.
  - eapply IH; try eassumption. unfold distinct_names in *. cbn in Hd. inversion Hd; assumption.
Qed.

Lemma place_find l key s0 : match place_of l key s0, find (fun e => String.eqb (fst e) key) l with
  | Some (_, n), Some (_, m) => n = m | None, None => True | _, _ => False end.
Proof.
  revert s0. induction l as [|[k m] l IH]; cbn; intros s0; [exact I|]. destruct (String.eqb k key); [reflexivity|apply IH].
Qed.
(** An input sits behind those declared before it. *)
Lemma place_split l1 name n l2 s0 : distinct_names (l1 ++ (name, n) :: l2) ->
  place_of (l1 ++ (name, n) :: l2) name s0 = Some ((s0 + list_sum (map snd l1))%nat, n).
Proof.
  revert s0. induction l1 as [|[k m] l1 IH]; cbn; intros s0 Hd.
  - rewrite String.eqb_refl, Nat.add_0_r. reflexivity.
  - unfold distinct_names in *. cbn in Hd. inversion Hd as [|? ? Hn Hd']. subst.
    destruct (String.eqb_spec k name) as [->|_].
    + exfalso. apply Hn. rewrite map_app. apply in_or_app. right. left. reflexivity.
    + rewrite IH by exact Hd'. unfold list_sum. rewrite Nat.add_assoc. reflexivity.
Qed.

(** One assignment. *)
Lemma assign_valid l fac k v : valid_kw l (k, v) = true -> exists fac', assign l fac k v = Ok fac' /\
  (distinct_names l -> forall name s n i, place_of l name 0 = Some (s, n) -> (i < n)%nat ->
    fac' (s + i)%nat = if String.eqb k name then entry_of v i else fac (s + i)%nat).
Proof.
  unfold valid_kw, assign. cbn [fst snd]. pose proof (place_find l k 0) as Hpf. destruct (place_of l k 0) as [[t m]|] eqn:Ep; (destruct (find (fun e => String.eqb (fst e) k) l) as [[k' m']|]; [|contradiction Hpf || (intros; discriminate)]); [subst m'|contradiction Hpf].
  assert (Hin : forall r : nat -> R, distinct_names l -> forall name s n i, place_of l name 0 = Some (s, n) -> (i < n)%nat ->
     (if (t <=? s + i)%nat && (s + i <? t + m)%nat then r (s + i - t)%nat else fac (s + i)%nat) = if String.eqb k name then r i else fac (s + i)%nat).
  { intros r Hd name s n i Hs Hi. destruct (String.eqb_spec k name) as [<-|Hne].
    - rewrite Ep in Hs. injection Hs as -> ->. replace (s <=? s + i)%nat with true by (symmetry; apply Nat.leb_le; lia).
      replace (s + i <? s + n)%nat with true by (symmetry; apply Nat.ltb_lt; lia). cbn. f_equal. lia.
    - destruct (place_disjoint l k name 0 t m s n Hd Hne Ep Hs) as [H|H].
      + replace (s + i <? t + m)%nat with false by (symmetry; apply Nat.ltb_ge; lia). rewrite andb_false_r. reflexivity.
      + replace (t <=? s + i)%nat with false by (symmetry; apply Nat.leb_gt; lia). reflexivity. }
  destruct v as [r|vs|]; intros H; [| |discriminate].
  - eexists. split; [reflexivity|]. intros Hd name s n i Hs Hi. exact (Hin (fun _ => r) Hd name s n i Hs Hi).
  - destruct vs as [|r [|r' vs]].
    + change (Nat.eqb (@List.length R []) 1) with false in H. cbn [orb] in H. rewrite H. eexists. split; [reflexivity|]. intros Hd name s n i Hs Hi.
      apply (Hin (fun j => nth j [] 0) Hd name s n i Hs Hi).
    + eexists. split; [reflexivity|]. intros Hd name s n i Hs Hi. exact (Hin (fun _ => r) Hd name s n i Hs Hi).
    + change (Nat.eqb (List.length (r :: r' :: vs)) 1) with false in H. cbn [orb] in H. rewrite H. eexists. split; [reflexivity|].
      intros Hd name s n i Hs Hi. exact (Hin (fun j => nth j (r :: r' :: vs) 0) Hd name s n i Hs Hi).
Qed.
Lemma assign_invalid l fac k v : valid_kw l (k, v) = false -> exists e, assign l fac k v = Err e.
Proof.
  unfold valid_kw, assign. cbn [fst snd]. pose proof (place_find l k 0) as Hpf. destruct (place_of l k 0) as [[t m]|]; [|eexists; reflexivity].
  destruct (find (fun e => String.eqb (fst e) k) l) as [[k' m']|]; [subst m'|contradiction Hpf].
  destruct v as [r|vs|]; intros H; [discriminate| |eexists; reflexivity].
  destruct vs as [|r [|r' vs]]; [|discriminate|].
  - change (Nat.eqb (@List.length R []) 1) with false in H. cbn [orb] in H. rewrite H. eexists. reflexivity.
  - change (Nat.eqb (List.length (r :: r' :: vs)) 1) with false in H. cbn [orb] in H. rewrite H. eexists. reflexivity.
Qed.

(** A state agrees with the keywords reached so far. *)
Definition factors_are (l : layout) (fac : vec) (kws : list (string * fval)) : Prop :=
  forall name s n i, place_of l name 0 = Some (s, n) -> (i < n)%nat -> fac (s + i)%nat = factor_of kws name i.

Lemma assign_all_is l kws fac done : distinct_names l -> factors_are l fac done ->
  factors_are l (fst (assign_all l kws fac)) (done ++ reached l kws) /\
  (snd (assign_all l kws fac) = Ok tt <-> forallb (valid_kw l) kws = true).
Proof.
  intros Hd. revert fac done. induction kws as [|[k v] kws IH]; intros fac done HF.
  - cbn. rewrite app_nil_r. split; [exact HF|]. split; reflexivity.
  - cbn [assign_all reached forallb]. destruct (valid_kw l (k, v)) eqn:Ev.
    + destruct (assign_valid l fac k v Ev) as (fac' & -> & H').
      assert (HF' : factors_are l fac' (done ++ [(k, v)])).
      { intros name s n i Hs Hi. rewrite (H' Hd name s n i Hs Hi). unfold factor_of. rewrite rev_app_distr. cbn.
        destruct (String.eqb k name); [reflexivity|]. apply (HF name s n i Hs Hi). }
      destruct (IH fac' _ HF') as [I1 I2]. rewrite <- app_assoc in I1. split; [exact I1|exact I2].
    + destruct (assign_invalid l fac k v Ev) as (e & ->). cbn. rewrite app_nil_r. split; [exact HF|]. split; discriminate.
Qed.

(** While configuring. *)
Lemma configured l h : distinct_names l -> forallb configuring h = true ->
  let m := fst (rexec l h rs_init) in
  rs_setup m = false /\ rs_prob m = None /\ rs_fun m = last_expression h /\ factors_are l (rs_fac m) (all_reached l h).
Proof.
  intros Hd. induction h as [|c h IH] using rev_ind; intros Hc m.
  - split; [reflexivity|]. split; [reflexivity|]. split; [reflexivity|]. intros name s n i _ _. reflexivity.
  - rewrite forallb_app in Hc. apply andb_prop in Hc as [Hc1 Hc2]. cbn in Hc2. rewrite andb_true_r in Hc2. destruct (IH Hc1) as (I1 & I2 & I3 & I4). clear IH.
    assert (Eexec : forall m0, fst (rexec l (h ++ [c]) m0) = fst (rdo l (fst (rexec l h m0)) c)).
    { clear. induction h as [|c' h IH]; intros m0; cbn.
      - destruct (rdo l m0 c); reflexivity.
      - destruct (rdo l m0 c') as [m1 o]. specialize (IH m1). destruct (rexec l (h ++ [c]) m1), (rexec l h m1). exact IH. }
    unfold m. rewrite Eexec. clear m. set (m := fst (rexec l h rs_init)) in *.
    assert (EL : last_expression (h ++ [c]) = match expressions [c] with f :: _ => Some f | [] => last_expression h end).
    { unfold last_expression, expressions. rewrite flat_map_app, rev_app_distr. cbn [flat_map]. rewrite app_nil_r.
      destruct c as [[[]|] kws| | |]; reflexivity. }
    assert (EA : all_reached l (h ++ [c]) = all_reached l h ++ all_reached l [c]) by (unfold all_reached; rewrite flat_map_app; reflexivity).
    rewrite EL, EA. destruct c as [e kws|ok| |ok]; cbn [rdo].
    + unfold set_rate. rewrite I1. destruct e as [[| | | |f]|]; cbn -[reached]; rewrite ?app_nil_r.
      6:{ destruct (assign_all_is l kws _ _ Hd I4) as [A1 _]. destruct (assign_all l kws (rs_fac m)) as [fac r]. cbn in A1 |- *.
          split; [reflexivity || assumption|]. split; [assumption|]. split; [assumption|]. rewrite ?app_nil_r in *. exact A1. }
      all: split; [first [assumption|reflexivity]|split; [assumption|split; [first [assumption|reflexivity]|assumption]]].
    + cbn. rewrite app_nil_r. unfold rprepare. destruct ok; cbn; (split; [assumption|split; [assumption|split; assumption]]).
    + discriminate Hc2.
    + cbn. rewrite app_nil_r. destruct ok; [discriminate Hc2|]. cbn. split; [assumption|split; [assumption|split; assumption]].
Qed.
Lemma rexec_app l h h' m : fst (rexec l (h ++ h') m) = fst (rexec l h' (fst (rexec l h m))).
Proof.
  revert m. induction h as [|c h IH]; intros m; cbn; [reflexivity|]. destruct (rdo l m c) as [m1 o]. specialize (IH m1).
  destruct (rexec l (h ++ h') m1), (rexec l h m1). exact IH.
Qed.

(** After setup nothing changes. *)
Definition settled (m : rstate) : Prop := rs_setup m = true /\ rs_pend m = Some (picked m) /\ rs_prob m = Some (picked m).
Lemma settled_step l m c : settled m -> settled (fst (rdo l m c)) /\ picked (fst (rdo l m c)) = picked m /\
  (forall e k, c = CRate e k -> rdo l m c = (m, Err ExcAssertion)).
Proof.
  intros (H1 & H2 & H3). destruct c as [e kws|ok| |ok]; cbn [rdo].
  - unfold set_rate. rewrite H1. cbn. split; [split; [exact H1|split; assumption]|]. split; [reflexivity|]. intros; reflexivity.
  - unfold rprepare. destruct ok; cbn; (split; [|split; [reflexivity|discriminate]]); split; try assumption; split; assumption || reflexivity.
  - unfold rcreate. rewrite H2. cbn. split; [|split; [reflexivity|discriminate]]. split; [reflexivity|]. split; reflexivity.
  - unfold rsetup, rprepare. destruct ok; cbn; (split; [|split; [reflexivity|discriminate]]); split; try reflexivity; try assumption; split; assumption || reflexivity.
Qed.
Lemma settled_exec l h m : settled m -> settled (fst (rexec l h m)) /\ picked (fst (rexec l h m)) = picked m /\
  (forall e k o, In (CRate e k, o) (snd (rexec l h m)) -> o = Err ExcAssertion).
Proof.
  revert m. induction h as [|c h IH]; intros m Hm.
  - cbn. split; [exact Hm|]. split; [reflexivity|]. intros e k o [].
  - cbn [rexec]. destruct (settled_step l m c Hm) as (S1 & S2 & S3). destruct (rdo l m c) as [m1 o1] eqn:E. cbn in S1, S2.
    destruct (IH m1 S1) as (I1 & I2 & I3). destruct (rexec l h m1) as [m2 tr]. cbn in *. split; [exact I1|]. split; [congruence|].
    intros e k o [H|H]; [|eapply I3; exact H]. injection H as -> ->. specialize (S3 e k eq_refl). injection S3 as _ ->. reflexivity.
Qed.
