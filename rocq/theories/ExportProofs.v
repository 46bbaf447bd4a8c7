(** * Lemmas on export. *)
From Verif Require Import Base DataModel DataProofs SaveProofs SamplingModel SamplingSpec SamplingProofs SamplerProofs ExportModel ExportSpec.
From Coq Require Import Ascii DecimalString.
Import List.
Local Open Scope string_scope.

Lemma rfind_none c s : rfind c s = None <-> ~ has_char c s.
Proof.
  induction s as [|a s IH]; simpl.
  - split; [|reflexivity]. intros _ (x & y & E). destruct x; discriminate.
  - destruct (rfind c s) as [k|].
    + split; [discriminate|]. intros H. exfalso. assert (X : Some k = None); [|discriminate]. apply IH.
      intros (x & y & E). apply H. exists (String a x), y. rewrite E. reflexivity.
    + destruct (Ascii.eqb_spec a c) as [->|Hne].
      * split; [discriminate|]. intros H. exfalso. apply H. exists "", s. reflexivity.
      * split; [|reflexivity]. intros _ (x & y & E). destruct x as [|b x]; inversion E; subst; [congruence|].
        apply (proj1 IH eq_refl). exists x, y. reflexivity.
Qed.

Lemma rfind_app c a b : ~ has_char c b -> rfind c (a ++ String c b) = Some (String.length a).
Proof.
  intros H. induction a as [|x a IH]; simpl.
  - apply rfind_none in H. rewrite H, Ascii.eqb_refl. reflexivity.
  - rewrite IH. reflexivity.
Qed.
Lemma rfind_app_r c a b : ~ has_char c b -> rfind c (a ++ b) = rfind c a.
Proof.
  intros H. induction a as [|x a IH]; simpl; [apply rfind_none; exact H|]. rewrite IH. reflexivity.
Qed.

Lemma get_app a b i : String.get (String.length a + i) (a ++ b) = String.get i b.
Proof. induction a; simpl; [reflexivity|assumption]. Qed.
Lemma substring_app a b : substring 0 (String.length a) (a ++ b) = a.
Proof. induction a; simpl; [destruct b; reflexivity|congruence]. Qed.

Lemma has_char_app c a b : has_char c (a ++ b) <-> has_char c a \/ has_char c b.
Proof.
  split.
  - induction a as [|x a IH]; intros H; [right; exact H|].
    destruct H as (u & v & E). destruct u as [|y u]; simpl in E; inversion E; subst.
    + left. exists "", a. reflexivity.
    + destruct IH as [(p & q & Q)|Q]; [eexists; eexists; eassumption| |right; exact Q]. left. exists (String y p), q. rewrite Q. reflexivity.
  - intros [(u & v & ->)|(u & v & ->)].
    + exists u, (v ++ b). rewrite append_assoc. reflexivity.
    + exists (a ++ u), v. rewrite append_assoc. reflexivity.
Qed.

Lemma rfind_dir dir b : (dir = "" \/ exists d, dir = d ++ "/") -> ~ has_char "/" b ->
  match rfind "/" (dir ++ b) with Some k => S k | None => 0 end = String.length dir.
Proof.
  intros HD H. rewrite rfind_app_r by exact H. destruct HD as [-> |(d & ->)]; [reflexivity|].
  change "/" with (String "/" "") at 2. rewrite rfind_app by (intros (u & v & E); destruct u; discriminate).
  rewrite append_length. simpl. lia.
Qed.

Lemma get_has_char s i a : String.get i s = Some a -> has_char a s.
Proof.
  revert i; induction s as [|b s IH]; intros i H; simpl in H; [destruct i; discriminate|].
  destruct i as [|i]; [injection H as ->; exists "", s; reflexivity|]. destruct (IH i H) as (u & v & ->). exists (String b u), v. reflexivity.
Qed.
Lemma get_app_l a b i : i < String.length a -> String.get i (a ++ b) = String.get i a.
Proof. revert i; induction a as [|x a IH]; intros i H; simpl in *; [lia|]. destruct i; [reflexivity|]. apply IH. lia. Qed.
Lemma get_lt s i : i < String.length s -> exists a, String.get i s = Some a.
Proof. revert i; induction s as [|x s IH]; intros i H; simpl in *; [lia|]. destruct i; [eauto|]. apply IH. lia. Qed.
Lemma rfind_lt c s k : rfind c s = Some k -> k < String.length s.
Proof.
  revert k; induction s as [|a s IH]; intros k H; simpl in *; [discriminate|].
  destruct (rfind c s); [injection H as <-; specialize (IH _ eq_refl); lia|]. destruct (Ascii.eqb a c); [|discriminate]. injection H as <-. lia.
Qed.

Lemma splitext_names name stem : names_plan name stem -> splitext_root name = stem.
Proof.
  unfold splitext_root. intros [dir dots rest HD HDots ND NS|dir base ext HD (c & Hc & HB) NB NE1 NE2].
  - assert (NS' : ~ has_char "/" (dots ++ rest)) by (intros H; apply has_char_app in H; destruct H as [H|H]; [apply HDots in H; discriminate|contradiction]).
    rewrite (rfind_dir dir _ HD NS'). cbv zeta.
    destruct (rfind "." (dir ++ dots ++ rest)) as [d|] eqn:E; [|reflexivity].
    rewrite <- append_assoc, rfind_app_r in E by exact ND. pose proof (rfind_lt _ _ _ E) as L. rewrite append_length in L.
    destruct (Nat.leb (String.length dir) d) eqn:Hl; [|reflexivity]. apply Nat.leb_le in Hl. simpl andb.
    replace (existsb _ _) with false; [reflexivity|]. symmetry. apply not_true_iff_false. intros X. apply existsb_exists in X.
    destruct X as (i & Hi & X). apply in_seq in Hi. replace i with (String.length dir + (i - String.length dir)) in X by lia.
    rewrite get_app in X. rewrite get_app_l in X by lia. destruct (get_lt dots (i - String.length dir)) as [a Ha]; [lia|].
    rewrite Ha in X. apply get_has_char, HDots in Ha. subst a. rewrite Ascii.eqb_refl in X. discriminate.
  - assert (E : ((dir ++ base) ++ "." ++ ext) = (dir ++ base) ++ String "." ext) by reflexivity.
    rewrite E, rfind_app by exact NE1.
    assert (NS : ~ has_char "/" (base ++ String "." ext)).
    { intros H. apply has_char_app in H. destruct H as [H|(u & v & H)]; [contradiction|].
      destruct u as [|y u]; inversion H; subst. apply NE2. exists u, v. reflexivity. }
    assert (RS : match rfind "/" ((dir ++ base) ++ String "." ext) with Some k => S k | None => 0 end = String.length dir).
    { rewrite append_assoc. apply rfind_dir; assumption. }
    rewrite RS. cbv zeta. rewrite append_length.
    replace (Nat.leb (String.length dir) (String.length dir + String.length base)) with true by (symmetry; apply Nat.leb_le; lia).
    replace (existsb _ _) with true; [apply (eq_trans (f_equal (fun n => substring 0 n _) (eq_sym (append_length dir base)))), substring_app|].
    symmetry. apply existsb_exists. destruct HB as (u & v & ->). exists (String.length dir + String.length u).
    split; [apply in_seq; rewrite append_length; simpl; lia|].
    rewrite append_assoc, get_app, append_assoc. rewrite <- (Nat.add_0_r (String.length u)), get_app. simpl.
    destruct (Ascii.eqb_spec c "."); [congruence|reflexivity].
Qed.

Lemma has_char_dec c s : has_char c s \/ ~ has_char c s.
Proof. destruct (rfind c s) eqn:E; [|right; apply rfind_none; exact E]. left. destruct (rfind c s) eqn:F; [|discriminate].
  clear E. revert n0 F. induction s as [|a s IH]; intros k F; simpl in F; [discriminate|].
  destruct (rfind c s); [destruct (IH _ eq_refl) as (u & v & ->); exists (String a u), v; reflexivity|].
  destruct (Ascii.eqb_spec a c) as [->|]; [exists "", s; reflexivity|discriminate].
Qed.
Lemma last_char c s : has_char c s -> exists a b, s = a ++ String c b /\ ~ has_char c b.
Proof.
  induction s as [|x s IH]; intros (u & v & E); [destruct u; discriminate|].
  destruct (has_char_dec c s) as [H|H].
  - destruct (IH H) as (a & b & -> & N). exists (String x a), b. auto.
  - destruct u as [|y u]; simpl in E; injection E as -> E; [subst; exists "", v; auto|].
    exfalso. apply H. exists u, v. exact E.
Qed.
Lemma leading_dots s : exists dots rest, s = dots ++ rest /\ (forall c, has_char c dots -> c = "."%char) /\ (rest = "" \/ exists a r, rest = String a r /\ a <> "."%char).
Proof.
  induction s as [|x s (d & r & -> & A & B)]; [exists "", ""; split; [reflexivity|split; [intros c (u & v & E); destruct u; discriminate|auto]]|].
  destruct (ascii_dec x ".") as [->|N].
  - exists (String "." d), r. split; [reflexivity|]. split; [|exact B]. intros c (u & v & E). destruct u as [|y u]; simpl in E; injection E as E1 E2; [congruence|].
    apply A. exists u, v. exact E2.
  - exists "", (String x (d ++ r)). split; [reflexivity|]. split; [intros c (u & v & E); destruct u; discriminate|]. right. eauto.
Qed.

(** Every name is covered. *)
Lemma names_plan_total name : exists stem, names_plan name stem.
Proof.
  assert (X : exists dir base, name = dir ++ base /\ (dir = "" \/ exists d, dir = d ++ "/") /\ ~ has_char "/" base).
  { destruct (has_char_dec "/" name) as [H|H].
    - destruct (last_char _ _ H) as (a & b & -> & N). exists (a ++ "/"), b. split; [rewrite append_assoc; reflexivity|]. split; [eauto|exact N].
    - exists "", name. auto. }
  destruct X as (dir & base & -> & HD & NB). destruct (leading_dots base) as (dots & rest & -> & A & B).
  assert (NR : ~ has_char "/" rest) by (intros H; apply NB, has_char_app; auto).
  destruct (has_char_dec "." rest) as [H|H].
  - destruct (last_char _ _ H) as (a & b & -> & N). exists (dir ++ dots ++ a).
    assert (E : dir ++ dots ++ a ++ String "." b = (dir ++ (dots ++ a)) ++ "." ++ b) by (rewrite !append_assoc; reflexivity).
    rewrite E. apply with_extension; [exact HD| | |exact N|].
    + destruct B as [B|(x & r & B & Hx)]; [destruct a; discriminate|]. exists x. split; [exact Hx|]. apply has_char_app. right.
      destruct a as [|y a]; simpl in B; injection B as B1 B2; [congruence|]. subst y. exists "", a. reflexivity.
    + intros H'. apply has_char_app in H'. destruct H' as [H'|H']; [apply A in H'; discriminate|]. apply NR, has_char_app. auto.
    + intros (u & v & ->). apply NR. exists (a ++ String "." u), v. rewrite append_assoc. reflexivity.
  - exists (dir ++ dots ++ rest). apply without_extension; assumption.
Qed.

(** decimal numbers *)
Fixpoint all_chars (P : ascii -> Prop) (s : string) : Prop := match s with "" => True | String a r => P a /\ all_chars P r end.
Lemma decimal_chars n : all_chars (fun a => a <> "l"%char) (decimal n).
Proof.
  unfold decimal. generalize (Nat.to_uint n). intros u. induction u; simpl; auto; (split; [discriminate|assumption]).
Qed.
Lemma decimal_inj a b : decimal a = decimal b -> a = b.
Proof. intros H. pose proof (decimal_of_uint a) as A. rewrite H, decimal_of_uint in A. congruence. Qed.
Lemma decimal_nonempty n : decimal n <> "".
Proof.
  intros H. pose proof (decimal_of_uint n) as A. rewrite H in A. simpl in A. injection A as <-. vm_compute in H. discriminate.
Qed.

Lemma contains_pkl_app a b : all_chars (fun c => c <> "l"%char) b -> contains_pkl (a ++ b) -> contains_pkl a.
Proof.
  intros HB (x & y & E). revert x E. induction a as [|c a IH]; intros x E; simpl in E.
  - exfalso. rewrite E in HB. clear E. induction x as [|d x IHx]; simpl in HB; tauto.
  - destruct x as [|d x]; simpl in E.
    + injection E as -> E. destruct a as [|c1 a]; simpl in E.
      { rewrite E in HB. simpl in HB. exfalso. tauto. }
      injection E as -> E. destruct a as [|c2 a]; simpl in E.
      { rewrite E in HB. simpl in HB. exfalso. tauto. }
      injection E as -> E. destruct a as [|c3 a]; simpl in E.
      { rewrite E in HB. simpl in HB. exfalso. tauto. }
      injection E as -> E. exists "", a. reflexivity.
    + injection E as -> E. destruct (IH x E) as (p & q & Q). exists (String d p), q. rewrite Q. reflexivity.
Qed.

Lemma numbered_inj stem i j : numbered stem i = numbered stem j -> i = j.
Proof.
  destruct i as [|i], j as [|j]; unfold numbered; intros H; auto.
  - exfalso. apply append_inj_l in H. change ".pkl" with ("" ++ ".pkl") in H at 1. apply append_inj_r in H. exact (decimal_nonempty _ (eq_sym H)).
  - exfalso. apply append_inj_l in H. change ".pkl" with ("" ++ ".pkl") in H at 2. apply append_inj_r in H. exact (decimal_nonempty _ H).
  - apply append_inj_l, append_inj_r, decimal_inj in H. exact H.
Qed.

Lemma target_numbered stem i : ~ contains_pkl stem -> pickle_target (numbered stem i) = numbered stem i.
Proof.
  intros H. unfold pickle_target. destruct i as [|i]; unfold numbered.
  - rewrite strip_pkl_id by exact H. reflexivity.
  - rewrite <- append_assoc. rewrite strip_pkl_id; [reflexivity|]. intros X. apply H. exact (contains_pkl_app _ _ (decimal_chars _) X).
Qed.

Section E.
  Context {P : Type}.
  Implicit Types fs : list (string * content P).

  Lemma first_free_spec fs dir root : forall n k, 1 <= k ->
    (exists i, k <= i < k + n /\ first_free fs dir root (seq k n) = Some (numbered (dir ++ root) i) /\ amem (numbered (dir ++ root) i) fs = false
       /\ forall j, k <= j < i -> amem (numbered (dir ++ root) j) fs = true)
    \/ (first_free fs dir root (seq k n) = None /\ forall j, k <= j < k + n -> amem (numbered (dir ++ root) j) fs = true).
  Proof.
    induction n as [|n IH]; intros k Hk.
    - right. split; [reflexivity|]. intros j Hj. lia.
    - cbn [seq first_free]. assert (E : dir ++ root ++ decimal k ++ ".pkl" = numbered (dir ++ root) k).
      { unfold numbered. destruct k; [lia|]. rewrite append_assoc. reflexivity. }
      rewrite E. destruct (amem (numbered (dir ++ root) k) fs) eqn:M.
      + destruct (IH (S k)) as [(i & Hi & F & A & B)|(F & B)]; [lia| |].
        * left. exists i. split; [lia|]. split; [exact F|]. split; [exact A|]. intros j Hj.
          destruct (Nat.eq_dec j k) as [->|]; [exact M|]. apply B. lia.
        * right. split; [exact F|]. intros j Hj. destruct (Nat.eq_dec j k) as [->|]; [exact M|]. apply B. lia.
      + left. exists k. split; [lia|]. split; [reflexivity|]. split; [exact M|]. intros j Hj. lia.
  Qed.

  Lemma export_name_spec fs dir ow name stem : splitext_root name = stem ->
    (exists i, i < 10000 /\ export_name fs dir ow name = Some (numbered (dir ++ stem) i)
       /\ (ow = true -> i = 0) /\ (ow = false -> amem (numbered (dir ++ stem) i) fs = false /\ forall j, j < i -> amem (numbered (dir ++ stem) j) fs = true))
    \/ (ow = false /\ export_name fs dir ow name = None /\ forall j, j < 10000 -> amem (numbered (dir ++ stem) j) fs = true).
  Proof.
    intros HS. unfold export_name. cbv zeta. rewrite HS.
    assert (E : dir ++ stem ++ ".pkl" = numbered (dir ++ stem) 0) by (unfold numbered; rewrite append_assoc; reflexivity).
    assert (B : 1 + 9999 = 10000) by reflexivity. revert B. generalize 9999, 10000. intros a b B.
    rewrite E. destruct ow.
    - rewrite orb_true_r. left. exists 0. split; [lia|]. split; [reflexivity|]. split; [reflexivity|discriminate].
    - rewrite orb_false_r. destruct (amem (numbered (dir ++ stem) 0) fs) eqn:M; simpl negb; cbv iota.
      + destruct (first_free_spec fs dir stem a 1) as [(i & Hi & F & A & C)|(F & C)]; [lia| |].
        * left. exists i. split; [lia|]. split; [exact F|]. split; [discriminate|]. intros _. split; [exact A|].
          intros j Hj. destruct j as [|j]; [exact M|]. apply C. lia.
        * right. split; [reflexivity|]. split; [exact F|]. intros j Hj. destruct j as [|j]; [exact M|]. apply C. lia.
      + left. exists 0. split; [lia|]. split; [reflexivity|]. split; [discriminate|]. intros _. split; [exact M|]. intros j Hj. lia.
  Qed.

  Lemma amem_lookup fs f : amem f fs = false -> alookup f fs = None.
  Proof. unfold amem. destruct (alookup f fs); [discriminate|reflexivity]. Qed.
End E.
