(** * Theorems C29, C30: the sampling planner. *)
From Verif Require Import Base DataModel DataProofs SaveProofs ProductModel TreeProofs2 SamplingModel SamplingSpec SamplingProofs.
Import List.

Section Plan.
  Context {V W : Type}.

  Lemma pcall_spec (p : planner V W) (o : pop V W) :
    let '(p', r) := pcall p o in
    pl_vars p' = pl_vars p ++ declared [o]
    /\ exists new, pl_plan p' = pl_plan p ++ new
       /\ (is_ok r = false -> new = [])
       /\ Forall (fun c => forall n, n <> "id"%string -> In n (map fst (pl_vars p)) -> assigns c n) new
       /\ exists prec, forall j c, nth_error new j = Some c -> alookup "id" c = Some (SId (zfill prec (length (pl_plan p) + j))).
  Proof.
    assert (K : forall keys kws, Forall (fun kw : list (string * V) => map fst kw = keys) kws ->
      let '(p', r) := add_cases p kws in
      pl_vars p' = pl_vars p
      /\ exists new, pl_plan p' = pl_plan p ++ new
       /\ (is_ok r = false -> new = [])
       /\ Forall (fun c => forall n, n <> "id"%string -> In n (map fst (pl_vars p)) -> assigns c n) new
       /\ exists prec, forall j c, nth_error new j = Some c -> alookup "id" c = Some (SId (zfill prec (length (pl_plan p) + j)))).
    { intros keys kws H. pose proof (add_cases_spec keys kws p H) as A. destruct (add_cases p kws) as [p' r].
      destruct A as (A1 & A2 & A3 & A4 & A5). split; [exact A1|]. destruct (is_ok r) eqn:Er.
      - destruct (A5 eq_refl) as (new & N1 & N2 & N3). exists new. split; [exact N1|]. split; [discriminate|]. split.
        + clear - N2. induction N2 as [|c kw new kws [X _] _ IH]; constructor; auto.
        + exists (pl_prec p). exact N3.
      - exists []. rewrite app_nil_r. split; [apply A4; reflexivity|]. split; [reflexivity|]. split; [constructor|].
        exists 0. intros [|j] c; discriminate. }
    assert (Z : forall r : res unit, exists new, pl_plan p = pl_plan p ++ new /\ (is_ok r = false -> new = [])
       /\ Forall (fun c => forall n, n <> "id"%string -> In n (map fst (pl_vars p)) -> assigns c n) new
       /\ exists prec, forall j c, nth_error new j = Some c -> alookup "id" c = Some (SId (zfill prec (length (pl_plan p) + j)))).
    { intros r. exists []. rewrite app_nil_r. split; [reflexivity|]. split; [reflexivity|]. split; [constructor|].
      exists 0. intros [|j] c; discriminate. }
    destruct o as [n g|k|kw|n|kw]; simpl pcall; cbn [declared flat_map app]; try rewrite app_nil_r.
    - split; [reflexivity|apply (Z (Ok tt))].
    - split; [reflexivity|apply (Z (Ok tt))].
    - pose proof (K (map fst kw) [kw]) as A. simpl add_cases in A. destruct (add_sampling_case p kw) as [p' [u|e]]; apply A; constructor; auto.
    - unfold gen_sampling_plan. destruct (Nat.eqb n 0).
      + split; [reflexivity|apply (Z (Err ExcAssertion))].
      + apply (K []). apply Forall_forall. intros x Hx. apply repeat_spec in Hx. subst. reflexivity.
    - unfold product. destruct (negb _); [split; [reflexivity|apply (Z (Err ExcValue))]|].
      destruct (negb _); [split; [reflexivity|apply (Z (Err ExcValue))]|].
      apply (K (map fst kw)). apply Forall_forall. intros x Hx. apply in_map_iff in Hx. destruct Hx as (vals & <- & Hv).
      apply map_fst_combine. rewrite itertools_product_cart in Hv. apply cart_in in Hv. apply forall2_length in Hv.
      rewrite map_length in *. symmetry. exact Hv.
  Qed.

  Lemma prun_snoc w (h : list (pop V W)) o : prun w (h ++ [o]) = fst (pcall (prun w h) o).
  Proof. unfold prun. rewrite fold_left_app. reflexivity. Qed.

  Lemma declared_app (h1 h2 : list (pop V W)) : declared (h1 ++ h2) = declared h1 ++ declared h2.
  Proof. unfold declared. apply flat_map_app. Qed.

  Lemma prun_vars w (h : list (pop V W)) : pl_vars (prun w h) = declared h.
  Proof.
    induction h as [|o h IH] using rev_ind; [reflexivity|]. rewrite prun_snoc, declared_app.
    pose proof (pcall_spec (prun w h) o) as A. destruct (pcall (prun w h) o) as [p' r]. simpl. rewrite (proj1 A), IH. reflexivity.
  Qed.

  (** C29.  After any history of planner calls: case number k carries an id that is the number k; so
      ids are pairwise distinct; every call appends to the plan; a call that raises adds nothing; and
      every case it adds has a value for every variable declared before.
      _partial: a variable declared later, or one named "id", is not covered (see the refutation). *)
  Theorem C29_plan_partial : forall (w : W) (h : list (pop V W)),
    (forall k c, nth_error (pl_plan (prun w h)) k = Some c -> has_number c k)
    /\ (forall j k cj ck, nth_error (pl_plan (prun w h)) j = Some cj -> nth_error (pl_plan (prun w h)) k = Some ck ->
          alookup "id" cj = alookup "id" ck -> j = k)
    /\ (forall h1 o h2, h = h1 ++ o :: h2 ->
          exists new rest, pl_plan (prun w (h1 ++ [o])) = pl_plan (prun w h1) ++ new
            /\ pl_plan (prun w h) = pl_plan (prun w h1) ++ new ++ rest
            /\ (forall e, snd (pcall (prun w h1) o) = Err e -> new = [])
            /\ (forall c n, In c new -> In n (map fst (declared h1)) -> n <> "id"%string -> assigns c n)).
  Proof.
    intros w h.
    assert (N : forall k c, nth_error (pl_plan (prun w h)) k = Some c -> has_number c k).
    { induction h as [|o h IH] using rev_ind; intros k c H.
      - destruct k; discriminate.
      - rewrite prun_snoc in H. pose proof (pcall_spec (prun w h) o) as A. destruct (pcall (prun w h) o) as [p' r].
        simpl in H. destruct A as (_ & new & A1 & _ & _ & prec & A4). rewrite A1 in H.
        destruct (lt_dec k (length (pl_plan (prun w h)))) as [L|L].
        + rewrite nth_error_app1 in H by exact L. apply IH. exact H.
        + rewrite nth_error_app2 in H by lia. exists prec. rewrite (A4 _ _ H). do 3 f_equal. lia. }
    split; [exact N|]. split.
    - intros j k cj ck Hj Hk E. destruct (N _ _ Hj) as [p1 E1]. destruct (N _ _ Hk) as [p2 E2].
      rewrite E1, E2 in E. inversion E as [E']. apply zfill_inj in E'. exact E'.
    - intros h1 o h2 ->. pose proof (pcall_spec (prun w h1) o) as A. rewrite prun_snoc.
      destruct (pcall (prun w h1) o) as [p' r] eqn:Ep. simpl. destruct A as (A0 & new & A1 & A2 & A3 & _).
      assert (X : exists rest, pl_plan (prun w (h1 ++ o :: h2)) = pl_plan p' ++ rest).
      { clear - Ep. induction h2 as [|o2 h2 IH] using rev_ind.
        - exists []. rewrite app_nil_r, prun_snoc, Ep. reflexivity.
        - change (h1 ++ o :: h2 ++ [o2]) with (h1 ++ (o :: h2) ++ [o2]). rewrite app_assoc, prun_snoc.
          destruct IH as [rest IH]. pose proof (pcall_spec (prun w (h1 ++ o :: h2)) o2) as B.
          destruct (pcall (prun w (h1 ++ o :: h2)) o2) as [p2 r2]. destruct B as (_ & new2 & B1 & _). simpl.
          exists (rest ++ new2). rewrite B1, IH, app_assoc. reflexivity. }
      destruct X as [rest X]. exists new, rest. split; [exact A1|]. split; [rewrite X, A1, app_assoc; reflexivity|]. split.
      + intros e ->. apply A2. reflexivity.
      + intros c n Hc Hn Hid. rewrite Forall_forall in A3. apply (A3 c Hc); [exact Hid|]. rewrite prun_vars. exact Hn.
  Qed.

  (** C29 (single case).  A manual case is accepted iff all keywords are declared variables and every
      other variable has a generator; the accepted case holds exactly the supplied values. *)
  Theorem C29_add_case : forall (w : W) (h : list (pop V W)) kw, NoDup (map fst kw) ->
    ((exists u, snd (add_sampling_case (prun w h) kw) = Ok u) <->
       (incl (map fst kw) (map fst (declared h)) /\ forall n g, In (n, g) (declared h) -> ~ In n (map fst kw) -> g <> None))
    /\ forall u, snd (add_sampling_case (prun w h) kw) = Ok u ->
         exists c, pl_plan (fst (add_sampling_case (prun w h) kw)) = pl_plan (prun w h) ++ [c]
           /\ forall n v, In (n, v) kw -> n <> "id"%string -> alookup n c = Some (SUser v).
  Proof.
    intros w h kw ND. pose proof (add_spec (prun w h) kw) as A. rewrite prun_vars in A.
    destruct (add_sampling_case (prun w h) kw) as [p' r]. simpl. destruct A as (_ & _ & A3 & _ & A5). split.
    - rewrite <- A3. destruct r; simpl; split; try eauto; try discriminate; intros [u H]; congruence.
    - intros u ->. destruct (A5 eq_refl) as (c & C1 & _ & _ & C4). exists c. split; [exact C1|].
      intros n v Hin Hn. apply (C4 ND); [exact Hn|]. clear - ND Hin. induction kw as [|[k x] kw IH]; simpl in *; [tauto|].
      inversion ND as [|? ? Hk ND']; subst. destruct Hin as [E|Hin].
      + inversion E; subst. rewrite String.eqb_refl. reflexivity.
      + destruct (String.eqb_spec n k) as [->|]; [|auto]. exfalso. apply Hk. apply (in_map fst) in Hin. exact Hin.
  Qed.

  (** C30.  An accepted product call adds one case per element of the Cartesian product of the
      supplied lists: the tuples of values of the new cases are exactly the elements of the product,
      their number is the product of the lengths, and no tuple repeats unless a list repeats a value. *)
  Theorem C30_product_enumerates : forall (w : W) (h : list (pop V W)) (kw : list (string * list V)),
    let kwargs := map (fun kv => (fst kv, Some (snd kv))) kw in
    let keys := map fst kw in
    NoDup keys -> ~ In "id"%string keys ->
    snd (product (prun w h) kwargs) = Ok tt ->
    exists new tuples, pl_plan (fst (product (prun w h) kwargs)) = pl_plan (prun w h) ++ new
      /\ map (fun c => map (fun k => alookup k c) keys) new = map (map (fun v => Some (SUser v))) tuples
      /\ (forall t, In t tuples <-> Forall2 (fun v l => In v l) t (map snd kw))
      /\ length tuples = fold_right (fun l n => length l * n) 1 (map snd kw)
      /\ (Forall (@NoDup V) (map snd kw) -> NoDup tuples).
  Proof.
    intros w h kw kwargs keys ND Hid H.
    assert (Kk : map fst kwargs = keys) by (unfold kwargs, keys; rewrite map_map; reflexivity).
    assert (Kl : map (fun kv : string * option (list V) => match snd kv with Some l => l | None => [] end) kwargs = map snd kw)
      by (unfold kwargs; rewrite map_map; reflexivity).
    unfold product in *. destruct (negb _); [discriminate|]. destruct (negb _); [discriminate|].
    rewrite Kk, Kl, itertools_product_cart in *. set (tuples := cart (map snd kw)) in *.
    assert (Hk : Forall (fun kw0 : list (string * V) => map fst kw0 = keys) (map (combine keys) tuples)).
    { apply Forall_forall. intros x Hx. apply in_map_iff in Hx. destruct Hx as (t & <- & Ht). apply map_fst_combine.
      apply cart_in in Ht. apply forall2_length in Ht. rewrite map_length in Ht. unfold keys. rewrite map_length. symmetry. exact Ht. }
    pose proof (add_cases_spec keys (map (combine keys) tuples) (prun w h) Hk) as A.
    destruct (add_cases (prun w h) (map (combine keys) tuples)) as [p' r]. simpl in H. subst r.
    destruct A as (_ & _ & _ & _ & A5). destruct (A5 eq_refl) as (new & N1 & N2 & _).
    exists new, tuples. split; [exact N1|]. split; [|split; [intros t; apply cart_in|split; [apply cart_length|apply cart_nodup]]].
    assert (T : Forall (fun t => length keys = length t) tuples).
    { apply Forall_forall. intros t Ht. apply cart_in in Ht. apply forall2_length in Ht. rewrite map_length in Ht.
      unfold keys. rewrite map_length. symmetry. exact Ht. }
    clear - ND Hid N2 T. clearbody tuples. revert new N2. induction T as [|t tuples Ht _ IH]; intros new N2; simpl in *.
    - inversion N2; reflexivity.
    - inversion N2 as [|c ? new' ? [_ Hc] N2']; subst. simpl. f_equal; [|apply IH; exact N2'].
      transitivity (map (fun o => match o with Some v => Some (SUser v) | None => None end) (map Some t)); [|rewrite map_map; reflexivity].
      rewrite <- (combine_lookup keys t ND Ht), map_map. apply map_ext_in. intros k Hkin.
      destruct (alookup k (combine keys t)) as [v|] eqn:E.
      + apply (Hc ND); [|exact E]. intros ->. contradiction.
      + exfalso. assert (X : In k (map fst (combine keys t))) by (rewrite map_fst_combine; assumption).
        apply amem_in in X. unfold amem in X. rewrite E in X. discriminate.
  Qed.

  (** C30 (rejection): values that are not lists and unknown names are rejected with ValueError and add nothing. *)
  Theorem C30_product_rejects : forall (w : W) (h : list (pop V W)) kw,
    (exists kv, In kv kw /\ (snd kv = None \/ ~ In (fst kv) (map fst (declared h)))) ->
    product (prun w h) kw = (prun w h, Err ExcValue).
  Proof.
    intros w h kw (kv & Hin & Hbad). unfold product.
    destruct (negb (forallb _ kw)) eqn:E1; [reflexivity|].
    destruct (negb (forallb _ kw)) eqn:E2 at 1; [reflexivity|]. exfalso.
    apply negb_false_iff in E1. apply negb_false_iff in E2. rewrite forallb_forall in E1, E2.
    destruct Hbad as [Hb|Hb].
    - specialize (E1 _ Hin). rewrite Hb in E1. discriminate.
    - specialize (E2 _ Hin). apply existsb_eqb in E2. rewrite prun_vars in E2. contradiction.
  Qed.
End Plan.
Print Assumptions C29_plan_partial.
Print Assumptions C29_add_case.
Print Assumptions C30_product_enumerates.
Print Assumptions C30_product_rejects.

(** Refutation of the full C29: a variable declared after the first case is missing from that case,
    and a variable named "id" loses its value. *)
Theorem C29_all_variables_refuted : 
  (exists h : list (pop nat nat), exists c n, In c (pl_plan (prun 0 h)) /\ In n (map fst (declared h)) /\ n <> "id"%string /\ ~ assigns c n)
  /\ (exists h : list (pop nat nat), exists kw c, NoDup (map fst kw)
        /\ pl_plan (fst (add_sampling_case (prun 0 h) kw)) = [c] /\ In ("id"%string, 7) kw /\ alookup "id" c <> Some (SUser 7)).
Proof.
  split.
  - exists [PVar "a" (Some (fun w => (w, S w))); PGen 1; PVar "b" None]. eexists. exists "b"%string.
    split; [left; reflexivity|]. split; [simpl; auto|]. split; [discriminate|]. intros [v H]. discriminate.
  - exists [PVar "id" None]. exists [("id"%string, 7)]. eexists. split; [repeat constructor; intros []|].
    split; [reflexivity|]. split; [left; reflexivity|]. vm_compute. discriminate.
Qed.
Print Assumptions C29_all_variables_refuted.

(** Concrete plan: two variables, a generated case, a rejected call, a product. *)
Definition ex_plan_h : list (pop nat nat) :=
  [PVar "a" (Some (fun w => (w, S w))); PVar "b" None; PAdd [("b"%string, 5)]; PAdd [("a"%string, 1)];
   PPrec 1; PProduct [("b"%string, Some [8; 9]); ("a"%string, Some [1; 2])]].
Example C29_nonvacuous :
  pl_plan (prun 40 ex_plan_h) =
    [ [("b", SUser 5); ("a", SUser 40); ("id", SId "000")];
      [("b", SUser 8); ("a", SUser 1); ("id", SId "1")]; [("b", SUser 8); ("a", SUser 2); ("id", SId "2")];
      [("b", SUser 9); ("a", SUser 1); ("id", SId "3")]; [("b", SUser 9); ("a", SUser 2); ("id", SId "4")] ]%string.
Proof. reflexivity. Qed.
Example C30_nonvacuous :
  let h := [PVar "a" (Some (fun w => (w, S w))); PVar "b" None] : list (pop nat nat) in
  snd (product (prun 0 h) (map (fun kv => (fst kv, Some (snd kv))) [("b"%string, [8; 9]); ("a"%string, [1; 2])])) = Ok tt
  /\ NoDup ["b"; "a"]%string /\ ~ In "id"%string ["b"; "a"]%string.
Proof.
  split; [reflexivity|]. split.
  - repeat constructor; simpl; intuition discriminate.
  - simpl; intuition discriminate.
Qed.
