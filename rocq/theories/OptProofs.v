(** * Lemmas about OptModel.v *)
From Coq Require Import Reals Lra.
From Verif Require Import Base MpcModel OptModel OptSpec.
Import List.
Set Implicit Arguments.
Local Open Scope R_scope.

Section L.
  Variable A : Type.
  Lemma lset_length (l : list A) : forall k v, List.length (lset l k v) = List.length l.
  Proof. induction l as [|a l IH]; intros [|k] v; simpl; auto. Qed.
  Lemma lset_nth (l : list A) : forall k v q, nth_error (lset l k v) q = if Nat.eqb q k && Nat.ltb k (List.length l) then Some v else nth_error l q.
  Proof.
    induction l as [|a l IH]; intros [|k] v [|q]; simpl; auto.
    - destruct (Nat.eqb q k); reflexivity.
    - rewrite IH. change (Nat.ltb (Datatypes.S k) (Datatypes.S (List.length l))) with (Nat.ltb k (List.length l)). reflexivity.
  Qed.
End L.

Lemma write_raw (w : list (nat * xr)) : forall l, NoDup (map fst w) -> (forall q, In q (map fst w) -> (q < List.length l)%nat) ->
  List.length (fold_left (fun l pv => lset l (fst pv) (snd pv)) w l) = List.length l /\
  forall q, (q < List.length l)%nat -> nth_error (fold_left (fun l pv => lset l (fst pv) (snd pv)) w l) q
    = match find (fun pv => Nat.eqb (fst pv) q) w with Some pv => Some (snd pv) | None => nth_error l q end.
Proof.
  induction w as [|[p v] w IH]; intros l ND B; simpl; [split; auto|].
  inversion ND as [|? ? N1 N2]; subst. destruct (IH (lset l p v)) as [I1 I2]; auto.
  { intros q Hq. rewrite lset_length. apply B. right. exact Hq. }
  rewrite lset_length in I1, I2. split; [exact I1|]. intros q Hq. rewrite I2 by auto. rewrite lset_nth.
  destruct (Nat.eqb_spec p q) as [->|Hn].
  - destruct (find _ w) as [pv|] eqn:F.
    + apply find_some in F as [F1 F2]. apply Nat.eqb_eq in F2. exfalso. apply N1. subst q. apply in_map. exact F1.
    + rewrite Nat.eqb_refl. cbn [andb]. destruct (Nat.ltb_spec q (List.length l)); [reflexivity|lia].
  - destruct (find _ w) as [pv|]; [reflexivity|]. destruct (Nat.eqb_spec q p); [congruence|reflexivity].
Qed.

Lemma scale_raw (sc : list R) (ps : list nat) : forall l, NoDup ps -> List.length sc = List.length l -> (forall q, In q ps -> (q < List.length l)%nat) ->
  let f := fun l p => match nth_error l p, nth_error sc p with Some v, Some s => lset l p (ediv v s) | _, _ => l end in
  List.length (fold_left f ps l) = List.length l /\
  forall q, (q < List.length l)%nat -> nth_error (fold_left f ps l) q
    = if existsb (Nat.eqb q) ps then match nth_error l q, nth_error sc q with Some v, Some s => Some (ediv v s) | _, _ => None end else nth_error l q.
Proof.
  intros l ND Hs B f. revert l ND Hs B. induction ps as [|p ps IH]; intros l ND Hs B; simpl; [split; auto|].
  inversion ND as [|? ? N1 N2]; subst.
  assert (Hp : (p < List.length l)%nat) by (apply B; left; auto).
  destruct (nth_error l p) as [v|] eqn:Ev; [|apply nth_error_None in Ev; lia].
  destruct (nth_error sc p) as [s|] eqn:Es; [|apply nth_error_None in Es; lia].
  assert (Ef : f l p = lset l p (ediv v s)) by (unfold f; rewrite Ev, Es; reflexivity). rewrite Ef.
  destruct (IH (lset l p (ediv v s))) as [I1 I2]; auto.
  { rewrite lset_length; auto. } { intros q Hq. rewrite lset_length. apply B. right; auto. }
  rewrite lset_length in I1, I2. split; [exact I1|]. intros q Hq. rewrite I2 by auto. rewrite lset_nth.
  destruct (Nat.eqb_spec q p) as [->|Hn].
  - destruct (Nat.ltb_spec p (List.length l)); [|lia]. cbn [andb orb].
    destruct (existsb (Nat.eqb p) ps) eqn:X.
    + apply existsb_exists in X as (y & Y1 & Y2). apply Nat.eqb_eq in Y2. subst y. contradiction.
    + rewrite Ev, Es. reflexivity.
  - cbn [andb orb]. reflexivity.
Qed.

Lemma find_in_pos (w : list (nat * xr)) q : existsb (Nat.eqb q) (map fst w) = match find (fun pv => Nat.eqb (fst pv) q) w with Some _ => true | None => false end.
Proof. induction w as [|[p v] w IH]; simpl; auto. rewrite (Nat.eqb_sym q p). destruct (Nat.eqb p q); auto. Qed.

Lemma write_scaled_spec (sc : list R) (l : list xr) (w : list (nat * xr)) : NoDup (map fst w) -> List.length sc = List.length l ->
  (forall q, In q (map fst w) -> (q < List.length l)%nat) ->
  List.length (write_scaled sc l w) = List.length l /\
  forall q s, (q < List.length l)%nat -> nth_error sc q = Some s ->
    nth_error (write_scaled sc l w) q = match find (fun pv => Nat.eqb (fst pv) q) w with Some pv => Some (ediv (snd pv) s) | None => nth_error l q end.
Proof.
  intros ND Hs B. unfold write_scaled. destruct (@write_raw w l ND B) as [A1 A2].
  set (l1 := fold_left (fun l pv => lset l (fst pv) (snd pv)) w l) in *.
  destruct (@scale_raw sc (map fst w) l1 ND) as [B1 B2]; try (rewrite A1; auto). split; [rewrite <- A1; exact B1|].
  intros q s Hq Es. rewrite B2 by (rewrite A1; auto). rewrite find_in_pos, A2 by auto. rewrite Es.
  destruct (find _ w); reflexivity.
Qed.

(** The stored bounds are the physical ones divided by the scaling. *)
Definition scaled_of (sc : list R) (n : nat) (l : list xr) (f : nat -> xr) : Prop :=
  List.length l = n /\ forall q s, (q < n)%nat -> nth_error sc q = Some s -> nth_error l q = Some (ediv (f q) s).

Lemma scaled_write (sc : list R) n l f w : List.length sc = n -> NoDup (map fst w) -> (forall q, In q (map fst w) -> (q < n)%nat) ->
  scaled_of sc n l f -> scaled_of sc n (write_scaled sc l w) (assign_pairs w f).
Proof.
  intros Hs ND B [L H]. destruct (@write_scaled_spec sc l w ND) as [A1 A2]; [congruence|rewrite L; auto|].
  split; [congruence|]. intros q s Hq Es. rewrite A2 with (s := s); [|congruence|auto]. unfold assign_pairs.
  destruct (find _ w); [reflexivity|]. apply H; auto.
Qed.
Lemma map_fst_combine {X Y} (l : list X) : forall (m : list Y), List.length l = List.length m -> map fst (combine l m) = l.
Proof. induction l as [|a l IH]; intros [|b m] H; simpl in *; try discriminate; auto. f_equal. apply IH. lia. Qed.

Section B.
  Variable E : OEnv.
  Lemma scaled_ord (b : base E) d bd : consistent b -> forall l f,
    scaled_of (b_scal b) (b_n b) l f -> scaled_of (b_scal b) (b_n b) (write_all (b_scal b) l (b_ord b d bd)) (ordinary_bounds b d bd f).
  Proof.
    intros C. unfold write_all, ordinary_bounds. pose proof (c_ord C d bd) as O.
    induction (b_ord b d bd) as [|w ws IH]; intros l f H; simpl; auto. destruct (O w (or_introl eq_refl)) as (N1 & N2 & N3).
    apply IH; [intros; apply O; right; auto|]. apply scaled_write; auto.
    - apply C.
    - rewrite map_fst_combine; auto.
    - rewrite map_fst_combine; auto.
  Qed.
  Lemma spread_direct (pos : list nat) vals : spread_to pos vals = match direct_values pos vals with Some w => Ok w | None => Err ExcGeneric end.
  Proof. unfold spread_to, direct_values. destruct vals as [|v [|v' vals]]; auto; destruct (Nat.eqb _ _); auto. Qed.
  Lemma direct_fst (pos : list nat) vals w : direct_values pos vals = Some w -> map fst w = pos.
  Proof.
    unfold direct_values. destruct vals as [|v [|v' vals]].
    - destruct (Nat.eqb_spec (@List.length xr []) (List.length pos)) as [H|]; [|discriminate]. intros [= <-]. apply map_fst_combine; auto.
    - intros [= <-]. rewrite map_map. cbn. apply map_id.
    - destruct (Nat.eqb_spec (List.length (v :: v' :: vals)) (List.length pos)) as [H|]; [|discriminate]. intros [= <-]. apply map_fst_combine; auto.
  Qed.
End B.

Lemma ediv_above v s r : 0 < s -> above (ediv v s) r <-> above v (r * s).
Proof.
  intros Hs. destruct v as [|a|]; cbn; try tauto. split; intros H.
  - apply Rmult_le_compat_r with (r := s) in H; [|lra]. unfold Rdiv in H. rewrite Rmult_assoc, Rinv_l, Rmult_1_r in H by lra. lra.
  - apply Rmult_le_reg_r with (r := s); [lra|]. unfold Rdiv. rewrite Rmult_assoc, Rinv_l by lra. lra.
Qed.
Lemma ediv_below v s r : 0 < s -> below (ediv v s) r <-> below v (r * s).
Proof.
  intros Hs. destruct v as [|a|]; cbn; try tauto. split; intros H.
  - apply Rmult_le_compat_r with (r := s) in H; [|lra]. unfold Rdiv in H. rewrite Rmult_assoc, Rinv_l, Rmult_1_r in H by lra. lra.
  - apply Rmult_le_reg_r with (r := s); [lra|]. unfold Rdiv. rewrite Rmult_assoc, Rinv_l by lra. lra.
Qed.
Lemma ediv_ok d v s r : 0 < s -> ok_side d (ediv v s) r <-> ok_side d v (r * s).
Proof. destruct d; [apply ediv_above|apply ediv_below]. Qed.

Section P.
  Variable E : OEnv.
  Variable build : Cfg E -> res (base E).
  Variable S_ : request E -> answer E.
  Notation opt := (opt E).
  Notation ocall := (ocall E).
  Notation do := (do build S_).
  Notation run := (run build S_).

  Definition bnds (s : opt) (d : side) : list xr := match d with Lower => o_lb s | Upper => o_ub s end.

  Lemma run_app s h1 h2 : run s (h1 ++ h2) = run (run s h1) h2.
  Proof. apply fold_left_app. Qed.
  Lemma run_cons s c h : run s (c :: h) = run (fst (do s c)) h.
  Proof. reflexivity. Qed.

  Lemma prepare_ok (s s1 : opt) : prepare build s = (s1, Ok tt) -> exists b, build (o_cfg s) = Ok b /\
    s1 = mkOpt true (o_setup s) (o_run s) (o_cfg s) (o_bnd s) (Some b)
           (write_all (b_scal b) (repeat MInf (b_n b)) (b_ord b Lower (o_bnd s))) (write_all (b_scal b) (repeat PInf (b_n b)) (b_ord b Upper (o_bnd s)))
           (Some (b_obj b)) (Some (CList (b_g b))) (Some (CList (b_glb b))) (Some (CList (b_gub b)))
           (o_S s) (repeat 0 (b_n b)) (repeat 0 (b_n b)) (prm0 E) (o_lam s).
  Proof.
    unfold prepare. destruct (build (o_cfg s)) as [b|]; [|discriminate]. unfold update_bounds. intros [= <-]. eauto.
  Qed.

  (** Calls that build nothing keep the structures; the bounds follow in_force. *)
  Lemma create_frame (s s' : opt) r : create s = (s', r) -> o_base s' = o_base s /\ o_lb s' = o_lb s /\ o_ub s' = o_ub s /\ o_bnd s' = o_bnd s /\ o_prep s' = o_prep s /\ o_x s' = o_x s /\ o_p s' = o_p s
    /\ o_run s' = o_run s /\ o_lam s' = o_lam s /\ o_obj s' = o_obj s.
  Proof.
    unfold create. destruct (vertcat (o_g s)); [|intros [= <- <-]; auto 12].
    cbn [with_nlp o_glb]. destruct (vertcat (o_glb s)); [|intros [= <- <-]; cbn; auto 12].
    cbn [with_nlp o_gub]. destruct (vertcat (o_gub s)); [|intros [= <- <-]; cbn; auto 12].
    cbn [with_nlp o_obj o_base]. destruct (o_obj s) eqn:Eo, (o_base s) eqn:Eb; intros [= <- <-]; cbn; rewrite ?Eo, ?Eb; auto 12.
  Qed.
  Lemma lift_cases (s : opt) r : (exists s', r = Ok s' /\ lift s r = (s', Ok None)) \/ (exists e, r = Err e /\ lift s r = (s, Err e)).
  Proof. destruct r; [left|right]; eauto. Qed.

  Lemma solve_frame (s s' : opt) r : solve S_ s = (s', r) -> o_base s' = o_base s /\ o_lb s' = o_lb s /\ o_ub s' = o_ub s /\ o_bnd s' = o_bnd s /\ o_prep s' = o_prep s /\ o_setup s' = o_setup s
     /\ o_g s' = o_g s /\ o_glb s' = o_glb s /\ o_gub s' = o_gub s /\ o_obj s' = o_obj s /\ o_S s' = o_S s /\ o_p s' = o_p s /\ o_cfg s' = o_cfg s.
  Proof.
    unfold solve. destruct (negb (o_setup s)); [intros [= <- <-]; auto 14|]. destruct (request_of s) as [q|]; [|intros [= <- <-]; auto 14].
    destruct (o_base s) as [b|] eqn:Eb; [|intros [= <- <-]; auto 14]. destruct (negb _); intros [= <- <-]; cbn; rewrite ?Eb; auto 14.
  Qed.

  (** the frame of calls other than building ones, assignments to bounds and solves *)
  Ltac tac_lift := match goal with |- context [lift ?s ?r] => destruct (lift_cases s r) as [(s' & Er & ->)|(e & Er & ->)]; [|cbn [fst]; auto 10] end.

  Lemma do_frame s c : building c = false ->
    o_base (fst (do s c)) = o_base s /\ o_prep (fst (do s c)) = o_prep s /\ o_setup (fst (do s c)) = o_setup s /\ o_S (fst (do s c)) = o_S s.
  Proof.
    intros Hb. destruct c; try discriminate Hb; cbn [do fst]; auto.
    - unfold set_bnd. destruct (o_prep s) eqn:Ep, (o_base s) as [b|] eqn:Eb; cbn; rewrite ?Ep, ?Eb; auto.
    - tac_lift. unfold set_obj in Er. destruct (negb _); [discriminate|]. destruct (o_setup s) eqn:Q; [discriminate|]. injection Er as <-. cbn. auto.
    - tac_lift. unfold add_cost, get_obj in Er. destruct (negb (o_prep s)) eqn:Q0; [discriminate|]. cbn in Er. destruct (o_obj s); [|discriminate]. unfold set_obj in Er. rewrite Q0 in Er.
      destruct (o_setup s) eqn:Q; [discriminate|]. injection Er as <-. cbn. auto.
    - tac_lift. unfold set_cons in Er. destruct (negb _); [discriminate|]. destruct (o_setup s) eqn:Q; [discriminate|]. injection Er as <-. cbn. auto.
    - tac_lift. unfold set_glb in Er. destruct (negb _); [discriminate|]. injection Er as <-. cbn. auto.
    - tac_lift. unfold set_gub in Er. destruct (negb _); [discriminate|]. injection Er as <-. cbn. auto.
    - tac_lift. unfold app_cons in Er. destruct (negb _); [discriminate|]. destruct (append _ _); [|discriminate]. injection Er as <-. cbn. auto.
    - tac_lift. unfold app_glb in Er. destruct (negb _); [discriminate|]. destruct (append _ _); [|discriminate]. injection Er as <-. cbn. auto.
    - tac_lift. unfold app_gub in Er. destruct (negb _); [discriminate|]. destruct (append _ _); [|discriminate]. injection Er as <-. cbn. auto.
    - tac_lift. unfold set_optx in Er. destruct (o_base s) eqn:Eb; [|discriminate]. destruct (b_ix _ _); [|discriminate]. cbn in Er. destruct (spread_to _ _); [|discriminate].
      cbn in Er. injection Er as <-. destruct d; cbn; auto.
    - destruct (solve S_ s) as [s' [q|e]] eqn:Es; cbn [fst]; apply solve_frame in Es; tauto.
    - destruct (compile_nlp s); cbn; auto.
  Qed.

  (** bounds and ordinary bounds of the calls that are no assignment to bounds *)
  Lemma do_bounds s c : building c = false -> match c with OBnd _ | OOptx _ _ _ => False | _ => True end ->
    o_lb (fst (do s c)) = o_lb s /\ o_ub (fst (do s c)) = o_ub s /\ o_bnd (fst (do s c)) = o_bnd s.
  Proof.
    intros Hb Hc. destruct c; try discriminate Hb; try contradiction; cbn [do fst]; auto.
    - tac_lift. unfold set_obj in Er. destruct (negb _); [discriminate|]. destruct (o_setup s) eqn:Q; [discriminate|]. injection Er as <-. cbn. auto.
    - tac_lift. unfold add_cost, get_obj in Er. destruct (negb (o_prep s)) eqn:Q0; [discriminate|]. cbn in Er. destruct (o_obj s); [|discriminate]. unfold set_obj in Er. rewrite Q0 in Er.
      destruct (o_setup s) eqn:Q; [discriminate|]. injection Er as <-. cbn. auto.
    - tac_lift. unfold set_cons in Er. destruct (negb _); [discriminate|]. destruct (o_setup s) eqn:Q; [discriminate|]. injection Er as <-. cbn. auto.
    - tac_lift. unfold set_glb in Er. destruct (negb _); [discriminate|]. injection Er as <-. cbn. auto.
    - tac_lift. unfold set_gub in Er. destruct (negb _); [discriminate|]. injection Er as <-. cbn. auto.
    - tac_lift. unfold app_cons in Er. destruct (negb _); [discriminate|]. destruct (append _ _); [|discriminate]. injection Er as <-. cbn. auto.
    - tac_lift. unfold app_glb in Er. destruct (negb _); [discriminate|]. destruct (append _ _); [|discriminate]. injection Er as <-. cbn. auto.
    - tac_lift. unfold app_gub in Er. destruct (negb _); [discriminate|]. destruct (append _ _); [|discriminate]. injection Er as <-. cbn. auto.
    - destruct (solve S_ s) as [s' [q|e]] eqn:Es; cbn [fst]; apply solve_frame in Es; tauto.
    - destruct (compile_nlp s); cbn; auto.
  Qed.

  Definition same_side (d d' : side) : bool := match d, d' with Lower, Lower | Upper, Upper => true | _, _ => false end.

  Lemma in_force_run b d : consistent b -> forall h s f, o_base s = Some b -> o_prep s = true ->
    (forall c, In c h -> c = OCreate \/ building c = false) ->
    scaled_of (b_scal b) (b_n b) (bnds s d) f ->
    scaled_of (b_scal b) (b_n b) (bnds (run s h) d) (in_force b d (o_bnd s) f h) /\ o_base (run s h) = Some b /\ o_prep (run s h) = true.
  Proof.
    intros C. induction h as [|c h IH]; intros s f Hb Hp Hh H; [split; auto|].
    rewrite run_cons. destruct (Hh c (or_introl eq_refl)) as [->|Hc].
    { cbn [do]. destruct (create s) as [s1 r] eqn:Ec. destruct (create_frame _ Ec) as (F1 & F2 & F3 & F4 & F5 & _).
      assert (fst (lift2 (s1, r)) = s1) as -> by (destruct r; reflexivity). cbn [in_force]. rewrite <- F4.
      apply IH; [congruence|congruence| |]. { intros c' Hc'. apply Hh. right; auto. }
      unfold bnds in *. destruct d; congruence. }
    destruct (do_frame s c Hc) as (F1 & F2 & _).
    assert (Hh' : forall c', In c' h -> c' = OCreate \/ building c' = false) by (intros; apply Hh; right; auto).
    assert (D : match c with OBnd _ | OOptx _ _ _ => False | _ => True end \/ (exists g, c = OBnd g) \/ (exists d' i v, c = OOptx d' i v)).
    { destruct c; auto; right; [left|right]; eauto. }
    destruct D as [D|[[g ->]|(d' & i & v & ->)]].
    - destruct (do_bounds s c Hc D) as (G1 & G2 & G3).
      replace (in_force b d (o_bnd s) f (c :: h)) with (in_force b d (o_bnd (fst (do s c))) f h) by (rewrite G3; destruct c; try reflexivity; contradiction).
      apply IH; [congruence|congruence|auto|]. unfold bnds in *. destruct d; congruence.
    - cbn [do fst in_force]. unfold set_bnd. rewrite Hp, Hb. cbn [update_bounds].
      set (s1 := with_bounds _ _ _). change (g (o_bnd s)) with (o_bnd s1). apply IH; auto.
      unfold s1, bnds. destruct d; cbn [with_bounds o_lb o_ub o_bnd]; apply scaled_ord; auto.
    - cbn [do in_force]. unfold set_optx. rewrite Hb. destruct (b_ix b i) as [pos|] eqn:Ei.
      + cbn [bind]. rewrite spread_direct. destruct (c_ix C _ Ei) as [N1 N2]. destruct (direct_values pos v) as [w|] eqn:Ew.
        * cbn [bind lift fst]. pose proof (direct_fst _ _ Ew) as Fw.
          set (s1 := match d' with Lower => _ | Upper => _ end).
          assert (o_bnd s1 = o_bnd s /\ o_base s1 = Some b /\ o_prep s1 = true) as (K1 & K2 & K3) by (unfold s1; destruct d'; cbn; auto).
          rewrite <- K1. apply IH; auto.
          unfold s1, bnds in *. destruct d, d'; cbn [with_bounds o_lb o_ub]; auto; apply scaled_write; auto; try apply C; rewrite Fw; auto.
        * cbn [bind lift fst]. destruct d, d'; apply IH; auto.
      + cbn [bind lift fst]. destruct d, d'; apply IH; auto.
  Qed.
  Lemma scaled_init (sc : list R) n d : scaled_of sc n (repeat (infinite d) n) (fun _ => infinite d).
  Proof.
    split; [apply repeat_length|]. intros q s Hq _. rewrite (nth_error_nth' _ (infinite d)) by (rewrite repeat_length; auto).
    rewrite nth_repeat. destruct d; reflexivity.
  Qed.

  (** *** Between prepare_nlp and create_nlp *)
  Record phase1 (b : base E) (su rn : bool) (lam : option (list R * list R)) (h : list ocall) (s : opt) : Prop := mkP1 {
    p1_base : o_base s = Some b; p1_prep : o_prep s = true; p1_setup : o_setup s = su; p1_run : o_run s = rn; p1_lam : o_lam s = lam;
    p1_obj : o_obj s = Some (user_cost (b_obj b) h);
    p1_g : o_g s = Some (CList (b_g b ++ extra_cons h));
    p1_lb : o_glb s = Some (CList (b_glb b ++ extra_lb h)); p1_ub : o_gub s = Some (CList (b_gub b ++ extra_ub h));
    p1_x : List.length (o_x s) = b_n b; p1_p : o_p s = user_p (prm0 E) h }.

  Lemma user_cost_app (f : list R -> Prm E -> R) (h : list ocall) c : user_cost f (h ++ [c]) = match c with OObj g => g | OAddCost g => fun x p => user_cost f h x p + g x p | _ => user_cost f h end.
  Proof. unfold user_cost. rewrite fold_left_app. destruct c; reflexivity. Qed.
  Lemma user_p_app (f : Prm E) (h : list ocall) c : user_p f (h ++ [c]) = match c with OP p => p | _ => user_p f h end.
  Proof. unfold user_p. rewrite fold_left_app. destruct c; reflexivity. Qed.
  Lemma extra_cons_app (h : list ocall) c : extra_cons (h ++ [c]) = extra_cons h ++ match c with OAppCons g => [g] | _ => [] end.
  Proof. unfold extra_cons. rewrite flat_map_app. cbn. rewrite app_nil_r. reflexivity. Qed.
  Lemma extra_lb_app (h : list ocall) c : extra_lb (h ++ [c]) = extra_lb h ++ match c with OAppGlb g => [g] | _ => [] end.
  Proof. unfold extra_lb. rewrite flat_map_app. cbn. rewrite app_nil_r. reflexivity. Qed.
  Lemma extra_ub_app (h : list ocall) c : extra_ub (h ++ [c]) = extra_ub h ++ match c with OAppGub g => [g] | _ => [] end.
  Proof. unfold extra_ub. rewrite flat_map_app. cbn. rewrite app_nil_r. reflexivity. Qed.

  Lemma phase1_step b rn lam h s c : phase1 b false rn lam h s -> building c = false -> replacing c = false -> guess_ok (b_n b) c ->
    phase1 b false rn lam (h ++ [c]) (fst (do s c)).
  Proof.
    intros [H1 H2 H3 H4 H5 H6 H7 H8 H9 H10 H11] Hb Hr Hs.
    destruct c as [f|f| | | |f|f|v|v|v|g|l|u|d i v|x|p| | ]; try discriminate Hb; try discriminate Hr; cbn [do].
    - split; rewrite ?user_cost_app, ?user_p_app, ?extra_cons_app, ?extra_lb_app, ?extra_ub_app, ?app_nil_r; auto.
    - unfold set_bnd. rewrite H2, H1. destruct (update_bounds _ _ _ _) as [lb ub].
      split; rewrite ?user_cost_app, ?user_p_app, ?extra_cons_app, ?extra_lb_app, ?extra_ub_app, ?app_nil_r; auto.
    - unfold set_obj. rewrite H2, H3. cbn [negb lift fst].
      split; rewrite ?user_cost_app, ?user_p_app, ?extra_cons_app, ?extra_lb_app, ?extra_ub_app, ?app_nil_r; auto.
    - unfold add_cost, get_obj. rewrite H2. cbn [negb bind]. rewrite H6. unfold set_obj. rewrite H2, H3. cbn [negb lift fst].
      split; rewrite ?user_cost_app, ?user_p_app, ?extra_cons_app, ?extra_lb_app, ?extra_ub_app, ?app_nil_r; auto.
    - unfold app_cons. rewrite H2, H7. cbn [negb lift fst append bind].
      split; rewrite ?user_cost_app, ?user_p_app, ?extra_cons_app, ?extra_lb_app, ?extra_ub_app, ?app_nil_r; auto. cbn. rewrite app_assoc. reflexivity.
    - unfold app_glb. rewrite H2, H8. cbn [negb lift fst append bind].
      split; rewrite ?user_cost_app, ?user_p_app, ?extra_cons_app, ?extra_lb_app, ?extra_ub_app, ?app_nil_r; auto. cbn. rewrite app_assoc. reflexivity.
    - unfold app_gub. rewrite H2, H9. cbn [negb lift fst append bind].
      split; rewrite ?user_cost_app, ?user_p_app, ?extra_cons_app, ?extra_lb_app, ?extra_ub_app, ?app_nil_r; auto. cbn. rewrite app_assoc. reflexivity.
    - unfold set_optx. rewrite H1. destruct (b_ix b i) as [pos|]; cbn [bind lift fst]; [destruct (spread_to pos v); cbn [bind lift fst]; [destruct d|]|];
      split; rewrite ?user_cost_app, ?user_p_app, ?extra_cons_app, ?extra_lb_app, ?extra_ub_app, ?app_nil_r; auto.
    - split; rewrite ?user_cost_app, ?user_p_app, ?extra_cons_app, ?extra_lb_app, ?extra_ub_app, ?app_nil_r; auto.
    - split; rewrite ?user_cost_app, ?user_p_app, ?extra_cons_app, ?extra_lb_app, ?extra_ub_app, ?app_nil_r; auto.
    - unfold solve. rewrite H3. cbn [negb fst].
      split; rewrite ?user_cost_app, ?user_p_app, ?extra_cons_app, ?extra_lb_app, ?extra_ub_app, ?app_nil_r; auto.
    - unfold compile_nlp. rewrite H3. cbn [negb fst].
      split; rewrite ?user_cost_app, ?user_p_app, ?extra_cons_app, ?extra_lb_app, ?extra_ub_app, ?app_nil_r; auto.
  Qed.
  Lemma phase1_run b rn lam s h : phase1 b false rn lam [] s -> (forall c, In c h -> building c = false /\ replacing c = false /\ guess_ok (b_n b) c) ->
    phase1 b false rn lam h (run s h).
  Proof.
    intros H. induction h as [|c h IH] using rev_ind; intros Hh; [exact H|]. rewrite run_app. cbn [run fold_left].
    destruct (Hh c) as (A & B & C); [apply in_or_app; right; left; auto|]. apply phase1_step; auto. apply IH. intros; apply Hh, in_or_app; auto.
  Qed.

  (** *** After create_nlp *)
  Definition lam_ok (n m : nat) (s : opt) : Prop := o_run s = true -> exists lg lx, o_lam s = Some (lg, lx) /\ List.length lg = m /\ List.length lx = n.
  Record phase2 (b : base E) (pr : nlp E) (L U : list xr) (p0 : Prm E) (h : list ocall) (s : opt) : Prop := mkP2 {
    p2_base : o_base s = Some b; p2_prep : o_prep s = true; p2_setup : o_setup s = true; p2_S : o_S s = Some pr;
    p2_lb : o_glb s = Some (CVec (last_lb L h)); p2_ub : o_gub s = Some (CVec (last_ub U h));
    p2_ll : List.length (last_lb L h) = List.length (p_g pr); p2_lu : List.length (last_ub U h) = List.length (p_g pr);
    p2_g : exists v, o_g s = Some (CVec v);
    p2_x : List.length (o_x s) = b_n b; p2_p : o_p s = user_p p0 h; p2_lam : lam_ok (b_n b) (List.length (p_g pr)) s; p2_o : exists f, o_obj s = Some f }.

  Lemma last_lb_app l (h : list ocall) c : last_lb l (h ++ [c]) = match c with OGlb (CVec v) => v | _ => last_lb l h end.
  Proof. unfold last_lb. rewrite fold_left_app. destruct c; reflexivity. Qed.
  Lemma last_ub_app l (h : list ocall) c : last_ub l (h ++ [c]) = match c with OGub (CVec v) => v | _ => last_ub l h end.
  Proof. unfold last_ub. rewrite fold_left_app. destruct c; reflexivity. Qed.

  Lemma fit_ok {A} (z : A) n l : List.length l = n -> fit z n l = Ok l.
  Proof. intros H. unfold fit. rewrite H, Nat.eqb_refl. reflexivity. Qed.

  Lemma phase2_request b pr L U p0 h s : p_n pr = b_n b -> List.length (o_lb s) = b_n b -> List.length (o_ub s) = b_n b -> phase2 b pr L U p0 h s ->
    exists q, request_of s = Ok q /\ q_nlp q = pr /\ q_lbx q = o_lb s /\ q_ubx q = o_ub s /\ q_lbg q = last_lb L h /\ q_ubg q = last_ub U h /\ q_p q = user_p p0 h /\ q_x0 q = o_x s.
  Proof.
    intros Hn Hl Hu [H1 H2 H3 H4 H5 H6 H7 H8 H8' H9 H10 H11 H12]. unfold request_of. rewrite H4, H5, H6. cbn [as_vec bind].
    rewrite !Hn, (@fit_ok _ 0 _ _ H9). cbn [bind]. rewrite (@fit_ok _ (Fin 0) _ _ Hl), (@fit_ok _ (Fin 0) _ _ Hu). cbn [bind]. rewrite (@fit_ok _ (Fin 0) _ _ H7), (@fit_ok _ (Fin 0) _ _ H8). cbn [bind].
    unfold lam_ok in H11. destruct (o_run s).
    - destruct (H11 eq_refl) as (lg & lx & -> & Lg & Lx). rewrite (@fit_ok _ 0 _ _ Lg). cbn [bind]. rewrite (@fit_ok _ 0 _ _ Lx). cbn [bind].
      eexists. split; [reflexivity|]. cbn. auto 10.
    - cbn [bind]. eexists. split; [reflexivity|]. cbn. auto 10.
  Qed.

  Hypothesis GS : good_solver S_.
  Lemma phase2_solve b pr L U p0 h s : p_n pr = b_n b -> List.length (o_lb s) = b_n b -> List.length (o_ub s) = b_n b -> phase2 b pr L U p0 h s ->
    exists q, snd (do s OSolve) = Ok (Some q) /\ q_nlp q = pr /\ q_lbx q = o_lb s /\ q_ubx q = o_ub s /\ q_lbg q = last_lb L h /\ q_ubg q = last_ub U h /\ q_p q = user_p p0 h
      /\ q_x0 q = o_x s /\ phase2 b pr L U p0 (h ++ [OSolve]) (fst (do s OSolve)) /\ o_lb (fst (do s OSolve)) = o_lb s /\ o_ub (fst (do s OSolve)) = o_ub s /\ o_bnd (fst (do s OSolve)) = o_bnd s.
  Proof.
    intros Hn Hl Hu H. destruct (phase2_request Hn Hl Hu H) as (q & Eq & Q1 & Q2 & Q3 & Q4 & Q5 & Q6 & Q7).
    destruct H as [H1 H2 H3 H4 H5 H6 H7 H8 H8' H9 H10 H11 H12]. exists q. cbn [do]. unfold solve. rewrite H3, Eq, H1. cbn [negb].
    destruct (GS q) as (G1 & G2 & G3). rewrite Q1 in G1, G2, G3. rewrite G1, Hn, Nat.eqb_refl. cbn [negb fst snd].
    do 8 (split; [auto|]). split; [|cbn; auto].
    split; rewrite ?last_lb_app, ?last_ub_app, ?user_p_app; cbn; auto.
    - congruence.
    - intros _. eexists _, _. split; [reflexivity|]. split; congruence.
  Qed.

  Lemma phase2_step b pr L U p0 h s c : p_n pr = b_n b -> List.length (o_lb s) = b_n b -> List.length (o_ub s) = b_n b -> phase2 b pr L U p0 h s ->
    building c = false -> sized (b_n b) (List.length (p_g pr)) c ->
    phase2 b pr L U p0 (h ++ [c]) (fst (do s c)).
  Proof.
    intros Hn Hl Hu H Hb Hs. pose proof H as H'. destruct H' as [H1 H2 H3 H4 H5 H6 H7 H8 H8' H9 H10 H11 H12].
    destruct c as [f|f| | | |f|f|v|v|v|g|l|u|d i v|x|p| | ]; try discriminate Hb.
    14: { destruct (phase2_solve Hn Hl Hu H) as (q & _ & _ & _ & _ & _ & _ & _ & _ & K & _). exact K. }
    all: cbn [do].
    - split; rewrite ?last_lb_app, ?last_ub_app, ?user_p_app; auto.
    - unfold set_bnd. rewrite H2, H1. destruct (update_bounds _ _ _ _) as [lb ub]. split; rewrite ?last_lb_app, ?last_ub_app, ?user_p_app; auto.
    - unfold set_obj. rewrite H2, H3. cbn [negb lift fst]. split; rewrite ?last_lb_app, ?last_ub_app, ?user_p_app; auto.
    - unfold add_cost, get_obj. rewrite H2. cbn [negb bind]. pose proof H12 as [f0 Hf]. rewrite Hf.
      unfold set_obj. rewrite H2, H3. cbn [negb lift fst]. split; rewrite ?last_lb_app, ?last_ub_app, ?user_p_app; auto.
    - unfold set_cons. rewrite H2, H3. cbn [negb lift fst]. split; rewrite ?last_lb_app, ?last_ub_app, ?user_p_app; auto.
    - unfold set_glb. rewrite H2. cbn [negb lift fst]. destruct Hs as (l & -> & Hs). split; rewrite ?last_lb_app, ?last_ub_app, ?user_p_app; auto.
    - unfold set_gub. rewrite H2. cbn [negb lift fst]. destruct Hs as (l & -> & Hs). split; rewrite ?last_lb_app, ?last_ub_app, ?user_p_app; auto.
    - unfold app_cons. rewrite H2. cbn [negb]. destruct H8' as [v Ev]. rewrite Ev. cbn [append bind lift fst]. split; rewrite ?last_lb_app, ?last_ub_app, ?user_p_app; eauto.
    - unfold app_glb. rewrite H2, H5. cbn [negb append bind lift fst]. split; rewrite ?last_lb_app, ?last_ub_app, ?user_p_app; eauto.
    - unfold app_gub. rewrite H2, H6. cbn [negb append bind lift fst]. split; rewrite ?last_lb_app, ?last_ub_app, ?user_p_app; eauto.
    - unfold set_optx. rewrite H1. destruct (b_ix b i) as [pos|]; cbn [bind lift fst]; [destruct (spread_to pos v); cbn [bind lift fst]; [destruct d|]|]; split; rewrite ?last_lb_app, ?last_ub_app, ?user_p_app; eauto.
    - split; rewrite ?last_lb_app, ?last_ub_app, ?user_p_app; eauto.
    - split; rewrite ?last_lb_app, ?last_ub_app, ?user_p_app; eauto.
    - unfold compile_nlp. rewrite H3. cbn [negb fst]. split; rewrite ?last_lb_app, ?last_ub_app, ?user_p_app; eauto.
  Qed.

  Lemma phase2_run b pr L U p0 d0 : p_n pr = b_n b -> consistent b -> forall h s fl fu, phase2 b pr L U p0 [] s ->
    scaled_of (b_scal b) (b_n b) (o_lb s) fl -> scaled_of (b_scal b) (b_n b) (o_ub s) fu ->
    (forall c, In c h -> building c = false /\ sized (b_n b) (List.length (p_g pr)) c) ->
    phase2 b pr L U p0 h (run s h) /\ scaled_of (b_scal b) (b_n b) (bnds (run s h) d0) (in_force b d0 (o_bnd s) (match d0 with Lower => fl | Upper => fu end) h).
  Proof.
    intros Hn C h s fl fu H Hl Hu Hh. split.
    - revert Hh. induction h as [|c h IH] using rev_ind; intros Hh; [exact H|]. rewrite run_app. cbn [run fold_left].
      destruct (Hh c) as (A & B); [apply in_or_app; right; left; auto|].
      assert (Hh' : forall c, In c h -> building c = false /\ sized (b_n b) (List.length (p_g pr)) c) by (intros; apply Hh, in_or_app; auto).
      assert (Hh2 : forall c, In c h -> c = OCreate \/ building c = false) by (intros; right; apply Hh'; auto).
      destruct (@in_force_run b Lower C h s fl (p2_base H) (p2_prep H) Hh2 Hl) as ([I1 _] & _).
      destruct (@in_force_run b Upper C h s fu (p2_base H) (p2_prep H) Hh2 Hu) as ([I2 _] & _).
      apply phase2_step; auto.
    - assert (Hh2 : forall c, In c h -> c = OCreate \/ building c = false) by (intros; right; apply Hh; auto).
      destruct d0; [apply (@in_force_run b Lower C h s fl (p2_base H) (p2_prep H) Hh2 Hl) | apply (@in_force_run b Upper C h s fu (p2_base H) (p2_prep H) Hh2 Hu)].
  Qed.

  Lemma concat_lengths {X Y} (l : list (list X)) : forall (m : list (list Y)), map (@List.length _) l = map (@List.length _) m -> List.length (concat l) = List.length (concat m).
  Proof. induction l as [|a l IH]; intros [|b m] H; simpl in *; try discriminate; auto. injection H as H1 H2. rewrite !app_length, H1, (IH m H2). reflexivity. Qed.

  Lemma create_phase2 b su rn lam h s : consistent b -> bounds_given h -> phase1 b su rn lam h s ->
    (rn = true -> exists lg lx, lam = Some (lg, lx) /\ List.length lg = List.length (concat (b_g b ++ extra_cons h)) /\ List.length lx = b_n b) ->
    snd (do s OCreate) = Ok None /\
    phase2 b (@mkNlp E (b_n b) (user_cost (b_obj b) h) (concat (b_g b ++ extra_cons h))) (concat (b_glb b ++ extra_lb h)) (concat (b_gub b ++ extra_ub h)) (user_p (prm0 E) h) [] (fst (do s OCreate)) /\
    o_lb (fst (do s OCreate)) = o_lb s /\ o_ub (fst (do s OCreate)) = o_ub s /\ o_bnd (fst (do s OCreate)) = o_bnd s.
  Proof.
    intros C [B1 B2] [H1 H2 H3 H4 H5 H6 H7 H8 H9 H10 H11] Hlam. cbn [do]. unfold create. rewrite H7. cbn [vertcat with_nlp o_glb]. rewrite H8. cbn [vertcat with_nlp o_gub]. rewrite H9. cbn [vertcat with_nlp o_obj o_base].
    rewrite H6, H1. cbn [lift2 fst snd o_lb o_ub o_bnd with_nlp]. split; [reflexivity|]. split; [|auto].
    split; cbn; auto.
    - apply concat_lengths. rewrite !map_app, B1, (c_lb C). reflexivity.
    - apply concat_lengths. rewrite !map_app, B2, (c_ub C). reflexivity.
    - eauto.
    - intros R. cbn in R. rewrite H4 in R. rewrite H5. cbn. auto.
    - eauto.
  Qed.

  (** *** Before create_nlp *)
  Lemma do_cfg s c : o_cfg (fst (do s c)) = match c with OCfg f => f (o_cfg s) | _ => o_cfg s end /\ o_bnd (fst (do s c)) = match c with OBnd f => f (o_bnd s) | _ => o_bnd s end.
  Proof.
    assert (PR : forall s, o_cfg (fst (prepare build s)) = o_cfg s /\ o_bnd (fst (prepare build s)) = o_bnd s).
    { intros t. unfold prepare. destruct (build _); auto. }
    assert (CR : forall s : opt, o_cfg (fst (create s)) = o_cfg s /\ o_bnd (fst (create s)) = o_bnd s).
    { intros t. unfold create. destruct (vertcat (o_g t)); [|auto]. cbn [with_nlp o_glb]. destruct (vertcat (o_glb t)); [|auto]. cbn [with_nlp o_gub]. destruct (vertcat (o_gub t)); [|auto].
      cbn [with_nlp o_obj o_base]. destruct (o_obj t), (o_base t); auto. }
    assert (L2 : forall r : opt * res unit, fst (lift2 r) = fst r) by (intros [? [?|?]]; reflexivity).
    destruct c; cbn [do fst]; auto.
    - unfold set_bnd. destruct (o_prep s), (o_base s); cbn; auto.
    - rewrite L2. auto.
    - rewrite L2. auto.
    - rewrite L2. unfold setup. specialize (PR s). destruct (prepare build s) as [s1 [u|e]]; cbn in PR; auto. destruct (CR s1) as [-> ->]. auto.
    - tac_lift. unfold set_obj in Er. destruct (negb _); [discriminate|]. destruct (o_setup s) eqn:Q; [discriminate|]. injection Er as <-. cbn. auto.
    - tac_lift. unfold add_cost, get_obj in Er. destruct (negb (o_prep s)) eqn:Q0; [discriminate|]. cbn in Er. destruct (o_obj s); [|discriminate]. unfold set_obj in Er. rewrite Q0 in Er.
      destruct (o_setup s) eqn:Q; [discriminate|]. injection Er as <-. cbn. auto.
    - tac_lift. unfold set_cons in Er. destruct (negb _); [discriminate|]. destruct (o_setup s) eqn:Q; [discriminate|]. injection Er as <-. cbn. auto.
    - tac_lift. unfold set_glb in Er. destruct (negb _); [discriminate|]. injection Er as <-. cbn. auto.
    - tac_lift. unfold set_gub in Er. destruct (negb _); [discriminate|]. injection Er as <-. cbn. auto.
    - tac_lift. unfold app_cons in Er. destruct (negb _); [discriminate|]. destruct (append _ _); [|discriminate]. injection Er as <-. cbn. auto.
    - tac_lift. unfold app_glb in Er. destruct (negb _); [discriminate|]. destruct (append _ _); [|discriminate]. injection Er as <-. cbn. auto.
    - tac_lift. unfold app_gub in Er. destruct (negb _); [discriminate|]. destruct (append _ _); [|discriminate]. injection Er as <-. cbn. auto.
    - tac_lift. unfold set_optx in Er. destruct (o_base s) eqn:Eb; [|discriminate]. destruct (b_ix _ _); [|discriminate]. cbn in Er. destruct (spread_to _ _); [|discriminate].
      cbn in Er. injection Er as <-. destruct d; cbn; auto.
    - destruct (solve S_ s) as [s' [q|e]] eqn:Es; cbn [fst]; apply solve_frame in Es; tauto.
    - destruct (compile_nlp s); cbn; auto.
  Qed.
  Lemma run_cfg h : forall s, o_cfg (run s h) = user_cfg (o_cfg s) h /\ o_bnd (run s h) = user_bnd (o_bnd s) h.
  Proof.
    induction h as [|c h IH]; intros s; [auto|]. rewrite run_cons. destruct (IH (fst (do s c))) as [-> ->]. destruct (do_cfg s c) as [-> ->]. destruct c; auto.
  Qed.
  Lemma do_norun s c : creating c = false -> o_setup s = false -> o_run s = false -> o_setup (fst (do s c)) = false /\ o_run (fst (do s c)) = false.
  Proof.
    intros Hc Hs Hr. destruct c; try discriminate Hc; cbn [do fst]; auto.
    - unfold set_bnd. destruct (o_prep s), (o_base s); cbn; auto.
    - unfold prepare. destruct (build _); cbn; auto.
    - tac_lift. unfold set_obj in Er. destruct (negb _); [discriminate|]. rewrite Hs in Er. injection Er as <-. cbn. auto.
    - tac_lift. unfold add_cost, get_obj in Er. destruct (negb (o_prep s)) eqn:Q0; [discriminate|]. cbn in Er. destruct (o_obj s); [|discriminate]. unfold set_obj in Er. rewrite Q0, Hs in Er.
      injection Er as <-. cbn. auto.
    - tac_lift. unfold set_cons in Er. destruct (negb _); [discriminate|]. rewrite Hs in Er. injection Er as <-. cbn. auto.
    - tac_lift. unfold set_glb in Er. destruct (negb _); [discriminate|]. injection Er as <-. cbn. auto.
    - tac_lift. unfold set_gub in Er. destruct (negb _); [discriminate|]. injection Er as <-. cbn. auto.
    - tac_lift. unfold app_cons in Er. destruct (negb _); [discriminate|]. destruct (append _ _); [|discriminate]. injection Er as <-. cbn. auto.
    - tac_lift. unfold app_glb in Er. destruct (negb _); [discriminate|]. destruct (append _ _); [|discriminate]. injection Er as <-. cbn. auto.
    - tac_lift. unfold app_gub in Er. destruct (negb _); [discriminate|]. destruct (append _ _); [|discriminate]. injection Er as <-. cbn. auto.
    - tac_lift. unfold set_optx in Er. destruct (o_base s) eqn:Eb; [|discriminate]. destruct (b_ix _ _); [|discriminate]. cbn in Er. destruct (spread_to _ _); [|discriminate].
      cbn in Er. injection Er as <-. destruct d; cbn; auto.
    - unfold solve. rewrite Hs. cbn. auto.
    - unfold compile_nlp. rewrite Hs. cbn. auto.
  Qed.
  Lemma run_norun h : forall s, (forall c, In c h -> creating c = false) -> o_setup s = false -> o_run s = false -> o_setup (run s h) = false /\ o_run (run s h) = false.
  Proof.
    induction h as [|c h IH]; intros s Hh Hs Hr; [auto|]. rewrite run_cons. destruct (@do_norun s c) as [A B]; auto. { apply Hh; left; auto. } apply IH; auto. intros; apply Hh; right; auto.
  Qed.

  (** prepare_nlp starts phase 1 *)
  Lemma prepare_phase1 b s : consistent b -> build (o_cfg s) = Ok b ->
    snd (do s OPrepare) = Ok None /\ phase1 b (o_setup s) (o_run s) (o_lam s) [] (fst (do s OPrepare)) /\ o_bnd (fst (do s OPrepare)) = o_bnd s /\
    forall d, scaled_of (b_scal b) (b_n b) (bnds (fst (do s OPrepare)) d) (ordinary_bounds b d (o_bnd s) (fun _ => infinite d)).
  Proof.
    intros C Hb. cbn [do]. unfold prepare. rewrite Hb. unfold update_bounds. cbn [lift2 fst snd]. split; [reflexivity|]. split; [|split; [reflexivity|]].
    - split; cbn; auto; try (rewrite app_nil_r; reflexivity). apply repeat_length.
    - intros d. destruct d; cbn [bnds o_lb o_ub]; apply scaled_ord; auto; [apply (@scaled_init _ _ Lower)|apply (@scaled_init _ _ Upper)].
  Qed.

  (** The whole route: prepare, additions, create, use. *)
  Lemma route h0 h1 h2 b d0 : (forall c, In c h0 -> creating c = false) -> build (user_cfg (cfg0 E) h0) = Ok b -> consistent b -> bounds_given h1 ->
    (forall c, In c h1 -> building c = false /\ replacing c = false /\ guess_ok (b_n b) c) ->
    (forall c, In c h2 -> building c = false /\ sized (b_n b) (List.length (concat (b_g b ++ extra_cons h1))) c) ->
    let s := run (opt_init E) (h0 ++ OPrepare :: h1 ++ OCreate :: h2) in
    phase2 b (@mkNlp E (b_n b) (user_cost (b_obj b) h1) (concat (b_g b ++ extra_cons h1))) (concat (b_glb b ++ extra_lb h1)) (concat (b_gub b ++ extra_ub h1)) (user_p (prm0 E) h1) h2 s /\
    scaled_of (b_scal b) (b_n b) (bnds s d0) (in_force b d0 (user_bnd (bnd0 E) h0) (ordinary_bounds b d0 (user_bnd (bnd0 E) h0) (fun _ => infinite d0)) (h1 ++ OCreate :: h2)).
  Proof.
    intros Hh0 Hb C Bg Hh1 Hh2 s. unfold s. rewrite run_app. set (s0 := run (opt_init E) h0).
    destruct (run_cfg h0 (opt_init E)) as [Ec Eb]. fold s0 in Ec, Eb. cbn [opt_init o_cfg o_bnd] in Ec, Eb.
    destruct (@run_norun h0 (opt_init E) Hh0 eq_refl eq_refl) as [Es Er]. fold s0 in Es, Er.
    rewrite run_cons. assert (Hb' : build (o_cfg s0) = Ok b) by congruence. destruct (@prepare_phase1 b s0 C Hb') as (_ & P1 & Eb1 & Sc).
    set (s1 := fst (do s0 OPrepare)) in *. rewrite Es, Er in P1.
    assert (X : forall c, In c (h1 ++ OCreate :: h2) -> c = OCreate \/ building c = false).
    { intros c Hc. apply in_app_or in Hc as [Hc|[Hc|Hc]]; [right; apply Hh1; auto|left; auto|right; apply Hh2; auto]. }
    split.
    - rewrite run_app, run_cons. set (s2 := run s1 h1). assert (P1' : phase1 b false false (o_lam s0) h1 s2) by (apply phase1_run; auto).
      assert (X1 : forall c, In c h1 -> c = OCreate \/ building c = false) by (intros; right; apply Hh1; auto).
      destruct (@in_force_run b Lower C h1 s1 _ (p1_base P1) (p1_prep P1) X1 (Sc Lower)) as (I1 & _). fold s2 in I1.
      destruct (@in_force_run b Upper C h1 s1 _ (p1_base P1) (p1_prep P1) X1 (Sc Upper)) as (I2 & _). fold s2 in I2.
      destruct (@create_phase2 b false false (o_lam s0) h1 s2 C Bg P1') as (_ & P2 & L1 & L2 & L3); [discriminate|].
      unfold bnds in I1, I2. rewrite <- L1 in I1. rewrite <- L2 in I2.
      eapply (phase2_run Lower); eauto.
    - rewrite <- Eb, <- Eb1. apply in_force_run; auto; [apply (p1_base P1)|apply (p1_prep P1)|]. rewrite Eb1, Eb. rewrite <- Eb at 1. apply Sc.
  Qed.

  Lemma route_solve h0 h1 h2 b : (forall c, In c h0 -> creating c = false) -> build (user_cfg (cfg0 E) h0) = Ok b -> consistent b -> bounds_given h1 ->
    (forall c, In c h1 -> building c = false /\ replacing c = false /\ guess_ok (b_n b) c) ->
    (forall c, In c h2 -> building c = false /\ sized (b_n b) (List.length (concat (b_g b ++ extra_cons h1))) c) ->
    exists q, snd (do (run (opt_init E) (h0 ++ OPrepare :: h1 ++ OCreate :: h2)) OSolve) = Ok (Some q) /\
      q_nlp q = @mkNlp E (b_n b) (user_cost (b_obj b) h1) (concat (b_g b ++ extra_cons h1)) /\
      q_lbg q = last_lb (concat (b_glb b ++ extra_lb h1)) h2 /\ q_ubg q = last_ub (concat (b_gub b ++ extra_ub h1)) h2 /\ q_p q = user_p (user_p (prm0 E) h1) h2 /\
      forall d, scaled_of (b_scal b) (b_n b) (match d with Lower => q_lbx q | Upper => q_ubx q end)
        (in_force b d (user_bnd (bnd0 E) h0) (ordinary_bounds b d (user_bnd (bnd0 E) h0) (fun _ => infinite d)) (h1 ++ OCreate :: h2)).
  Proof.
    intros A1 A2 A3 A4 A5 A6.
    destruct (@route h0 h1 h2 b Lower A1 A2 A3 A4 A5 A6) as [P2 SL].
    destruct (@route h0 h1 h2 b Upper A1 A2 A3 A4 A5 A6) as [_ SU].
    cbv zeta in P2, SL, SU. set (s := run (opt_init E) _) in *.
    destruct (@phase2_solve b (@mkNlp E (b_n b) (user_cost (b_obj b) h1) (concat (b_g b ++ extra_cons h1))) _ _ _ h2 s eq_refl (proj1 SL) (proj1 SU) P2) as (q & Q0 & Q1 & Q2 & Q3 & Q4 & Q5 & Q6 & _).
    exists q. split; [exact Q0|]. do 4 (split; [assumption|]). intros [|]; rewrite ?Q2, ?Q3; assumption.
  Qed.

  (** *** Satisfaction block by block *)
  Notation ex := (list R -> Prm E -> R).
  Lemma holds_app (g1 g2 : list ex) l1 l2 u1 u2 x (p : Prm E) : List.length l1 = List.length g1 -> List.length u1 = List.length g1 ->
    holds (g1 ++ g2) (l1 ++ l2) (u1 ++ u2) x p <-> holds g1 l1 u1 x p /\ holds g2 l2 u2 x p.
  Proof.
    intros Hl Hu. split.
    - intros H. split; intros j g l u Hg Hlj Huj.
      + assert (j < List.length g1)%nat by (apply nth_error_Some; congruence). apply (H j); rewrite nth_error_app1 by lia; auto.
      + apply (H (List.length g1 + j)%nat); rewrite nth_error_app2 by lia; rewrite ?Hl, ?Hu; replace (List.length g1 + j - List.length g1)%nat with j by lia; auto.
    - intros [A B] j g l u Hg Hlj Huj. destruct (Nat.lt_ge_cases j (List.length g1)).
      + rewrite nth_error_app1 in Hg, Hlj, Huj by lia. eapply A; eauto.
      + rewrite nth_error_app2 in Hg, Hlj, Huj by lia. rewrite Hl in Hlj. rewrite Hu in Huj. eapply B; eauto.
  Qed.
  Lemma holds_concat (gs : list (list ex)) x (p : Prm E) : forall ls us, map (@List.length _) ls = map (@List.length _) gs -> map (@List.length _) us = map (@List.length _) gs ->
    holds (concat gs) (concat ls) (concat us) x p <-> forall j g l u, nth_error gs j = Some g -> nth_error ls j = Some l -> nth_error us j = Some u -> holds g l u x p.
  Proof.
    induction gs as [|g gs IH]; intros [|l ls] [|u us] Hl Hu; simpl in *; try discriminate.
    - split; intros _ [|j]; discriminate.
    - injection Hl as Hl1 Hl2. injection Hu as Hu1 Hu2. rewrite holds_app by auto. rewrite IH by auto. split.
      + intros [A B] [|j] g' l' u'; cbn; [intros [= <-] [= <-] [= <-]; auto|apply B].
      + intros H. split; [apply (H 0%nat); auto|]. intros j. apply (H (Datatypes.S j)).
  Qed.

  (** *** Repeated setup *)
  Record kept (n m : nat) (s : opt) : Prop := mkKept {
    k_S : forall pr, o_S s = Some pr -> p_n pr = n /\ List.length (p_g pr) = m;
    k_base : forall b, o_base s = Some b -> b_n b = n;
    k_g : forall l, o_g s = Some (CList l) -> List.length (concat l) = m;
    k_lam : lam_ok n m s }.
  Lemma do_kept_frame s c : building c = false -> adding c = false -> c <> OSolve -> o_g (fst (do s c)) = o_g s /\ o_run (fst (do s c)) = o_run s /\ o_lam (fst (do s c)) = o_lam s.
  Proof.
    intros Hb Ha Hn. destruct c; try discriminate Hb; try discriminate Ha; try congruence; cbn [do fst]; auto.
    - unfold set_bnd. destruct (o_prep s), (o_base s); cbn; auto.
    - tac_lift. unfold set_obj in Er. destruct (negb _); [discriminate|]. destruct (o_setup s) eqn:Q; [discriminate|]. injection Er as <-. cbn. auto.
    - tac_lift. unfold add_cost, get_obj in Er. destruct (negb (o_prep s)) eqn:Q0; [discriminate|]. cbn in Er. destruct (o_obj s); [|discriminate]. unfold set_obj in Er. rewrite Q0 in Er.
      destruct (o_setup s) eqn:Q; [discriminate|]. injection Er as <-. cbn. auto.
    - tac_lift. unfold set_glb in Er. destruct (negb _); [discriminate|]. injection Er as <-. cbn. auto.
    - tac_lift. unfold set_gub in Er. destruct (negb _); [discriminate|]. injection Er as <-. cbn. auto.
    - tac_lift. unfold app_glb in Er. destruct (negb _); [discriminate|]. destruct (append _ _); [|discriminate]. injection Er as <-. cbn. auto.
    - tac_lift. unfold app_gub in Er. destruct (negb _); [discriminate|]. destruct (append _ _); [|discriminate]. injection Er as <-. cbn. auto.
    - tac_lift. unfold set_optx in Er. destruct (o_base s) eqn:Eb; [|discriminate]. destruct (b_ix _ _); [|discriminate]. cbn in Er. destruct (spread_to _ _); [|discriminate].
      cbn in Er. injection Er as <-. destruct d; cbn; auto.
    - destruct (compile_nlp s); cbn; auto.
  Qed.
  Lemma request_nlp (s : opt) q : request_of s = Ok q -> o_S s = Some (q_nlp q).
  Proof.
    unfold request_of. destruct (o_S s) as [pr|]; [|discriminate].
    repeat match goal with |- context [bind ?r _] => destruct r; cbn [bind]; [|discriminate] end. intros [= <-]. reflexivity.
  Qed.
  Section Same.
    Variables n m : nat.
    Hypothesis SZ : forall c b, build c = Ok b -> b_n b = n /\ List.length (concat (b_g b)) = m.
    Lemma kept_prepare s : kept n m s -> kept n m (fst (prepare build s)).
    Proof.
      intros [K1 K2 K3 K4]. unfold prepare. destruct (build (o_cfg s)) as [b|] eqn:Eb; [|split; auto]. destruct (SZ Eb) as [S1 S2].
      unfold update_bounds. split; cbn; auto.
      - intros b' [= <-]. auto.
      - intros l [= <-]. auto.
    Qed.
    Lemma kept_create (s : opt) : kept n m s -> kept n m (fst (create s)).
    Proof.
      intros K. pose proof K as [K1 K2 K3 K4]. unfold create. destruct (o_g s) as [[l|l]|] eqn:Eg; cbn [vertcat]; try exact K.
      pose proof (K3 l eq_refl) as Hl. cbn [with_nlp o_glb].
      destruct (vertcat (o_glb s)); [|split; cbn; auto; discriminate]. cbn [with_nlp o_gub].
      destruct (vertcat (o_gub s)); [|split; cbn; auto; discriminate]. cbn [with_nlp o_obj o_base].
      destruct (o_obj s), (o_base s) as [b|] eqn:Eb; split; cbn; rewrite ?Eb; auto; try discriminate.
      intros pr [= <-]. cbn. auto.
    Qed.
    Lemma kept_step s c : adding c = false -> kept n m s -> kept n m (fst (do s c)).
    Proof.
      intros Ha K. assert (L2 : forall r : opt * res unit, fst (lift2 r) = fst r) by (intros [? [?|?]]; reflexivity).
      destruct (building c) eqn:Hb.
      - destruct c; try discriminate Hb; cbn [do]; rewrite L2; [apply kept_prepare; auto|apply kept_create; auto|].
        unfold setup. pose proof (kept_prepare K) as K'. destruct (prepare build s) as [s1 [u|e]]; cbn in K'; auto. apply kept_create; auto.
      - assert (D : c = OSolve \/ c <> OSolve) by (destruct c; auto; right; discriminate). destruct D as [->|Hn].
        + cbn [do]. destruct (solve S_ s) as [s' r] eqn:Es. assert (E0 : fst (match r with Ok q => (s', Ok (Some q)) | Err e => (s', Err e) end) = s') by (destruct r; reflexivity).
          rewrite E0. clear E0. destruct K as [K1 K2 K3 K4]. destruct (solve_frame _ Es) as (F1 & _ & _ & _ & _ & _ & F2 & _ & _ & _ & F3 & _).
          split; rewrite ?F1, ?F2, ?F3; auto.
          unfold solve in Es. destruct (negb _); [injection Es as <- <-; auto|]. destruct (request_of s) as [q|] eqn:Eq; [|injection Es as <- <-; auto].
          destruct (o_base s) as [b|]; [|injection Es as <- <-; auto]. destruct (negb _); injection Es as <- <-; auto.
          intros _. cbn. destruct (GS q) as (G1 & G2 & G3). destruct (K1 _ (request_nlp _ Eq)) as [N1 N2]. eexists _, _. split; [reflexivity|]. split; congruence.
        + destruct (do_kept_frame s Hb Ha Hn) as (F1 & F2 & F3). destruct (do_frame s c Hb) as (G1 & _ & _ & G2). destruct K as [K1 K2 K3 K4].
          split; rewrite ?F1, ?G1, ?G2; auto. unfold lam_ok. rewrite F2, F3. exact K4.
    Qed.
    Lemma kept_run h : forall s, (forall c, In c h -> adding c = false) -> kept n m s -> kept n m (run s h).
    Proof.
      induction h as [|c h IH]; intros s Hh K; [exact K|]. rewrite run_cons. apply IH; [intros; apply Hh; right; auto|]. apply kept_step; auto. apply Hh; left; auto.
    Qed.
  End Same.

  Lemma setup_is s b : build (o_cfg s) = Ok b -> do s OSetup = do (fst (do s OPrepare)) OCreate.
  Proof. intros Hb. cbn [do]. unfold setup, prepare. rewrite Hb. destruct (update_bounds _ _ _ _). reflexivity. Qed.

  Lemma resetup n m h h2 b d0 : (forall c b', build c = Ok b' -> b_n b' = n /\ List.length (concat (b_g b')) = m) ->
    (forall c, In c h -> adding c = false) -> build (user_cfg (cfg0 E) h) = Ok b -> consistent b -> (forall c, In c h2 -> building c = false /\ sized n m c) ->
    snd (do (run (opt_init E) h) OSetup) = Ok None /\
    let s := run (opt_init E) (h ++ OSetup :: h2) in
    phase2 b (@mkNlp E (b_n b) (b_obj b) (concat (b_g b))) (concat (b_glb b)) (concat (b_gub b)) (prm0 E) h2 s /\
    scaled_of (b_scal b) (b_n b) (bnds s d0) (in_force b d0 (user_bnd (bnd0 E) h) (ordinary_bounds b d0 (user_bnd (bnd0 E) h) (fun _ => infinite d0)) h2).
  Proof.
    intros SZ Hh Hb C Hh2. set (s0 := run (opt_init E) h). destruct (run_cfg h (opt_init E)) as [Ec Eb]. fold s0 in Ec, Eb. cbn [opt_init o_cfg o_bnd] in Ec, Eb.
    assert (Hb' : build (o_cfg s0) = Ok b) by congruence. rewrite (setup_is s0 Hb').
    destruct (@prepare_phase1 b s0 C Hb') as (_ & P1 & Eb1 & Sc). set (s1 := fst (do s0 OPrepare)) in *.
    assert (K : kept n m s0). { apply kept_run; auto. split; cbn; try discriminate. }
    destruct (SZ _ _ Hb) as [S1 S2].
    assert (Bg : bounds_given (E:=E) []) by (split; reflexivity).
    destruct (@create_phase2 b (o_setup s0) (o_run s0) (o_lam s0) [] s1 C Bg P1) as (A1 & P2 & L1 & L2 & L3).
    { intros R. destruct (k_lam K R) as (lg & lx & E1 & E2 & E3). exists lg, lx. split; [exact E1|]. cbn [extra_cons flat_map]. rewrite app_nil_r. split; congruence. }
    split; [exact A1|]. intros s. unfold s. rewrite run_app. fold s0. rewrite run_cons, (setup_is s0 Hb'). fold s1.
    unfold extra_cons, extra_lb, extra_ub, user_cost, user_p in P2. cbn [flat_map fold_left] in P2. rewrite !app_nil_r in P2.
    rewrite <- Eb, <- Eb1, <- L3.
    pose proof (Sc Lower) as I1. pose proof (Sc Upper) as I2. unfold bnds in I1, I2. rewrite <- L1 in I1. rewrite <- L2 in I2. rewrite <- Eb1, <- L3 in I1, I2.
    set (s2 := fst (do s1 OCreate)) in *.
    assert (Hh2' : forall c, In c h2 -> building c = false /\ sized (b_n b) (List.length (p_g (@mkNlp E (b_n b) (b_obj b) (concat (b_g b))))) c).
    { intros c Hc. cbn [p_g]. rewrite S1, S2. auto. }
    destruct (@phase2_run b (@mkNlp E (b_n b) (b_obj b) (concat (b_g b))) _ _ _ d0 eq_refl C h2 s2 _ _ P2 I1 I2 Hh2') as [Q1 Q2]. split; [exact Q1|]. destruct d0; exact Q2.
  Qed.
End P.
