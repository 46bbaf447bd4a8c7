(** * Lemmas for C48: evaluation of the converted right-hand side. *)
From Coq Require Import Reals Lra.
From Verif Require Import Base DataModel DataProofs SaveProofs MdlModel MdlSpec MdlProofs MdlProps DaeModel DaeSpec DaeProofs.
Import List.
Local Open Scope R_scope.

Lemma NoDup_app_remove_l {A} (l m : list A) : NoDup (l ++ m) -> NoDup m.
Proof. induction l as [|a l IH]; [auto|]. cbn. intros H. inversion H; auto. Qed.
Lemma NoDup_app_remove_r {A} (l m : list A) : NoDup (l ++ m) -> NoDup l.
Proof.
  induction l as [|a l IH]; [constructor|]. cbn. intros H. inversion H as [|? ? H1 H2]; subst. constructor; [|auto].
  intros X. apply H1. apply in_or_app. left. exact X.
Qed.

Lemma map2_length f a b : List.length (map2 f a b) = Nat.min (List.length a) (List.length b).
Proof. unfold map2. rewrite map_length, combine_length. reflexivity. Qed.
Lemma map2_app f a b a' b' : List.length a = List.length b -> map2 f (a ++ a') (b ++ b') = (map2 f a b ++ map2 f a' b')%list.
Proof.
  revert b. induction a as [|x a IH]; intros [|y b] L; try discriminate; [reflexivity|].
  cbn. f_equal. apply IH. cbn in L. lia.
Qed.
Lemma map2_cons f x y a b : map2 f (x :: a) (y :: b) = f x y :: map2 f a b.
Proof. reflexivity. Qed.

Lemma skipn_slice (F : list R) : forall o s, (o + s <= List.length F)%nat ->
  skipn o F = (map (fun i => nth i F 0) (seq o s) ++ skipn (o + s) F)%list.
Proof.
  intros o s. revert o. induction s as [|s IH]; intros o L; [rewrite Nat.add_0_r; reflexivity|].
  cbn [seq map app]. replace (o + Datatypes.S s)%nat with (Datatypes.S o + s)%nat by lia.
  rewrite <- (IH (Datatypes.S o)) by lia.
  assert (L' : (o < List.length F)%nat) by lia. clear -L'. revert o L'. induction F as [|x F IH]; intros o L; [cbn in L; lia|].
  destruct o as [|o]; [reflexivity|]. cbn in L. cbn [skipn nth]. apply IH. lia.
Qed.

Lemma noise_eval (e : env) nn (f : nat -> E) : forall s a o,
  map (fun ex : E => ex e) (map (fun ie => e_plus (snd ie) (e_nsym true nn (fst ie))) (combine (seq a s) (map f (seq o s))))
  = map2 Rplus (map (fun i => f i e) (seq o s)) (map (e_noise e nn) (seq a s)).
Proof.
  induction s as [|s IH]; intros a o; [reflexivity|]. cbn [seq map combine]. rewrite map2_cons. f_equal. apply IH.
Qed.
Lemma noise_eval' (e : env) nn (f : nat -> E) s o :
  map (fun ex : E => ex e) (add_noise E e_plus e_nsym true nn (map f (seq o s)))
  = map2 Rplus (map (fun i => f i e) (seq o s)) (map (e_noise e nn) (seq 0 s)).
Proof. unfold add_noise. rewrite map_length, seq_length. apply noise_eval. Qed.

Lemma map2_zero (a : list R) (g : nat -> R) : forall b, (forall i, g i = 0) -> map2 Rplus a (map g (seq b (List.length a))) = a.
Proof. induction a as [|x a IH]; intros b H; [reflexivity|]. cbn [List.length seq map]. rewrite map2_cons, H, Rplus_0_r, IH; auto. Qed.

Lemma spread_len {E0} s (e : list E0) : List.length e = s -> spread s e = e.
Proof. intros <-. destruct e as [|a [|b e]]; reflexivity. Qed.

Section Ev.
  Variable d : dae.
  Variable e : env.

  (** x part *)
  Lemma x_part : forall (xs : list (string * nat)) o (F : list R) (fs : nat -> E),
    (o + vsum xs)%nat = List.length F -> (forall i, fs i e = nth i F 0) ->
    flat_map (fun vc => map (fun ex : E => ex e) (spread (snd (fst vc)) (with_noise e_plus e_nsym true (fst (fst (snd vc))) (snd (fst (snd vc))) (snd (snd vc)))))
      (combine xs (map (fun c => (fst (fst c), map fs (seq (snd (fst c)) (snd c)), has_noise d (fst (fst c)))) (counted o xs)))
    = map2 Rplus (skipn o F) (flat_map (fun v => map (fun i => if has_noise d (fst v) then e_noise e (fst v ++ "_noise")%string i else 0) (seq 0 (snd v))) xs).
  Proof.
    induction xs as [|[n s] xs IH]; intros o F fs L H.
    - cbn in L. rewrite Nat.add_0_r in L. rewrite L, skipn_all. reflexivity.
    - unfold vsum in L. cbn [map snd list_sum fold_right] in L. change (fold_right Nat.add 0%nat) with list_sum in L. fold (vsum xs) in L.
      cbn [counted map combine flat_map fst snd]. rewrite (skipn_slice F o s) by lia.
      rewrite map2_app by (rewrite !map_length, !seq_length; reflexivity).
      f_equal; [|apply IH; [lia|exact H]].
      rewrite spread_len.
      2:{ unfold with_noise. destruct (has_noise d n); [rewrite addn_length|]; rewrite map_length, seq_length; reflexivity. }
      unfold with_noise. destruct (has_noise d n).
      + rewrite noise_eval'. f_equal. apply map_ext. exact H.
      + rewrite map_map. rewrite (map_ext _ (fun i => nth i F 0) H).
        pose proof (map2_zero (map (fun i => nth i F 0) (seq o s)) (fun _ => 0) 0 (fun _ => eq_refl)) as Z.
        rewrite map_length, seq_length in Z. symmetry. exact Z.
  Qed.

  (** u part *)
  Lemma u_part : forall (us : list (string * nat)) o,
    flat_map (fun vc => map (fun ex : E => ex e) (spread (snd (fst vc)) (with_noise e_plus e_nsym true (fst (fst (snd vc))) (snd (fst (snd vc))) (snd (snd vc)))))
      (combine us (map (fun jv => (fst (snd jv), [fun e0 : env => e_q e0 (fst jv)] : list E, false)) (combine (seq o (List.length us)) us)))
    = flat_map (fun jv => repeat (e_q e (fst jv)) (snd (snd jv))) (combine (seq o (List.length us)) us).
  Proof.
    induction us as [|[n s] us IH]; intros o; [reflexivity|].
    cbn [List.length seq combine map flat_map fst snd with_noise spread]. f_equal; [|apply IH].
    clear. induction s as [|s IH]; [reflexivity|]. cbn. f_equal. exact IH.
  Qed.

  (** z part *)
  Lemma z_part : forall (zs : list (string * nat)) o (F : list R) (fs : nat -> E),
    (o + vsum zs)%nat = List.length F -> (forall i, fs i e = nth i F 0) ->
    flat_map (fun vc => map (fun ex : E => ex e) (spread (snd (fst vc)) (with_noise e_plus e_nsym true (fst (fst (snd vc))) (snd (fst (snd vc))) (snd (snd vc)))))
      (combine zs (map (fun c => (fst (fst c), map fs (seq (snd (fst c)) (snd c)), false)) (counted o zs)))
    = skipn o F.
  Proof.
    induction zs as [|[n s] zs IH]; intros o F fs L H.
    - cbn in L. rewrite Nat.add_0_r in L. rewrite L, skipn_all. reflexivity.
    - unfold vsum in L. cbn [map snd list_sum fold_right] in L. change (fold_right Nat.add 0%nat) with list_sum in L. fold (vsum zs) in L.
      cbn [counted map combine flat_map fst snd]. rewrite (skipn_slice F o s) by lia.
      f_equal; [|apply IH; [lia|exact H]].
      cbn [with_noise]. rewrite spread_len by (rewrite map_length, seq_length; reflexivity).
      rewrite map_map. apply map_ext. exact H.
  Qed.
End Ev.

(** ** The calls of the conversion *)
Section Conv.
  Variable inv : list (list R) -> list (list R).
  Variable d : dae.

  Definition Vd : list (decl E) :=
    (map (fun v => DVar "_x" (fst v) (snd v)) (d_x d ++ d_u d ++ d_z d)
     ++ map (fun v => DVar "_p" (fst v) (snd v)) (d_p d)
     ++ map (fun v => DVar "_tvp" (fst v) (snd v)) (d_tvp d)
     ++ map (fun v => DVar "_u" (fst v) (snd v)) [("q"%string, vsum (d_u d))])%list.
  Definition Rd : list (decl E) :=
    (map (fun c => DRhs (fst (fst c)) (x_slice d (snd (fst c)) (snd c)) (has_noise d (fst (fst c)))) (counted 0 (d_x d))
     ++ map (fun jv => DRhs (fst (snd jv)) [fun e => e_q e (fst jv)] false) (combine (seq 0 (List.length (d_u d))) (d_u d))
     ++ map (fun c => DRhs (fst (fst c)) (z_slice inv d (snd (fst c)) (snd c)) false) (counted 0 (d_z d)))%list.
  Lemma decls_split : decls inv d = (Vd ++ Rd)%list.
  Proof. unfold decls, Vd, Rd. rewrite <- !app_assoc. reflexivity. Qed.

  Lemma req_V k : requested k Vd = match k with
    | Kx => (d_x d ++ d_u d ++ d_z d)%list | Ku => [("q"%string, vsum (d_u d))] | Kz => [] | Kp => d_p d | Ktvp => d_tvp d end.
  Proof.
    unfold Vd. rewrite !requested_app', !requested_vars.
    destruct k; cbn [names_kind existsb documented String.eqb Ascii.eqb Bool.eqb kind_eqb andb orb fst snd]; cbn;
      rewrite ?app_nil_r; reflexivity.
  Qed.

  Lemma counted_names o l : map (fun c => fst (fst c)) (counted o l) = map fst l.
  Proof. revert o. induction l as [|[n s] l IH]; intros o; [reflexivity|]. cbn. f_equal. apply IH. Qed.
  Lemma counted_length o l : List.length (counted o l) = List.length l.
  Proof. revert o. induction l as [|[n s] l IH]; intros o; [reflexivity|]. cbn. f_equal. apply IH. Qed.

  Definition calls : list (string * list E * bool) :=
    (map (fun c => (fst (fst c), x_slice d (snd (fst c)) (snd c), has_noise d (fst (fst c)))) (counted 0 (d_x d))
     ++ map (fun jv => (fst (snd jv), [fun e => e_q e (fst jv)] : list E, false)) (combine (seq 0 (List.length (d_u d))) (d_u d))
     ++ map (fun c => (fst (fst c), z_slice inv d (snd (fst c)) (snd c), false)) (counted 0 (d_z d)))%list.
  Lemma flat_map_single {A B C} (f : A -> B) (g : B -> list C) (h : A -> C) l : (forall x, g (f x) = [h x]) -> flat_map g (map f l) = map h l.
  Proof. intros H. induction l as [|x l IH]; [reflexivity|]. cbn. rewrite H. cbn. f_equal. exact IH. Qed.
  Lemma calls_Rd : flat_map call_of Rd = calls.
  Proof.
    unfold Rd, calls. rewrite !flat_map_app. f_equal; [|f_equal].
    - apply flat_map_single. reflexivity.
    - apply (flat_map_single _ _ (fun jv => (fst (snd jv), [fun e => e_q e (fst jv)] : list E, false))). reflexivity.
    - apply flat_map_single. reflexivity.
  Qed.
  Lemma combine_snd_names : forall (us : list (string * nat)) o, map (fun jv => fst (snd jv)) (combine (seq o (List.length us)) us) = map fst us.
  Proof. induction us as [|u us IH]; intros o; [reflexivity|]. cbn. f_equal. apply IH. Qed.
  Lemma calls_names : map (fun c => fst (fst c)) calls = map fst (d_x d ++ d_u d ++ d_z d).
  Proof.
    unfold calls. rewrite !map_app, !map_map. cbn [fst snd]. f_equal; [apply counted_names|]. f_equal; [|apply counted_names].
    apply combine_snd_names.
  Qed.

  Lemma forall2_app {A B} (P : A -> B -> Prop) l1 l2 m1 m2 : Forall2 P l1 m1 -> Forall2 P l2 m2 -> Forall2 P (l1 ++ l2) (m1 ++ m2).
  Proof. intros H. revert l2 m2. induction H; intros; [assumption|]. cbn. constructor; auto. Qed.

  Lemma calls_sizes : Forall2 (fun v c => List.length (snd (fst c)) = snd v \/ List.length (snd (fst c)) = 1%nat) (d_x d ++ d_u d ++ d_z d) calls.
  Proof.
    unfold calls. apply forall2_app; [|apply forall2_app].
    - generalize 1%nat as one. intros one. generalize 0%nat. induction (d_x d) as [|[n s] l IH]; intros o; [constructor|]. cbn [counted map]. constructor; [|apply IH].
      left. cbn. unfold x_slice. rewrite map_length, seq_length. reflexivity.
    - set (one := 1%nat). assert (H1 : one = 1%nat) by reflexivity. clearbody one. generalize 0%nat. induction (d_u d) as [|[n s] l IH]; intros o; [constructor|]. cbn [List.length seq combine map]. constructor; [|apply IH].
      right. symmetry. exact H1.
    - generalize 1%nat as one. intros one. generalize 0%nat. induction (d_z d) as [|[n s] l IH]; intros o; [constructor|]. cbn [counted map]. constructor; [|apply IH].
      left. cbn. unfold z_slice. rewrite map_length, seq_length. reflexivity.
  Qed.

  Lemma nth_repeat0 i k : nth i (repeat 0 k) 0 = 0.
  Proof. revert i. induction k as [|k IH]; intros [|i]; cbn; auto. Qed.

  Lemma scatter_zero k : scatter d (repeat 0 k) = map (fun _ => 0) (seq 0 (vsum (d_x d))).
  Proof.
    unfold scatter. assert (G : forall a, flat_map (fun v => map (fun i => if has_noise d (fst v) then nth (w_offset d (d_w d) (fst v) + i) (repeat 0 k) 0 else 0) (seq 0 (snd v))) (d_x d) = map (fun _ => 0) (seq a (vsum (d_x d)))); [|apply G].
    induction (d_x d) as [|[n s] l IH]; intros a; [reflexivity|]. cbn [flat_map fst snd].
    change (vsum ((n, s) :: l)) with (s + vsum l)%nat. rewrite seq_app, map_app. f_equal; [|apply IH].
    transitivity (map (fun _ : nat => 0) (seq 0 s)).
    - apply map_ext. intros i. rewrite nth_repeat0. destruct (has_noise d n); reflexivity.
    - clear. generalize 0%nat. revert a. induction s as [|s IH]; intros a b; [reflexivity|]. cbn. f_equal. apply IH.
  Qed.

  Lemma z_next_length e : wf_dae d -> inverts inv d (point d e) -> List.length (z_next inv d e) = vsum (d_z d).
  Proof. intros W [Li _]. unfold z_next. rewrite map2_length. unfold mv. rewrite !map_length, Li. lia. Qed.

  Lemma combine_app' {A B} (l1 l2 : list A) (m1 m2 : list B) : List.length l1 = List.length m1 -> combine (l1 ++ l2) (m1 ++ m2) = (combine l1 m1 ++ combine l2 m2)%list.
  Proof. revert m1. induction l1 as [|a l1 IH]; intros [|b m1] L; try discriminate; [reflexivity|]. cbn. f_equal. apply IH. cbn in L. lia. Qed.

  Lemma eval_calls e : wf_dae d -> List.length (z_next inv d e) = vsum (d_z d) ->
    flat_map (fun re => map (fun ex : E => ex e) (snd re))
      (map (fun vc => (fst (fst vc), spread (snd (fst vc)) (with_noise e_plus e_nsym true (fst (fst (snd vc))) (snd (fst (snd vc))) (snd (snd vc)))))
           (combine (d_x d ++ d_u d ++ d_z d) calls))
    = (xdot d e ++ flat_map (fun jv => repeat (e_q e (fst jv)) (snd (snd jv))) (combine (seq 0 (List.length (d_u d))) (d_u d)) ++ z_next inv d e)%list.
  Proof.
    intros W Lz. unfold calls.
    rewrite combine_app' by (rewrite map_length, counted_length; reflexivity).
    rewrite combine_app' by (rewrite map_length, combine_length, seq_length; lia).
    rewrite !map_app, !flat_map_app.
    assert (FM : forall (f : (string * nat) * (string * list E * bool) -> list E) l, flat_map (fun re : string * list E => map (fun ex : E => ex e) (snd re)) (map (fun vc => (fst (fst vc), f vc)) l)
                = flat_map (fun vc => map (fun ex : E => ex e) (f vc)) l).
    { intros f l. induction l as [|x l IH]; [reflexivity|]. cbn. f_equal. exact IH. }
    rewrite !FM. clear FM. f_equal; [|f_equal].
    - unfold x_slice, xdot, noise_named.
      apply (x_part d e (d_x d) 0 (d_f d (point d e)) (fun i e => nth i (rhs_fun d (point d e) (repeat 0 (list_sum (map (fun n => size_of n (d_x d)) (d_w d))))) 0)).
      + rewrite (wf_f d W). reflexivity.
      + intros i. unfold rhs_fun. rewrite scatter_zero. rewrite <- (wf_f d W (point d e)). rewrite map2_zero; [reflexivity|reflexivity].
    - apply u_part.
    - unfold z_slice. apply (z_part e (d_z d) 0 (z_next inv d e) (fun i e => nth i (z_next inv d e) 0)); [rewrite Lz; reflexivity|reflexivity].
  Qed.
End Conv.
