(** * C60, C63: initial values of different objects; the setters. *)
From Verif Require Import Base AliasModel.
Import List.
Local Open Scope nat_scope.

Section Spec.
  Context {R : Type} (zero : R) (size : slot -> nat).
  Notation acall := (acall R).
  Notation trace := (list (acall * res unit)).

  (** The value object [o] should have for [s], were every object on its own: what was last assigned to it, with
      its own later writes and steps; read off the history. *)
  Definition own_value (o : nat) (s : slot) (tr : trace) : list R :=
    fold_left (fun v e =>
      match e with
      | (ASet _ o' s' (VArr _ l), Ok _) => if Nat.eqb o o' && slot_eqb s s' then l else v
      | (AWrite _ o' s' i a, Ok _) => if Nat.eqb o o' && slot_eqb s s' then set_nth R v i a else v
      | (AStep _ o' x u z, Ok _) => if Nat.eqb o o' then match s with Sx => x | Su => u | Sz => z end else v
      | _ => v
      end) tr (repeat zero (size s)).

  (** Calls on objects below [n] that never pass a structure. *)
  Definition arrays_only (n : nat) (c : acall) : Prop :=
    match c with
    | ASet _ o _ (VArr _ _) | ASet _ o _ (VOther _) => o < n
    | ASet _ _ _ _ => False
    | AWrite _ o _ _ _ => o < n
    | AStep _ o _ _ _ => o < n
    | _ => True
    end.
End Spec.

Section P.
  Context {R : Type} (zero : R) (size : slot -> nat).
  Notation acall := (acall R).
  Notation trace := (list (acall * res unit)).
  Notation do_acall := (do_acall R size).
  Notation aexec := (aexec R size).
  Notation value_of := (value_of R).
  Notation world := (world R).

  Lemma aexec_snoc h c w : aexec (h ++ [c]) w = let (w1, tr) := aexec h w in let (w2, o) := do_acall w1 c in (w2, tr ++ [(c, o)]).
  Proof.
    revert w. induction h as [|d h IH]; intros w; cbn [AliasModel.aexec app].
    - destruct (do_acall w c); reflexivity.
    - destruct (do_acall w d) as [w1 o]. rewrite IH. destruct (aexec h w1) as [w2 t2]. destruct (do_acall w2 c); reflexivity.
  Qed.

  Lemma slot_eqb_spec a b : slot_eqb a b = true <-> a = b.
  Proof. destruct a, b; cbn; split; congruence. Qed.
  Lemma slot_eqb_refl a : slot_eqb a a = true.
  Proof. destruct a; reflexivity. Qed.

  (** Distinct (object, field) pairs have distinct structures, none of them a user's. *)
  Record sep (n : nat) (w : world) : Prop := mkSep {
    sp_inj : forall o s o' s', o < n -> o' < n -> ref R w o s = ref R w o' s' -> o = o' /\ s = s';
    sp_user : forall o s r, o < n -> In r (user R w) -> ref R w o s <> r;
    sp_old : forall o s, o < n -> ref R w o s < next R w;
    sp_uold : forall r, In r (user R w) -> r < next R w }.

  Lemma sep_init n : sep n (world_init R zero size n).
  Proof.
    constructor; cbn; intros.
    - destruct s, s'; cbn in *; split; try reflexivity; lia.
    - contradiction.
    - destruct s; cbn; lia.
    - contradiction.
  Qed.

  Lemma upd_heap_same h r c : upd_heap R h r c r = c.
  Proof. unfold upd_heap. rewrite Nat.eqb_refl. reflexivity. Qed.
  Lemma upd_heap_other h r c q : q <> r -> upd_heap R h r c q = h q.
  Proof. unfold upd_heap. intros H. apply Nat.eqb_neq in H. rewrite H. reflexivity. Qed.
  Lemma upd_ref_same f o s r : upd_ref f o s r o s = r.
  Proof. unfold upd_ref. rewrite Nat.eqb_refl, slot_eqb_refl. reflexivity. Qed.
  Lemma upd_ref_other f o s r o' s' : (o', s') <> (o, s) -> upd_ref f o s r o' s' = f o' s'.
  Proof.
    unfold upd_ref. intros H. destruct (Nat.eqb o' o) eqn:E1; [|reflexivity]. apply Nat.eqb_eq in E1. destruct (slot_eqb s' s) eqn:E2; [|reflexivity].
    apply slot_eqb_spec in E2. congruence.
  Qed.
  Definition same_pair_dec (o' : nat) (s' : slot) o s : {(o', s') = (o, s)} + {(o', s') <> (o, s)}.
  Proof.
    destruct (Nat.eq_dec o' o) as [->|H]; [|right; congruence].
    destruct s', s; (left; reflexivity) || (right; discriminate).
  Defined.
  Lemma pair_true o s : (Nat.eqb o o && slot_eqb s s)%bool = true.
  Proof. rewrite Nat.eqb_refl, slot_eqb_refl. reflexivity. Qed.
  Lemma pair_false o s o' s' : (o', s') <> (o, s) -> (Nat.eqb o' o && slot_eqb s' s)%bool = false.
  Proof.
    intros H. destruct (Nat.eqb o' o) eqn:E1; [|reflexivity]. destruct (slot_eqb s' s) eqn:E2; [|reflexivity].
    apply Nat.eqb_eq in E1. apply slot_eqb_spec in E2. congruence.
  Qed.

  Lemma own_snoc o s (tr : trace) e : own_value zero size o s (tr ++ [e]) =
      match e with
      | (ASet _ o' s' (VArr _ l), Ok _) => if Nat.eqb o o' && slot_eqb s s' then l else own_value zero size o s tr
      | (AWrite _ o' s' i a, Ok _) => if Nat.eqb o o' && slot_eqb s s' then set_nth R (own_value zero size o s tr) i a else own_value zero size o s tr
      | (AStep _ o' x u z, Ok _) => if Nat.eqb o o' then match s with Sx => x | Su => u | Sz => z end else own_value zero size o s tr
      | _ => own_value zero size o s tr
      end.
  Proof. unfold own_value. rewrite fold_left_app. reflexivity. Qed.

  (** ** C60 *)
  (** Any number of objects, any history in which initial values are given as arrays (numpy or casadi.DM): every
      object's values are determined by its own assignments, writes and steps alone. *)
  Theorem C60_arrays_independent_partial (n : nat) (h : list acall) (w : world) (tr : trace) :
    Forall (arrays_only n) h -> aexec h (world_init R zero size n) = (w, tr) ->
    forall o s, o < n -> value_of w o s = own_value zero size o s tr.
  Proof.
    assert (G : Forall (arrays_only n) h -> aexec h (world_init R zero size n) = (w, tr) -> sep n w /\ forall o s, o < n -> value_of w o s = own_value zero size o s tr);
      [|intros A B; apply (proj2 (G A B))].
    revert w tr. induction h as [|c h IH] using rev_ind; intros w tr Hok He.
    - cbn in He. injection He as <- <-. split; [apply sep_init|]. intros o s _. unfold value_of, own_value, world_init. cbn [heap ref fold_left AliasModel.entries].
      assert (M : forall k, k < 3 -> (3 * o + k) mod 3 = k) by (intros k Hk; rewrite Nat.add_comm, Nat.mul_comm, Nat.mod_add by lia; apply Nat.mod_small; exact Hk).
      destruct s; cbn [slot_no]; rewrite M by lia; reflexivity.
    - apply Forall_app in Hok as [Hok1 Hok2]. inversion Hok2 as [|? ? Hc _]; subst.
      rewrite aexec_snoc in He. destruct (aexec h (world_init R zero size n)) as [w1 t1] eqn:E1. destruct (do_acall w1 c) as [w2 r] eqn:E2.
      injection He as <- <-. destruct (IH w1 t1 Hok1 eq_refl) as [SP V]. clear IH Hok1 Hok2 E1.
      pose proof SP as [P1 P2 P3 P4].
      destruct c as [o s v|o s i a|o x u z|s l|k i a]; cbn [AliasModel.do_acall] in E2.
      + destruct v as [l|? ?|?|]; [|destruct Hc|destruct Hc|]; cbn [convert] in E2.
        * cbn [arrays_only] in Hc. destruct (Nat.eqb (length l) (size s)) eqn:L; cbn [py_assert bind] in E2; injection E2 as <- <-.
          -- split.
             ++ constructor; cbn; intros.
                ** destruct (same_pair_dec o0 s0 o s) as [D1|D1], (same_pair_dec o' s' o s) as [D2|D2].
                   --- split; congruence.
                   --- injection D1 as -> ->. rewrite upd_ref_same in H1. rewrite upd_ref_other in H1 by exact D2. specialize (P3 o' s' H0). lia.
                   --- injection D2 as -> ->. rewrite upd_ref_same in H1. rewrite upd_ref_other in H1 by exact D1. specialize (P3 o0 s0 H). lia.
                   --- rewrite !upd_ref_other in H1 by assumption. eauto.
                ** destruct (same_pair_dec o0 s0 o s) as [D1|D1].
                   --- injection D1 as -> ->. rewrite upd_ref_same. specialize (P4 r H0). lia.
                   --- rewrite upd_ref_other by exact D1. eauto.
                ** destruct (same_pair_dec o0 s0 o s) as [D1|D1].
                   --- injection D1 as -> ->. rewrite upd_ref_same. lia.
                   --- rewrite upd_ref_other by exact D1. specialize (P3 o0 s0 H). lia.
                ** specialize (P4 r H). lia.
             ++ intros o0 s0 H0. rewrite own_snoc. unfold value_of. cbn [heap ref].
                destruct (same_pair_dec o0 s0 o s) as [D1|D1].
                ** injection D1 as -> ->. rewrite pair_true, upd_ref_same, upd_heap_same. reflexivity.
                ** rewrite (pair_false _ _ _ _ D1), upd_ref_other, upd_heap_other by (assumption || (specialize (P3 o0 s0 H0); lia)). apply V; exact H0.
          -- split; [exact SP|]. intros o0 s0 H0. rewrite own_snoc. apply V; exact H0.
        * injection E2 as <- <-. split; [exact SP|]. intros o0 s0 H0. rewrite own_snoc. apply V; exact H0.
      + cbn [arrays_only] in Hc. destruct (Nat.ltb i _) eqn:L; injection E2 as <- <-.
        * split; [constructor; cbn; auto|]. intros o0 s0 H0. rewrite own_snoc. unfold value_of, write. cbn [heap ref].
          destruct (same_pair_dec o0 s0 o s) as [D1|D1].
          -- injection D1 as -> ->. rewrite pair_true, upd_heap_same. cbn [AliasModel.entries]. f_equal. apply V; exact H0.
          -- rewrite (pair_false _ _ _ _ D1), upd_heap_other; [apply V; exact H0|]. intros Q. destruct (P1 o0 s0 o s H0 Hc Q). congruence.
        * split; [exact SP|]. intros o0 s0 H0. rewrite own_snoc. apply V; exact H0.
      + cbn [arrays_only] in Hc. destruct (_ && _)%bool eqn:L; injection E2 as <- <-.
        * split; [constructor; cbn; auto|]. intros o0 s0 H0. rewrite own_snoc. unfold value_of, write. cbn [heap ref].
          destruct (Nat.eqb o0 o) eqn:D1.
          -- apply Nat.eqb_eq in D1. subst o0.
             assert (N : forall a b, a <> b -> ref R w1 o a <> ref R w1 o b) by (intros a b Hab Q; destruct (P1 o a o b Hc Hc Q); congruence).
             destruct s0.
             ++ rewrite upd_heap_other by (apply N; discriminate). rewrite upd_heap_other by (apply N; discriminate). rewrite upd_heap_same. reflexivity.
             ++ rewrite upd_heap_other by (apply N; discriminate). rewrite upd_heap_same. reflexivity.
             ++ rewrite upd_heap_same. reflexivity.
          -- apply Nat.eqb_neq in D1.
             assert (N : forall b, ref R w1 o0 s0 <> ref R w1 o b) by (intros b Q; destruct (P1 o0 s0 o b H0 Hc Q); congruence).
             rewrite !upd_heap_other by apply N. apply V; exact H0.
        * split; [exact SP|]. intros o0 s0 H0. rewrite own_snoc. apply V; exact H0.
      + destruct (Nat.eqb (length l) (size s)); injection E2 as <- <-.
        * split.
          -- constructor; cbn; intros; eauto.
             ++ apply in_app_iff in H0 as [H0|[<-|[]]]; [eauto|]. specialize (P3 o s0 H). lia.
             ++ specialize (P3 o s0 H). lia.
             ++ apply in_app_iff in H as [H|[<-|[]]]; [specialize (P4 r H)|]; lia.
          -- intros o0 s0 H0. rewrite own_snoc. unfold value_of. cbn [heap ref]. rewrite upd_heap_other by (specialize (P3 o0 s0 H0); lia). apply V; exact H0.
        * split; [exact SP|]. intros o0 s0 H0. rewrite own_snoc. apply V; exact H0.
      + destruct (nth_error (user R w1) k) as [q|] eqn:K; [destruct (Nat.ltb i _) eqn:L|]; injection E2 as <- <-.
        * split; [constructor; cbn; auto|]. intros o0 s0 H0. rewrite own_snoc. unfold value_of, write. cbn [heap ref].
          rewrite upd_heap_other; [apply V; exact H0|]. apply P2; [exact H0|]. eapply nth_error_In; eauto.
        * split; [exact SP|]. intros o0 s0 H0. rewrite own_snoc. apply V; exact H0.
        * split; [exact SP|]. intros o0 s0 H0. rewrite own_snoc. apply V; exact H0.
  Qed.

  (** ** C63 *)
  (** Setting a value: accepted exactly for the right number of entries, then read back; otherwise nothing changes. *)
  Theorem C63_set_read_back (w : world) (o : nat) (s : slot) (l : list R) :
    (length l = size s -> exists w', do_acall w (ASet R o s (VArr R l)) = (w', Ok tt) /\ value_of w' o s = l /\
       (sep (Datatypes.S o) w -> forall s', s' <> s -> value_of w' o s' = value_of w o s')) /\
    (length l <> size s -> do_acall w (ASet R o s (VArr R l)) = (w, Err ExcAssertion)).
  Proof.
    split; intros H.
    - apply Nat.eqb_eq in H. cbn [AliasModel.do_acall convert]. rewrite H. cbn [py_assert bind]. eexists. split; [reflexivity|]. split.
      + unfold value_of. cbn [heap ref]. rewrite upd_ref_same, upd_heap_same. reflexivity.
      + intros [_ _ P3 _] s' Hs. unfold value_of. cbn [heap ref]. rewrite upd_ref_other by congruence. rewrite upd_heap_other; [reflexivity|].
        specialize (P3 o s' (Nat.lt_succ_diag_r o)). lia.
    - apply Nat.eqb_neq in H. cbn [AliasModel.do_acall convert]. rewrite H. reflexivity.
  Qed.
  (** Time: numbers and one-element numpy arrays are accepted and read back, other sizes refused. *)
  Theorem C63_time_partial (cur : list R) :
    (forall t, set_time R cur (TNum R t) = Ok [t]) /\
    (forall l, length l = 1 -> set_time R cur (TArray R l) = Ok l) /\
    (forall l, length l <> 1 -> exists e, set_time R cur (TArray R l) = Err e).
  Proof.
    split; [reflexivity|]. split; intros l H; cbn.
    - rewrite H. reflexivity.
    - apply Nat.eqb_neq in H. rewrite H. eauto.
  Qed.
  (** The documented type casadi.DM is refused for every value. *)
  Theorem C63_time_dm_refuted (cur l : list R) : set_time R cur (TDM R l) = Err ExcAssertion.
  Proof. reflexivity. Qed.
End P.

(** Two objects 0 (estimator) and 1 (simulator), two states, one input. *)
Definition ex_size (s : slot) : nat := match s with Sx => 2 | Su => 1 | Sz => 0 end.

(** The estimator is given the simulator's structure (mhe.x0 = simulator.x0); a step of the estimator changes the
    simulator's state. *)
Theorem C60_shared_structure_refuted :
  exists w w' (st : acall nat) r,
    aexec nat ex_size [ASet nat 1 Sx (VArr nat [5; 6]); ASet nat 0 Sx (VOf nat 1 Sx)] (world_init nat 0 ex_size 2) =
      (w, [(ASet nat 1 Sx (VArr nat [5; 6]), Ok tt); (ASet nat 0 Sx (VOf nat 1 Sx), Ok tt)]) /\
    st = AStep nat 0 [8; 9] [0] [] /\ do_acall nat ex_size w st = (w', r) /\ r = Ok tt /\
    value_of nat w 1 Sx = [5; 6] /\ value_of nat w' 1 Sx = [8; 9].
Proof. do 4 eexists. split; [reflexivity|]. split; [reflexivity|]. split; [reflexivity|]. repeat split. Qed.
(** The same through one structure of the user's given to both. *)
Theorem C60_user_structure_refuted :
  exists w w' (st : acall nat) r,
    aexec nat ex_size [ANew nat Sx [5; 6]; ASet nat 0 Sx (VUser nat 0); ASet nat 1 Sx (VUser nat 0)] (world_init nat 0 ex_size 2) =
      (w, [(ANew nat Sx [5; 6], Ok tt); (ASet nat 0 Sx (VUser nat 0), Ok tt); (ASet nat 1 Sx (VUser nat 0), Ok tt)]) /\
    st = AStep nat 1 [8; 9] [0] [] /\ do_acall nat ex_size w st = (w', r) /\ r = Ok tt /\
    value_of nat w 0 Sx = [5; 6] /\ value_of nat w' 0 Sx = [8; 9].
Proof. do 4 eexists. split; [reflexivity|]. split; [reflexivity|]. split; [reflexivity|]. repeat split. Qed.

Example C60_nonvacuous :
  let h := [ASet nat 1 Sx (VArr nat [5; 6]); ASet nat 0 Sx (VArr nat [5; 6]); AStep nat 0 [8; 9] [3] []; AWrite nat 1 Sx 1 7; ASet nat 1 Su (VArr nat [1; 2])] in
  Forall (arrays_only 2) h /\ value_of nat (fst (aexec nat ex_size h (world_init nat 0 ex_size 2))) 1 Sx = [5; 7] /\
  value_of nat (fst (aexec nat ex_size h (world_init nat 0 ex_size 2))) 0 Sx = [8; 9] /\
  map snd (snd (aexec nat ex_size h (world_init nat 0 ex_size 2))) = [Ok tt; Ok tt; Ok tt; Ok tt; Err ExcAssertion].
Proof. cbv zeta. split; [repeat constructor|]. repeat split. Qed.

Example C63_nonvacuous :
  let w := fst (aexec nat ex_size [ASet nat 1 Sx (VArr nat [5; 6])] (world_init nat 0 ex_size 2)) in
  value_of nat w 1 Sx = [5; 6] /\ value_of nat w 1 Su = [0] /\
  value_of nat (fst (do_acall nat ex_size w (ASet nat 1 Su (VArr nat [4])))) 1 Su = [4] /\
  snd (do_acall nat ex_size w (ASet nat 1 Su (VArr nat [4; 4]))) = Err ExcAssertion.
Proof. repeat split. Qed.

(** A structure of another layout with the same number of entries is accepted as state. *)
Theorem C63_layout_refuted :
  exists w, do_acall nat (fun _ => 1) (world_init nat 0 (fun _ => 1) 2) (ASet nat 0 Sx (VOf nat 1 Su)) = (w, Ok tt) /\
    layout nat (heap nat w (ref nat w 0 Sx)) = Su.
Proof. eexists. split; reflexivity. Qed.

Print Assumptions C60_arrays_independent_partial.
Print Assumptions C60_shared_structure_refuted.
Print Assumptions C60_user_structure_refuted.
Print Assumptions C63_set_read_back.
Print Assumptions C63_time_partial.
Print Assumptions C63_layout_refuted.
